(** Triangular solves, products and rank updates on blocks, in lower coordinates *)
From Coq Require Import Bool Arith ZArith Lia Ring Field.
From Verif.Core Require Import Scalar Prog View Rel Slice Loops.
From Verif.Spec Require Import LinAlg PosDef Outcome.
From Verif.Model Require Import Gemm Blas1 Blas2 Blas3 Cholesky.
From Verif.Proof Require Import SumLemmas OrdLemmas Tactics SliceTac GemmProof HemmProof TrsmProof TrmmProof HerkProof ExactBlas CholMath CholProof LowView RelTac BlasRel TwoRuns TwoRunsX.
Local Open Scope T_scope.

(** any triangular solve or product returns and writes only its output *)
Section Any.
Context {E : Env}.
Lemma eff_of_frame (B : view) s s' : (forall l, ~ inview B l -> mem s' l = mem s l) -> imem s' = imem s -> eff B (val B s') s s'.
Proof. intros H1 H2. repeat split; auto. Qed.
Lemma trsm_any sd u o d alpha A B s m n : (u = Upper \/ u = Lower) -> op3 o = true ->
  nr B = m -> nc B = n -> nr A = sel sd m n -> nc A = sel sd m n ->
  runs (trsm sd u o d alpha A B) s (fun _ s' => eff B (val B s') s s').
Proof.
  intros Hu Ho H1 H2 H3 H4.
  set (P := fun s1 s2 : state => s1 = s2 /\ (forall l, ~ inview B l -> mem s1 l = mem s l) /\ imem s1 = imem s).
  assert (HR : forall (A' : view) v, reads P A' A' v).
  { intros A' v. split; auto. split; auto. intros s1 s2 (-> & _). auto. }
  assert (HW : forall v, writes P B B v).
  { intros v. split; auto. split; auto. intros s1 s2 (-> & K1 & K2) i j x Hi Hj _. split; auto. split; auto.
    intros l Hl. unfold setm; cbn [mem]. destruct (Z.eqb_spec l (ad B i j)) as [->|]; auto. exfalso; apply Hl; exists i, j; auto. }
  assert (Hr : rr P (fun _ => False) (trsm sd u o d alpha A B) (trsm sd u o d alpha A B)).
  { apply (trsm_rr P (fun _ => False) sd u o d alpha A A B B m n); auto. destruct Hu; subst; auto. }
  specialize (Hr s s ltac:(repeat split; auto)). unfold runs, wp.
  destruct (trsm sd u o d alpha A B s) as [a s'| | |]; try tauto.
  destruct Hr as (_ & _ & K1 & K2). apply eff_of_frame; auto.
Qed.
End Any.

Section LowOps.
Context {E : Env} {FL : FieldLaws E} {CL : ConjLaws E}.
Add Field Tf : fth.
Implicit Types (L : mat).

Definition sidec (u : uplo_t) (sd : side_t) : side_t := match u with Upper => match sd with Left => Right | Right => Left end | _ => sd end.
Definition opc (u : uplo_t) (o : op_t) : op_t := match u with Upper => match o with NoTrans => ConjTrans | ConjTrans => NoTrans | _ => o end | _ => o end.
Definition lshape (u : uplo_t) (B : view) (m n : nat) : Prop := match u with Upper => nr B = n /\ nc B = m | _ => nr B = m /\ nc B = n end.
Definition blk (r p : nat) L : mat := fun i l => L (r + i)%nat (p + l)%nat.

Lemma trim_ctr d (A : mat) i j : conj (trim Upper d A j i) = trim Lower d (fun i j => conj (A j i)) i j.
Proof.
  unfold trim. cbn [intri]. rewrite (Nat.eqb_sym j i). destruct (Nat.eqb_spec i j); [destruct d; rewrite ?conj_1; auto|].
  destruct (j <=? i)%nat; rewrite ?conj_0; auto.
Qed.
Lemma opm_ctr o d (A : mat) i j : o = NoTrans \/ o = ConjTrans ->
  conj (opm o (trim Upper d A) j i) = opm o (trim Lower d (fun i j => conj (A j i))) i j.
Proof. intros [->| ->]; unfold opm; rewrite <- trim_ctr; auto. Qed.
Lemma mmul_conj k (A B : mat) i j : conj (mmul k A B j i) = mmul k (fun i j => conj (B j i)) (fun i j => conj (A j i)) i j.
Proof. unfold mmul. rewrite sum_conj. apply sum_ext. intros l Hl. rewrite conj_mul. ring. Qed.
Lemma mmul_ext2 k (A A' B B' : mat) i j : (forall l, (l < k)%nat -> A i l = A' i l) -> (forall l, (l < k)%nat -> B l j = B' l j) ->
  mmul k A B i j = mmul k A' B' i j.
Proof. intros H1 H2. unfold mmul. apply sum_ext. intros l Hl. rewrite H1, H2; auto. Qed.

Lemma trsm_lc u sd o d alpha Tv Bv s m n : (u = Upper \/ u = Lower) -> (o = NoTrans \/ o = ConjTrans) -> conj alpha = alpha ->
  lshape u Bv m n -> nr Tv = sel sd m n -> nc Tv = sel sd m n -> vinj Bv -> disj Tv Bv ->
  (d = NonUnit -> forall j, (j < sel sd m n)%nat -> val Tv s j j <> 0) ->
  runs (trsm (sidec u sd) u o d alpha Tv Bv) s (fun _ s' => exists X, eff Bv (lowf u X) s s' /\
    forall i j, (i < m)%nat -> (j < n)%nat ->
      match sd with
      | Left => mmul m (opm o (trim Lower d (lowf u (val Tv s)))) X i j = alpha * lowf u (val Bv s) i j
      | Right => mmul n X (opm o (trim Lower d (lowf u (val Tv s)))) i j = alpha * lowf u (val Bv s) i j
      end).
Proof.
  intros Hu Ho Ha Hs H1 H2 HI HD Hnz. assert (Ho3 : op3 o = true) by (destruct Ho; subst; auto).
  destruct Hu; subst u; cbn [lshape sidec] in *; destruct Hs as [S1 S2].
  - set (sd' := match sd with Left => Right | Right => Left end).
    eapply wp_conseq; [apply (trsm_run sd' Upper o d alpha Tv Bv s n m); auto; subst sd'; destruct sd; auto| |auto].
    intros ? s' (X & He & HX). exists (fun i j => conj (X j i)). split.
    + apply (eff_ext _ _ _ _ _ He). intros. cbn [lowf]. rewrite conj_conj. auto.
    + intros i j Hi Hj. assert (K := HX j i Hj Hi). cbn [lowf]. subst sd'. destruct sd.
      * replace (alpha * conj (val Bv s j i)) with (conj (alpha * val Bv s j i)) by (rewrite conj_mul, Ha; auto). rewrite <- K.
        rewrite mmul_conj. apply mmul_ext2; auto. intros. symmetry. rewrite opm_ctr; auto.
      * replace (alpha * conj (val Bv s j i)) with (conj (alpha * val Bv s j i)) by (rewrite conj_mul, Ha; auto). rewrite <- K.
        rewrite mmul_conj. apply mmul_ext2; auto. intros. symmetry. rewrite opm_ctr; auto.
  - eapply wp_conseq; [apply (trsm_run sd Lower o d alpha Tv Bv s m n); auto| |auto].
    intros ? s' (X & He & HX). exists X. split; auto.
Qed.
Lemma trmm_lc u sd o d alpha Tv Bv s m n : (u = Upper \/ u = Lower) -> (o = NoTrans \/ o = ConjTrans) -> conj alpha = alpha ->
  lshape u Bv m n -> nr Tv = sel sd m n -> nc Tv = sel sd m n -> vinj Bv -> disj Tv Bv ->
  runs (trmm (sidec u sd) u o d alpha Tv Bv) s (fun _ s' => eff Bv (lowf u (fun i j => alpha *
      match sd with
      | Left => mmul m (opm o (trim Lower d (lowf u (val Tv s)))) (lowf u (val Bv s)) i j
      | Right => mmul n (lowf u (val Bv s)) (opm o (trim Lower d (lowf u (val Tv s)))) i j
      end)) s s').
Proof.
  intros Hu Ho Ha Hs H1 H2 HI HD. assert (Ho3 : op3 o = true) by (destruct Ho; subst; auto).
  destruct Hu; subst u; cbn [lshape sidec] in *; destruct Hs as [S1 S2].
  - set (sd' := match sd with Left => Right | Right => Left end).
    eapply wp_conseq; [apply (trmm_run sd' Upper o d alpha Tv Bv s n m); auto; subst sd'; destruct sd; auto| |auto].
    intros ? s' He. apply (eff_ext _ _ _ _ _ He). intros i j Hi Hj. cbn [lowf]. rewrite conj_mul, Ha. f_equal. subst sd'.
    assert (Hop : forall a0 b0, opm o (trim Upper d (val Tv s)) a0 b0 = conj (opm o (trim Lower d (lowf Upper (val Tv s))) b0 a0)).
    { intros a0 b0. change (lowf Upper (val Tv s)) with (fun i j => conj (val Tv s j i)). rewrite <- opm_ctr, conj_conj; auto. }
    destruct sd; rewrite mmul_conj; apply mmul_ext2; intros; first [apply Hop | cbn [lowf]; rewrite conj_conj; auto].
  - eapply wp_conseq; [apply (trmm_run sd Lower o d alpha Tv Bv s m n); auto| |auto].
    intros ? s' He. exact He.
Qed.
Lemma herk_lc u o alpha Av beta Cv s n k : (u = Upper \/ u = Lower) -> (o = NoTrans \/ o = ConjTrans) ->
  conj alpha = alpha -> conj (cval beta) = cval beta ->
  lshape u Av (if is_nt o then n else k) (if is_nt o then k else n) -> nr Cv = n -> nc Cv = n -> vinj Cv -> disj Av Cv ->
  runs (herk u (opc u o) alpha Av beta Cv) s (fun _ s' => eff Cv (lowf u (fun i l => if (l <=? i)%nat then
      alpha * mmul k (opm o (lowf u (val Av s))) (ctr (opm o (lowf u (val Av s)))) i l + cval beta * hl (lowf u (val Cv s)) i l
      else lowf u (val Cv s) i l)) s s').
Proof.
  intros Hu Ho Ha Hb Hs H1 H2 HI HD.
  destruct Hu; subst u; cbn [lshape opc] in *; destruct Hs as [S1 S2].
  - set (o' := match o with NoTrans => ConjTrans | ConjTrans => NoTrans | _ => o end).
    eapply wp_conseq; [apply (herk_run Upper o' alpha Av beta Cv s n k); auto; subst o'; destruct Ho; subst o; auto| |auto].
    intros ? s' He. apply (eff_ext _ _ _ _ _ He). intros i j Hi Hj. cbn [lowf intri tri_of].
    destruct (Nat.leb_spec i j); [|rewrite conj_conj; auto].
    rewrite conj_add, !conj_mul, Ha, Hb. f_equal.
    + f_equal. unfold mmul. rewrite sum_conj. apply sum_ext. intros l Hl. rewrite conj_mul.
      subst o'; destruct Ho; subst o; unfold ctr, opm; cbn [lowf]; rewrite ?conj_conj; ring.
    + f_equal. rewrite (herm_sym Upper) by auto. rewrite herm_hl; auto.
  - eapply wp_conseq; [apply (herk_run Lower o alpha Av beta Cv s n k); auto; destruct Ho; subst o; auto| |auto].
    intros ? s' He. apply (eff_ext _ _ _ _ _ He). intros i j Hi Hj. cbn [lowf intri tri_of].
    destruct (Nat.leb_spec j i); auto. rewrite herm_hl; auto.
Qed.

(** ** on blocks of A *)
Lemma lrows_diag u A p q : lrows u A p q p q = subv A p q p q.
Proof. destruct u; auto. Qed.
Lemma lshape_lrows u A r t p q : u = Upper \/ u = Lower -> lshape u (lrows u A r t p q) (t - r) (q - p).
Proof. intros [->| ->]; cbn; auto. Qed.
Lemma vinj_lrows u A r t p q : nc A = nr A -> vinj A -> (t <= nr A)%nat -> (q <= nr A)%nat -> vinj (lrows u A r t p q).
Proof. intros HC HI H1 H2. destruct u; apply vinj_subv; auto; lia. Qed.
Lemma disj_lrows u A r t p q r' t' p' q' : nc A = nr A -> vinj A -> (t <= nr A)%nat -> (q <= nr A)%nat -> (t' <= nr A)%nat -> (q' <= nr A)%nat ->
  (t <= r' \/ t' <= r \/ q <= p' \/ q' <= p)%nat -> disj (lrows u A r t p q) (lrows u A r' t' p' q').
Proof. intros HC HI H1 H2 H3 H4 H. destruct u; cbn [lrows]; vdisj. Qed.

Lemma trsm_blk u sd o d alpha A L s0 s r t p q X : (u = Upper \/ u = Lower) -> (o = NoTrans \/ o = ConjTrans) -> conj alpha = alpha ->
  vinj A -> nc A = nr A -> (r <= t)%nat -> (p <= q)%nat -> (t <= nr A)%nat -> (q <= nr A)%nat -> (q <= r \/ t <= p)%nat -> leff u A L s0 s ->
  (d = NonUnit -> forall j, (sel sd r p <= j < sel sd t q)%nat -> L j j <> 0) ->
  wp (trsm (sidec u sd) u o d alpha (subv A (sel sd r p) (sel sd t q) (sel sd r p) (sel sd t q)) (lrows u A r t p q)) (fun _ s' =>
    exists Y, leff u A (fun i l => if inbox r t p q i l then Y (i - r)%nat (l - p)%nat else L i l) s0 s' /\
      forall i j, (i < t - r)%nat -> (j < q - p)%nat ->
      match sd with
      | Left => mmul (t - r) (opm o (trim Lower d (blk r r L))) Y i j = alpha * blk r p L i j
      | Right => mmul (q - p) Y (opm o (trim Lower d (blk p p L))) i j = alpha * blk r p L i j
      end) X s.
Proof.
  intros Hu Ho Ha HI HC Hrt Hpq Ht Hq Hd HL Hnz.
  set (a := sel sd r p). set (b := sel sd t q).
  assert (Hab : (a <= b <= nr A)%nat) by (subst a b; destruct sd; cbn; lia).
  assert (HTs : forall i j, (a + i < b)%nat -> (a + j < b)%nat -> lowf u (val (subv A a b a b) s) i j = blk a a L i j).
  { intros i j Hi Hj. rewrite <- (lrows_diag u). apply val_lrows with s0; auto; lia. }
  assert (HBs : forall i j, (r + i < t)%nat -> (p + j < q)%nat -> lowf u (val (lrows u A r t p q) s) i j = blk r p L i j).
  { intros i j Hi Hj. apply val_lrows with s0; auto; lia. }
  eapply wp_use; [apply (trsm_lc u sd o d alpha _ _ s (t - r) (q - p)); auto; try (subst a b; destruct sd; reflexivity)|].
  - apply lshape_lrows; auto.
  - apply vinj_lrows; auto; lia.
  - rewrite <- (lrows_diag u). apply disj_lrows; auto; try lia. subst a b; destruct sd; cbn; lia.
  - intros Hdn j Hj. intros e. apply (Hnz Hdn (a + j)%nat).
    + subst a b. destruct sd; cbn in *; lia.
    + change (L (a + j)%nat (a + j)%nat) with (blk a a L j j). rewrite <- (HTs j j) by (subst a b; destruct sd; cbn in *; lia). destruct u; cbn [lowf]; rewrite e; auto using conj_0.
  - intros ? s' (Y & He & HY). exists Y. split.
    + apply (leff_lrows u A L _ s0 s s' r t p q Hu HI HC ltac:(lia) ltac:(lia) HL He).
    + assert (HTT : forall i j, (a + i < b)%nat -> (a + j < b)%nat ->
        opm o (trim Lower d (lowf u (val (subv A a b a b) s))) i j = opm o (trim Lower d (blk a a L)) i j).
      { intros i j Hi Hj. destruct Ho; subst o; unfold opm, trim; rewrite !HTs by auto; auto. }
      intros i j Hi Hj. rewrite <- HBs by lia. specialize (HY i j Hi Hj).
      subst a b. destruct sd; cbn [sel] in *; rewrite <- HY; apply mmul_ext2; auto; intros; symmetry; apply HTT; lia.
Qed.
Lemma trmm_blk u sd o d alpha A L s0 s r t p q X : (u = Upper \/ u = Lower) -> (o = NoTrans \/ o = ConjTrans) -> conj alpha = alpha ->
  vinj A -> nc A = nr A -> (r <= t)%nat -> (p <= q)%nat -> (t <= nr A)%nat -> (q <= nr A)%nat -> (q <= r \/ t <= p)%nat -> leff u A L s0 s ->
  wp (trmm (sidec u sd) u o d alpha (subv A (sel sd r p) (sel sd t q) (sel sd r p) (sel sd t q)) (lrows u A r t p q)) (fun _ s' =>
    leff u A (fun i l => if inbox r t p q i l then alpha *
      match sd with
      | Left => mmul (t - r) (opm o (trim Lower d (blk r r L))) (blk r p L) (i - r)%nat (l - p)%nat
      | Right => mmul (q - p) (blk r p L) (opm o (trim Lower d (blk p p L))) (i - r)%nat (l - p)%nat
      end else L i l) s0 s') X s.
Proof.
  intros Hu Ho Ha HI HC Hrt Hpq Ht Hq Hd HL.
  set (a := sel sd r p). set (b := sel sd t q).
  assert (Hab : (a <= b <= nr A)%nat) by (subst a b; destruct sd; cbn; lia).
  assert (HTs : forall i j, (a + i < b)%nat -> (a + j < b)%nat -> lowf u (val (subv A a b a b) s) i j = blk a a L i j).
  { intros i j Hi Hj. rewrite <- (lrows_diag u). apply val_lrows with s0; auto; lia. }
  assert (HBs : forall i j, (r + i < t)%nat -> (p + j < q)%nat -> lowf u (val (lrows u A r t p q) s) i j = blk r p L i j).
  { intros i j Hi Hj. apply val_lrows with s0; auto; lia. }
  eapply wp_use; [apply (trmm_lc u sd o d alpha _ _ s (t - r) (q - p)); auto; try (subst a b; destruct sd; reflexivity)|].
  - apply lshape_lrows; auto.
  - apply vinj_lrows; auto; lia.
  - rewrite <- (lrows_diag u). apply disj_lrows; auto; try lia. subst a b; destruct sd; cbn; lia.
  - intros ? s' He. eapply leff_ext; [auto|apply (leff_lrows u A L _ s0 s s' r t p q Hu HI HC ltac:(lia) ltac:(lia) HL He)|].
    assert (HTT : forall i j, (a + i < b)%nat -> (a + j < b)%nat ->
        opm o (trim Lower d (lowf u (val (subv A a b a b) s))) i j = opm o (trim Lower d (blk a a L)) i j).
    { intros i j Hi Hj. destruct Ho; subst o; unfold opm, trim; rewrite !HTs by auto; auto. }
    intros i j Hi Hj. cbv beta. destruct (inbox_spec r t p q i j); auto. f_equal.
    subst a b. destruct sd; cbn [sel] in *; apply mmul_ext2; intros; first [apply HTT; lia | apply HBs; lia].
Qed.
(** [o] = NoTrans: block rows r..t, columns p..q; ConjTrans: block rows p..q, columns r..t.  The updated
    diagonal block is r..t *)
Lemma herk_blk u o alpha A beta L s0 s r t p q X : (u = Upper \/ u = Lower) -> (o = NoTrans \/ o = ConjTrans) ->
  conj alpha = alpha -> conj (cval beta) = cval beta ->
  vinj A -> nc A = nr A -> (r <= t)%nat -> (p <= q)%nat -> (t <= nr A)%nat -> (q <= nr A)%nat -> (q <= r \/ t <= p)%nat -> leff u A L s0 s ->
  wp (herk u (opc u o) alpha (if is_nt o then lrows u A r t p q else lrows u A p q r t) beta (subv A r t r t)) (fun _ s' =>
    leff u A (fun i l => if inbox r t r t i l && (l <=? i)%nat then
      alpha * mmul (q - p) (opm o (if is_nt o then blk r p L else blk p r L)) (ctr (opm o (if is_nt o then blk r p L else blk p r L))) (i - r)%nat (l - r)%nat
        + cval beta * hl L i l else L i l) s0 s') X s.
Proof.
  intros Hu Ho Ha Hb HI HC Hrt Hpq Ht Hq Hd HL.
  assert (HAs : forall i j, (if is_nt o then (r + i < t)%nat /\ (p + j < q)%nat else (p + i < q)%nat /\ (r + j < t)%nat) ->
    lowf u (val (if is_nt o then lrows u A r t p q else lrows u A p q r t) s) i j = (if is_nt o then blk r p L else blk p r L) i j).
  { intros i j Hij. destruct Ho; subst o; cbn [is_nt op_eqb] in *; apply val_lrows with s0; auto; lia. }
  assert (HCs : forall i j, (r + i < t)%nat -> (r + j < t)%nat -> lowf u (val (subv A r t r t) s) i j = L (r + i)%nat (r + j)%nat).
  { intros i j Hi Hj. rewrite <- (lrows_diag u). apply val_lrows with s0; auto; lia. }
  eapply wp_use; [apply (herk_lc u o alpha _ beta _ s (t - r) (q - p)); auto|].
  - destruct Ho; subst o; cbn [is_nt op_eqb]; apply lshape_lrows; auto.
  - apply vinj_subv; auto; lia.
  - rewrite <- (lrows_diag u). destruct Ho; subst o; cbn [is_nt op_eqb]; apply disj_lrows; auto; lia.
  - intros ? s' He. rewrite <- (lrows_diag u) in He.
    eapply leff_ext; [auto|apply (leff_lrows u A L _ s0 s s' r t r t Hu HI HC ltac:(lia) ltac:(lia) HL He)|].
    rewrite lrows_diag. intros i j Hi Hj. cbv beta. destruct (inbox_spec r t r t i j); cbn [andb]; auto.
    replace (j - r <=? i - r)%nat with (j <=? i)%nat by (destruct (Nat.leb_spec j i), (Nat.leb_spec (j - r) (i - r)); auto; lia).
    replace (lowf u (val (subv A r t r t) s) (i - r)%nat (j - r)%nat) with (L i j) by (rewrite HCs by lia; f_equal; lia).
    destruct (j <=? i)%nat; auto. f_equal.
    + f_equal. apply mmul_ext2; intros l Hl; destruct Ho; subst o; unfold ctr, opm; cbn [is_nt op_eqb] in *; rewrite HAs by lia; auto.
    + f_equal. unfold hl. rewrite HCs by lia. replace (r + (i - r))%nat with i by lia. replace (r + (j - r))%nat with j by lia.
      replace (i - r =? j - r)%nat with (i =? j)%nat; auto. destruct (Nat.eqb_spec i j), (Nat.eqb_spec (i - r) (j - r)); auto; lia.
Qed.
Lemma trsm_any_blk u sd o d alpha A L s0 s r t p q X : (u = Upper \/ u = Lower) -> (o = NoTrans \/ o = ConjTrans) ->
  vinj A -> nc A = nr A -> (r <= t)%nat -> (p <= q)%nat -> (t <= nr A)%nat -> (q <= nr A)%nat -> leff u A L s0 s ->
  wp (trsm (sidec u sd) u o d alpha (subv A (sel sd r p) (sel sd t q) (sel sd r p) (sel sd t q)) (lrows u A r t p q)) (fun _ s' =>
    exists Y, leff u A (fun i l => if inbox r t p q i l then Y (i - r)%nat (l - p)%nat else L i l) s0 s') X s.
Proof.
  intros Hu Ho HI HC Hrt Hpq Ht Hq HL.
  assert (Hs := lshape_lrows u A r t p q Hu).
  eapply wp_use; [apply (trsm_any (sidec u sd) u o d alpha _ _ s (nr (lrows u A r t p q)) (nc (lrows u A r t p q))); auto|].
  - destruct Ho; subst; auto.
  - destruct Hu; subst u; cbn in *; destruct sd; cbn; lia.
  - destruct Hu; subst u; cbn in *; destruct sd; cbn; lia.
  - intros ? s' He. cbv beta in He.
    assert (He' : eff (lrows u A r t p q) (lowf u (lowf u (val (lrows u A r t p q) s'))) s s').
    { apply (eff_ext _ _ _ _ _ He). intros. symmetry. apply lowf_lowf. }
    eexists. apply (leff_lrows u A L _ s0 s s' r t p q Hu HI HC ltac:(lia) ltac:(lia) HL He').
Qed.
(** working on a diagonal block *)
Lemma leff_diag u A L G s0 s s' p q : (u = Upper \/ u = Lower) -> vinj A -> nc A = nr A -> (q <= nr A)%nat ->
  leff u A L s0 s -> leff u (subv A p q p q) G s s' ->
  leff u A (fun i l => if inbox p q p q i l then G (i - p)%nat (l - p)%nat else L i l) s0 s'.
Proof.
  intros Hu HI HC Hq HL HG. apply (leff_lrows u A L _ s0 s s' p q p q Hu HI HC ltac:(lia) ltac:(lia) HL). rewrite lrows_diag. exact HG.
Qed.
Lemma val_diag u A L s0 s p q i l : (u = Upper \/ u = Lower) -> leff u A L s0 s -> nc A = nr A ->
  (p + i < nr A)%nat -> (p + l < nr A)%nat -> lowf u (val (subv A p q p q) s) i l = L (p + i)%nat (p + l)%nat.
Proof. intros. rewrite <- (lrows_diag u). apply val_lrows with s0; auto; lia. Qed.
End LowOps.
