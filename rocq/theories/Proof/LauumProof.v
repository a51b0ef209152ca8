(** Products of triangular factors with their conjugate transposes: lauum, mult_llh, mult_uhu *)
From Coq Require Import Bool Arith ZArith Lia Ring Field.
From Verif.Core Require Import Scalar Prog View Rel Slice Loops.
From Verif.Spec Require Import LinAlg.
From Verif.Model Require Import Gemm Blas1 Blas2 Blas3 Cholesky Triangular.
From Verif.Proof Require Import SumLemmas OrdLemmas Tactics SliceTac CholMath LowView LowOps PotrfProof BlockAlg.
Local Open Scope T_scope.

Section Math.
Context {E : Env} {FL : FieldLaws E} {CL : ConjLaws E}.
Add Field Tf : fth.
Implicit Types (L X : mat).

Definition tl L : mat := trim Lower NonUnit L.
(** L^H L and L L^H for the lower triangle of L *)
Definition gram (n : nat) L : mat := mmul n (ctr (tl L)) (tl L).
Definition outer (n : nat) L : mat := mmul n (tl L) (ctr (tl L)).

Lemma tl_low L i j : (j <= i)%nat -> tl L i j = L i j.
Proof. intros H. unfold tl, trim. cbn [intri]. destruct (Nat.eqb_spec i j); auto. destruct (Nat.leb_spec j i); auto; lia. Qed.
Lemma tl_up L i j : (i < j)%nat -> tl L i j = 0.
Proof. intros H. unfold tl, trim. cbn [intri]. destruct (Nat.eqb_spec i j); [lia|]. destruct (Nat.leb_spec j i); auto; lia. Qed.
Lemma tl_ext L X i j : (j <= i -> L i j = X i j)%nat -> tl L i j = tl X i j.
Proof. intros H. destruct (Nat.le_gt_cases j i); [rewrite !tl_low; auto|rewrite !tl_up; auto]. Qed.
Lemma tl_blk p L i j : tl L (p + i)%nat (p + j)%nat = tl (blk p p L) i j.
Proof. destruct (Nat.le_gt_cases j i); [rewrite !tl_low by lia; auto|rewrite !tl_up by lia; auto]. Qed.
Lemma gram_ext n L X i j : (forall a b, (a < n)%nat -> (b <= a)%nat -> L a b = X a b) -> gram n L i j = gram n X i j.
Proof. intros H. apply mmul_ext2; intros l Hl; unfold ctr; rewrite (tl_ext L X); auto. Qed.
Lemma outer_ext n L X i j : (i < n)%nat -> (j < n)%nat -> (forall a b, (a < n)%nat -> (b <= a)%nat -> L a b = X a b) -> outer n L i j = outer n X i j.
Proof. intros Hi Hj H. apply mmul_ext2; intros l Hl; unfold ctr; rewrite (tl_ext L X); auto. Qed.

Lemma gram_00 p n L i j : (p <= n)%nat -> (i < p)%nat -> (j < p)%nat ->
  gram n L i j = gram p L i j + mmul (n - p) (ctr (blk p 0 L)) (blk p 0 L) i j.
Proof.
  intros Hp Hi Hj. unfold gram. rewrite (mmul_split p n) by auto. f_equal. apply mmul_ext2; intros l Hl; unfold ctr, blk; rewrite tl_low by lia; auto.
Qed.
Lemma gram_10 p n L i j : (p <= n)%nat -> (j < p)%nat ->
  gram n L (p + i)%nat j = mmul (n - p) (ctr (tl (blk p p L))) (blk p 0 L) i j.
Proof.
  intros Hp Hj. unfold gram. rewrite (mmul_split p n) by auto. rewrite mmul_0_l.
  - transitivity (mmul (n - p) (ctr (tl (blk p p L))) (blk p 0 L) i j); [|ring]. 
    rewrite (mmul_ext2 (n - p) (fun a k => ctr (tl L) a (p + k)%nat) (fun a k => ctr (tl L) a (p + k)%nat) _ (blk p 0 L) (p + i)%nat j); auto.
    + assert (e : mmul (n - p) (fun a k => ctr (tl L) a (p + k)%nat) (blk p 0 L) (p + i)%nat j = mmul (n - p) (ctr (tl (blk p p L))) (blk p 0 L) i j); [|rewrite e; ring].
      unfold mmul. apply sum_ext. intros l Hl. unfold ctr. rewrite tl_blk. auto.
    + intros l Hl. rewrite tl_low by lia. auto.
  - intros l Hl. unfold ctr. rewrite tl_up by lia. apply conj_0.
Qed.
Lemma gram_11 p n L i j : (p <= n)%nat -> gram n L (p + i)%nat (p + j)%nat = gram (n - p) (blk p p L) i j.
Proof.
  intros Hp. unfold gram. rewrite (mmul_split p n) by auto. rewrite mmul_0_l by (intros l Hl; unfold ctr; rewrite tl_up by lia; apply conj_0).
  transitivity (mmul (n - p) (fun a k => ctr (tl L) a (p + k)%nat) (fun k b => tl L (p + k)%nat b) (p + i)%nat (p + j)%nat); [ring|].
  unfold mmul. apply sum_ext. intros l Hl. unfold ctr. rewrite !tl_blk. auto.
Qed.
Lemma gram_real n L i : conj (gram n L i i) = gram n L i i.
Proof. unfold gram, mmul. rewrite sum_conj. apply sum_ext. intros k Hk. unfold ctr. rewrite conj_mul, conj_conj. ring. Qed.

Lemma outer_00 p n L i j : (p <= n)%nat -> (i < p)%nat -> (j < p)%nat -> outer n L i j = outer p L i j.
Proof.
  intros Hp Hi Hj. unfold outer. rewrite (mmul_split p n) by auto.
  rewrite (mmul_0_l (n - p)) by (intros l Hl; apply tl_up; lia). ring.
Qed.
Lemma outer_10 p n L i j : (p <= n)%nat -> (j < p)%nat -> outer n L (p + i)%nat j = mmul p (blk p 0 L) (ctr (tl L)) i j.
Proof.
  intros Hp Hj. unfold outer. rewrite (mmul_split p n) by auto.
  rewrite (mmul_0_r (n - p)) by (intros l Hl; unfold ctr; rewrite tl_up by lia; apply conj_0).
  assert (e : mmul p (tl L) (ctr (tl L)) (p + i)%nat j = mmul p (blk p 0 L) (ctr (tl L)) i j); [|rewrite e; ring].
  unfold mmul. apply sum_ext. intros l Hl. rewrite (tl_low L (p + i)) by lia. auto.
Qed.
Lemma outer_11 p n L i j : (p <= n)%nat ->
  outer n L (p + i)%nat (p + j)%nat = mmul p (blk p 0 L) (ctr (blk p 0 L)) i j + outer (n - p) (blk p p L) i j.
Proof.
  intros Hp. unfold outer. rewrite (mmul_split p n) by auto. f_equal.
  - unfold mmul. apply sum_ext. intros l Hl. unfold ctr, blk. rewrite !tl_low by lia. auto.
  - unfold mmul. apply sum_ext. intros l Hl. unfold ctr. rewrite !tl_blk. auto.
Qed.
Lemma outer_real n L i : conj (outer n L i i) = outer n L i i.
Proof. unfold outer, mmul. rewrite sum_conj. apply sum_ext. intros k Hk. unfold ctr. rewrite conj_mul, conj_conj. ring. Qed.

(** the lower triangle replaced by K *)
Definition repl (K : mat) L : mat := fun i l => if (l <=? i)%nat then K i l else L i l.
Lemma hl_repl K L i l : (l <= i)%nat -> (i = l -> conj (K i i) = K i i) -> hl (repl K L) i l = K i l.
Proof.
  intros Hl Hr. unfold hl, repl. destruct (Nat.leb_spec l i); [|lia]. destruct (Nat.eqb_spec i l) as [e|]; auto. subst l. apply re_idem; auto.
Qed.
End Math.

Section Lauum.
Context {E : Env} {FL : FieldLaws E} {CL : ConjLaws E} {OL : ROrdLaws E} {QL : EqbLaws E}.
Add Field Tf2 : fth.
Implicit Types (L X : mat).

Lemma norm2 c : re c * re c + im c * im c = conj c * c.
Proof. rewrite <- norm_re_im. ring. Qed.

Definition lauum_out (u : uplo_t) (A : view) (s0 : state) : Z -> state -> Prop := fun info s' =>
  info = 0%Z /\ leff u A (repl (gram (nr A) (lowf u (val A s0))) (lowf u (val A s0))) s0 s'.

Lemma lauum_f_run u : u = Upper \/ u = Lower -> forall fuel A s0, nc A = nr A -> vinj A -> (nr A < fuel)%nat ->
  wp (lauum_f fuel u A) (lauum_out u A s0) noX s0.
Proof.
  intros Hu. induction fuel as [|fu IH]; intros A s0 HC HI Hf; [lia|]. cbn [lauum_f].
  apply wp_bind, wp_check; [apply Nat.eqb_eq; auto|]. apply wp_bind, wp_check; [destruct Hu; subst; auto|].
  unfold lauum_out. remember (nr A) as n eqn:En. assert (HC' : nc A = nr A) by lia. cbv zeta.
  set (L := lowf u (val A s0)).
  destruct (Nat.eqb_spec n 0) as [H0|H0].
  { apply wp_ret. split; auto. apply (leff_ext _ _ _ _ _ _ HC' (leff_refl u A s0)). intros; lia. }
  destruct (Nat.eqb_spec n 1) as [H1|H1].
  { apply wp_bind. apply wp_rd; [lia|lia|]. apply wp_bind.
    apply (wp_wr_eff _ _ _ _ _ _ _ _ _ (eff_refl A s0) HI); [lia|lia|]. intros s1 He1. apply wp_ret. split; auto.
    apply (eff_ext _ _ _ _ _ He1). intros i j Hi Hj. replace i with 0%nat by lia. replace j with 0%nat by lia.
    rewrite norm2, H1. unfold fupd, lowf, repl, gram, mmul; cbn [Nat.eqb andb Nat.leb sum]. unfold ctr. rewrite !tl_low by lia.
    subst L. destruct Hu; subst u; cbn [lowf]; rewrite ?conj_add, ?conj_mul, ?conj_conj, ?conj_0; ring. }
  set (n0 := Nat.div2 n). assert (Hn0 : (0 < n0 /\ n0 < n)%nat).
  { subst n0. assert (K := Nat.div2_odd n). destruct (Nat.odd n); cbn in K; lia. }
  assert (HI0 := vinj_subv A 0 n0 0 n0 HI ltac:(lia) ltac:(lia)).
  assert (HI1 := vinj_subv A n0 n n0 n HI ltac:(lia) ltac:(lia)).
  assert (Gen : wp (lauum_f fu u (subv A 0 n0 0 n0);;
      herk u (opc u ConjTrans) 1 (lrows u A n0 n 0 n0) (Sc 1) (subv A 0 n0 0 n0);;
      trmm (sidec u Left) u ConjTrans NonUnit 1 (subv A n0 n n0 n) (lrows u A n0 n 0 n0);;
      lauum_f fu u (subv A n0 n n0 n);; ret 0%Z)
      (fun info s' => info = 0%Z /\ leff u A (repl (gram n L) L) s0 s') noX s0).
  2: { destruct Hu; subst u; do 3 (apply wp_bind; slces); exact Gen. }
  (* leading block *)
  apply wp_bind. eapply wp_use; [apply (IH (subv A 0 n0 0 n0) s0); cbn [nr nc subv]; auto; lia|].
  intros _ s1 (_ & HX0). cbn [nr subv] in HX0. replace (n0 - 0)%nat with n0 in HX0 by lia.
  assert (HL1 := leff_diag u A L _ s0 s0 s1 0 n0 Hu HI HC' ltac:(lia) (leff_refl u A s0) HX0). clear HX0.
  set (L1 := repl (fun i l => if (i <? n0)%nat then gram n0 L i l else L i l) L).
  apply (leff_ext _ _ _ L1 _ _ HC') in HL1.
  2: { intros i l Hi Hl. unfold L1, repl. destruct (inbox_spec 0 n0 0 n0 i l), (Nat.leb_spec l i), (Nat.ltb_spec i n0); try lia; auto.
       - replace (i - 0)%nat with i by lia. replace (l - 0)%nat with l by lia. destruct (Nat.leb_spec l i); [|lia]. apply gram_ext.
         intros a b Ha Hb. rewrite (val_diag u A L s0 s0 0 n0 a b Hu (leff_refl u A s0)); auto; lia.
       - replace (i - 0)%nat with i by lia. replace (l - 0)%nat with l by lia. destruct (Nat.leb_spec l i); [lia|].
         rewrite (val_diag u A L s0 s0 0 n0 i l Hu (leff_refl u A s0)); auto; lia. }
  (* rank update of the leading block *)
  apply wp_bind. eapply wp_use.
  { apply (herk_blk u ConjTrans 1 A (Sc 1) L1 s0 s1 0 n0 n0 n noX Hu); auto using conj_1; try lia. }
  intros u2 s2 HL2. change (is_nt ConjTrans) with false in HL2. cbv iota in HL2. cbn [cval] in HL2.
  set (L2 := repl (fun i l => if (i <? n0)%nat then gram n L i l else L i l) L).
  apply (leff_ext _ _ _ L2 _ _ HC') in HL2.
  2: { intros i l Hi Hl. unfold L2. unfold repl at 1. destruct (inbox_spec 0 n0 0 n0 i l), (Nat.leb_spec l i), (Nat.ltb_spec i n0); cbn [andb]; try lia; auto.
       - unfold L1. rewrite hl_repl; auto.
         2: { intros _. destruct (Nat.ltb_spec i n0); [|lia]. apply gram_real. }
         destruct (Nat.ltb_spec i n0); [|lia]. rewrite (gram_00 n0 n) by lia.
         replace (i - 0)%nat with i by lia. replace (l - 0)%nat with l by lia.
         rewrite (mmul_ext2 (n - n0) (opm ConjTrans (blk n0 0 (repl (fun i l : nat => if (i <? n0)%nat then gram n0 L i l else L i l) L))) (ctr (blk n0 0 L)) _ (blk n0 0 L)); [ring| |].
         + intros k Hk. cbn [opm]. unfold ctr, blk, repl. destruct (Nat.leb_spec (0 + i) (n0 + k)); [|lia]. destruct (Nat.ltb_spec (n0 + k) n0); [lia|auto].
         + intros k Hk. unfold ctr. cbn [opm is_nt]. unfold blk, repl. rewrite conj_conj. destruct (Nat.leb_spec (0 + l) (n0 + k)); [|lia]. destruct (Nat.ltb_spec (n0 + k) n0); [lia|auto].
       - unfold L1, repl. destruct (Nat.leb_spec l i); [lia|auto].
       - unfold L1, repl. destruct (Nat.leb_spec l i); [|lia]. destruct (Nat.ltb_spec i n0); [lia|auto].
       - unfold L1, repl. destruct (Nat.leb_spec l i); [lia|auto].
       - unfold L1, repl. destruct (Nat.leb_spec l i); [lia|auto]. }
  (* off-diagonal block *)
  apply wp_bind. eapply wp_use.
  { apply (trmm_blk u Left ConjTrans NonUnit 1 A L2 s0 s2 n0 n 0 n0 noX Hu); auto using conj_1; try lia. }
  intros u3 s3 HL3. cbn [sel] in HL3.
  set (L3 := repl (fun i l => if ((i <? n0) || (l <? n0))%nat then gram n L i l else L i l) L).
  apply (leff_ext _ _ _ L3 _ _ HC') in HL3.
  2: { intros i l Hi Hl. unfold L3. unfold repl at 1. destruct (inbox_spec n0 n 0 n0 i l), (Nat.leb_spec l i), (Nat.ltb_spec i n0), (Nat.ltb_spec l n0); cbn [orb]; try lia; auto.
       - replace (gram n L i l) with (gram n L (n0 + (i - n0))%nat l) by (f_equal; lia). rewrite (gram_10 n0 n) by lia. rewrite Nat.sub_0_r.
         rewrite (mmul_ext2 (n - n0) (opm ConjTrans (trim Lower NonUnit (blk n0 n0 L2))) (ctr (tl (blk n0 n0 L))) _ (blk n0 0 L)); [ring| |].
         + intros k Hk. cbn [opm]. unfold ctr. f_equal. apply (tl_ext (blk n0 n0 L2)). intros Hik. unfold blk, L2, repl.
           destruct (Nat.leb_spec (n0 + (i - n0)) (n0 + k)); [|lia]. destruct (Nat.ltb_spec (n0 + k) n0); [lia|auto].
         + intros k Hk. unfold blk, L2, repl. destruct (Nat.leb_spec (0 + l) (n0 + k)); [|lia]. destruct (Nat.ltb_spec (n0 + k) n0); [lia|auto].
       - unfold L2, repl. destruct (Nat.leb_spec l i); [|lia]. destruct (Nat.ltb_spec i n0); [auto|lia].
       - unfold L2, repl. destruct (Nat.leb_spec l i); [|lia]. destruct (Nat.ltb_spec i n0); [lia|auto].
       - unfold L2, repl. destruct (Nat.leb_spec l i); [lia|auto].
       - unfold L2, repl. destruct (Nat.leb_spec l i); [lia|auto].
       - unfold L2, repl. destruct (Nat.leb_spec l i); [lia|auto]. }
  (* trailing block *)
  apply wp_bind. eapply wp_use; [apply (IH (subv A n0 n n0 n) s3); cbn [nr nc subv]; auto; lia|].
  intros _ s4 (_ & HX1). cbn [nr subv] in HX1. apply wp_ret. split; auto.
  apply (leff_ext _ _ _ _ _ _ HC' (leff_diag u A L3 _ s0 s3 s4 n0 n Hu HI HC' ltac:(lia) HL3 HX1)).
  assert (HV : forall a b, (a < n - n0)%nat -> (b < n - n0)%nat -> lowf u (val (subv A n0 n n0 n) s3) a b = blk n0 n0 L a b).
  { intros a b Ha Hb. rewrite (val_diag u A L3 s0 s3 n0 n a b Hu HL3); auto; try lia. unfold L3, repl, blk.
    destruct (Nat.leb_spec (n0 + b) (n0 + a)); auto. destruct (Nat.ltb_spec (n0 + a) n0), (Nat.ltb_spec (n0 + b) n0); auto; lia. }
  intros i l Hi Hl. destruct (inbox_spec n0 n n0 n i l).
  - unfold repl. destruct (Nat.leb_spec (l - n0) (i - n0)), (Nat.leb_spec l i); try lia.
    + rewrite (gram_ext _ _ (blk n0 n0 L)) by (intros; apply HV; lia). rewrite <- (gram_11 n0 n) by lia. f_equal; lia.
    + rewrite HV by lia. unfold blk. f_equal; lia.
  - unfold L3, repl. destruct (Nat.leb_spec l i); auto. destruct (Nat.ltb_spec i n0), (Nat.ltb_spec l n0); auto; lia.
Qed.

Lemma outer_sum n L j i : (i <= j)%nat -> (j < n)%nat -> outer n L j i = sum (S i) (fun k => L j k * conj (L i k)).
Proof.
  intros Hi Hj. unfold outer, mmul. rewrite (sum_trunc (S i) n) by (try lia; intros k Hk; unfold ctr; rewrite (tl_up L i) by lia; rewrite conj_0; ring).
  apply sum_ext. intros k Hk. unfold ctr. rewrite !tl_low by lia. auto.
Qed.

Lemma mult_llh_base_run A s0 n : nr A = n -> nc A = n -> vinj A ->
  wp (mult_llh_base n A) (fun _ s' => leff Lower A (repl (outer n (lowf Lower (val A s0))) (lowf Lower (val A s0))) s0 s') noX s0.
Proof.
  intros H1 H2 HI. unfold mult_llh_base, leff. set (L := val A s0).
  loopd (fun j s => eff A (fun i l => if ((j <=? i) && (l <=? i))%nat then outer n L i l else L i l) s0 s) as j s.
  { apply (eff_ext _ _ _ _ _ (eff_refl A s0)). intros; unfold L; cases. } 2: { unfold repl, lowf. effext. }
  steps. 
  fold (fun k acc s' => acc = L j j * conj (L j j) + sum k (fun k => L j k * conj (L j k)) /\ s' = s) as k acc s'.
  - split; auto. cases. rewrite norm2. cbn [sum]. ring.
  - destruct He0 as [-> ->]. steps. split; auto. rewrite norm2. cbn [sum]. cases. ring.
  - destruct He0 as [-> ->]. steps.
    loopd (fun i s => eff A (fun r l => if ((r =? j) && (i <=? l) && (l <=? j))%nat then outer n L r l else if ((S j <=? r) && (l <=? r))%nat then outer n L r l else L r l) s0 s) as i s2.
    + effext. rewrite outer_sum by lia. cbn [sum]. ring.
    + steps.
      loop (fun k s => eff A (fun r l => if ((r =? j) && (l =? i))%nat then L j i * conj (L i i) + sum k (fun k => L j k * conj (L i k)) else if ((r =? j) && (S i <=? l) && (l <=? j))%nat then outer n L r l else if ((S j <=? r) && (l <=? r))%nat then outer n L r l else L r l) s0 s) as k s4.
      * effext. cbn [sum]. ring.
      * steps. effext. cbn [sum]. ring.
      * effext. rewrite outer_sum by lia. cbn [sum]. ring.
    + effext.
Qed.
Lemma mult_uhu_base_run A s0 n : nr A = n -> nc A = n -> vinj A ->
  wp (mult_uhu_base n A) (fun _ s' => leff Upper A (repl (outer n (lowf Upper (val A s0))) (lowf Upper (val A s0))) s0 s') noX s0.
Proof.
  intros H1 H2 HI. unfold mult_uhu_base, leff. set (U := val A s0).
  set (R := fun r l => conj (outer n (fun i j => conj (U j i)) l r)).
  assert (HR : forall i j, (i <= j)%nat -> (j < n)%nat -> R i j = sum (S i) (fun k => conj (U k i) * U k j)).
  { intros i j Hi Hj. unfold R. rewrite outer_sum by lia. rewrite sum_conj. apply sum_ext. intros k Hk. rewrite conj_mul, !conj_conj. ring. }
  loopd (fun j s => eff A (fun r l => if ((j <=? l) && (r <=? l))%nat then R r l else U r l) s0 s) as j s.
  { apply (eff_ext _ _ _ _ _ (eff_refl A s0)). intros; unfold U; cases. }
  2: { unfold repl, lowf. effext. rewrite conj_conj; auto. }
  steps. 
  fold (fun k acc s' => acc = conj (U j j) * U j j + sum k (fun k => conj (U k j) * U k j) /\ s' = s) as k acc s'.
  - split; auto. cases. rewrite norm2. cbn [sum]. ring.
  - destruct He0 as [-> ->]. steps. split; auto. rewrite norm2. cbn [sum]. cases. ring.
  - destruct He0 as [-> ->]. steps.
    loopd (fun i s => eff A (fun r l => if ((l =? j) && (i <=? r) && (r <=? j))%nat then R r l else if ((S j <=? l) && (r <=? l))%nat then R r l else U r l) s0 s) as i s2.
    + effext. rewrite HR by lia. cbn [sum]. ring.
    + steps.
      loopd (fun k s => eff A (fun r l => if ((l =? j) && (r =? i))%nat then conj (U i i) * U i j + sumr k i (fun k => conj (U k i) * U k j) else if ((l =? j) && (S i <=? r) && (r <=? j))%nat then R r l else if ((S j <=? l) && (r <=? l))%nat then R r l else U r l) s0 s) as k s4.
      * effext. rewrite sumr_nil. ring.
      * steps. effext. rewrite (sumr_l k i) by lia. ring.
      * effext. rewrite HR by lia. rewrite sum_sumr. cbn [sum]. ring.
    + effext.
Qed.

(** mult_llh and mult_uhu have the same structure in lower coordinates *)
Definition mult_f (u : uplo_t) : nat -> nat -> view -> M unit := match u with Upper => mult_uhu_f | _ => mult_llh_f end.
Lemma mult_f_run u nx : u = Upper \/ u = Lower -> (1 <= nx)%nat -> forall fuel A s0, nc A = nr A -> vinj A -> (nr A < fuel)%nat ->
  wp (mult_f u fuel nx A) (fun _ s' => leff u A (repl (outer (nr A) (lowf u (val A s0))) (lowf u (val A s0))) s0 s') noX s0.
Proof.
  intros Hu Hnx. induction fuel as [|fu IH]; intros A s0 HC HI Hf; [lia|].
  remember (nr A) as n eqn:En. assert (HC' : nc A = nr A) by lia.
  set (L := lowf u (val A s0)).
  assert (Hck : (n =? nc A)%nat = true /\ (1 <=? nx)%nat = true) by (split; [apply Nat.eqb_eq; lia|apply Nat.leb_le; auto]). destruct Hck as [Hck1 Hck2].
  destruct (Nat.eq_dec n 0) as [H0|H0].
  { assert (HQ : leff u A (repl (outer n L) L) s0 s0) by (apply (leff_ext _ _ _ _ _ _ HC' (leff_refl u A s0)); intros; lia).
    destruct Hu; subst u; cbn [mult_f mult_uhu_f mult_llh_f]; cbv zeta; rewrite <- ?En;
      (apply wp_bind, wp_check; [auto|]); (apply wp_bind, wp_check; [auto|]); (destruct (Nat.eqb_spec n 0); [|lia]); apply wp_ret; exact HQ. }
  destruct (Nat.leb_spec n nx) as [H1|H1].
  { destruct Hu; subst u; cbn [mult_f mult_uhu_f mult_llh_f]; cbv zeta; rewrite <- ?En;
      (apply wp_bind, wp_check; [auto|]); (apply wp_bind, wp_check; [auto|]); (destruct (Nat.eqb_spec n 0); [lia|]); (destruct (Nat.leb_spec n nx); [|lia]);
      [apply mult_uhu_base_run|apply mult_llh_base_run]; auto. }
  set (n0 := Nat.div2 n). assert (Hn0 : (0 < n0 /\ n0 < n)%nat).
  { subst n0. assert (K := Nat.div2_odd n). destruct (Nat.odd n); cbn in K; lia. }
  assert (HI0 := vinj_subv A 0 n0 0 n0 HI ltac:(lia) ltac:(lia)).
  assert (HI1 := vinj_subv A n0 n n0 n HI ltac:(lia) ltac:(lia)).
  assert (Gen : wp (mult_f u fu nx (subv A n0 n n0 n);;
      herk u (opc u NoTrans) 1 (lrows u A n0 n 0 n0) (Sc 1) (subv A n0 n n0 n);;
      trmm (sidec u Right) u ConjTrans NonUnit 1 (subv A 0 n0 0 n0) (lrows u A n0 n 0 n0);;
      mult_f u fu nx (subv A 0 n0 0 n0))
      (fun _ s' => leff u A (repl (outer n L) L) s0 s') noX s0).
  2: { destruct Hu; subst u; cbn [mult_f mult_uhu_f mult_llh_f]; cbv zeta; rewrite <- ?En;
      (apply wp_bind, wp_check; [auto|]); (apply wp_bind, wp_check; [auto|]); (destruct (Nat.eqb_spec n 0); [lia|]); (destruct (Nat.leb_spec n nx); [lia|]);
      do 3 (apply wp_bind; slces); exact Gen. }
  (* trailing block *)
  apply wp_bind. eapply wp_use; [apply (IH (subv A n0 n n0 n) s0); cbn [nr nc subv]; auto; lia|].
  intros u1 s1 HX0. cbn [nr subv] in HX0.
  assert (HL1 := leff_diag u A L _ s0 s0 s1 n0 n Hu HI HC' ltac:(lia) (leff_refl u A s0) HX0). clear HX0.
  assert (HV : forall a b, (a < n - n0)%nat -> (b < n - n0)%nat -> lowf u (val (subv A n0 n n0 n) s0) a b = blk n0 n0 L a b).
  { intros a b Ha Hb. rewrite (val_diag u A L s0 s0 n0 n a b Hu (leff_refl u A s0)); auto; lia. }
  set (L1 := repl (fun i l => if (n0 <=? l)%nat then outer (n - n0) (blk n0 n0 L) (i - n0)%nat (l - n0)%nat else L i l) L).
  apply (leff_ext _ _ _ L1 _ _ HC') in HL1.
  2: { intros i l Hi Hl. unfold L1, repl. destruct (inbox_spec n0 n n0 n i l), (Nat.leb_spec l i), (Nat.leb_spec n0 l); try lia; auto.
       - destruct (Nat.leb_spec (l - n0) (i - n0)); [|lia]. apply outer_ext; try lia. intros; apply HV; lia.
       - destruct (Nat.leb_spec (l - n0) (i - n0)); [lia|]. rewrite HV by lia. unfold blk. f_equal; lia. }
  (* rank update of the trailing block *)
  apply wp_bind. eapply wp_use.
  { apply (herk_blk u NoTrans 1 A (Sc 1) L1 s0 s1 n0 n 0 n0 noX Hu); auto using conj_1; try lia. }
  intros u2 s2 HL2. change (is_nt NoTrans) with true in HL2. cbv iota in HL2. cbn [cval] in HL2.
  set (L2 := repl (fun i l => if (n0 <=? l)%nat then outer n L i l else L i l) L).
  apply (leff_ext _ _ _ L2 _ _ HC') in HL2.
  2: { intros i l Hi Hl. unfold L2. unfold repl at 1. destruct (inbox_spec n0 n n0 n i l), (Nat.leb_spec l i), (Nat.leb_spec n0 l); cbn [andb]; try lia; auto.
       - unfold L1. rewrite hl_repl; auto.
         2: { intros _. destruct (Nat.leb_spec n0 i); [|lia]. apply outer_real. }
         destruct (Nat.leb_spec n0 l); [|lia]. replace (outer n L i l) with (outer n L (n0 + (i - n0))%nat (n0 + (l - n0))%nat) by (f_equal; lia).
         rewrite (outer_11 n0 n) by lia. rewrite Nat.sub_0_r.
         rewrite (mmul_ext2 n0 (opm NoTrans (blk n0 0 (repl (fun i l : nat => if (n0 <=? l)%nat then outer (n - n0) (blk n0 n0 L) (i - n0)%nat (l - n0)%nat else L i l) L))) (blk n0 0 L) _ (ctr (blk n0 0 L))); [ring| |].
         + intros k Hk. cbn [opm]. unfold ctr, blk, repl. destruct (Nat.leb_spec (0 + k) (n0 + (i - n0))); [|lia]. destruct (Nat.leb_spec n0 (0 + k)); [lia|auto].
         + intros k Hk. unfold ctr. cbn [opm]. unfold blk, repl. destruct (Nat.leb_spec (0 + k) (n0 + (l - n0))); [|lia]. destruct (Nat.leb_spec n0 (0 + k)); [lia|auto].
       - unfold L1, repl. destruct (Nat.leb_spec l i); [lia|auto].
       - unfold L1, repl. destruct (Nat.leb_spec l i); [|lia]. destruct (Nat.leb_spec n0 l); [lia|auto].
       - unfold L1, repl. destruct (Nat.leb_spec l i); [lia|auto].
       - unfold L1, repl. destruct (Nat.leb_spec l i); [lia|auto]. }
  (* off-diagonal block *)
  apply wp_bind. eapply wp_use.
  { apply (trmm_blk u Right ConjTrans NonUnit 1 A L2 s0 s2 n0 n 0 n0 noX Hu); auto using conj_1; try lia. }
  intros u3 s3 HL3. cbn [sel] in HL3.
  set (L3 := repl (fun i l => if (n0 <=? i)%nat then outer n L i l else L i l) L).
  apply (leff_ext _ _ _ L3 _ _ HC') in HL3.
  2: { intros i l Hi Hl. unfold L3. unfold repl at 1. destruct (inbox_spec n0 n 0 n0 i l), (Nat.leb_spec l i), (Nat.leb_spec n0 i); try lia; auto.
       - replace (outer n L i l) with (outer n L (n0 + (i - n0))%nat l) by (f_equal; lia). rewrite (outer_10 n0 n) by lia. rewrite !Nat.sub_0_r.
         rewrite (mmul_ext2 n0 (blk n0 0 L2) (blk n0 0 L) _ (ctr (tl L))); [ring| |].
         + intros k Hk. unfold blk, L2, repl. destruct (Nat.leb_spec (0 + k) (n0 + (i - n0))); [|lia]. destruct (Nat.leb_spec n0 (0 + k)); [lia|auto].
         + intros k Hk. cbn [opm]. unfold ctr. f_equal. apply (tl_ext (blk 0 0 L2)). intros Hik. unfold blk, L2, repl.
           destruct (Nat.leb_spec (0 + k) (0 + l)); [|lia]. destruct (Nat.leb_spec n0 (0 + k)); [lia|auto].
       - unfold L2, repl. destruct (Nat.leb_spec l i); [|lia]. destruct (Nat.leb_spec n0 l); [auto|lia].
       - unfold L2, repl. destruct (Nat.leb_spec l i); [|lia]. destruct (Nat.leb_spec n0 l); [lia|auto].
       - unfold L2, repl. destruct (Nat.leb_spec l i); [lia|auto].
       - unfold L2, repl. destruct (Nat.leb_spec l i); [lia|auto]. }
  (* leading block *)
  eapply wp_use; [apply (IH (subv A 0 n0 0 n0) s3); cbn [nr nc subv]; auto; lia|].
  intros u4 s4 HX1. cbn [nr subv] in HX1. rewrite Nat.sub_0_r in HX1.
  apply (leff_ext _ _ _ _ _ _ HC' (leff_diag u A L3 _ s0 s3 s4 0 n0 Hu HI HC' ltac:(lia) HL3 HX1)).
  assert (HV0 : forall a b, (a < n0)%nat -> (b < n0)%nat -> lowf u (val (subv A 0 n0 0 n0) s3) a b = L a b).
  { intros a b Ha Hb. rewrite (val_diag u A L3 s0 s3 0 n0 a b Hu HL3); auto; try lia. unfold L3, repl. cbn [Nat.add].
    destruct (Nat.leb_spec b a); auto. destruct (Nat.leb_spec n0 a); auto; lia. }
  intros i l Hi Hl. destruct (inbox_spec 0 n0 0 n0 i l).
  - unfold repl. rewrite !Nat.sub_0_r. destruct (Nat.leb_spec l i); try lia.
    + rewrite (outer_ext _ _ L) by (try lia; intros; apply HV0; lia). rewrite <- (outer_00 n0 n) by lia. auto.
    + apply HV0; lia.
  - unfold L3, repl. destruct (Nat.leb_spec l i); auto. destruct (Nat.leb_spec n0 i); auto; lia.
Qed.
End Lauum.
