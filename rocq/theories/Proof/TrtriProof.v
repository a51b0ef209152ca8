(** Inversion of triangular matrices *)
From Coq Require Import Bool Arith ZArith Lia Ring Field.
From Verif.Core Require Import Scalar Prog View Rel Slice Loops.
From Verif.Spec Require Import LinAlg.
From Verif.Model Require Import Gemm Blas1 Blas2 Blas3 Cholesky Triangular.
From Verif.Proof Require Import SumLemmas OrdLemmas Tactics SliceTac CholMath LowView LowOps PotrfProof BlockAlg.
Local Open Scope T_scope.

Section Trtri.
Context {E : Env} {FL : FieldLaws E} {CL : ConjLaws E} {QL : EqbLaws E}.
Add Field Tf : fth.
Implicit Types (L X : mat).

(** k is the first zero on the diagonal *)
Definition first0 (n : nat) L (k : nat) : Prop := (k < n)%nat /\ L k k = 0 /\ forall j, (j < k)%nat -> L j j <> 0.
Definition tri_keep (d : diag_t) (n : nat) L X : Prop :=
  forall i l, (i < n)%nat -> (l < n)%nat -> (i < l)%nat \/ (d = Unit /\ i = l) -> X i l = L i l.
Definition trtri_out (u : uplo_t) (d : diag_t) (A : view) (s0 : state) (info : Z) (s' : state) : Prop :=
  exists X, leff u A X s0 s' /\ tri_keep d (nr A) (lowf u (val A s0)) X /\
    ((info = 0%Z /\ (d = NonUnit -> forall j, (j < nr A)%nat -> lowf u (val A s0) j j <> 0) /\
      isinv (nr A) (trim Lower d (lowf u (val A s0))) (trim Lower d X)) \/
     (exists k, info = (Z.of_nat k + 1)%Z /\ d = NonUnit /\ first0 (nr A) (lowf u (val A s0)) k)).
Definition trtri_ret (u : uplo_t) (d : diag_t) (A : view) (s0 : state) (ec : bool) (info : Z) (s' : state) : Prop :=
  (ec = true -> throw_errors = true -> info = 0%Z) /\ trtri_out u d A s0 info s'.
(** the exception always carries 1: the leaf that finds the zero throws *)
Definition trtri_exn (u : uplo_t) (d : diag_t) (A : view) (s0 : state) (e : exn) (s' : state) : Prop :=
  throw_errors = true /\ e = RuntimeError 1 /\ exists k, trtri_out u d A s0 (Z.of_nat k + 1) s'.

Lemma first_zero n L : (forall j, (j < n)%nat -> L j j <> 0) \/ exists k, first0 n L k.
Proof.
  induction n as [|n [IH|(k & H1 & H2)]].
  - left. intros; lia.
  - destruct (eqb (L n n) 0) eqn:e.
    + right. exists n. apply eqb_spec in e. split; [lia|]. split; auto.
    + left. intros j Hj. destruct (Nat.eq_dec j n) as [->|]; [|apply IH; lia].
      intros e'. rewrite (proj2 (eqb_spec _ _) e') in e. discriminate.
  - right. exists k. split; [lia|auto].
Qed.
Lemma trim_low_ext d n L X i j : (i < n)%nat -> (j < n)%nat -> (forall a b, (a < n)%nat -> (b < n)%nat -> (b <= a)%nat -> L a b = X a b) -> trim Lower d L i j = trim Lower d X i j.
Proof.
  intros Hi Hj H. unfold trim. cbn [intri]. destruct (Nat.eqb_spec i j); [subst; rewrite H by lia; auto|].
  destruct (Nat.leb_spec j i); auto.
Qed.

Lemma trtri_f_run u d : u = Upper \/ u = Lower -> forall fuel ec A s0, nc A = nr A -> vinj A -> (nr A < fuel)%nat ->
  wp (trtri_f fuel ec u d A) (trtri_ret u d A s0 ec) (fun e s' => ec = true /\ trtri_exn u d A s0 e s') s0.
Proof.
  intros Hu. induction fuel as [|fu IH]; intros ec A s0 HC HI Hf; [lia|]. cbn [trtri_f].
  apply wp_bind, wp_check; [destruct Hu; subst; auto|]. apply wp_bind, wp_check; [apply Nat.eqb_eq; auto|].
  remember (nr A) as n eqn:En. assert (HC' : nc A = nr A) by lia. cbv zeta.
  set (L := lowf u (val A s0)).
  assert (Hok : forall s', trtri_out u d A s0 0 s' -> trtri_ret u d A s0 ec 0 s') by (intros s' Ho; split; auto).
  destruct (Nat.eqb_spec n 0) as [H0|H0].
  { apply wp_ret. apply Hok. exists L. split; [apply leff_refl|]. split; [intros ? ? ? ? ?; auto|]. left. split; auto.
    rewrite <- ?En. split; [intros; lia|intros i j Hi; lia]. }
  destruct (Nat.eqb_spec n 1) as [H1|H1].
  { destruct d; cbn [nonunit].
    - apply wp_bind. apply wp_rd; [lia|lia|]. set (c := val A s0 0 0).
      destruct (eqb c 0) eqn:Hd; cbn [negb].
      + apply wp_bind. apply eqb_spec in Hd.
        assert (Ho : trtri_out u NonUnit A s0 1 s0).
        { exists L. split; [apply leff_refl|]. split; [intros ? ? ? ? ?; auto|]. right. exists 0%nat. split; auto. split; auto.
          split; [lia|]. split; [|intros; lia]. unfold lowf. destruct u; change (val A s0 0 0) with c; rewrite Hd, ?conj_0; auto. }
        unfold error_if, error. destruct ec; [destruct throw_errors eqn:et|].
        * apply wp_throw. split; auto. split; auto. split; auto. exists 0%nat. exact Ho.
        * do 2 apply wp_ret. split; [congruence|auto].
        * do 2 apply wp_ret. split; [congruence|auto].
      + assert (Hc : c <> 0) by (intros e; rewrite (proj2 (eqb_spec _ _) e) in Hd; discriminate).
        apply wp_bind. apply (wp_wr_eff _ _ _ _ _ _ _ _ _ (eff_refl A s0) HI); [lia|lia|]. intros s1 He1. apply wp_ret. apply Hok.
        exists (lowf u (fupd (val A s0) 0 0 (1 / c))). split; [|split].
        * apply (eff_ext _ _ _ _ _ He1). intros. symmetry. apply lowf_lowf.
        * intros i l Hi Hl [?|[? _]]; [lia|discriminate].
        * left. split; auto. assert (Hcc : conj c <> 0) by (intros e; apply Hc; rewrite <- (conj_conj c), e; apply conj_0).
          split.
          { intros _ j Hj. replace j with 0%nat by lia. unfold lowf; destruct u; change (val A s0 0 0) with c; auto. }
          rewrite <- En, H1. intros i j Hi Hj. replace i with 0%nat by lia. replace j with 0%nat by lia.
          unfold mmul, trim, idm, lowf, fupd; cbn [sum Nat.eqb andb]. 
          destruct u; change (val A s0 0 0) with c; rewrite ?(conj_div 1), ?conj_1 by auto; split; field; auto.
    - apply wp_ret. apply Hok. exists L. split; [apply leff_refl|]. split; [intros ? ? ? ? ?; auto|]. left. split; auto.
      split; [discriminate|]. rewrite <- En, H1. intros i j Hi Hj. replace i with 0%nat by lia. replace j with 0%nat by lia.
      unfold mmul, trim, idm; cbn [sum Nat.eqb]. split; ring. }
  set (n0 := Nat.div2 n). assert (Hn0 : (0 < n0 /\ n0 < n)%nat).
  { subst n0. assert (K := Nat.div2_odd n). destruct (Nat.odd n); cbn in K; lia. }
  assert (HI0 := vinj_subv A 0 n0 0 n0 HI ltac:(lia) ltac:(lia)).
  assert (HI1 := vinj_subv A n0 n n0 n HI ltac:(lia) ltac:(lia)).
  assert (Gen : wp (trsm (sidec u Right) u NoTrans d (- (1)) (subv A 0 n0 0 n0) (lrows u A n0 n 0 n0);;
      trsm (sidec u Left) u NoTrans d 1 (subv A n0 n n0 n) (lrows u A n0 n 0 n0);;
      info <- trtri_f fu ec u d (subv A 0 n0 0 n0);;
      (if negb (info =? 0)%Z then error_if ec info;; ret info
      else
        info <- trtri_f fu ec u d (subv A n0 n n0 n);;
        (if (info =? 0)%Z then ret 0%Z
        else error_if ec (info + Z.of_nat n0);; ret (info + Z.of_nat n0)%Z)))
      (trtri_ret u d A s0 ec) (fun e s' => ec = true /\ trtri_exn u d A s0 e s') s0).
  2: { destruct Hu; subst u; do 3 (apply wp_bind; slces); exact Gen. }
  (* the two solves *)
  assert (Hnz : (d = NonUnit -> forall j, (j < n)%nat -> L j j <> 0) \/ (d = NonUnit /\ exists k, first0 n L k)).
  { destruct (first_zero n L); [left; auto|]. destruct d; [right|left]; auto. discriminate. }
  set (P := fun L2 : mat => (forall i l, (i < n)%nat -> (l < n)%nat -> ~ (n0 <= i /\ l < n0)%nat -> L2 i l = L i l) /\
     ((d = NonUnit -> forall j, (j < n)%nat -> L j j <> 0) -> exists W,
       (forall i j, (i < n - n0)%nat -> (j < n0)%nat -> mmul n0 W (trim Lower d L) i j = - (1) * L (n0 + i)%nat j) /\
       (forall i j, (i < n - n0)%nat -> (j < n0)%nat -> mmul (n - n0) (trim Lower d (blk n0 n0 L)) (blk n0 0 L2) i j = W i j))).
  assert (Hsolve : wp (trsm (sidec u Right) u NoTrans d (- (1)) (subv A 0 n0 0 n0) (lrows u A n0 n 0 n0);;
      trsm (sidec u Left) u NoTrans d 1 (subv A n0 n n0 n) (lrows u A n0 n 0 n0)) (fun _ s2 => exists L2, leff u A L2 s0 s2 /\ P L2) noX s0).
  { destruct Hnz as [Hnz|Hz].
    - apply wp_bind. eapply wp_conseq; [apply (trsm_blk u Right NoTrans d (- (1)) A L s0 s0 n0 n 0 n0 noX); auto; try lia| |auto].
      + rewrite conj_opp, conj_1; auto.
      + apply leff_refl.
      + cbn [sel]. intros; apply Hnz; auto; lia.
      + intros _ s1 (W & HL1 & HW). cbv beta in HW. cbn [opm] in HW.
        eapply wp_conseq; [eapply (trsm_blk u Left NoTrans d 1 A _ s0 s1 n0 n 0 n0 noX); try exact HL1; auto using conj_1; try lia| |auto].
        * cbn [sel]. intros Hd j Hj. destruct (inbox_spec n0 n 0 n0 j j); [lia|]. apply Hnz; auto; lia.
        * intros _ s2 (Y & HL2 & HY). eexists. split; [exact HL2|]. split.
          { intros i l Hi Hl Hn. cbv beta. destruct (inbox_spec n0 n 0 n0 i l); [lia|]. destruct (inbox_spec n0 n 0 n0 i l); [lia|auto]. }
          intros _. exists W. split.
          { intros i j Hi Hj. replace (n0 - 0)%nat with n0 in HW by lia. change (L (n0 + i)%nat j) with (blk n0 0 L i j); rewrite <- (HW i j) by lia. apply mmul_ext; auto. }
          intros i j Hi Hj. assert (K := HY i j ltac:(lia) ltac:(lia)). cbv beta in K. transitivity (1 * blk n0 0 (fun i l => if inbox n0 n 0 n0 i l then W (i - n0)%nat (l - 0)%nat else L i l) i j).
          { rewrite <- K. apply mmul_ext2.
            - intros l Hl. cbn [opm]. apply (trim_low_ext d (n - n0)); auto. intros a b Ha Hb Hab. unfold blk. destruct (inbox_spec n0 n 0 n0 (n0 + a) (n0 + b)); [lia|auto].
            - intros l Hl. unfold blk. cbv beta. destruct (inbox_spec n0 n 0 n0 (n0 + l) (0 + j)); [|lia]. f_equal; lia. }
          unfold blk. cbv beta. destruct (inbox_spec n0 n 0 n0 (n0 + i) (0 + j)); [|lia].
          replace (n0 + i - n0)%nat with i by lia. replace (0 + j - 0)%nat with j by lia. ring.
    - apply wp_bind. eapply wp_conseq; [apply (trsm_any_blk u Right NoTrans d (- (1)) A L s0 s0 n0 n 0 n0 noX); auto; try lia| |auto].
      + apply leff_refl.
      + intros _ s1 (W & HL1).
        eapply wp_conseq; [eapply (trsm_any_blk u Left NoTrans d 1 A _ s0 s1 n0 n 0 n0 noX); try exact HL1; auto; try lia| |auto].
        intros _ s2 (Y & HL2). eexists. split; [exact HL2|]. split.
        * intros i l Hi Hl Hn. cbv beta. destruct (inbox_spec n0 n 0 n0 i l); [lia|]. destruct (inbox_spec n0 n 0 n0 i l); [lia|auto].
        * intros Hn. exfalso. destruct Hz as (Hd & k & Hk & Hk0 & _). apply (Hn Hd k); auto. }
  assert (Hassoc : forall (a b : M unit) (f : M Z) Q Xc s, wp (bind (bind a (fun _ => b)) (fun _ => f)) Q Xc s -> wp (bind a (fun _ => bind b (fun _ => f))) Q Xc s).
  { intros a b f Q Xc s. unfold wp, bind. destruct (a s); auto. }
  apply Hassoc. apply wp_bind. eapply wp_use; [exact Hsolve|]. intros _ s2 (L2 & HL2 & Hk2 & HW). clear Hsolve Hassoc.
  (* the leading block *)
  assert (HV0 : forall i l, (i < n0)%nat -> (l < n0)%nat -> lowf u (val (subv A 0 n0 0 n0) s2) i l = L i l).
  { intros i l Hi Hl. rewrite (val_diag u A L2 s0 s2); auto; try lia. apply Hk2; lia. }
  apply wp_bind. eapply wp_conseq; [apply (IH ec (subv A 0 n0 0 n0) s2); cbn [nr nc subv]; auto; lia| |].
  2: { intros e s' (He & Ht & Hi & k & X0 & HX0 & Hk0 & Hr). split; auto. split; auto. split; auto. exists k.
       eexists. split; [apply (leff_diag u A L2 X0 s0 s2 s' 0 n0 Hu HI HC' ltac:(lia) HL2 HX0)|]. split.
       - intros i l Hi' Hl Hil. cbv beta. destruct (inbox_spec 0 n0 0 n0 i l).
         + rewrite Hk0; cbn [nr subv]; try lia. * rewrite HV0 by lia. unfold L; f_equal; lia. * destruct Hil as [|[? ?]]; [left|right; split; auto]; lia.
         + apply Hk2; try lia; destruct Hil as [|[? ?]]; lia.
       - right. destruct Hr as [(K & _)|(k' & K1 & K2 & K3)]; [lia|]. exists k'. split; auto. split; auto.
         destruct K3 as (K4 & K5 & K6). cbn [nr subv] in K4. split; [lia|]. split.
         + rewrite HV0 in K5 by lia. auto.
         + intros j Hj. rewrite <- HV0 by lia. auto. }
  intros info s3 (Hx0 & X0 & HX0 & Hk0 & Hr). cbn [nr subv] in Hk0, Hr. replace (n0 - 0)%nat with n0 in * by lia.
  assert (HL3 := leff_diag u A L2 X0 s0 s2 s3 0 n0 Hu HI HC' ltac:(lia) HL2 HX0).
  assert (Hk3 : forall i l, (i < n)%nat -> (l < n)%nat -> (i < l)%nat \/ d = Unit /\ i = l ->
     (if inbox 0 n0 0 n0 i l then X0 (i - 0)%nat (l - 0)%nat else L2 i l) = L i l).
  { intros i l Hi Hl Hil. destruct (inbox_spec 0 n0 0 n0 i l).
    - rewrite Hk0; try lia. * rewrite HV0 by lia. unfold L; f_equal; lia. * destruct Hil as [|[? ?]]; [left|right; split; auto]; lia.
    - apply Hk2; try lia; destruct Hil as [|[? ?]]; lia. }
  destruct (Z.eqb_spec info 0) as [Hi0|Hi0]; cbn [negb].
  2: { destruct Hr as [(K & _)|(k & K1 & K2 & K3)]; [lia|].
       assert (Ho : trtri_out u d A s0 info s3).
       { eexists. split; [exact HL3|]. split; [intros i l Hi Hl; apply Hk3; auto; lia|]. right. exists k. split; auto. split; auto.
         destruct K3 as (K4 & K5 & K6). split; [lia|]. split; [rewrite HV0 in K5 by lia; auto|]. intros j Hj. rewrite <- HV0 by lia. auto. }
       apply wp_bind. unfold error_if, error. destruct ec; [destruct throw_errors eqn:et|].
       - exfalso. apply Hi0. auto.
       - do 2 apply wp_ret. split; [congruence|auto].
       - do 2 apply wp_ret. split; [congruence|auto]. }
  destruct Hr as [(_ & Hnz0 & Hinv0)|(k & K1 & _)]; [|lia].
  (* the trailing block *)
  assert (HV1 : forall i l, (i < n - n0)%nat -> (l < n - n0)%nat -> lowf u (val (subv A n0 n n0 n) s3) i l = blk n0 n0 L i l).
  { intros i l Hi Hl. rewrite (val_diag u A _ s0 s3 n0 n i l Hu HL3); auto; try lia. cbv beta.
    destruct (inbox_spec 0 n0 0 n0 (n0 + i) (n0 + l)); [lia|]. apply Hk2; lia. }
  apply wp_bind. eapply wp_conseq; [apply (IH ec (subv A n0 n n0 n) s3); cbn [nr nc subv]; auto; lia| |].
  2: { intros e s' (He & Ht & Hi & k & X1 & HX1 & Hk1 & Hr). split; auto. split; auto. split; auto. exists (n0 + k)%nat.
       eexists. split; [apply (leff_diag u A _ X1 s0 s3 s' n0 n Hu HI HC' ltac:(lia) HL3 HX1)|]. split.
       - intros i l Hi' Hl Hil. cbv beta. destruct (inbox_spec n0 n n0 n i l).
         + rewrite Hk1; cbn [nr subv]; try lia. * rewrite HV1 by lia. unfold blk, L; f_equal; lia. * destruct Hil as [|[? ?]]; [left|right; split; auto]; lia.
         + apply Hk3; auto; lia.
       - right. destruct Hr as [(K & _)|(k' & K1 & K2 & K3)]; [lia|]. exists (n0 + k')%nat. split; [lia|]. split; auto.
         destruct K3 as (K4 & K5 & K6). cbn [nr subv] in K4. split; [lia|]. split.
         + rewrite HV1 in K5 by lia. auto.
         + intros j Hj. destruct (Nat.lt_ge_cases j n0).
           * change (L j j <> 0). rewrite <- HV0 by lia. apply Hnz0; auto.
           * replace j with (n0 + (j - n0))%nat by lia. change (blk n0 n0 L (j - n0)%nat (j - n0)%nat <> 0). rewrite <- HV1 by lia. apply K6. lia. }
  intros info1 s4 (Hx1 & X1 & HX1 & Hk1 & Hr). cbn [nr subv] in Hk1, Hr.
  assert (HL4 := leff_diag u A _ X1 s0 s3 s4 n0 n Hu HI HC' ltac:(lia) HL3 HX1). cbv beta in HL4.
  assert (Hk4 : forall i l, (i < n)%nat -> (l < n)%nat -> (i < l)%nat \/ d = Unit /\ i = l ->
     (if inbox n0 n n0 n i l then X1 (i - n0)%nat (l - n0)%nat else if inbox 0 n0 0 n0 i l then X0 (i - 0)%nat (l - 0)%nat else L2 i l) = L i l).
  { intros i l Hi Hl Hil. destruct (inbox_spec n0 n n0 n i l).
    - rewrite Hk1; try lia. * rewrite HV1 by lia. unfold blk, L; f_equal; lia. * destruct Hil as [|[? ?]]; [left|right; split; auto]; lia.
    - apply Hk3; auto; lia. }
  destruct Hr as [(-> & Hnz1 & Hinv1)|(k & K1 & K2 & K3)].
  - cbn [Z.eqb]. apply wp_ret. apply Hok. eexists. split; [exact HL4|]. split; [intros i l Hi Hl; apply Hk4; auto; lia|]. left. split; auto.
    assert (Hall : d = NonUnit -> forall j, (j < n)%nat -> L j j <> 0).
    { intros Hd j Hj. destruct (Nat.lt_ge_cases j n0).
      - rewrite <- HV0 by lia. apply Hnz0; auto.
      - replace j with (n0 + (j - n0))%nat by lia. change (blk n0 n0 L (j - n0)%nat (j - n0)%nat <> 0). rewrite <- HV1 by lia. apply Hnz1; auto. lia. }
    rewrite <- En. split; [exact Hall|].
    destruct (HW Hall) as (W & HW1 & HW2).
    apply (isinv_block n0 n _ _ W); try lia.
    + intros i j Hi Hj. unfold trim. cbn [intri]. cases; auto.
    + intros i j Hi Hj. unfold trim. cbn [intri]. cases; auto.
    + apply (isinv_ext n0 (trim Lower d (lowf u (val (subv A 0 n0 0 n0) s2))) _ (trim Lower d X0) _); auto.
      * intros i j Hi Hj. apply (trim_low_ext d n0); auto.
      * intros i j Hi Hj. apply (trim_low_ext d n0); auto. intros a b Ha Hb Hab. destruct (inbox_spec n0 n n0 n a b); [lia|].
        destruct (inbox_spec 0 n0 0 n0 a b); [f_equal; lia|lia].
    + apply (isinv_ext (n - n0) (trim Lower d (lowf u (val (subv A n0 n n0 n) s3))) _ (trim Lower d X1) _); auto.
      * intros i j Hi Hj. rewrite blk_trim by auto. apply (trim_low_ext d (n - n0)); auto.
      * intros i j Hi Hj. rewrite blk_trim by auto. apply (trim_low_ext d (n - n0)); auto. intros a b Ha Hb Hab. unfold blk.
        destruct (inbox_spec n0 n n0 n (n0 + a) (n0 + b)); [f_equal; lia|lia].
    + intros i j Hi Hj. change (mmul n0 W (trim Lower d L) i j = - (1) * trim Lower d L (n0 + i)%nat j). rewrite HW1 by auto. f_equal. unfold trim. cbn [intri].
      destruct (Nat.eqb_spec (n0 + i) j); [lia|]. destruct (Nat.leb_spec j (n0 + i)); [auto|lia].
    + intros i j Hi Hj. rewrite <- HW2 by auto. apply mmul_ext2.
      * intros l Hl. apply blk_trim; auto.
      * intros l Hl. unfold trim, blk. cbn [intri]. destruct (Nat.eqb_spec (n0 + l) j); [lia|]. destruct (Nat.leb_spec j (n0 + l)); [|lia].
        destruct (inbox_spec n0 n n0 n (n0 + l) j); [lia|]. destruct (inbox_spec 0 n0 0 n0 (n0 + l) j); [lia|]. reflexivity.
  - assert (Ho : trtri_out u d A s0 (info1 + Z.of_nat n0) s4).
    { eexists. split; [exact HL4|]. split; [intros i l Hi Hl; apply Hk4; auto; lia|]. right. exists (n0 + k)%nat. split; [lia|]. split; auto.
      destruct K3 as (K4 & K5 & K6). split; [lia|]. split; [rewrite HV1 in K5 by lia; auto|].
      intros j Hj. destruct (Nat.lt_ge_cases j n0).
      - change (L j j <> 0). rewrite <- HV0 by lia. apply Hnz0; auto.
      - replace j with (n0 + (j - n0))%nat by lia. change (blk n0 n0 L (j - n0)%nat (j - n0)%nat <> 0). rewrite <- HV1 by lia. apply K6. lia. }
    destruct (Z.eqb_spec info1 0); [lia|].
    apply wp_bind. unfold error_if, error. destruct ec; [destruct throw_errors eqn:et|].
    + exfalso. rewrite Hx1 in K1 by auto. lia.
    + do 2 apply wp_ret. split; [congruence|auto].
    + do 2 apply wp_ret. split; [congruence|auto].
Qed.
End Trtri.
