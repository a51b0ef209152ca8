(** Products of the two triangular factors stored in one matrix: ul_mult, lu_mult *)
From Coq Require Import Bool Arith ZArith Lia Ring Field.
From Verif.Core Require Import Scalar Prog View Rel Slice Loops.
From Verif.Spec Require Import LinAlg.
From Verif.Model Require Import Gemm Blas1 Blas2 Blas3 Triangular.
From Verif.Proof Require Import SumLemmas Tactics SliceTac PotrfProof LowOps BlockAlg BlkOps.
Local Open Scope T_scope.

Section Math.
Context {E : Env} {FL : FieldLaws E}.
Add Field Tf : fth.
Implicit Types (F G : mat).
(** the stored factors: U with its diagonal, L unit lower triangular *)
Definition Uf F : mat := trim Upper NonUnit F.
Definition Lf F : mat := trim Lower Unit F.
Definition UL (n : nat) F : mat := mmul n (Uf F) (Lf F).
Definition LU (n : nat) F : mat := mmul n (Lf F) (Uf F).

Lemma Uf_up F i j : (i <= j)%nat -> Uf F i j = F i j.
Proof. intros H. unfold Uf, trim. cbn [intri]. destruct (Nat.eqb_spec i j); auto. destruct (Nat.leb_spec i j); auto; lia. Qed.
Lemma Uf_lo F i j : (j < i)%nat -> Uf F i j = 0.
Proof. intros H. unfold Uf, trim. cbn [intri]. destruct (Nat.eqb_spec i j); [lia|]. destruct (Nat.leb_spec i j); auto; lia. Qed.
Lemma Lf_lo F i j : (j < i)%nat -> Lf F i j = F i j.
Proof. intros H. unfold Lf, trim. cbn [intri]. destruct (Nat.eqb_spec i j); [lia|]. destruct (Nat.leb_spec j i); auto; lia. Qed.
Lemma Lf_d F i : Lf F i i = 1.
Proof. unfold Lf, trim. rewrite Nat.eqb_refl. auto. Qed.
Lemma Lf_up F i j : (i < j)%nat -> Lf F i j = 0.
Proof. intros H. unfold Lf, trim. cbn [intri]. destruct (Nat.eqb_spec i j); [lia|]. destruct (Nat.leb_spec j i); auto; lia. Qed.
Lemma Uf_blk p F i j : Uf F (p + i)%nat (p + j)%nat = Uf (blk p p F) i j.
Proof. destruct (Nat.le_gt_cases i j); [rewrite !Uf_up by lia; auto|rewrite !Uf_lo by lia; auto]. Qed.
Lemma Lf_blk p F i j : Lf F (p + i)%nat (p + j)%nat = Lf (blk p p F) i j.
Proof. destruct (Nat.lt_trichotomy i j) as [|[->|]]; [rewrite !Lf_up by lia|rewrite !Lf_d|rewrite !Lf_lo by lia]; auto. Qed.
Lemma Uf_ext F G i j : F i j = G i j -> Uf F i j = Uf G i j.
Proof. intros e. unfold Uf, trim. rewrite e. auto. Qed.
Lemma Lf_ext F G i j : F i j = G i j -> Lf F i j = Lf G i j.
Proof. intros e. unfold Lf, trim. rewrite e. auto. Qed.
Lemma UL_ext n F G i j : (i < n)%nat -> (j < n)%nat -> (forall a b, (a < n)%nat -> (b < n)%nat -> F a b = G a b) -> UL n F i j = UL n G i j.
Proof. intros Hi Hj H. apply mmul_ext2; intros l Hl; [apply Uf_ext|apply Lf_ext]; auto. Qed.
Lemma LU_ext n F G i j : (i < n)%nat -> (j < n)%nat -> (forall a b, (a < n)%nat -> (b < n)%nat -> F a b = G a b) -> LU n F i j = LU n G i j.
Proof. intros Hi Hj H. apply mmul_ext2; intros l Hl; [apply Lf_ext|apply Uf_ext]; auto. Qed.

Lemma UL_00 p n F i j : (p <= n)%nat -> (i < p)%nat -> (j < p)%nat -> UL n F i j = UL p F i j + mmul (n - p) (blk 0 p F) (blk p 0 F) i j.
Proof.
  intros Hp Hi Hj. unfold UL. rewrite (mmul_split p n) by auto. f_equal. unfold mmul. apply sum_ext. intros l Hl.
  rewrite Uf_up, Lf_lo by lia. auto.
Qed.
Lemma UL_10 p n F i j : (p <= n)%nat -> (j < p)%nat -> UL n F (p + i)%nat j = mmul (n - p) (Uf (blk p p F)) (blk p 0 F) i j.
Proof.
  intros Hp Hj. unfold UL. rewrite (mmul_split p n) by auto. rewrite mmul_0_l by (intros l Hl; apply Uf_lo; lia).
  unfold mmul. match goal with |- 0 + ?x = ?y => assert (e : x = y); [|rewrite e; ring] end. apply sum_ext. intros l Hl. rewrite Uf_blk, Lf_lo by lia. auto.
Qed.
Lemma UL_01 p n F i j : (p <= n)%nat -> (i < p)%nat -> UL n F i (p + j)%nat = mmul (n - p) (blk 0 p F) (Lf (blk p p F)) i j.
Proof.
  intros Hp Hi. unfold UL. rewrite (mmul_split p n) by auto. rewrite mmul_0_r by (intros l Hl; apply Lf_up; lia).
  unfold mmul. match goal with |- 0 + ?x = ?y => assert (e : x = y); [|rewrite e; ring] end. apply sum_ext. intros l Hl. rewrite Lf_blk, Uf_up by lia. auto.
Qed.
Lemma UL_11 p n F i j : (p <= n)%nat -> UL n F (p + i)%nat (p + j)%nat = UL (n - p) (blk p p F) i j.
Proof.
  intros Hp. unfold UL. rewrite (mmul_split p n) by auto. rewrite mmul_0_l by (intros l Hl; apply Uf_lo; lia).
  unfold mmul. match goal with |- 0 + ?x = ?y => assert (e : x = y); [|rewrite e; ring] end. apply sum_ext. intros l Hl. rewrite Uf_blk, Lf_blk. auto.
Qed.
Lemma LU_00 p n F i j : (p <= n)%nat -> (i < p)%nat -> LU n F i j = LU p F i j.
Proof.
  intros Hp Hi. unfold LU. rewrite (mmul_split p n) by auto. rewrite (mmul_0_l (n - p)) by (intros l Hl; apply Lf_up; lia). ring.
Qed.
Lemma LU_01 p n F i j : (p <= n)%nat -> (i < p)%nat -> LU n F i (p + j)%nat = mmul p (Lf F) (blk 0 p F) i j.
Proof.
  intros Hp Hi. rewrite (LU_00 p n) by auto. unfold LU, mmul. apply sum_ext. intros l Hl. rewrite Uf_up by lia. auto.
Qed.
Lemma LU_10 p n F i j : (p <= n)%nat -> (j < p)%nat -> LU n F (p + i)%nat j = mmul p (blk p 0 F) (Uf F) i j.
Proof.
  intros Hp Hj. unfold LU. rewrite (mmul_split p n) by auto. rewrite (mmul_0_r (n - p)) by (intros l Hl; apply Uf_lo; lia).
  unfold mmul. match goal with |- ?x + 0 = ?y => assert (e : x = y); [|rewrite e; ring] end. apply sum_ext. intros l Hl. rewrite Lf_lo by lia. auto.
Qed.
Lemma LU_11 p n F i j : (p <= n)%nat -> LU n F (p + i)%nat (p + j)%nat = mmul p (blk p 0 F) (blk 0 p F) i j + LU (n - p) (blk p p F) i j.
Proof.
  intros Hp. unfold LU. rewrite (mmul_split p n) by auto. unfold mmul. f_equal; apply sum_ext; intros l Hl.
  - rewrite Lf_lo, Uf_up by lia. auto.
  - rewrite Lf_blk, Uf_blk. auto.
Qed.
Lemma LU_sum n F i j : (i < n)%nat -> (j < n)%nat -> LU n F i j = sum (S (Nat.min i j)) (fun k => if (i =? k)%nat then F k j else F i k * F k j).
Proof.
  intros Hi Hj. unfold LU, mmul. rewrite (sum_trunc (S (Nat.min i j)) n); [|lia|].
  2: { intros k Hk. destruct (Nat.le_gt_cases k i); [rewrite Uf_lo by lia|rewrite Lf_up by lia]; ring. }
 
  apply sum_ext. intros k Hk. destruct (Nat.eqb_spec i k); [subst; rewrite Lf_d, Uf_up by lia; ring|]. rewrite Lf_lo, Uf_up by lia. auto.
Qed.
End Math.

Section Mult.
Context {E : Env} {FL : FieldLaws E} {CL : ConjLaws E}.
Add Field Tf2 : fth.
Implicit Types (F G : mat).

Lemma ul_mult_f_run : forall fuel A s0, nr A = nc A -> vinj A -> (0 < nc A)%nat -> (nc A < fuel)%nat ->
  wp (ul_mult_f fuel A) (fun info s' => info = 0%Z /\ eff A (UL (nc A) (val A s0)) s0 s') noX s0.
Proof.
  induction fuel as [|fu IH]; intros A s0 HC HI Hp Hf; [lia|]. cbn [ul_mult_f].
  apply wp_bind, wp_check; [apply Nat.eqb_eq; auto|]. cbv zeta.
  remember (nc A) as n eqn:En. set (F := val A s0).
  destruct (Nat.eqb_spec n 1) as [H1|H1].
  { apply wp_ret. split; auto. apply (eff_ext _ _ _ _ _ (eff_refl A s0)). intros i j Hi Hj. change (F i j = UL n F i j).
    replace i with 0%nat by lia. replace j with 0%nat by lia. rewrite H1. unfold UL, mmul; cbn [sum]. rewrite Uf_up, Lf_d by lia. ring. }
  set (p := Nat.div2 n). assert (Hn0 : (0 < p /\ p < n)%nat).
  { subst p. assert (K := Nat.div2_odd n). destruct (Nat.odd n); cbn in K; lia. }
  do 4 (apply wp_bind; slces).
  assert (HI0 := vinj_subv A 0 p 0 p HI ltac:(lia) ltac:(lia)).
  assert (HI1 := vinj_subv A p n p n HI ltac:(lia) ltac:(lia)).
  apply wp_bind. eapply wp_use; [apply (IH (subv A 0 p 0 p) s0); cbn [nr nc subv]; auto; lia|].
  intros _ s1 [_ HX]. cbn [nr nc subv] in HX. rewrite Nat.sub_0_r in HX.
  assert (HE := eff_sub A 0 p 0 p F _ s0 s0 s1 HI ltac:(lia) ltac:(lia) (eff_refl A s0) HX). clear HX.
  set (F1 := fun i j => if inbox 0 p 0 p i j then UL p F i j else F i j).
  apply (eff_ext _ _ F1) in HE.
  2: { intros i j Hi Hj. unfold F1. destruct (inbox_spec 0 p 0 p i j); auto. rewrite !Nat.sub_0_r. apply UL_ext; try lia. auto. }
  apply wp_bind. eapply wp_use; [apply (gemm_b 1 1 A F1 s0 s1 0 p 0 p p n p n); auto; lia|].
  intros r2 s2 HE2. cbv beta in HE2.
  set (F2 := fun i j => if inbox 0 p 0 p i j then UL n F i j else F i j).
  apply (eff_ext _ _ F2) in HE2.
  2: { intros i j Hi Hj. unfold F2. destruct (inbox_spec 0 p 0 p i j).
       - rewrite !Nat.sub_0_r. rewrite (UL_00 p n) by lia. unfold F1 at 3. destruct (inbox_spec 0 p 0 p i j); [|lia].
         rewrite (mmul_ext2 (n - p) _ (blk 0 p F) _ (blk p 0 F)); [ring| |]; intros k Hk; unfold blk, F1; ibx; auto.
       - unfold F1. destruct (inbox_spec 0 p 0 p i j); auto; lia. }
  apply wp_bind. eapply wp_use; [apply (trmm_b Left Upper NoTrans NonUnit 1 A F2 s0 s2 p n p n 0 p); cbn [sel]; auto; lia|].
  intros r3 s3 HE3. cbv beta in HE3.
  set (F3 := fun i j => if inbox 0 n 0 p i j then UL n F i j else F i j).
  apply (eff_ext _ _ F3) in HE3.
  2: { intros i j Hi Hj. unfold F3. destruct (inbox_spec p n 0 p i j).
       - rewrite !Nat.sub_0_r. destruct (inbox_spec 0 n 0 p i j); [|lia]. replace (UL n F i j) with (UL n F (p + (i - p))%nat j) by (f_equal; lia). rewrite (UL_10 p n) by lia.
         rewrite (mmul_ext2 (n - p) _ (Uf (blk p p F)) _ (blk p 0 F)); [ring| |]; intros k Hk.
         + cbn [opm]. apply Uf_ext. unfold blk, F2. ibx; auto.
         + unfold blk, F2. ibx; auto.
       - unfold F2. destruct (inbox_spec 0 p 0 p i j), (inbox_spec 0 n 0 p i j); auto; lia. }
  apply wp_bind. eapply wp_use; [apply (trmm_b Right Lower NoTrans Unit 1 A F3 s0 s3 p n 0 p p n); cbn [sel]; auto; lia|].
  intros r4 s4 HE4. cbv beta in HE4.
  set (F4 := fun i j => if inbox p n p n i j then F i j else UL n F i j).
  apply (eff_ext _ _ F4) in HE4.
  2: { intros i j Hi Hj. unfold F4. destruct (inbox_spec 0 p p n i j).
       - rewrite !Nat.sub_0_r. destruct (inbox_spec p n p n i j); [lia|]. replace (UL n F i j) with (UL n F i (p + (j - p))%nat) by (f_equal; lia). rewrite (UL_01 p n) by lia.
         rewrite (mmul_ext2 (n - p) _ (blk 0 p F) _ (Lf (blk p p F))); [ring| |]; intros k Hk.
         + unfold blk, F3. ibx; auto.
         + cbn [opm]. apply Lf_ext. unfold blk, F3. ibx; auto.
       - unfold F3. destruct (inbox_spec 0 n 0 p i j), (inbox_spec p n p n i j); auto; lia. }
  apply wp_bind. eapply wp_use; [apply (IH (subv A p n p n) s4); cbn [nr nc subv]; auto; lia|].
  intros _ s5 [_ HX]. cbn [nr nc subv] in HX. apply wp_ret. split; auto.
  apply (eff_ext _ _ _ _ _ (eff_sub A p n p n F4 _ s0 s4 s5 HI ltac:(lia) ltac:(lia) HE4 HX)).
  intros i j Hi Hj. destruct (inbox_spec p n p n i j).
  - replace (UL n F i j) with (UL n F (p + (i - p))%nat (p + (j - p))%nat) by (f_equal; lia). rewrite (UL_11 p n) by lia. apply UL_ext; try lia.
    intros a b Ha Hb. rewrite (val_sub A F4 s0 s4) by (auto; lia). unfold F4, blk. ibx; auto.
  - unfold F4. destruct (inbox_spec p n p n i j); auto; lia.
Qed.

Lemma lu_mult_base A s0 n : nr A = n -> nc A = n -> vinj A ->
  wp (ford_ i in 0 upto n do ford_ j in 0 upto n do (
        sum <- foldup 0 (S (Nat.min i j)) zero (fun k sum =>
          if (i =? k)%nat then a <- rd A k j;; ret (sum + a)
          else a <- rd A i k;; b <- rd A k j;; ret (sum + a * b));;
        wr A i j sum)) (fun _ s' => eff A (LU n (val A s0)) s0 s') noX s0.
Proof.
  intros H1 H2 HI. set (F := val A s0).
  loopd (fun i s => eff A (fun r c => if (i <=? r)%nat then LU n F r c else F r c) s0 s) as i s.
  { apply (eff_ext _ _ _ _ _ (eff_refl A s0)). intros; unfold F; cases. } 2: { effext. }
  loopd (fun j s => eff A (fun r c => if ((r =? i) && (j <=? c))%nat then LU n F r c else if (S i <=? r)%nat then LU n F r c else F r c) s0 s) as j s2.
  { effext. } 2: { effext. }
  apply wp_bind.
  fold (fun k acc s' => acc = sum k (fun k => if (i =? k)%nat then F k j else F i k * F k j) /\ s' = s2) as k acc s'.
  - split; auto.
  - destruct He1 as [-> ->]. destruct (Nat.eqb_spec i k).
    + steps. split; auto. cbn [sum]. cases.
    + steps. split; auto. cbn [sum]. cases.
  - destruct He1 as [-> ->]. steps. effext. rewrite LU_sum by lia. auto.
Qed.
Lemma lu_mult_f_run nx : (1 <= nx)%nat -> forall fuel A s0, nr A = nc A -> vinj A -> (nc A < fuel)%nat ->
  wp (lu_mult_f fuel nx A) (fun _ s' => eff A (LU (nc A) (val A s0)) s0 s') noX s0.
Proof.
  intros Hnx. induction fuel as [|fu IH]; intros A s0 HC HI Hf; [lia|]. cbn [lu_mult_f]. cbv zeta.
  apply wp_bind, wp_check; [apply Nat.eqb_eq; auto|]. apply wp_bind, wp_check; [apply Nat.leb_le; auto|].
  remember (nc A) as n eqn:En. set (F := val A s0).
  destruct (Nat.eqb_spec n 0) as [H1|H1].
  { apply wp_ret. apply (eff_ext _ _ _ _ _ (eff_refl A s0)). intros; lia. }
  destruct (Nat.leb_spec n nx) as [H2|H2]; [apply lu_mult_base; auto|].
  set (p := Nat.div2 n). assert (Hn0 : (0 < p /\ p < n)%nat).
  { subst p. assert (K := Nat.div2_odd n). destruct (Nat.odd n); cbn in K; lia. }
  do 4 (apply wp_bind; slces).
  assert (HI0 := vinj_subv A 0 p 0 p HI ltac:(lia) ltac:(lia)).
  assert (HI1 := vinj_subv A p n p n HI ltac:(lia) ltac:(lia)).
  apply wp_bind. eapply wp_use; [apply (IH (subv A p n p n) s0); cbn [nr nc subv]; auto; lia|].
  intros r1 s1 HX. cbn [nr nc subv] in HX.
  assert (HE := eff_sub A p n p n F _ s0 s0 s1 HI ltac:(lia) ltac:(lia) (eff_refl A s0) HX). clear HX.
  set (F1 := fun i j => if inbox p n p n i j then LU (n - p) (blk p p F) (i - p)%nat (j - p)%nat else F i j).
  apply (eff_ext _ _ F1) in HE.
  2: { intros i j Hi Hj. unfold F1. destruct (inbox_spec p n p n i j); auto. }
  apply wp_bind. eapply wp_use; [apply (gemm_b 1 1 A F1 s0 s1 p n p n 0 p 0 p); auto; lia|].
  intros r2 s2 HE2. cbv beta in HE2.
  set (F2 := fun i j => if inbox p n p n i j then LU n F i j else F i j).
  apply (eff_ext _ _ F2) in HE2.
  2: { intros i j Hi Hj. unfold F2. destruct (inbox_spec p n p n i j).
       - rewrite !Nat.sub_0_r. replace (LU n F i j) with (LU n F (p + (i - p))%nat (p + (j - p))%nat) by (f_equal; lia). rewrite (LU_11 p n) by lia.
         unfold F1 at 3. destruct (inbox_spec p n p n i j); [|lia].
         rewrite (mmul_ext2 p _ (blk p 0 F) _ (blk 0 p F)); [ring| |]; intros k Hk; unfold blk, F1; ibx; auto.
       - unfold F1. destruct (inbox_spec p n p n i j); auto; lia. }
  apply wp_bind. eapply wp_use; [apply (trmm_b Left Lower NoTrans Unit 1 A F2 s0 s2 0 p 0 p p n); cbn [sel]; auto; lia|].
  intros r3 s3 HE3. cbv beta in HE3.
  set (F3 := fun i j => if inbox 0 n p n i j then LU n F i j else F i j).
  apply (eff_ext _ _ F3) in HE3.
  2: { intros i j Hi Hj. unfold F3. destruct (inbox_spec 0 p p n i j).
       - rewrite !Nat.sub_0_r. destruct (inbox_spec 0 n p n i j); [|lia]. replace (LU n F i j) with (LU n F i (p + (j - p))%nat) by (f_equal; lia). rewrite (LU_01 p n) by lia.
         rewrite (mmul_ext2 p _ (Lf F) _ (blk 0 p F)); [ring| |]; intros k Hk.
         + cbn [opm]. apply Lf_ext. unfold blk, F2. ibx; auto.
         + unfold blk, F2. ibx; auto.
       - unfold F2. destruct (inbox_spec p n p n i j), (inbox_spec 0 n p n i j); auto; lia. }
  apply wp_bind. eapply wp_use; [apply (trmm_b Right Upper NoTrans NonUnit 1 A F3 s0 s3 0 p p n 0 p); cbn [sel]; auto; lia|].
  intros r4 s4 HE4. cbv beta in HE4.
  set (F4 := fun i j => if inbox 0 p 0 p i j then F i j else LU n F i j).
  apply (eff_ext _ _ F4) in HE4.
  2: { intros i j Hi Hj. unfold F4. destruct (inbox_spec p n 0 p i j).
       - rewrite !Nat.sub_0_r. destruct (inbox_spec 0 p 0 p i j); [lia|]. replace (LU n F i j) with (LU n F (p + (i - p))%nat j) by (f_equal; lia). rewrite (LU_10 p n) by lia.
         rewrite (mmul_ext2 p _ (blk p 0 F) _ (Uf F)); [ring| |]; intros k Hk.
         + unfold blk, F3. ibx; auto.
         + cbn [opm]. apply Uf_ext. unfold blk, F3. ibx; auto.
       - unfold F3. destruct (inbox_spec 0 n p n i j), (inbox_spec 0 p 0 p i j); auto; lia. }
  eapply wp_use; [apply (IH (subv A 0 p 0 p) s4); cbn [nr nc subv]; auto; lia|].
  intros r5 s5 HX. cbn [nr nc subv] in HX. rewrite Nat.sub_0_r in HX.
  apply (eff_ext _ _ _ _ _ (eff_sub A 0 p 0 p F4 _ s0 s4 s5 HI ltac:(lia) ltac:(lia) HE4 HX)).
  intros i j Hi Hj. destruct (inbox_spec 0 p 0 p i j).
  - rewrite !Nat.sub_0_r. rewrite (LU_00 p n) by lia. apply LU_ext; try lia.
    intros a b Ha Hb. rewrite (val_sub A F4 s0 s4) by (auto; lia). unfold F4. ibx; auto.
  - unfold F4. destruct (inbox_spec 0 p 0 p i j); auto; lia.
Qed.
End Mult.
