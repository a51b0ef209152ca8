(** getri_uxli: the inverse from LU factors with a workspace vector *)
From Coq Require Import Bool Arith ZArith Lia Ring Field.
From Verif.Core Require Import Scalar Prog View Rel Slice Loops IVec WorkEff.
From Verif.Spec Require Import LinAlg LU Outcome Inverse.
From Verif.Model Require Import Gemm Blas1 Blas2 Blas3 LaAux Triangular LU.
From Verif.Proof Require Import SumLemmas Tactics SliceTac OrdLemmas LowOps BlockAlg LuMultProof BorderInv GetrfRecProof.
From Verif.Properties Require Import Blas1 Blas2.
Local Open Scope T_scope.

Section P.
Context {E : Env} {FL : FieldLaws E} {CL : ConjLaws E} {QL : EqbLaws E}.
Add Field Tf : fth.
Implicit Types (F G : mat) (A W : view).

Lemma disj_of A B : (forall l, inview A l -> inview B l -> False) -> disj A B.
Proof. intros H i j i' j' Hi Hj Hi' Hj' e. apply (H (ad A i j)); [exists i, j; auto|exists i', j'; auto]. Qed.
Lemma disj_inview A B : disj A B -> forall l, inview A l -> inview B l -> False.
Proof. intros H l (i & j & Hi & Hj & e) (i' & j' & Hi' & Hj' & e'). apply (H i j i' j'); congruence. Qed.

(** the matrix after the step for column j, when the trailing block holds G *)
Definition uxstep (n j : nat) G : mat :=
  let r := (n - j - 1)%nat in
  let X := blk (j + 1) (j + 1) G in
  let w := fun c => - (1 / G j j) * sum r (fun k => X k c * G j (j + 1 + k)%nat) in
  fun a c =>
    if (a =? j)%nat then
      if (c =? j)%nat then 1 / G j j - sum r (fun k => G (j + 1 + k)%nat j * w k)
      else if (j <? c)%nat then w (c - (j + 1))%nat else G a c
    else if (c =? j)%nat && (j <? a)%nat then - sum r (fun k => X (a - (j + 1))%nat k * G (j + 1 + k)%nat j)
    else G a c.

Lemma uxstep_inverse n j F G : (j < n)%nat -> F j j <> 0 ->
  (forall a c, (a < n)%nat -> (c < n)%nat -> (a <= j \/ c <= j)%nat -> G a c = F a c) ->
  inverse (n - (j + 1)) (LU (n - (j + 1)) (blk (j + 1) (j + 1) F)) (blk (j + 1) (j + 1) G) ->
  inverse (n - j) (LU (n - j) (blk j j F)) (blk j j (uxstep n j G)).
Proof.
  intros Hj Hd HG HX. replace (n - j)%nat with (S (n - (j + 1))) by lia. set (r := (n - (j + 1))%nat) in *.
  assert (K := border_inverse r (F j j) (fun c => F j (j + 1 + c)%nat) (fun a => F (j + 1 + a)%nat j)
    (fun c => - (1 / F j j) * sum r (fun k => G (j + 1 + k)%nat (j + 1 + c)%nat * F j (j + 1 + k)%nat))
    (fun a => - sum r (fun k => G (j + 1 + a)%nat (j + 1 + k)%nat * F (j + 1 + k)%nat j)) _ _ Hd HX (fun c _ => eq_refl) (fun a _ => eq_refl)).
  assert (EL : forall a c, (a < S r)%nat -> (c < S r)%nat -> LU (S r) (blk j j F) a c =
     bord (F j j) (fun c => F j (j + 1 + c)%nat) (fun a => F (j + 1 + a)%nat j * F j j) (fun a c => F (j + 1 + a)%nat j * F j (j + 1 + c)%nat + LU r (blk (j + 1) (j + 1) F) a c) a c).
  { intros a c Ha Hc. rewrite LU_S by auto. destruct a as [|a], c as [|c]; cbn [bord]; unfold blk; rewrite ?Nat.add_0_r; auto.
    - f_equal. lia.
    - f_equal. f_equal. lia.
    - f_equal; [f_equal; f_equal; lia|]. unfold LU. apply mmul_ext2; intros l Hl; [apply Lf_ext|apply Uf_ext]; f_equal; lia. }
  assert (EX : forall a c, (a < S r)%nat -> (c < S r)%nat -> blk j j (uxstep n j G) a c =
     bord (1 / F j j - sum r (fun k => F (j + 1 + k)%nat j * (- (1 / F j j) * sum r (fun k0 => G (j + 1 + k0)%nat (j + 1 + k)%nat * F j (j + 1 + k0)%nat))))
       (fun c => - (1 / F j j) * sum r (fun k => G (j + 1 + k)%nat (j + 1 + c)%nat * F j (j + 1 + k)%nat))
       (fun a => - sum r (fun k => G (j + 1 + a)%nat (j + 1 + k)%nat * F (j + 1 + k)%nat j)) (blk (j + 1) (j + 1) G) a c).
  { assert (EG : G j j = F j j) by (apply HG; lia).
    assert (EGr : forall k, (k < r)%nat -> G j (j + 1 + k)%nat = F j (j + 1 + k)%nat) by (intros; apply HG; lia).
    assert (EGc : forall k, (k < r)%nat -> G (j + 1 + k)%nat j = F (j + 1 + k)%nat j) by (intros; apply HG; lia).
    intros a c Ha Hc. unfold blk, uxstep. replace (n - j - 1)%nat with r by lia. rewrite EG. destruct a as [|a], c as [|c]; cbn [bord]; rewrite ?Nat.add_0_r.
    - rewrite !Nat.eqb_refl. f_equal. apply sum_ext. intros k Hk. rewrite EGc by auto. do 2 f_equal. apply sum_ext. intros k0 Hk0. unfold blk. rewrite EGr by auto. auto.
    - rewrite Nat.eqb_refl. destruct (Nat.eqb_spec (j + S c) j), (Nat.ltb_spec j (j + S c)); try lia. f_equal. apply sum_ext. intros k Hk. rewrite EGr by auto. f_equal. unfold blk. f_equal. lia.
    - rewrite Nat.eqb_refl. destruct (Nat.eqb_spec (j + S a) j), (Nat.ltb_spec j (j + S a)); try lia. cbn [andb]. f_equal. apply sum_ext. intros k Hk. rewrite EGc by auto. f_equal. unfold blk. f_equal. lia.
    - destruct (Nat.eqb_spec (j + S a) j), (Nat.eqb_spec (j + S c) j); try lia. cbn [andb]. f_equal; lia. }
  intros a c Ha Hc. destruct (K a c Ha Hc) as [K1 K2]. split; [rewrite <- K1|rewrite <- K2]; apply mmul_ext2; intros l Hl; rewrite ?EL, ?EX by auto; auto.
Qed.

Lemma wrd A F P s0 s : effw A F P s0 s -> forall i j, (i < nr A)%nat -> (j < nc A)%nat -> val A s i j = F i j.
Proof. intros (H & _). auto. Qed.

Lemma getri_uxli_run n A W s0 : nr A = n -> nc A = n -> vinj A -> nr W = (n - 1)%nat -> nc W = 1%nat -> vinj W -> disj A W -> (0 < n)%nat ->
  (forall j, (j < n)%nat -> val A s0 j j <> 0) ->
  wp (getri_uxli A W) (fun info s' => info = 0%Z /\ exists G, effw A G (inview W) s0 s' /\ inverse n (LU n (val A s0)) G) noX s0.
Proof.
  intros H1 H2 HI HW1 HW2 HWI HD Hn Hd. unfold getri_uxli. cbv zeta. rewrite H1, H2, HW1.
  apply wp_bind, wp_check; [apply Nat.eqb_refl|]. apply wp_bind, wp_assert. { destruct (Nat.eqb_spec n 0); [lia|]. rewrite Nat.eqb_refl. auto. }
  set (F := val A s0) in *.
  assert (HDI := disj_inview _ _ HD).
  apply wp_bind. apply (wp_forret _ (fun i s => exists G, effw A G (inview W) s0 s /\
    (forall a c, (a < n)%nat -> (c < n)%nat -> (a < n - i \/ c < n - i)%nat -> G a c = F a c) /\
    inverse i (LU i (blk (n - i) (n - i) F)) (blk (n - i) (n - i) G))).
  - lia.
  - exists F. split; [apply effw_refl|]. split; [auto|]. intros a c Ha; lia.
  - intros i s Hi (G & He & HG & HX). cbv beta.
    replace (n - 1 - i)%nat with (n - (i + 1))%nat by lia. set (j := (n - (i + 1))%nat). assert (Hj : (j < n)%nat) by lia.
    replace (n - i)%nat with (j + 1)%nat in * by lia.
    assert (Gd : G j j = F j j) by (apply HG; lia).
    apply wp_bind. apply (wp_rd_w _ _ _ _ _ _ _ _ _ He); [lia|lia|]. destruct (eqb (G j j) 0) eqn:Ez.
    { exfalso. apply eqb_spec in Ez. apply (Hd j Hj). rewrite <- Gd. auto. }
    assert (Hnz : G j j <> 0) by (rewrite Gd; apply Hd; auto).
    assert (Fin : forall s', effw A (uxstep n j G) (inview W) s0 s' -> exists G0, effw A G0 (inview W) s0 s' /\
      (forall a c, (a < n)%nat -> (c < n)%nat -> (a < n - S i \/ c < n - S i)%nat -> G0 a c = F a c) /\
      inverse (S i) (LU (S i) (blk (n - S i) (n - S i) F)) (blk (n - S i) (n - S i) G0)).
    { intros s' He'. exists (uxstep n j G). split; auto. replace (n - S i)%nat with j by lia. split.
      - intros a c Ha Hc Hac. rewrite <- HG by lia. unfold uxstep. destruct (Nat.eqb_spec a j), (Nat.eqb_spec c j), (Nat.ltb_spec j c), (Nat.ltb_spec j a); cbn [andb]; auto; lia.
      - replace (S i) with (n - j)%nat by lia. apply uxstep_inverse; auto.
        + intros a c Ha Hc Hac. apply HG; auto; lia.
        + replace (n - (j + 1))%nat with i by lia. auto. }
    destruct (Nat.eqb_spec j (n - 1)) as [Hl|Hl].
    + apply wp_bind. apply (wp_rd_w _ _ _ _ _ _ _ _ _ He); [lia|lia|]. apply wp_bind. apply (wp_wr_w _ _ _ _ _ _ _ _ _ _ HI He); [lia|lia|]. intros s1 _ He1. apply wp_ret.
      apply Fin. apply (effw_ext _ _ _ _ _ _ He1). intros a c Ha Hc. rewrite H1 in Ha. rewrite H2 in Hc. unfold fupd, uxstep. replace (n - j - 1)%nat with 0%nat by lia. cbn [sum].
      destruct (Nat.eqb_spec a j), (Nat.eqb_spec c j), (Nat.ltb_spec j a), (Nat.ltb_spec j c); cbn [andb]; try lia; auto. ring.
    + set (r := (n - j - 1)%nat). assert (Hr : (0 < r)%nat) by lia.
      apply wp_bind. slces. apply wp_bind. slces. apply wp_bind. slces. apply wp_bind. slces.
      set (X22 := subv A (j + 1) n (j + 1) n). set (l21 := vcol A (j + 1) n j). set (u12 := vrow A j (j + 1) n). set (w := vsub W 0 r).
      assert (IX : forall l, inview X22 l -> inview A l) by (intros l; apply inview_subv; lia).
      assert (Il : forall l, inview l21 l -> inview A l) by (intros l; apply inview_vcol; lia).
      assert (Iu : forall l, inview u12 l -> inview A l) by (intros l; apply WorkEff.inview_vrow; lia).
      assert (Iw : forall l, inview w l -> inview W l) by (intros l; apply inview_vsub; lia).
      assert (VW : vinj w) by (apply vinj_vsub; auto; lia).
      assert (DX : disj X22 w) by (apply disj_of; intros l K1 K2; apply (HDI l); auto).
      assert (Dl : disj l21 w) by (apply disj_of; intros l K1 K2; apply (HDI l); auto).
      assert (Du : disj u12 w) by (apply disj_of; intros l K1 K2; apply (HDI l); auto).
      assert (Dl' : disj w l21) by (apply disj_of; intros l K1 K2; apply (HDI l); auto).
      assert (Du' : disj w u12) by (apply disj_of; intros l K1 K2; apply (HDI l); auto).
      assert (Nw : nr w = r) by (cbn; lia). assert (NX : shape X22 r r) by (split; cbn; lia). assert (Nl : isvec l21 r) by (split; cbn; lia). assert (Nu : isvec u12 r) by (split; cbn; lia).
      assert (Nw' : isvec w r) by (split; cbn; lia).
      apply wp_bind. apply (wp_rd_w _ _ _ _ _ _ _ _ _ He); [lia|lia|].
      (* w := -u12 X22 / ujj *)
      apply wp_bind. destruct (gemv_correct_partial Trans (- (1) / G j j) X22 u12 SZ w s r r) as (u1 & s1 & R1 & V1); auto.
      unfold wp at 1. rewrite R1. clear R1 u1.
      assert (He1 : effw A G (inview W) s0 s1).
      { apply (effw_work _ _ _ _ s _ He HDI); [|apply V1]. intros l Hl'. apply V1. auto. }
      assert (W1 : forall k, (k < r)%nat -> vval w s1 k = - (1 / G j j) * sum r (fun m => blk (j + 1) (j + 1) G m k * G j (j + 1 + m)%nat)).
      { intros k Hk. destruct V1 as (V1 & _). rewrite V1 by lia. cbn [cval]. transitivity (- (1) / G j j * mvmul r (opm Trans (val X22 s)) (vval u12 s) k); [ring|]. unfold mvmul; cbn [opm].
        replace (- (1) / G j j) with (- (1 / G j j)) by (field; auto). f_equal. apply sum_ext. intros m Hm. f_equal.
        - change (val X22 s m k) with (val A s (j + 1 + m) (j + 1 + k)). rewrite (wrd _ _ _ _ _ He) by lia. auto.
        - change (vval u12 s m) with (val A s j (j + 1 + m)). rewrite (wrd _ _ _ _ _ He) by lia. auto. }
      apply wp_bind. apply (wp_rd_w _ _ _ _ _ _ _ _ _ He1); [lia|lia|].
      apply wp_bind. destruct (dotu_correct l21 w s1 r) as (t & s1' & R2 & Et & ->); auto. unfold wp at 1. rewrite R2. clear R2.
      assert (Et' : t = sum r (fun k => G (j + 1 + k)%nat j * (- (1 / G j j) * sum r (fun m => blk (j + 1) (j + 1) G m k * G j (j + 1 + m)%nat)))).
      { rewrite Et. apply sum_ext. intros k Hk. rewrite W1 by auto. f_equal. change (vval l21 s1 k) with (val A s1 (j + 1 + k) j). rewrite (wrd _ _ _ _ _ He1) by lia. auto. }
      clear Et. apply wp_bind. apply (wp_wr_w _ _ _ _ _ _ _ _ _ _ HI He1); [lia|lia|]. intros s2 Ef2 He2.
      assert (W2 : forall k, (k < r)%nat -> vval w s2 k = vval w s1 k).
      { intros k Hk. unfold vval. apply (val_frame _ _ w _ _ Ef2); try (cbn; lia). intros l K1 K2. apply (HDI l); auto. }
      (* u12 := w *)
      apply wp_bind. destruct (copy_correct w u12 s2 r) as (u3 & s3 & R3 & V3); auto; [apply vinj_vrow; auto; lia|]. unfold wp at 1. rewrite R3. clear R3 u3.
      apply veff_eff in V3; [|auto]. assert (Ef3 := eff_vrow A j (j + 1) n _ _ s2 s2 s3 HI ltac:(lia) ltac:(lia) (effw_here _ _ _ _ _ He2) V3). assert (He3 := effw_eff _ _ _ _ _ _ _ He2 Ef3).
      (* w := -X22 l21 *)
      apply wp_bind. destruct (gemv_correct_partial NoTrans (- (1)) X22 l21 SZ w s3 r r) as (u4 & s4 & R4 & V4); auto.
      unfold wp at 1. rewrite R4. clear R4 u4.
      assert (He4 : effw A (fun i0 j0 => if inbox j (S j) (j + 1) n i0 j0 then vval w s2 (j0 - (j + 1))%nat else fupd G j j (1 / G j j - t) i0 j0) (inview W) s0 s4).
      { apply (effw_work _ _ _ _ s3 _ He3 HDI); [|apply V4]. intros l Hl'. apply V4. auto. }
      apply wp_bind. destruct (copy_correct w l21 s4 r) as (u5 & s5 & R5 & V5); auto; [apply vinj_vcol; auto; lia|]. unfold wp at 1. rewrite R5. clear R5 u5.
      apply veff_eff in V5; [|auto]. assert (Ef5 := eff_vcol A (j + 1) n j _ _ s4 s4 s5 HI ltac:(lia) ltac:(lia) (effw_here _ _ _ _ _ He4) V5). assert (He5 := effw_eff _ _ _ _ _ _ _ He4 Ef5).
      apply wp_ret. apply Fin. apply (effw_ext _ _ _ _ _ _ He5). intros a c Ha Hc. rewrite H1 in Ha. rewrite H2 in Hc. unfold uxstep.
      destruct (Nat.eqb_spec a j) as [->|Haj].
      * destruct (inbox_spec (j + 1) n j (S j) j c); [lia|]. destruct (Nat.eqb_spec c j) as [->|Hcj].
        -- destruct (inbox_spec j (S j) (j + 1) n j j); [lia|]. unfold fupd. rewrite Nat.eqb_refl. cbn [andb]. rewrite Et'. auto.
        -- destruct (Nat.ltb_spec j c).
           ++ destruct (inbox_spec j (S j) (j + 1) n j c); [|lia]. rewrite W2, W1 by lia. auto.
           ++ destruct (inbox_spec j (S j) (j + 1) n j c); [lia|]. unfold fupd. destruct (Nat.eqb_spec c j); [lia|]. rewrite andb_false_r. auto.
      * destruct (inbox_spec j (S j) (j + 1) n a c); [lia|]. destruct (Nat.eqb_spec c j) as [->|Hcj]; cbn [andb].
        -- destruct (Nat.ltb_spec j a).
           ++ destruct (inbox_spec (j + 1) n j (S j) a j); [|lia]. destruct V4 as (V4 & _). rewrite V4 by lia. cbn [cval]. transitivity (- (1) * mvmul r (opm NoTrans (val X22 s3)) (vval l21 s3) (a - (j + 1))%nat); [ring|].
              transitivity (- mvmul r (opm NoTrans (val X22 s3)) (vval l21 s3) (a - (j + 1))%nat); [ring|]. f_equal. unfold mvmul; cbn [opm]. apply sum_ext. intros k Hk. f_equal.
              ** change (val X22 s3 (a - (j + 1))%nat k) with (val A s3 (j + 1 + (a - (j + 1))) (j + 1 + k)). rewrite (wrd _ _ _ _ _ He3) by lia. unfold fupd, blk.
                 destruct (inbox_spec j (S j) (j + 1) n (j + 1 + (a - (j + 1))) (j + 1 + k)); [lia|]. destruct (Nat.eqb_spec (j + 1 + (a - (j + 1))) j); [lia|]. auto.
              ** change (vval l21 s3 k) with (val A s3 (j + 1 + k) j). rewrite (wrd _ _ _ _ _ He3) by lia. unfold fupd.
                 destruct (inbox_spec j (S j) (j + 1) n (j + 1 + k) j); [lia|]. destruct (Nat.eqb_spec (j + 1 + k) j); [lia|]. auto.
           ++ destruct (inbox_spec (j + 1) n j (S j) a j); [lia|]. unfold fupd. destruct (Nat.eqb_spec a j); [lia|]. auto.
        -- destruct (inbox_spec (j + 1) n j (S j) a c); [lia|]. unfold fupd. destruct (Nat.eqb_spec a j); [lia|]. auto.
  - intros s (G & He & HG & HX). apply wp_ret. split; auto. exists G. split; auto. rewrite !Nat.sub_diag in HX. exact HX.
Qed.
End P.
