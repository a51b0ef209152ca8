(** BLAS-3 calls on blocks of one matrix *)
From Coq Require Import Bool Arith ZArith Lia Ring Field.
From Verif.Core Require Import Scalar Prog View Rel Slice Loops.
From Verif.Spec Require Import LinAlg.
From Verif.Model Require Import Gemm Blas1 Blas2 Blas3.
From Verif.Proof Require Import SumLemmas Tactics SliceTac GemmProof TrsmProof TrmmProof ExactBlas LowOps BlockAlg.
Local Open Scope T_scope.

Section Blk.
Context {E : Env} {FL : FieldLaws E} {CL : ConjLaws E}.
Add Field Tf : fth.
Implicit Types (F : mat).

(** C := alpha A B + beta C on blocks: rows [r,t), columns [p,q), inner index [a,b) x [a',b') *)
Lemma gemm_b alpha beta A F s0 s r t p q a b a' b' X : vinj A -> eff A F s0 s ->
  (r <= t)%nat -> (p <= q)%nat -> (a <= b)%nat -> (b - a = b' - a')%nat ->
  (t <= nr A)%nat -> (q <= nc A)%nat -> (b <= nc A)%nat -> (b' <= nr A)%nat -> (a' <= b')%nat ->
  (b <= p \/ q <= a)%nat -> (b' <= r \/ t <= a')%nat ->
  wp (gemm NoTrans NoTrans alpha (subv A r t a b) (subv A a' b' p q) (Sc beta) (subv A r t p q)) (fun _ s' =>
    eff A (fun i j => if inbox r t p q i j then alpha * mmul (b - a) (blk r a F) (blk a' p F) (i - r)%nat (j - p)%nat + beta * F i j else F i j) s0 s') X s.
Proof.
  intros HI He H1 H2 H3 H4 H5 H6 H7 H8 H8' H9 H10.
  eapply wp_noX, wp_conseq; [apply (gemm_run NoTrans NoTrans alpha _ _ (Sc beta) _ s (t - r) (q - p) (b - a)); cbn [is_nt op_eqb nr nc subv]; auto; try (split; lia); try lia| |auto].
  - apply vinj_subv; auto.
  - vdisj.
  - vdisj.
  - intros r0 s' He'. cbv beta in He'. apply (eff_ext _ _ _ _ _ (eff_sub A r t p q F _ s0 s s' HI H5 H6 He He')).
    intros i j Hi Hj. cbv beta. destruct (inbox_spec r t p q i j); auto.
    rewrite gemm_val_exact by auto. cbn [cval]. rewrite (val_sub A F s0 s) by (auto; lia). f_equal; [f_equal|f_equal; f_equal; lia].
    apply mmul_ext2; intros l Hl; cbn [opm]; rewrite (val_sub A F s0 s) by (auto; lia); auto.
Qed.
Lemma trmm_b sd u o d alpha A F s0 s a b r t p q X : uplo2 u = true -> op3 o = true -> vinj A -> eff A F s0 s ->
  (r <= t)%nat -> (p <= q)%nat -> (a <= b)%nat -> (t <= nr A)%nat -> (q <= nc A)%nat -> (b <= nr A)%nat -> (b <= nc A)%nat ->
  (sel sd (t - r) (q - p) = b - a)%nat -> (b <= r \/ t <= a \/ b <= p \/ q <= a)%nat ->
  wp (trmm sd u o d alpha (subv A a b a b) (subv A r t p q)) (fun _ s' =>
    eff A (fun i j => if inbox r t p q i j then alpha *
      match sd with
      | Left => mmul (t - r) (opm o (trim u d (blk a a F))) (blk r p F) (i - r)%nat (j - p)%nat
      | Right => mmul (q - p) (blk r p F) (opm o (trim u d (blk a a F))) (i - r)%nat (j - p)%nat
      end else F i j) s0 s') X s.
Proof.
  intros Hu Ho HI He H1 H2 H3 H4 H5 H6 H7 H8 H9.
  eapply wp_noX, wp_conseq; [apply (trmm_run sd u o d alpha _ _ s (t - r) (q - p)); cbn [nr nc subv]; auto| |auto].
  - apply vinj_subv; auto.
  - vdisj.
  - intros r0 s' He'. cbv beta in He'. apply (eff_ext _ _ _ _ _ (eff_sub A r t p q F _ s0 s s' HI H4 H5 He He')).
    intros i j Hi Hj. cbv beta. destruct (inbox_spec r t p q i j); auto.
    assert (HT : forall k l, (k < b - a)%nat -> (l < b - a)%nat -> opm o (trim u d (val (subv A a b a b) s)) k l = opm o (trim u d (blk a a F)) k l).
    { intros k l Hk Hl. destruct o; unfold opm, trim; rewrite !(val_sub A F s0 s) by (auto; lia); auto. }
    f_equal. destruct sd; cbn [sel] in H8; apply mmul_ext2; intros l Hl; rewrite ?HT by lia; rewrite ?(val_sub A F s0 s) by (auto; lia); auto.
Qed.
Lemma trsm_b sd u o d alpha A F s0 s a b r t p q X : uplo2 u = true -> op3 o = true -> vinj A -> eff A F s0 s ->
  (r <= t)%nat -> (p <= q)%nat -> (a <= b)%nat -> (t <= nr A)%nat -> (q <= nc A)%nat -> (b <= nr A)%nat -> (b <= nc A)%nat ->
  (sel sd (t - r) (q - p) = b - a)%nat -> (b <= r \/ t <= a \/ b <= p \/ q <= a)%nat ->
  (d = NonUnit -> forall j, (a <= j < b)%nat -> F j j <> 0) ->
  wp (trsm sd u o d alpha (subv A a b a b) (subv A r t p q)) (fun _ s' => exists Y,
    eff A (fun i j => if inbox r t p q i j then Y (i - r)%nat (j - p)%nat else F i j) s0 s' /\
    forall i j, (i < t - r)%nat -> (j < q - p)%nat ->
      match sd with
      | Left => mmul (t - r) (opm o (trim u d (blk a a F))) Y i j = alpha * blk r p F i j
      | Right => mmul (q - p) Y (opm o (trim u d (blk a a F))) i j = alpha * blk r p F i j
      end) X s.
Proof.
  intros Hu Ho HI He H1 H2 H3 H4 H5 H6 H7 H8 H9 Hnz.
  eapply wp_noX, wp_conseq; [apply (trsm_run sd u o d alpha _ _ s (t - r) (q - p)); cbn [nr nc subv]; auto| |auto].
  - apply vinj_subv; auto.
  - vdisj.
  - intros Hd j Hj. rewrite (val_sub A F s0 s) by (auto; lia). apply Hnz; auto. lia.
  - intros _ s' (Y & He' & HY). exists Y. split; [exact (eff_sub A r t p q F _ s0 s s' HI H4 H5 He He')|].
    assert (HT : forall k l, (k < b - a)%nat -> (l < b - a)%nat -> opm o (trim u d (val (subv A a b a b) s)) k l = opm o (trim u d (blk a a F)) k l).
    { intros k l Hk Hl. destruct o; unfold opm, trim; rewrite !(val_sub A F s0 s) by (auto; lia); auto. }
    intros i j Hi Hj. specialize (HY i j Hi Hj). destruct sd; cbn [sel] in H8; rewrite (val_sub A F s0 s) in HY by (auto; lia);
      (etransitivity; [|exact HY]); apply mmul_ext2; intros l Hl; rewrite ?HT by lia; auto.
Qed.
End Blk.
