(** * Rounding errors of dot, gemv and gemm *)
From Coq Require Import Bool Arith ZArith Reals Lra Lia Psatz.
From Verif.Core Require Import Scalar Prog View FpModel.
From Verif.Spec Require Import LinAlg Rounding.
From Verif.Model Require Import Gemm Blas1 Blas2.
From Verif.Proof Require Import RoundProof Tactics GemmProof Blas1Proof Blas2Proof.
Local Open Scope R_scope.

Section S.
Context {E : Env} {FP : FpModel E}.

(** the sum of the products of the entries of two vectors *)
Lemma acc_dot n (x y : nat -> T) :
  acc n (sum n (fun i => mul (x i) (y i))) (rsum n (fun i => fR (x i) * fR (y i)))
    (rsum n (fun i => Rabs (fR (x i)) * Rabs (fR (y i)))) (INR n * feta).
Proof.
  destruct n; [cbn; rewrite Rmult_0_l; apply acc_0|].
  rewrite <- rsum_const. eapply acc_wk; [apply (acc_sum 1)|lia|apply Rle_refl|apply Rle_refl].
  intros i Hi. eapply acc_wk; [apply acc_mul; apply acc_in|lia|lra|lra].
Qed.
Lemma acc_mulc c b : acc 1 (mulc c b) (coefR fR b * fR c) (Rabs (coefR fR b) * Rabs (fR c)) feta.
Proof.
  pose proof feta_pos. destruct b as [|b]; cbn.
  - rewrite Rabs_R0, !Rmult_0_l. eapply acc_wk; [apply acc_0|auto|lra|lra].
  - rewrite Rmult_comm. eapply acc_wk; [apply acc_mul; apply acc_in|lia|lra|lra].
Qed.
Lemma acc_addc p v b c X Y Z : acc (S p) v X Y Z ->
  acc (S (S p)) (addc v b c) (X + coefR fR b * fR c) (Y + Rabs (coefR fR b) * Rabs (fR c)) (Z + feta).
Proof.
  intros H. pose proof feta_pos. pose proof (Rabs_pos X). destruct b as [|b]; cbn.
  - rewrite Rmult_0_l, Rplus_0_r, Rabs_R0, Rmult_0_l, Rplus_0_r. eapply acc_wk; [apply H|lia|lra|lra].
  - eapply acc_wk; [apply acc_add; [apply H|eapply acc_wk; [apply acc_mul; apply acc_in|lia|apply Rle_refl|apply Rle_refl]]|lia|lra|lra].
Qed.
Lemma sum_same n (f g : nat -> T) : (forall i, (i < n)%nat -> f i = g i) -> sum n f = sum n g.
Proof. induction n; intros H; cbn; auto. rewrite IHn, H; auto; intros; apply H; lia. Qed.

(** alpha * (sum of products) + beta * c, in the two orders of evaluation of gemm and gemv *)
Lemma acc_rowsum k alpha (a b : nat -> T) beta c v :
  v = addc (mul alpha (sum k (fun l => mul (a l) (b l)))) beta c ->
  acc (k + 2) v (fR alpha * rsum k (fun l => fR (a l) * fR (b l)) + coefR fR beta * fR c)
    (Rabs (fR alpha) * rsum k (fun l => Rabs (fR (a l)) * Rabs (fR (b l))) + Rabs (coefR fR beta) * Rabs (fR c))
    (feta * (INR k * Rabs (fR alpha) + 2)).
Proof.
  intros ->. eapply acc_wk; [apply acc_addc; eapply acc_wk; [apply (acc_mul 0 k); [apply acc_in|apply acc_dot]|apply Nat.le_refl|apply Rle_refl|apply Rle_refl]|lia|lra|]. lra.
Qed.
Lemma acc_axpys k alpha (a b : nat -> T) beta c v :
  v = facc k (fun l => mul (a l) (mul alpha (b l))) (mulc c beta) \/ v = facc k (fun l => mul (mul alpha (b l)) (a l)) (mulc c beta) ->
  acc (k + 2) v (fR alpha * rsum k (fun l => fR (a l) * fR (b l)) + coefR fR beta * fR c)
    (Rabs (fR alpha) * rsum k (fun l => Rabs (fR (a l)) * Rabs (fR (b l))) + Rabs (coefR fR beta) * Rabs (fR c))
    (feta * (rsum k (fun l => Rabs (fR (a l))) + INR k + 1)).
Proof.
  intros Hv. pose proof feta_pos as He.
  assert (T1 : forall l, acc 2 (mul (a l) (mul alpha (b l))) (fR alpha * (fR (a l) * fR (b l))) (Rabs (fR alpha) * (Rabs (fR (a l)) * Rabs (fR (b l)))) (feta * Rabs (fR (a l)) + feta)).
  { intros l. eapply acc_cast; [eapply acc_wk; [apply acc_mul; [apply acc_in|apply acc_mul; apply acc_in]|lia| |]|]; try lra; ring. }
  assert (T2 : forall l, acc 2 (mul (mul alpha (b l)) (a l)) (fR alpha * (fR (a l) * fR (b l))) (Rabs (fR alpha) * (Rabs (fR (a l)) * Rabs (fR (b l)))) (feta * Rabs (fR (a l)) + feta)).
  { intros l. eapply acc_cast; [eapply acc_wk; [apply acc_mul; [apply acc_mul; apply acc_in|apply acc_in]|lia| |]|]; try lra; ring. }
  rewrite <- !rsum_scal.
  assert (EZ : feta * (rsum k (fun l => Rabs (fR (a l))) + INR k + 1) = rsum k (fun l => feta * Rabs (fR (a l)) + feta) + feta).
  { rewrite rsum_add, rsum_scal, rsum_const. ring. }
  rewrite EZ. rewrite (Nat.add_comm k 2).
  destruct Hv as [-> | ->]; apply acc_facc; auto; (eapply acc_wk; [apply acc_mulc|lia|lra|lra]).
Qed.
End S.
