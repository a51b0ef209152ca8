(** Exact-arithmetic forms of the law-free values *)
From Coq Require Import Bool Arith ZArith Lia Ring Field.
From Verif.Core Require Import Scalar Prog View.
From Verif.Spec Require Import LinAlg.
From Verif.Model Require Import Gemm Blas1 Blas2.
From Verif.Proof Require Import SumLemmas Tactics GemmProof Blas2Proof.
Local Open Scope T_scope.

Section Exact.
Context {E : Env} {FL : FieldLaws E}.
Add Field Tf : fth.

Lemma mulc_cval c b : mulc c b = cval b * c.
Proof. destruct b; cbn; ring. Qed.
Lemma addc_cval' y b x : addc y b x = y + cval b * x.
Proof. destruct b; cbn; ring. Qed.

Lemma gemm_val_exact {CL : ConjLaws E} ta tb k alpha A B beta c i j : op3 ta = true -> op3 tb = true ->
  gemm_val ta tb k alpha A B beta c i j = alpha * mmul k (opm ta A) (opm tb B) i j + cval beta * c.
Proof.
  intros Ha Hb. unfold gemm_val, mmul.
  destruct ta; try discriminate.
  - rewrite facc_sum, mulc_cval.
    rewrite (sum_ext k _ (fun l => alpha * (opm NoTrans A i l * opm tb B l j))) by (intros; cbn; ring).
    rewrite sum_scal_l. ring.
  - rewrite addc_cval'. reflexivity.
  - destruct tb; try discriminate; rewrite addc_cval'; try reflexivity.
    rewrite sum_conj. f_equal. f_equal. apply sum_ext. intros. cbn. apply conj_mul.
Qed.

Lemma gemv_val_exact o n alpha A x beta c i :
  gemv_val o n alpha A x (mulc c beta) i = alpha * mvmul n (opm o A) x i + cval beta * c.
Proof.
  rewrite mulc_cval. unfold gemv_val, mvmul. destruct o.
  1: rewrite facc_sum; rewrite (sum_ext n _ (fun l => alpha * (opm NoTrans A i l * x l))) by (intros; cbn; ring).
  4: rewrite facc_sum; rewrite (sum_ext n _ (fun l => alpha * (opm Conj A i l * x l))) by (intros; cbn; ring).
  1,4: rewrite sum_scal_l; ring.
  all: ring.
Qed.
End Exact.
