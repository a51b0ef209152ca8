(** * C39: rounding errors

    [E] is any arithmetic with [FpModel E]; binary64 with rounding to nearest is an instance ([FE], unit roundoff 2^-53), so each theorem
    is about IEEE double precision.  The bounds hold for every result that is finite; no hypothesis excludes underflow (its effect is the
    [feta] term).  [fR] is the real number denoted by a floating-point number and [gam n u] = n u / (1 - n u). *)
From Coq Require Import Bool Arith ZArith Reals Lra Lia Psatz.
From Verif.Core Require Import Scalar Instances Prog View Slice IVec FpModel.
From Verif.Spec Require Import Outcome LinAlg LU Rounding.
From Verif.Model Require Import Gemm Blas1 Blas2 Legacy LU.
From Verif.Proof Require Import RoundProof RoundBlas RoundTrsv RoundLU Tactics GemmProof Blas1Proof Blas2Proof.
From Verif.Properties Require Import ExTac Blas2.
From Coq Require Import List.
From Coq Require PrimFloat Uint63.
Local Open Scope R_scope.

Section S.
Context {E : Env} {FP : FpModel E}.
Implicit Types (A B C x y : view) (s : state).
Notation u := fu.

(** ** dot: the computed inner product is the exact inner product of [x] and a componentwise perturbation of [y] *)
Lemma dot_any n (a b : nat -> T) r : INR n * u < 1 -> r = sum n (fun i => mul (a i) (b i)) -> fin r ->
  Rabs (fR r - rsum n (fun i => fR (a i) * fR (b i))) <= gam n u * rsum n (fun i => Rabs (fR (a i)) * Rabs (fR (b i))) + (1 + gam n u) * (INR n * feta).
Proof. intros Hn -> F. apply (acc_gam _ _ _ _ _ (acc_dot n a b) Hn F). Qed.
Lemma dot_back n (a b : nat -> T) r : INR n * u < 1 -> r = sum n (fun i => mul (a i) (b i)) -> fin r ->
  exists (d : nat -> R) e, (forall i, (i < n)%nat -> Rabs (d i) <= gam n u * Rabs (fR (b i))) /\ Rabs e <= (1 + gam n u) * (INR n * feta) /\
    fR r = rsum n (fun i => fR (a i) * (fR (b i) + d i)) + e.
Proof.
  intros Hn Hr F. assert (K := dot_any n a b r Hn Hr F).
  assert (G := gam_pos n u fu_pos Hn).
  destruct (spread_abs n (fun i => fR (a i) * fR (b i)) (gam n u) (fR r - rsum n (fun i => fR (a i) * fR (b i))) ((1 + gam n u) * (INR n * feta))) as (th & e & Ht & He & Hd); auto.
  - apply Rmult_le_pos; [lra|apply Rmult_le_pos; [apply pos_INR|apply feta_pos]].
  - rewrite (rsum_ext n (fun i => Rabs (fR (a i) * fR (b i))) (fun i => Rabs (fR (a i)) * Rabs (fR (b i)))) by (intros; apply Rabs_mult). auto.
  - exists (fun i => fR (b i) * th i), e. split; [|split; auto].
    + intros i _. rewrite Rabs_mult, Rmult_comm. apply Rmult_le_compat_r; [apply Rabs_pos|auto].
    + replace (fR r) with (rsum n (fun i => fR (a i) * fR (b i)) + (fR r - rsum n (fun i => fR (a i) * fR (b i)))) by ring. rewrite Hd, <- Rplus_assoc, <- rsum_add. f_equal. apply rsum_ext. intros. ring.
Qed.
Theorem dot_backward_stable x y s n : isvec x n -> isvec y n -> INR n * u < 1 ->
  returns (dot x y) s (fun r s' => s' = s /\ (fin r ->
    exists (d : nat -> R) e, (forall i, (i < n)%nat -> Rabs (d i) <= gam n u * Rabs (fR (vval y s i))) /\
      Rabs e <= (1 + gam n u) * (INR n * feta) /\
      fR r = rsum n (fun i => fR (vval x s i) * (fR (vval y s i) + d i)) + e)).
Proof.
  intros [H1 H2] [H3 H4] Hn. apply runs_inv. eapply wp_conseq; [apply dot_run; auto; lia| |auto].
  intros r s' [Hr ->]. split; auto. intros F. rewrite H1 in Hr. apply dot_back; auto. rewrite Hr. apply sum_same. intros. rewrite fp_conj. auto.
Qed.
Theorem dot_rounding_error x y s n : isvec x n -> isvec y n -> INR n * u < 1 ->
  returns (dot x y) s (fun r s' => s' = s /\ (fin r ->
    Rabs (fR r - rsum n (fun i => fR (vval x s i) * fR (vval y s i)))
      <= gam n u * rsum n (fun i => Rabs (fR (vval x s i)) * Rabs (fR (vval y s i))) + (1 + gam n u) * (INR n * feta))).
Proof.
  intros [H1 H2] [H3 H4] Hn. apply runs_inv. eapply wp_conseq; [apply dot_run; auto; lia| |auto].
  intros r s' [Hr ->]. split; auto. intros F. rewrite H1 in Hr. apply dot_any; auto. rewrite Hr. apply sum_same. intros. rewrite fp_conj. auto.
Qed.

(** ** gemv and gemm: forward error of each entry, and the perturbation of the data it amounts to *)
Theorem gemv_rounding_error o alpha A x beta y s m n : opshape o A m n -> isvec x n -> isvec y m -> vinj y -> disj A y -> disj x y ->
  (0 < n)%nat -> INR (n + 2) * u < 1 ->
  returns (gemv o alpha A x beta y) s (fun _ s' => exists F, veff y F s s' /\ forall i, (i < m)%nat -> fin (F i) ->
    Rabs (fR (F i) - (fR alpha * rsum n (fun l => fR (opm o (val A s) i l) * fR (vval x s l)) + coefR fR beta * fR (vval y s i)))
      <= gam (n + 2) u * (Rabs (fR alpha) * rsum n (fun l => Rabs (fR (opm o (val A s) i l)) * Rabs (fR (vval x s l))) + Rabs (coefR fR beta) * Rabs (fR (vval y s i)))
         + (1 + gam (n + 2) u) * (feta * (INR n * Rabs (fR alpha) + rsum n (fun l => Rabs (fR (opm o (val A s) i l))) + INR n + 2))).
Proof.
  intros HA [Hx1 Hx2] [Hy1 Hy2] HI HDA HDx Hn Hu. apply runs_inv.
  assert (HA' : if notransb o then nr A = m /\ nc A = n else nr A = n /\ nc A = m) by (destruct o; exact HA).
  eapply wp_conseq; [apply (gemv_run o alpha A x beta y s m n); try exact HA'; auto; lia| |auto].
  intros [] s' He. eexists. split; [exact He|]. intros i Hi F. cbv beta in F |- *. unfold gemv_val in F |- *.
  assert (Z1 : 0 <= rsum n (fun l => Rabs (fR (opm o (val A s) i l)))) by (apply rsum_pos; intros; apply Rabs_pos).
  assert (Z2 := pos_INR n). assert (Z3 := Rabs_pos (fR alpha)). assert (Z4 := feta_pos).
  assert (Z5 : 0 <= INR n * Rabs (fR alpha)) by (apply Rmult_le_pos; lra).
  assert (Col : forall v, v = facc n (fun j => mul (mul alpha (vval x s j)) (opm o (val A s) i j)) (mulc (vval y s i) beta) -> fin v ->
     Rabs (fR v - (fR alpha * rsum n (fun l => fR (opm o (val A s) i l) * fR (vval x s l)) + coefR fR beta * fR (vval y s i)))
      <= gam (n + 2) u * (Rabs (fR alpha) * rsum n (fun l => Rabs (fR (opm o (val A s) i l)) * Rabs (fR (vval x s l))) + Rabs (coefR fR beta) * Rabs (fR (vval y s i)))
         + (1 + gam (n + 2) u) * (feta * (INR n * Rabs (fR alpha) + rsum n (fun l => Rabs (fR (opm o (val A s) i l))) + INR n + 2))).
  { intros v Hv Fv. apply acc_gam; auto. eapply acc_wk; [apply acc_axpys; right; exact Hv|lia|lra|]. apply Rmult_le_compat_l; lra. }
  assert (Row : forall v, v = add (mulc (vval y s i) beta) (mul alpha (sum n (fun j => mul (opm o (val A s) i j) (vval x s j)))) -> fin v ->
     Rabs (fR v - (fR alpha * rsum n (fun l => fR (opm o (val A s) i l) * fR (vval x s l)) + coefR fR beta * fR (vval y s i)))
      <= gam (n + 2) u * (Rabs (fR alpha) * rsum n (fun l => Rabs (fR (opm o (val A s) i l)) * Rabs (fR (vval x s l))) + Rabs (coefR fR beta) * Rabs (fR (vval y s i)))
         + (1 + gam (n + 2) u) * (feta * (INR n * Rabs (fR alpha) + rsum n (fun l => Rabs (fR (opm o (val A s) i l))) + INR n + 2))).
  { intros v -> Fv. apply acc_gam; auto. rewrite Nat.add_comm. cbn [Nat.add]. eapply acc_cast; [eapply acc_wk; [apply (acc_add (S n)); [eapply acc_wk; [apply acc_mulc|lia|apply Rle_refl|apply Rle_refl]
      |eapply acc_wk; [apply (acc_mul 0 n); [apply acc_in|apply acc_dot]|lia|apply Rle_refl|apply Rle_refl]]|lia| |]|]; try lra.
    rewrite !Rmult_0_l, !Rplus_0_r. nra. }
  destruct o; auto.
Qed.
Theorem gemm_rounding_error ta tb alpha A B beta C s m n k : ta <> Conj -> tb <> Conj ->
  opshape ta A m k -> opshape tb B k n -> shape C m n -> vinj C -> disj A C -> disj B C -> INR (k + 2) * u < 1 ->
  returns (gemm ta tb alpha A B beta C) s (fun _ s' => exists F, eff C F s s' /\ forall i j, (i < m)%nat -> (j < n)%nat -> fin (F i j) ->
    Rabs (fR (F i j) - (fR alpha * rsum k (fun l => fR (opm ta (val A s) i l) * fR (opm tb (val B s) l j)) + coefR fR beta * fR (val C s i j)))
      <= gam (k + 2) u * (Rabs (fR alpha) * rsum k (fun l => Rabs (fR (opm ta (val A s) i l)) * Rabs (fR (opm tb (val B s) l j))) + Rabs (coefR fR beta) * Rabs (fR (val C s i j)))
         + (1 + gam (k + 2) u) * (feta * (INR k * Rabs (fR alpha) + rsum k (fun l => Rabs (fR (opm ta (val A s) i l))) + INR k + 2))).
Proof.
  intros Hta Htb HA HB [HC1 HC2] HI HDA HDB Hu. apply runs_inv.
  assert (Ha : op3 ta = true) by (destruct ta; auto; congruence).
  assert (Hb : op3 tb = true) by (destruct tb; auto; congruence).
  eapply wp_conseq; [apply (gemm_run ta tb alpha A B beta C s m n k); auto| |auto].
  1: destruct ta; auto; congruence. 1: destruct tb; auto; congruence.
  intros [] s' He. eexists. split; [exact He|]. intros i j Hi Hj F. cbv beta in F |- *.
  set (a := fun l => opm ta (val A s) i l) in *. set (b := fun l => opm tb (val B s) l j) in *.
  assert (Z1 : 0 <= rsum k (fun l => Rabs (fR (a l)))) by (apply rsum_pos; intros; apply Rabs_pos).
  assert (Z2 := pos_INR k). assert (Z3 := Rabs_pos (fR alpha)). assert (Z4 := feta_pos).
  assert (Z5 : 0 <= INR k * Rabs (fR alpha)) by (apply Rmult_le_pos; lra).
  apply acc_gam; auto. 
  assert (V : gemm_val ta tb k alpha (val A s) (val B s) beta (val C s i j) i j = facc k (fun l => mul (a l) (mul alpha (b l))) (mulc (val C s i j) beta) \/
              gemm_val ta tb k alpha (val A s) (val B s) beta (val C s i j) i j = addc (mul alpha (sum k (fun l => mul (a l) (b l)))) beta (val C s i j)).
  { unfold gemm_val, a, b. destruct ta; cbn [opm]; [left; reflexivity|right; reflexivity| |congruence].
    right. destruct tb; auto; [|congruence]. cbn [opm]. rewrite fp_conj. do 2 f_equal. apply sum_same. intros. rewrite !fp_conj. auto. }
  destruct V as [V|V].
  - eapply acc_wk; [apply acc_axpys; left; exact V|lia|apply Rle_refl|]. apply Rmult_le_compat_l; lra.
  - eapply acc_wk; [apply acc_rowsum; exact V|lia|apply Rle_refl|]. apply Rmult_le_compat_l; lra.
Qed.

(** ** trsv: the computed solution solves a nearby triangular system, (op(A) + D) x = b + e, |D| <= gamma_n |op(A)| componentwise *)
Theorem trsv_backward_stable uplo o d A x s n : uplo = Upper \/ uplo = Lower ->
  shape A n n -> isvec x n -> vinj x -> disj A x -> INR n * u < 1 ->
  (d = NonUnit -> forall j, (j < n)%nat -> fin (val A s j j) /\ fR (val A s j j) <> 0) ->
  returns (trsv uplo o d A x) s (fun _ s' => exists F, veff x F s s' /\ forall i, (i < n)%nat -> fin (F i) ->
    exists (D : nat -> R) e, (forall l, (l < n)%nat -> Rabs (D l) <= gam n u * Rabs (fR (opm o (trim uplo d (val A s)) i l))) /\
      Rabs e <= (1 + gam n u) * feta * (INR n + Rabs (fR (opm o (trim uplo d (val A s)) i i))) /\
      rsum n (fun l => (fR (opm o (trim uplo d (val A s)) i l) + D l) * fR (F l)) = fR (vval x s i) + e).
Proof.
  intros Hu [HA1 HA2] [Hx1 Hx2] HI HD Hn Hd. apply runs_inv.
  eapply wp_conseq; [apply (trsv_err uplo o d A x s n); auto; destruct Hu as [-> | ->]; auto| |auto].
  intros [] s' (F & lo & hi & He & K). exists F. split; auto. intros i Hi Fi. destruct (K i Hi) as (K1 & K2 & K3).
  eapply eqn_back; eauto. lia.
Qed.

(** ** LU: the computed factors are the exact factors of a nearby matrix, |P A - L U| <= gamma_k |L||U| componentwise, whenever the
    pivots are finite (no growth of the error with the number of steps beyond gamma_k) *)
Theorem getrf_level0_backward_stable A piv s m n np : shape A m n -> vinj A -> isvec piv np -> vinj piv -> (Nat.min m n <= np)%nat ->
  INR (Nat.min m n) * u < 1 ->
  returns (getrf_level0 A piv) s (fun info s' => info = 0%Z ->
    exists ip, pivots m (Nat.min m n) piv s' ip /\ ((forall l, (l < Nat.min m n)%nat -> fin (val A s' l l)) ->
      let k := Nat.min m n in let L := fun i l => fR (trim Lower Unit (val A s') i l) in let U := fun l j => fR (trim Upper NonUnit (val A s') l j) in
      forall i j, (i < m)%nat -> (j < n)%nat -> fin (val A s' i j) ->
        Rabs (fR (interchange k ip (val A s) i j) - rsum k (fun l => L i l * U l j))
          <= gam k u * rsum k (fun l => Rabs (L i l) * Rabs (U l j)) + (1 + gam k u) * feta * (INR k + Rabs (fR (val A s' (Nat.min i j) (Nat.min i j)))))).
Proof.
  intros [HA1 HA2] HI [HP1 HP2] HPI Hk Hu. apply runs_inv.
  eapply wp_conseq; [apply (getrf_level0_err A piv s); auto; rewrite HA1, HA2, HP1; auto| |auto].
  intros info s' (F & g & He & Hg & K). cbv beta. intros Hinfo. destruct (K Hinfo) as (ip & Hip & HL). clear K. rewrite HA1, HA2 in *.
  destruct He as (E1 & _ & E2 & _). exists ip. split.
  - intros j Hj. rewrite E2, Hip by lia. split; auto. apply (proj1 HL). auto.
  - intros Hfin k L U i j Hi Hj Hf. rewrite E1 in Hf |- * by lia.
    assert (Tr : forall up d i j, (i < m)%nat -> (j < n)%nat -> trim up d (val A s') i j = trim up d F i j).
    { intros up d i' j' Hi' Hj'. unfold trim. rewrite E1 by lia. auto. }
    assert (Q := lu_cell m n k ip (val A s) F i j eq_refl HL Hu ltac:(intros l Hl; rewrite <- E1 by lia; auto) Hi Hj Hf).
    rewrite (rsum_ext k (fun l => L i l * U l j) (fun l => fR (trim Lower Unit F i l) * fR (trim Upper NonUnit F l j))) by (intros l Hl; unfold L, U; rewrite !Tr by lia; auto).
    rewrite (rsum_ext k (fun l => Rabs (L i l) * Rabs (U l j)) (fun l => Rabs (fR (trim Lower Unit F i l)) * Rabs (fR (trim Upper NonUnit F l j)))) by (intros l Hl; unfold L, U; rewrite !Tr by lia; auto).
    exact Q.
Qed.
End S.

(** ** Instances: IEEE double precision *)
(** the constants of the bounds for binary64 *)
Theorem binary64_constants : fu (E := FE) = / 2 ^ 53 /\ feta (E := FE) = / 2 ^ 1075.
Proof. split; [rewrite FE_fu, (Raux.bpow_opp _ 53)|rewrite FE_feta, (Raux.bpow_opp _ 1075)]; rewrite Raux.bpow_powerRZ; reflexivity. Qed.

Definition ex_x : view := vview (mklvec 3 0 1 Forward).
Definition ex_y : view := vview (mklvec 3 10 2 Backward).
Definition ex_T : view := lview (mklmat 3 3 100 3 ColMajor).
Definition ex_C : view := lview (mklmat 3 2 200 4 RowMajor).
Definition ex_T2 : view := lview (mklmat 2 3 300 3 ColMajor).
#[local] Hint Unfold ex_x ex_y ex_T ex_C ex_T2 opshape : exv.
(** a memory of binary64 numbers: 0.1 (not representable) everywhere *)
Definition ex_tenth : @state FE := mkst FE (fun _ => PrimFloat.div PrimFloat.one (PrimFloat.of_uint63 (Uint63.of_Z 10))) (fun _ => 0%Z).
Lemma small64 n : (n <= 1000)%nat -> INR n * fu (E := FE) < 1.
Proof.
  intros H. rewrite (proj1 binary64_constants). apply (Rle_lt_trans _ (1000 * / 2 ^ 53)).
  - apply Rmult_le_compat_r; [left; apply Rinv_0_lt_compat, pow_lt; lra|]. apply le_INR in H. rewrite (INR_IZR_INZ 1000) in H. exact H.
  - apply (Rmult_lt_reg_r (2 ^ 53)); [apply pow_lt; lra|]. rewrite Rmult_assoc, Rinv_l by (apply pow_nonzero; lra). rewrite Rmult_1_r, Rmult_1_l. 
    rewrite pow_IZR. apply IZR_lt. reflexivity.
Qed.
Example dot_binary64_example : exists r, dot (E := FE) ex_x ex_y ex_tenth = Ok r ex_tenth /\ fin (E := FE) r /\
  exists (d : nat -> R) e, (forall i, (i < 3)%nat -> Rabs (d i) <= gam 3 (fu (E := FE)) * Rabs (fR (vval ex_y ex_tenth i))) /\
    Rabs e <= (1 + gam 3 (fu (E := FE))) * (INR 3 * feta (E := FE)) /\
    fR (E := FE) r = rsum 3 (fun i => fR (E := FE) (vval ex_x ex_tenth i) * (fR (E := FE) (vval ex_y ex_tenth i) + d i)) + e.
Proof.
  destruct (dot_backward_stable (E := FE) ex_x ex_y ex_tenth 3) as (r & s' & Hr & -> & K); [exv|exv|apply small64; lia|].
  exists r. split; auto.
  assert (F : fin (E := FE) r).
  { assert (V : match dot (E := FE) ex_x ex_y ex_tenth with Ok r _ => BinarySingleNaN.is_finite (IEEE754.PrimFloat.Prim2B r) | _ => false end = true) by (vm_compute; reflexivity).
    rewrite Hr in V. exact V. }
  split; auto.
Qed.
Example trsv_binary64_example : exists F s', trsv (E := FE) Upper ConjTrans NonUnit ex_T ex_x ex_tenth = Ok tt s' /\ veff ex_x F ex_tenth s' /\ fin (E := FE) (F 2%nat) /\
  exists (D : nat -> R) e, (forall l, (l < 3)%nat -> Rabs (D l) <= gam 3 (fu (E := FE)) * Rabs (fR (opm ConjTrans (trim Upper NonUnit (val ex_T ex_tenth)) 2%nat l))) /\
      Rabs e <= (1 + gam 3 (fu (E := FE))) * feta (E := FE) * (INR 3 + Rabs (fR (opm ConjTrans (trim Upper NonUnit (val ex_T ex_tenth)) 2%nat 2%nat))) /\
      rsum 3 (fun l => (fR (opm ConjTrans (trim Upper NonUnit (val ex_T ex_tenth)) 2%nat l) + D l) * fR (E := FE) (F l)) = fR (E := FE) (vval ex_x ex_tenth 2%nat) + e.
Proof.
  assert (F1 : fin (E := FE) (val ex_T ex_tenth 0%nat 0%nat)) by (vm_compute; reflexivity).
  assert (P : 0 < fR (E := FE) (val ex_T ex_tenth 0%nat 0%nat)).
  { rewrite <- (fR_0 (E := FE)). apply (fp_ltb (E := FE)); [apply fin_0|exact F1|]. vm_compute. reflexivity. }
  destruct (trsv_backward_stable (E := FE) Upper ConjTrans NonUnit ex_T ex_x ex_tenth 3) as ([] & s' & Hr & F & He & K); [auto|exv|exv|exv|exv|apply small64; lia| |].
  { intros _ j Hj. change (val ex_T ex_tenth j j) with (val ex_T ex_tenth 0%nat 0%nat). split; [exact F1|lra]. }
  exists F, s'. split; auto. split; auto.
  assert (F2 : fin (E := FE) (F 2%nat)).
  { assert (V : match trsv (E := FE) Upper ConjTrans NonUnit ex_T ex_x ex_tenth with Ok _ s' => BinarySingleNaN.is_finite (IEEE754.PrimFloat.Prim2B (vval ex_x s' 2%nat)) | _ => false end = true) by (vm_compute; reflexivity).
    rewrite Hr in V. destruct He as [He _]. rewrite <- (He 2%nat) by (cbn; lia). exact V. }
  split; auto.
Qed.
Example gemm_binary64_example : exists F s', gemm (E := FE) NoTrans Trans (one (Env := FE)) ex_T ex_T2 (Sc (one (Env := FE))) ex_C ex_tenth = Ok tt s' /\ eff ex_C F ex_tenth s' /\
  forall i j, (i < 3)%nat -> (j < 2)%nat -> fin (E := FE) (F i j) ->
    Rabs (fR (F i j) - (fR (one (Env := FE)) * rsum 3 (fun l => fR (val ex_T ex_tenth i l) * fR (val ex_T2 ex_tenth j l)) + fR (one (Env := FE)) * fR (val ex_C ex_tenth i j)))
      <= gam 5 (fu (E := FE)) * (Rabs (fR (one (Env := FE))) * rsum 3 (fun l => Rabs (fR (val ex_T ex_tenth i l)) * Rabs (fR (val ex_T2 ex_tenth j l))) + Rabs (fR (one (Env := FE))) * Rabs (fR (val ex_C ex_tenth i j)))
         + (1 + gam 5 (fu (E := FE))) * (feta (E := FE) * (INR 3 * Rabs (fR (one (Env := FE))) + rsum 3 (fun l => Rabs (fR (val ex_T ex_tenth i l))) + INR 3 + 2)).
Proof.
  destruct (gemm_rounding_error (E := FE) NoTrans Trans (one (Env := FE)) ex_T ex_T2 (Sc (one (Env := FE))) ex_C ex_tenth 3 2 3) as ([] & s' & Hr & F & He & K); [congruence|congruence|exv|exv|exv|exv|exv|exv|apply small64; lia|].
  exists F, s'. auto.
Qed.

(** a 3x3 matrix of binary64 numbers factored with row interchanges; the factorization is inexact (multipliers 1/3, ...) *)
Definition ex_P : view := vview (mklvec 3 7 1 Forward).
#[local] Hint Unfold ex_P : exv.
Definition ex_lu : @state FE := mkst FE (fun l => PrimFloat.of_uint63 (Uint63.of_Z ((l * l) mod 11)%Z)) (fun _ => 0%Z).
Example getrf_binary64_example : exists s' ip, getrf_level0 (E := FE) ex_T ex_P ex_lu = Ok 0%Z s' /\ pivots 3 3 ex_P s' ip /\
  forall i j, (i < 3)%nat -> (j < 3)%nat ->
    let L := fun i l => fR (E := FE) (trim Lower Unit (val ex_T s') i l) in let U := fun l j => fR (E := FE) (trim Upper NonUnit (val ex_T s') l j) in
    Rabs (fR (E := FE) (interchange 3 ip (val ex_T ex_lu) i j) - rsum 3 (fun l => L i l * U l j))
     <= gam 3 (fu (E := FE)) * rsum 3 (fun l => Rabs (L i l) * Rabs (U l j))
        + (1 + gam 3 (fu (E := FE))) * feta (E := FE) * (INR 3 + Rabs (fR (E := FE) (val ex_T s' (Nat.min i j) (Nat.min i j)))).
Proof.
  destruct (getrf_level0_backward_stable (E := FE) ex_T ex_P ex_lu 3 3 3) as (info & s' & Hr & K); [exv|exv|exv|exv|cbn; lia|apply small64; cbn; lia|].
  assert (V : match getrf_level0 (E := FE) ex_T ex_P ex_lu with Ok i s' => (i =? 0)%Z && forallb (fun i => forallb (fun j => BinarySingleNaN.is_finite (IEEE754.PrimFloat.Prim2B (val ex_T s' i j))) (0 :: 1 :: 2 :: nil)%nat) (0 :: 1 :: 2 :: nil)%nat | _ => false end = true) by (vm_compute; reflexivity).
  rewrite Hr in V. apply andb_true_iff in V. destruct V as [V1 V2]. apply Z.eqb_eq in V1. subst info. destruct (K eq_refl) as (ip & Hp & Q).
  exists s', ip. split; auto. split; auto. rewrite forallb_forall in V2.
  assert (Fin : forall i j, (i < 3)%nat -> (j < 3)%nat -> fin (E := FE) (val ex_T s' i j)).
  { intros i j Hi Hj. assert (W := V2 i ltac:(destruct i as [|[|[|]]]; cbn; auto; lia)). rewrite forallb_forall in W. apply (W j). destruct j as [|[|[|]]]; cbn; auto; lia. }
  intros i j Hi Hj. apply (Q ltac:(intros l Hl; apply Fin; auto) i j Hi Hj). auto.
Qed.
