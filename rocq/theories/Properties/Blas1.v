(** * C04, C05, C35 (rot, rotm): level-1 BLAS *)
From Coq Require Import Bool Arith ZArith Lia Reals.
From Verif.Core Require Import Scalar Prog View Instances.
From Verif.Spec Require Import LinAlg Outcome.
From Verif.Model Require Import Blas1 Legacy.
From Verif.Properties Require Import ExTac.
From Verif.Proof Require Import SumLemmas Blas1Proof IamaxProof.
Local Open Scope T_scope.

(** concrete vectors used by the examples: x has 3 elements with stride 2 at address 0, y has 3
    elements stored backwards with stride -1, at addresses 20..18 *)
Definition ex_x : view := vview (mklvec 3 0 2 Forward).
Definition ex_y : view := vview (mklvec 3 20 (-1) Forward).
#[global] Hint Unfold ex_x ex_y : exv.
Lemma ex_x_inj : vinj ex_x.
Proof. exv. Qed.
Lemma ex_y_inj : vinj ex_y.
Proof. exv. Qed.
Lemma ex_xy : disj ex_x ex_y.
Proof. exv. Qed.

Section S.
Context {E : Env}.
Implicit Types (x y : view) (s : state).

Theorem axpy_correct alpha x y s n : isvec x n -> isvec y n -> vinj y -> disj x y ->
  returns (axpy alpha x y) s (fun _ s' => veff y (fun i => vval y s i + alpha * vval x s i) s s').
Proof.
  intros [H1 H2] [H3 H4] HI HD. apply runs_inv. eapply wp_conseq; [apply axpy_run; auto; lia| |auto].
  intros a s' (K1 & K2). split; auto. intros i Hi. rewrite K1 by auto.
  destruct (Nat.ltb_spec i (nr x)); auto; lia.
Qed.
Theorem copy_correct x y s n : isvec x n -> isvec y n -> vinj y -> disj x y ->
  returns (copy x y) s (fun _ s' => veff y (vval x s) s s').
Proof.
  intros [H1 H2] [H3 H4] HI HD. apply runs_inv. eapply wp_conseq; [apply copy_run; auto; lia| |auto].
  intros a s' (K1 & K2). split; auto. intros i Hi. rewrite K1 by auto.
  destruct (Nat.ltb_spec i (nr x)); auto; lia.
Qed.
(** the check only rejects a [y] shorter than [x]; on a longer one the first entries are updated *)
Theorem axpy_copy_longer_y alpha x y s n n' : isvec x n -> isvec y n' -> (n <= n')%nat -> vinj y -> disj x y ->
  returns (axpy alpha x y) s
    (fun _ s' => veff y (fun i => if (i <? n)%nat then vval y s i + alpha * vval x s i else vval y s i) s s') /\
  returns (copy x y) s
    (fun _ s' => veff y (fun i => if (i <? n)%nat then vval x s i else vval y s i) s s').
Proof.
  intros [H1 H2] [H3 H4] Hn HI HD. split; apply runs_inv; [rewrite <- H1; apply axpy_run|rewrite <- H1; apply copy_run]; auto; lia.
Qed.
Theorem scal_correct alpha x s n : isvec x n -> vinj x ->
  returns (scal alpha x) s (fun _ s' => veff x (fun i => vval x s i * alpha) s s').
Proof. intros [H1 H2] HI. apply runs_inv, scal_run; auto. Qed.
Theorem swap_correct x y s n : isvec x n -> isvec y n -> vinj x -> vinj y -> disj x y ->
  returns (swap x y) s (fun _ s' => veff2 x (vval y s) y (vval x s) s s').
Proof. intros [H1 H2] [H3 H4] HI HJ HD. apply runs_inv, swap_run; auto; lia. Qed.
Theorem dot_correct x y s n : isvec x n -> isvec y n ->
  returns (dot x y) s (fun r s' => r = sum n (fun i => conj (vval x s i) * vval y s i) /\ s' = s).
Proof. intros [H1 H2] [H3 H4]. apply runs_inv. rewrite <- H1. apply dot_run; auto; lia. Qed.
Theorem dotu_correct x y s n : isvec x n -> isvec y n ->
  returns (dotu x y) s (fun r s' => r = sum n (fun i => vval x s i * vval y s i) /\ s' = s).
Proof. intros [H1 H2] [H3 H4]. apply runs_inv. rewrite <- H1. apply dotu_run; auto; lia. Qed.
Theorem asum_correct x s n : isvec x n ->
  returns (asum x) s (fun r s' => r = sum n (fun i => abs1 (vval x s i)) /\ s' = s).
Proof. intros [H1 H2]. apply runs_inv. rewrite <- H1. apply asum_run; auto; lia. Qed.

(** ** C05 iamax *)
(** [i] is the first position of a largest magnitude: Proof.IamaxProof.first_max, restated here *)
Lemma first_max_unfold absf f n i : first_max absf f n i <->
  (i < n)%nat /\ (forall j, (j < n)%nat -> ltb (absf (f i)) (absf (f j)) = false) /\
  (forall j, (j < i)%nat -> ltb (absf (f j)) (absf (f i)) = true).
Proof. reflexivity. Qed.

(** any NaN: the first one is returned (any arithmetic, including IEEE) *)
Theorem iamax_nan q absf x s n : isvec x n -> (exists j, (j < n)%nat /\ isnan (vval x s j) = true) ->
  returns (iamax q true absf x) s (fun r s' => s' = s /\ exists k, r = Some k /\ (k < n)%nat /\
    isnan (vval x s k) = true /\ forall j, (j < k)%nat -> isnan (vval x s j) = false).
Proof.
  intros [H1 H2] (j & Hj & Hnan). apply runs_inv. unfold iamax.
  eapply wp_conseq; [apply iamax_ec_run; auto; lia| |auto].
  intros r s' [-> [(k & -> & ? & ? & ?)|[[H _]|[H _]]]]; split; auto.
  - exists k; repeat split; auto; lia.
  - rewrite H in Hnan by lia. discriminate.
  - destruct (H j) as [H' _]; [lia|]. rewrite H' in Hnan. discriminate.
Qed.
(** no NaN but some infinity: the first infinity is returned *)
Theorem iamax_inf q absf x s n : isvec x n -> (forall j, (j < n)%nat -> isnan (vval x s j) = false) ->
  (exists j, (j < n)%nat /\ isinf (vval x s j) = true) ->
  forall nancheck, returns (iamax q nancheck absf x) s (fun r s' => s' = s /\ exists k, r = Some k /\ (k < n)%nat /\
    isinf (vval x s k) = true /\ forall j, (j < k)%nat -> isinf (vval x s j) = false).
Proof.
  intros [H1 H2] Hn (j & Hj & Hinf) nancheck. apply runs_inv. unfold iamax. destruct nancheck.
  - eapply wp_conseq; [apply iamax_ec_run; auto; lia| |auto].
    intros r s' [-> [(k & -> & ? & Hk & ?)|[[_ (k & -> & ? & ? & ?)]|[H _]]]]; split; auto.
    + rewrite Hn in Hk by lia. discriminate.
    + exists k; repeat split; auto; lia.
    + destruct (H j) as [_ H']; [lia|]. rewrite H' in Hinf. discriminate.
  - eapply wp_conseq; [apply iamax_nc_run; auto; lia| |auto].
    intros r s' [-> [(k & -> & ? & ? & ?)|[H _]]]; split; auto.
    + exists k; repeat split; auto; lia.
    + rewrite H in Hinf by lia. discriminate.
Qed.
(** all entries finite, magnitudes do not overflow: first position of the largest magnitude *)
Lemma iamax_core q nancheck absf x s n : ia_order absf (vval x s) n -> isvec x n -> (0 < n)%nat ->
  (forall j, (j < n)%nat -> isnan (vval x s j) = false /\ isinf (vval x s j) = false) ->
  (cplx = true -> forall j, (j < n)%nat -> isinf (absf (vval x s j)) = false) ->
  (forall j, (j < n)%nat -> ltb (- one) (absf (vval x s j)) = true) ->
  returns (iamax q nancheck absf x) s (fun r s' => s' = s /\ exists k, r = Some k /\ first_max absf (vval x s) n k).
Proof.
  intros OL [H1 H2] Hpos Hfin Hov Habs. apply runs_inv. unfold iamax. subst n. destruct nancheck.
  - eapply wp_conseq; [apply iamax_ec_run; auto; lia| |auto].
    intros r s' [-> [(k & -> & ? & Hk & ?)|[[_ (k & -> & ? & Hk & ?)]|[H H']]]]; split; auto.
    + destruct (Hfin k) as [H' _]; [lia|]. rewrite H' in Hk. discriminate.
    + destruct (Hfin k) as [_ H']; [lia|]. rewrite H' in Hk. discriminate.
  - eapply wp_conseq; [apply iamax_nc_run; auto; lia| |auto].
    intros r s' [-> [(k & -> & ? & Hk & ?)|[H H']]]; split; auto.
    destruct (Hfin k) as [_ H']; [lia|]. rewrite H' in Hk. discriminate.
Qed.
Theorem iamax_correct {OL : OrdLaws E} q nancheck absf x s n : isvec x n -> (0 < n)%nat ->
  (forall j, (j < n)%nat -> isnan (vval x s j) = false /\ isinf (vval x s j) = false) ->
  (cplx = true -> forall j, (j < n)%nat -> isinf (absf (vval x s j)) = false) ->
  (forall j, (j < n)%nat -> ltb (- one) (absf (vval x s j)) = true) ->
  returns (iamax q nancheck absf x) s (fun r s' => s' = s /\ exists k, r = Some k /\ first_max absf (vval x s) n k).
Proof. apply iamax_core, ia_order_laws. Qed.
(** in every arithmetic (NaN or not) in which -1 is below the magnitude of every finite number: an index in range *)
Theorem iamax_in_range q nancheck absf x s n :
  (forall a : T, isnan a = false -> isinf a = false -> ltb (- one) (absf a) = true \/ (cplx = true /\ isinf (absf a) = true)) ->
  isvec x n -> (0 < n)%nat -> returns (iamax q nancheck absf x) s (fun r s' => s' = s /\ exists k, r = Some k /\ (k < n)%nat).
Proof. intros HM [H1 H2] Hn. subst n. apply runs_inv. apply iamax_range; auto. Qed.
Theorem iamax_empty q nancheck absf x s : isvec x 0 -> returns (iamax q nancheck absf x) s (fun r s' => r = Some 0%nat /\ s' = s).
Proof. intros [H1 H2]. exists (Some 0%nat), s. unfold iamax, iamax_ec, iamax_nc. rewrite H1. destruct nancheck; auto. Qed.

(** ** C35 (first part): rot and rotm *)
Section Rot.
Context {FL : FieldLaws E}.
Add Field Tf : fth.
(** [rot] applies [[c s] [-conj(s) c]] to every pair; the shortcut for the identity rotation (c = 1, s = 0)
    is right when 1*a + 0*b = a, 1*b - conj 0*a = b *)
Theorem rot_correct {CL : ConjLaws E} {EL : EqbLaws E} x y c sn s n :
  isvec x n -> isvec y n -> vinj x -> vinj y -> disj x y ->
  returns (rot x y c sn) s (fun _ s' =>
    veff2 x (fun i => c * vval x s i + sn * vval y s i) y (fun i => c * vval y s i - conj sn * vval x s i) s s').
Proof.
  intros [H1 H2] [H3 H4] HI HJ HD. apply runs_inv. apply rot_run; auto; [lia|].
  intros He a b. apply andb_prop in He as [He1 He2]. apply eqb_spec in He1, He2. subst.
  rewrite conj_0. split; ring.
Qed.
(** [rotm] applies the 2-by-2 matrix H selected by the flag (BLAS definition) *)
Definition rotm_H (flag : Z) (h0 h1 h2 h3 : T) : T * T * T * T :=
  if Z.eqb flag (-1) then (h0, h2, h1, h3) else if Z.eqb flag 0 then (one, h2, h1, one)
  else if Z.eqb flag 1 then (h0, one, - one, h3) else (one, zero, zero, one).
Theorem rotm_correct flag x y h0 h1 h2 h3 s n :
  isvec x n -> isvec y n -> vinj x -> vinj y -> disj x y ->
  returns (rotm flag x y h0 h1 h2 h3) s (fun _ s' =>
    let '(h11, h12, h21, h22) := rotm_H flag h0 h1 h2 h3 in
    veff2 x (fun i => h11 * vval x s i + h12 * vval y s i) y (fun i => h21 * vval x s i + h22 * vval y s i) s s').
Proof.
  intros [H1 H2] [H3 H4] HI HJ HD. apply runs_inv. eapply wp_conseq; [apply rotm_run; auto; lia| |auto].
  intros a s' (K1 & K2 & K3). unfold rotm_H, rotm_x, rotm_y in *.
  destruct (Z.eqb flag (-1)); [|destruct (Z.eqb flag 0); [|destruct (Z.eqb flag 1)]].
  all: split; [|split; [|exact K3]].
  all: intros i Hi; first [rewrite K1 by auto | rewrite K2 by auto].
  all: ring.
Qed.
End Rot.
End S.

Definition cpx (a b : R) : @T CE := (a, b).
(** non-vacuity: the hypotheses hold for concrete strided vectors over the complex numbers *)
Example axpy_example (s : @state CE) : returns (axpy (E:=CE) (cpx 2 1) ex_x ex_y) s
  (fun _ s' => veff ex_y (fun i => vval ex_y s i + (cpx 2 1) * vval ex_x s i) s s').
Proof. apply (axpy_correct (E:=CE) _ _ _ _ 3); [split; auto|split; auto|apply ex_y_inj|apply ex_xy]. Qed.
Example rot_example (s : @state CE) : returns (rot (E:=CE) ex_x ex_y (cpx 0.6 0) (cpx 0 0.8)) s
  (fun _ s' => veff2 ex_x (fun i => (cpx 0.6 0) * vval ex_x s i + (cpx 0 0.8) * vval ex_y s i)
                ex_y (fun i => (cpx 0.6 0) * vval ex_y s i - conj (Env:=CE) (cpx 0 0.8) * vval ex_x s i) s s').
Proof. apply (rot_correct (E:=CE) _ _ _ _ _ 3); [split; auto|split; auto|apply ex_x_inj|apply ex_y_inj|apply ex_xy]. Qed.
Example iamax_example (s : @state RE) : exists k, (k < 3)%nat /\
  returns (iamax (E:=RE) (/4)%R true Rabs ex_x) s (fun r s' => r = Some k /\ s' = s).
Proof.
  destruct (iamax_correct (E:=RE) (/4)%R true Rabs ex_x s 3) as (r & s' & H1 & H2 & k & H3 & H4); try (split; auto; fail); try lia.
  - intros j Hj. apply Rltb_t. pose proof (Rabs_pos (vval (E:=RE) ex_x s j)). cbn. Lra.lra.
  - exists k. split; [apply H4|]. exists r, s'. auto.
Qed.
