(** * C05, C20, C23, C37 in floating-point arithmetic

    The exact-arithmetic theorems say what iamax and getrf compute; here: what they do in every arithmetic, in particular on
    binary64 matrices with NaN and infinities.  getrf terminates, stays in bounds, changes nothing but A and the first min(m,n)
    pivots, and on success every pivot is a row index in [j, m). *)
From Coq Require Import Bool Arith ZArith Lia Floats.
From Verif.Core Require Import Scalar Prog View Slice Loops IVec Rel Instances FloatOrd.
From Verif.Spec Require Import LinAlg LU Outcome.
From Verif.Model Require Import Gemm Blas1 Blas2 Blas3 LaAux Triangular LU Legacy.
From Verif.Proof Require Import RelTac TwoRunsX IamaxProof GetrfRecProof LUSafe GetriRel.
From Coq Require Import List. Import ListNotations.
From Verif.Properties Require Import ExTac Blas1.
Local Open Scope nat_scope.

Section S.
Context {E : Env}.
Implicit Types (A piv : view) (s : state).
(** -1 is below the magnitude of every finite number *)
Definition magnitudes_above_m1 (absf : T -> T) : Prop :=
  forall a : T, isnan a = false -> isinf a = false -> ltb (opp one) (absf a) = true \/ (cplx = true /\ isinf (absf a) = true).
Theorem getrf_safe v sm sM q4 nan A piv s m n np : (v = RecursiveLU -> magnitudes_above_m1 absv) ->
  shape A m n -> vinj A -> isvec piv np -> vinj piv -> Nat.min m n <= np ->
  returns (getrf v sm sM q4 nan A piv) s (fun info s' =>
    (0 <= info <= Z.of_nat (Nat.min m n))%Z /\
    (forall l, ~ inview A l -> mem s' l = mem s l) /\ (forall l, ~ first_entries piv (Nat.min m n) l -> imem s' l = imem s l) /\
    (info = 0%Z -> exists ip, pivots m (Nat.min m n) piv s' ip)).
Proof.
  intros HM [HA1 HA2] HI [HP1 HP2] HPI Hk.
  assert (R : wp (getrf v sm sM q4 nan A piv) (lusafe A piv s) noX s).
  { destruct v; cbn [getrf]; [apply getrf_level0_safe|apply getrf_recursive_f_safe]; auto; try (rewrite HA1, HA2, HP1; auto); first [apply HM; auto|lia]. }
  apply runs_inv. eapply wp_conseq; [exact R| |auto]. intros info s' (g & (H1 & H2 & H3) & H4 & H5 & H6). rewrite HA1, HA2 in *.
  split; auto. split; auto. split.
  - intros l Hl. destruct (inview_dec piv l) as [(i & j & Hi & Hj & ->)|Hn]; auto. assert (j = 0) by lia. subst j.
    change (ival piv s' i = ival piv s i). rewrite H2 by auto. apply H4. split; auto. destruct (Nat.le_gt_cases (Nat.min m n) i); auto. exfalso. apply Hl. exists i. auto.
  - intros e. destruct (H6 e) as (ip & Hip). exists ip. intros j Hj. destruct (Hip j Hj) as [K1 K2]. split; auto. rewrite H2, K1 by lia. auto.
Qed.
(** getri, for any arithmetic: with pivots in range it terminates (returning, or raising the library's runtime error) and changes
    nothing but A and the workspace; the pivot vector is only read *)
Theorem getri_by_uxli_safe W A piv ip s n np : 0 < n -> shape A n n -> isvec W (n - 1) -> isvec piv np -> n <= np -> pivots n n piv s ip ->
  completes (getri (UXLI W) A piv) s (fun s' => only_changes (fun l => inview A l \/ inview W l) s s').
Proof.
  intros Hn [HA1 HA2] [HW1 HW2] [HP1 HP2] Hk Hip.
  assert (R := safe_run_l Z [(A, everywhere); (W, everywhere)] (getri (UXLI W) A piv) s).
  assert (K : completes (getri (UXLI W) A piv) s (fun s' => only_changes (cells_l [(A, everywhere); (W, everywhere)]) s s')).
  { apply R. intros R0 RD WR IM. apply (getri_swaps_rr R0 A A piv piv ip); try rewrite HA1; try rewrite HP1; try rewrite HP2; auto.
    - apply WR. left; auto.
    - intros j Hj. destruct (Hip j Hj); lia.
    - intros u1 u2 j Hu Hj. destruct (IM _ _ Hu) as [e1 e2]. destruct (Hip j Hj) as [K _]. split; unfold ival; rewrite ?e1, ?e2; exact K.
    - split; [auto|]. split; [auto|]. split; [auto|]. split; [|auto]. apply WR. right; left; auto. }
  destruct K as [(a & s' & K1 & K2)|(a & s' & K1 & K2)]; [left|right]; exists a, s'; (split; [auto|]); destruct K2 as [F1 F2]; split; auto; intros l Hl; apply F1;
    intros (C & w & [e|[e|[]]] & i & j & Hi & Hj & _ & ->); inversion e; subst; apply Hl; [left|right|left|right]; exists i, j; auto.
Qed.
Theorem getri_by_uili_safe A piv ip s n np : 0 < n -> shape A n n -> isvec piv np -> n <= np -> pivots n n piv s ip ->
  completes (getri UILI A piv) s (fun s' => only_changes (inview A) s s').
Proof.
  intros Hn [HA1 HA2] [HP1 HP2] Hk Hip.
  assert (R := safe_run_l Z [(A, everywhere)] (getri UILI A piv) s).
  assert (K : completes (getri UILI A piv) s (fun s' => only_changes (cells_l [(A, everywhere)]) s s')).
  { apply R. intros R0 RD WR IM. apply (getri_swaps_rr R0 A A piv piv ip); try rewrite HA1; try rewrite HP1; try rewrite HP2; auto.
    - apply WR. left; auto.
    - intros j Hj. destruct (Hip j Hj); lia.
    - intros u1 u2 j Hu Hj. destruct (IM _ _ Hu) as [e1 e2]. destruct (Hip j Hj) as [K _]. split; unfold ival; rewrite ?e1, ?e2; exact K. }
  destruct K as [(a & s' & K1 & K2)|(a & s' & K1 & K2)]; [left|right]; exists a, s'; (split; [auto|]); destruct K2 as [F1 F2]; split; auto; intros l Hl; apply F1;
    intros (C & w & [e|[]] & i & j & Hi & Hj & _ & ->); inversion e; subst; apply Hl; exists i, j; auto.
Qed.
End S.

(** ** binary64 *)
Lemma fabs_nan (a : @T FE) : isnan a = false -> isnan (Env := FE) (PrimFloat.abs a) = false.
Proof.
  cbn. unfold PrimFloat.is_nan. rewrite !FloatAxioms.eqb_spec, FloatAxioms.abs_spec. unfold SFeqb, SFcompare, SFabs.
  destruct (Prim2SF a) as [[]|[]| |[] m e]; cbn; try discriminate; auto; rewrite Z.compare_refl, Pos.compare_refl; auto.
Qed.
Lemma fabs_above (a : @T FE) : isnan a = false -> ltb (Env := FE) (opp (one (Env := FE))) (PrimFloat.abs a) = true.
Proof.
  cbn. unfold PrimFloat.is_nan. rewrite FloatAxioms.eqb_spec, FloatAxioms.ltb_spec, FloatAxioms.abs_spec. 
  replace (Prim2SF (- PrimFloat.one)%float) with (S754_finite true 4503599627370496 (-52)) by (vm_compute; reflexivity).
  unfold SFeqb, SFcompare, SFabs, SFltb. destruct (Prim2SF a) as [[]|[]| |[] m e]; cbn; try discriminate; auto.
Qed.
Theorem getrf_binary64 v sm sM q4 nan A piv (s : @state FE) m n np :
  shape A m n -> vinj A -> isvec piv np -> vinj piv -> Nat.min m n <= np ->
  returns (getrf v sm sM q4 nan A piv) s (fun info s' =>
    (0 <= info <= Z.of_nat (Nat.min m n))%Z /\
    (forall l, ~ inview A l -> mem s' l = mem s l) /\ (forall l, ~ first_entries piv (Nat.min m n) l -> imem s' l = imem s l) /\
    (info = 0%Z -> exists ip, pivots m (Nat.min m n) piv s' ip)).
Proof. intros. apply (getrf_safe (E := FE) v sm sM q4 nan A piv s m n np); auto. intros _ a Na _. left. apply fabs_above. auto. Qed.
(** iamax on finite binary64 vectors: the first position of the largest magnitude *)
Theorem iamax_binary64 q nancheck x (s : @state FE) n : isvec x n -> 0 < n ->
  (forall j, j < n -> isnan (vval x s j) = false /\ isinf (vval x s j) = false) ->
  returns (iamax q nancheck (abs1 (Env := FE)) x) s (fun r s' => s' = s /\ exists k, r = Some k /\ k < n /\
    (forall j, j < n -> ltb (abs1 (vval x s k)) (abs1 (vval x s j)) = false) /\
    (forall j, j < k -> ltb (abs1 (vval x s j)) (abs1 (vval x s k)) = true)).
Proof.
  intros Hx Hn HF.
  assert (N : forall j, j < n -> isnan (Env := FE) (abs1 (Env := FE) (vval x s j)) = false) by (intros j Hj; apply fabs_nan, HF; auto).
  apply iamax_core; auto.
  - split.
    + intros a Ha. destruct (ltb _ _) eqn:J; auto. rewrite <- J. apply fltb_asym; auto.
    + intros a b c Ha Hb Hc. split; apply f_weak_order; auto.
  - discriminate.
  - intros j Hj. apply fabs_above, HF; auto.
Qed.

(** ** Concrete cases: a matrix with a NaN in its first column *)
Definition exF : view := lview (mklmat 3 2 100 4 ColMajor).
Definition exFP : view := vview (mklvec 2 7 1 Forward).
#[local] Hint Unfold exF exFP : exv.
Definition exF_s : @state FE := mkst FE (fun l => match l with 100 => 3 | 101 => nan | 104 => 5 | 105 => infinity | _ => 1 end%float)%Z (fun _ => 0%Z).
Example getrf_binary64_example v : returns (getrf (E := FE) v 0x1p-1022%float 0x1p+1022%float 0.25%float true exF exFP) exF_s (fun info s' =>
  info = 0%Z /\ exists ip, pivots (E := FE) 3 2 exFP s' ip).
Proof.
  destruct (getrf_binary64 v 0x1p-1022%float 0x1p+1022%float 0.25%float true exF exFP exF_s 3 2 2) as (info & s' & K & _ & _ & _ & P); try exv; try reflexivity.
  exists info, s'. split; auto. assert (info = 0%Z); [|split; auto]. 
  assert (V : match getrf (E := FE) v 0x1p-1022%float 0x1p+1022%float 0.25%float true exF exFP exF_s with Ok i _ => i | _ => 1%Z end = 0%Z) by (destruct v; vm_compute; reflexivity).
  rewrite K in V. auto.
Qed.
Definition exF_x : view := vview (mklvec 3 200 1 Forward).
#[local] Hint Unfold exF_x : exv.
Example iamax_binary64_example : returns (iamax (E := FE) 0.25%float true (abs1 (Env := FE)) exF_x) exF_s (fun r s' => s' = exF_s /\ exists k, r = Some k /\ k < 3).
Proof.
  destruct (iamax_binary64 0.25%float true exF_x exF_s 3) as (r & s' & K & -> & k & -> & Hk & _); [exv|lia| |].
  - intros j Hj. destruct j as [|[|[|]]]; try lia; split; vm_compute; reflexivity.
  - exists (Some k), exF_s. split; auto. split; auto. exists k. auto.
Qed.
(** inverting with an infinite entry *)
Definition exFA : view := lview (mklmat 2 2 100 4 ColMajor).
Definition exFW : view := vview (mklvec 1 300 1 Forward).
#[local] Hint Unfold exFA exFW : exv.
Definition exF_s1 : @state FE := mkst FE (mem exF_s) (fun _ => 1%Z).
Example getri_safe_example : completes (getri (E := FE) (UXLI exFW) exFA exFP) exF_s1 (fun s' => only_changes (fun l => inview exFA l \/ inview exFW l) exF_s1 s') /\
  completes (getri (E := FE) UILI exFA exFP) exF_s1 (fun s' => only_changes (inview exFA) exF_s1 s').
Proof.
  assert (P : pivots (E := FE) 2 2 exFP exF_s1 (fun _ => 1)) by (intros j Hj; split; [reflexivity|lia]).
  split; [apply (getri_by_uxli_safe (E := FE) exFW exFA exFP (fun _ => 1) exF_s1 2 2)|apply (getri_by_uili_safe (E := FE) exFA exFP (fun _ => 1) exF_s1 2 2)]; try exv; auto; lia.
Qed.
