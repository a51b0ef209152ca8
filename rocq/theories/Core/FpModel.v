(** * Floating-point arithmetic: the standard model of rounding, with gradual underflow

    [FpModel E] says how far the operations of [E] may be from the real-number operations, for results that
    did not overflow: [fin a] holds of the finite values, [fR a] is the real number a finite value stands for, [fu] the
    unit roundoff and [feta] the largest underflow error.  Each operation with a finite result has finite operands and
    errs by at most [fu] times the exact result, and by at most [fu] times the computed result, plus [feta]
    where underflow can occur (products and quotients).  Overflow and NaN need no hypothesis: an operation that does not give
    a finite result is not described.

    Instances: IEEE binary64 with rounding to nearest ([FE], proved from Flocq's [Bplus_correct] etc.; [fu] = 2^-53,
    [feta] = 2^-1075) and exact real arithmetic ([fu] = [feta] = 0). *)
From Coq Require Import Bool Arith ZArith Reals Lra Lia Psatz.
From Flocq Require Import Core.Core Relative Plus_error Div_sqrt_error IEEE754.BinarySingleNaN.
From Flocq Require IEEE754.PrimFloat.
From Coq Require Floats.PrimFloat FloatOps FloatAxioms SpecFloat.
From Verif.Core Require Import Scalar Instances Quiet.
Local Open Scope R_scope.

(** [y] is the number [x], rounded *)
Definition rounded (u eta x y : R) : Prop :=
  Rabs (y - x) <= u * Rabs x + eta /\ Rabs (y - x) <= u * Rabs y + eta.

Class FpModel (E : Env) := {
  fR : T -> R;
  fin : T -> Prop;
  fu : R;
  feta : R;
  fu_pos : 0 <= fu;
  feta_pos : 0 <= feta;
  fin_0 : fin zero;
  fR_0 : fR zero = 0;
  fR_1 : fR one = 1;
  fp_add : forall a b, fin (add a b) -> fin a /\ fin b /\ rounded fu 0 (fR a + fR b) (fR (add a b));
  fp_sub : forall a b, fin (sub a b) -> fin a /\ fin b /\ rounded fu 0 (fR a - fR b) (fR (sub a b));
  fp_mul : forall a b, fin (mul a b) -> fin a /\ fin b /\ rounded fu feta (fR a * fR b) (fR (mul a b));
  fp_div : forall a b, fin (div a b) -> fin b -> fR b <> 0 -> fin a /\ rounded fu feta (fR a / fR b) (fR (div a b));
  fp_sqrt : forall a, fin (sqrtv a) -> fin a /\ rounded fu 0 (sqrt (fR a)) (fR (sqrtv a));
  fp_ltb : forall a b, fin a -> fin b -> (ltb a b = true <-> fR a < fR b);
  fp_eqb : forall a b, fin a -> fin b -> (eqb a b = true <-> fR a = fR b);
  fp_opp : forall a, fin (opp a) -> fin a /\ fR (opp a) = - fR a;
  fp_0_add : forall a, fin (add zero a) -> fR (add zero a) = fR a;
  fp_conj : forall a, conj a = a;
  fp_re : forall a, re a = a
}.

(** ** exact real arithmetic *)
Lemma rounded_refl x : rounded 0 0 x x.
Proof. unfold rounded. rewrite Rminus_eq_0, Rabs_R0. lra. Qed.
#[global] Instance RE_fp : FpModel RE.
Proof.
  refine (@Build_FpModel RE (fun x => x) (fun _ => True) 0 0 (Rle_refl _) (Rle_refl _) I eq_refl eq_refl _ _ _ _ _ _ _ _ _ _ _); cbn; intros; repeat split; auto; try apply rounded_refl; try ring.
  - intros H1. apply Rltb_t in H1. auto.
  - intros H1. apply Rltb_t. auto.
  - intros H1. apply Reqb_t in H1. auto.
  - intros H1. apply Reqb_t. auto.
Defined.
(** ** binary64 *)
#[local] Existing Instance IEEE754.PrimFloat.Hprec.
#[local] Existing Instance IEEE754.PrimFloat.Hmax.
Section B64.
Notation bf := (binary_float FloatOps.prec FloatOps.emax).
Definition F2R64 (x : Floats.PrimFloat.float) : R := B2R (IEEE754.PrimFloat.Prim2B x).
Definition fin64 (x : Floats.PrimFloat.float) : Prop := is_finite (IEEE754.PrimFloat.Prim2B x) = true.
Notation fexp64 := (SpecFloat.fexp FloatOps.prec FloatOps.emax).
Notation rnd := (round radix2 fexp64 (round_mode mode_NE)).
Definition u64 : R := u_ro radix2 FloatOps.prec.
Definition eta64 : R := /2 * bpow radix2 (SpecFloat.emin FloatOps.prec FloatOps.emax).
Lemma u64_eq : u64 = bpow radix2 (-53).
Proof. unfold u64, u_ro. change (- FloatOps.prec + 1)%Z with (-52)%Z. change (/2) with (bpow radix2 (-1)). rewrite <- bpow_plus. auto. Qed.
Lemma eta64_eq : eta64 = bpow radix2 (-1075).
Proof. unfold eta64. change (SpecFloat.emin FloatOps.prec FloatOps.emax) with (-1074)%Z. change (/2) with (bpow radix2 (-1)). rewrite <- bpow_plus. auto. Qed.
Lemma u64_pos : 0 < u64.
Proof. rewrite u64_eq. apply bpow_gt_0. Qed.
Lemma u64_le : u64 / (1 + u64) <= u64.
Proof. pose proof u64_pos. apply (Rmult_le_reg_r (1 + u64)); [lra|]. unfold Rdiv. rewrite Rmult_assoc, Rinv_l by lra. nra. Qed.
Lemma inv_err e : Rabs e <= u64 / (1 + u64) -> forall x, Rabs (x * e) <= u64 * Rabs (x * (1 + e)).
Proof.
  intros He x. pose proof u64_pos as Hu. rewrite !Rabs_mult.
  assert (K : Rabs e <= u64 * Rabs (1 + e)).
  { assert (He' : Rabs e * (1 + u64) <= u64).
    { apply (Rmult_le_compat_r (1 + u64)) in He; [|lra]. unfold Rdiv in He. rewrite Rmult_assoc, Rinv_l in He by lra. lra. }
    assert (1 - Rabs e <= Rabs (1 + e)). { unfold Rabs. repeat destruct Rcase_abs; lra. } nra. }
  pose proof (Rabs_pos x). nra.
Qed.
Lemma round_add x y : generic_format radix2 fexp64 x -> generic_format radix2 fexp64 y -> rounded u64 0 (x + y) (rnd (x + y)).
Proof.
  intros Hx Hy. destruct (FLT_plus_error_N_ex radix2 (SpecFloat.emin FloatOps.prec FloatOps.emax) FloatOps.prec (fun x => negb (Z.even x)) x y) as (e & He & Hr); auto; try (vm_compute; reflexivity).
  change (round radix2 _ _ (x + y)) with (rnd (x + y)) in Hr. rewrite Hr. fold u64 in He. split.
  - replace ((x + y) * (1 + e) - (x + y)) with ((x + y) * e) by ring. rewrite Rabs_mult. pose proof (Rabs_pos (x + y)). pose proof u64_le. nra.
  - replace ((x + y) * (1 + e) - (x + y)) with ((x + y) * e) by ring. rewrite Rplus_0_r. apply inv_err; auto.
Qed.
Lemma round_any x : rounded u64 eta64 x (rnd x).
Proof.
  destruct (relative_error_N_FLT'_ex radix2 (SpecFloat.emin FloatOps.prec FloatOps.emax) FloatOps.prec (eq_refl : (0 < FloatOps.prec)%Z) (fun x => negb (Z.even x)) x) as (e & h & He & Hh & H0 & Hr).
  change (round radix2 _ _ x) with (rnd x) in Hr. rewrite Hr. fold u64 in He. fold eta64 in Hh.
  pose proof u64_pos. pose proof u64_le. pose proof (Rabs_pos x). split.
  - replace (x * (1 + e) + h - x) with (x * e + h) by ring. eapply Rle_trans; [apply Rabs_triang|]. rewrite Rabs_mult. nra.
  - replace (x * (1 + e) + h - x) with (x * e + h) by ring. apply Rmult_integral in H0. destruct H0 as [-> | ->].
    + rewrite Rmult_0_r, Rplus_0_l, Rplus_0_r, Rmult_1_r. pose proof (Rabs_pos (x + h)). nra.
    + rewrite !Rplus_0_r. pose proof (inv_err e He x). rewrite Rabs_R0 in Hh. lra.
Qed.
Lemma finite_R2 (z : bf) : is_finite z = true -> forall m s, B2SF z <> binary_overflow FloatOps.prec FloatOps.emax m s \/ m <> mode_NE.
Proof. intros H m s. destruct m; try (right; discriminate). left. destruct z; try discriminate; cbn; discriminate. Qed.
Lemma fin_not_overflow (z : bf) s : is_finite z = true -> B2SF z <> binary_overflow FloatOps.prec FloatOps.emax mode_NE s.
Proof. intros H. destruct z; try discriminate; cbn; discriminate. Qed.
Lemma bplus_fin (x y : bf) : is_finite (Bplus mode_NE x y) = true -> is_finite x = true /\ is_finite y = true.
Proof. destruct x as [?|[]| |], y as [?|[]| |]; cbn; auto; discriminate. Qed.
Lemma bminus_fin (x y : bf) : is_finite (Bminus mode_NE x y) = true -> is_finite x = true /\ is_finite y = true.
Proof. destruct x as [?|[]| |], y as [?|[]| |]; cbn; auto; discriminate. Qed.
Lemma bmult_fin (x y : bf) : is_finite (Bmult mode_NE x y) = true -> is_finite x = true /\ is_finite y = true.
Proof. destruct x, y; cbn; auto; discriminate. Qed.
Lemma f64_add a b : fin64 (Floats.PrimFloat.add a b) -> fin64 a /\ fin64 b /\ F2R64 (Floats.PrimFloat.add a b) = rnd (F2R64 a + F2R64 b).
Proof.
  unfold fin64, F2R64. rewrite IEEE754.PrimFloat.add_equiv. intros H. destruct (bplus_fin _ _ H) as [Ha Hb]. split; [auto|]. split; [auto|].
  generalize (Bplus_correct _ _ _ _ mode_NE _ _ Ha Hb). destruct Rlt_bool; [intros (-> & _); auto|]. intros (K & _). destruct (fin_not_overflow _ _ H K).
Qed.
Lemma f64_sub a b : fin64 (Floats.PrimFloat.sub a b) -> fin64 a /\ fin64 b /\ F2R64 (Floats.PrimFloat.sub a b) = rnd (F2R64 a - F2R64 b).
Proof.
  unfold fin64, F2R64. rewrite IEEE754.PrimFloat.sub_equiv. intros H. destruct (bminus_fin _ _ H) as [Ha Hb]. split; [auto|]. split; [auto|].
  generalize (Bminus_correct _ _ _ _ mode_NE _ _ Ha Hb). destruct Rlt_bool; [intros (-> & _); auto|]. intros (K & _). destruct (fin_not_overflow _ _ H K).
Qed.
Lemma f64_mul a b : fin64 (Floats.PrimFloat.mul a b) -> fin64 a /\ fin64 b /\ F2R64 (Floats.PrimFloat.mul a b) = rnd (F2R64 a * F2R64 b).
Proof.
  unfold fin64, F2R64. rewrite IEEE754.PrimFloat.mul_equiv. intros H. destruct (bmult_fin _ _ H) as [Ha Hb]. split; [auto|]. split; [auto|].
  generalize (Bmult_correct _ _ _ _ mode_NE (IEEE754.PrimFloat.Prim2B a) (IEEE754.PrimFloat.Prim2B b)). destruct Rlt_bool; [intros (-> & _); auto|]. intros K. destruct (fin_not_overflow _ _ H K).
Qed.
Lemma f64_div a b : fin64 (Floats.PrimFloat.div a b) -> fin64 b -> F2R64 b <> 0 -> fin64 a /\ F2R64 (Floats.PrimFloat.div a b) = rnd (F2R64 a / F2R64 b).
Proof.
  unfold fin64, F2R64. rewrite IEEE754.PrimFloat.div_equiv. intros H Hb Hz.
  generalize (Bdiv_correct _ _ _ _ mode_NE (IEEE754.PrimFloat.Prim2B a) (IEEE754.PrimFloat.Prim2B b) Hz). destruct Rlt_bool; [intros (-> & K & _); split; congruence|]. intros K. destruct (fin_not_overflow _ _ H K).
Qed.
Lemma f64_div0 a b : fin64 (Floats.PrimFloat.div a b) -> fin64 b -> F2R64 b <> 0.
Proof.
  unfold fin64, F2R64. rewrite IEEE754.PrimFloat.div_equiv. intros H Hb. destruct (IEEE754.PrimFloat.Prim2B b) as [s|s| |s m e He] eqn:K; try discriminate.
  - destruct (IEEE754.PrimFloat.Prim2B a); discriminate.
  - apply F2R_neq_0. destruct s; discriminate.
Qed.
Lemma f64_sqrt a : fin64 (Floats.PrimFloat.sqrt a) -> fin64 a /\ 0 <= F2R64 a /\ F2R64 (Floats.PrimFloat.sqrt a) = rnd (sqrt (F2R64 a)).
Proof.
  unfold fin64, F2R64. rewrite IEEE754.PrimFloat.sqrt_equiv. intros H. destruct (Bsqrt_correct _ _ _ _ mode_NE (IEEE754.PrimFloat.Prim2B a)) as (K & F & _). rewrite H in F.
  split; [|split]; auto.
  - destruct (IEEE754.PrimFloat.Prim2B a) as [| | |[]]; auto; discriminate.
  - destruct (IEEE754.PrimFloat.Prim2B a) as [| | |[] m e He]; try discriminate; cbn; [lra|]. apply F2R_ge_0. cbn. lia.
Qed.
Lemma round_sqrt x : generic_format radix2 fexp64 x -> rounded u64 0 (sqrt x) (rnd (sqrt x)).
Proof.
  intros Hx. destruct (Rle_or_lt x 0) as [N|P].
  { rewrite sqrt_neg by auto. rewrite round_0 by auto with typeclass_instances. unfold rounded. rewrite Rminus_eq_0, Rabs_R0. pose proof u64_pos. lra. }
  destruct (sqrt_error_N_FLT_ex radix2 FloatOps.prec (fun x => negb (Z.even x)) (eq_refl : (1 < FloatOps.prec)%Z) (SpecFloat.emin FloatOps.prec FloatOps.emax) ltac:(cbn; lia) x Hx) as (e & He & Hr).
  change (round radix2 _ _ (sqrt x)) with (rnd (sqrt x)) in Hr. rewrite Hr. fold u64 in He. pose proof u64_pos as Hu.
  assert (He' : Rabs e <= u64 / (1 + u64)).
  { eapply Rle_trans; [apply He|].
    assert (S : sqrt (1 + 2 * u64) <= 1 + u64). { rewrite <- (sqrt_pow2 (1 + u64)) by lra. apply sqrt_le_1_alt. nra. }
    assert (P' : 0 < sqrt (1 + 2 * u64)) by (apply sqrt_lt_R0; lra).
    assert (/ (1 + u64) <= / sqrt (1 + 2 * u64)) by (apply Rinv_le_contravar; auto).
    replace (u64 / (1 + u64)) with (1 - / (1 + u64)) by (field; lra). unfold Rdiv. lra. }
  split.
  - replace (sqrt x * (1 + e) - sqrt x) with (sqrt x * e) by ring. rewrite Rabs_mult. pose proof (Rabs_pos (sqrt x)). pose proof u64_le. nra.
  - replace (sqrt x * (1 + e) - sqrt x) with (sqrt x * e) by ring. rewrite Rplus_0_r. apply inv_err; auto.
Qed.
Lemma f64_format a : generic_format radix2 fexp64 (F2R64 a).
Proof. apply generic_format_B2R. Qed.
End B64.

#[global] Instance FE_fp : FpModel FE.
Proof.
  refine (@Build_FpModel FE F2R64 fin64 u64 eta64 (Rlt_le _ _ u64_pos) _ _ _ _ _ _ _ _ _ _ _ _ _ _ _).
  - rewrite eta64_eq. apply bpow_ge_0.
  - reflexivity.
  - reflexivity.
  - change (B2R (IEEE754.PrimFloat.Prim2B Floats.PrimFloat.one) = 1). rewrite IEEE754.PrimFloat.one_equiv, IEEE754.PrimFloat.Prim2B_B2Prim. apply Bone_correct.
  - intros a b H. destruct (f64_add a b H) as (Ha & Hb & K). split; [auto|]. split; [auto|]. cbn. rewrite K. apply round_add; apply f64_format.
  - intros a b H. destruct (f64_sub a b H) as (Ha & Hb & K). split; [auto|]. split; [auto|]. cbn. rewrite K. apply round_add; [apply f64_format|apply generic_format_opp, f64_format].
  - intros a b H. destruct (f64_mul a b H) as (Ha & Hb & K). split; [auto|]. split; [auto|]. cbn. rewrite K. apply round_any.
  - intros a b H Hb Hz. destruct (f64_div a b H Hb Hz) as (Ha & K). split; [auto|]. cbn. rewrite K. apply round_any.
  - intros a H. destruct (f64_sqrt a H) as (Ha & Hp & K). split; [auto|]. cbn. rewrite K. apply round_sqrt, f64_format.
  - intros a b Ha Hb. cbn. rewrite IEEE754.PrimFloat.ltb_equiv, Bltb_correct by auto. unfold F2R64. destruct (Rlt_bool_spec (B2R (IEEE754.PrimFloat.Prim2B a)) (B2R (IEEE754.PrimFloat.Prim2B b))); split; intros; auto; try discriminate; lra.
  - intros a b Ha Hb. cbn. rewrite IEEE754.PrimFloat.eqb_equiv, Beqb_correct by auto. unfold F2R64. destruct (Req_bool_spec (B2R (IEEE754.PrimFloat.Prim2B a)) (B2R (IEEE754.PrimFloat.Prim2B b))); split; intros; auto; try discriminate; contradiction.
  - intros a. unfold fin64, F2R64. cbn. rewrite IEEE754.PrimFloat.opp_equiv, is_finite_Bopp, B2R_Bopp. auto.
  - intros a H. destruct (f64_add _ a H) as (_ & Ha & K). cbn in *. rewrite K. replace (F2R64 PrimFloat.zero) with 0 by reflexivity. rewrite Rplus_0_l. apply round_generic; [auto with typeclass_instances|apply f64_format].
  - reflexivity.
  - reflexivity.
Defined.
Lemma FE_fu : fu (E := FE) = bpow radix2 (-53).
Proof. apply u64_eq. Qed.
Lemma FE_feta : feta (E := FE) = bpow radix2 (-1075).
Proof. apply eta64_eq. Qed.
#[global] Instance quiet_fp E (F : FpModel E) : FpModel (quiet E).
Proof. destruct F. refine (@Build_FpModel (quiet E) fR0 fin0 fu0 feta0 fu_pos0 feta_pos0 _ fR_2 fR_3 _ _ _ _ _ _ _ _ _ _ _); auto. Defined.
