(** Bounds on the multipliers of Gaussian elimination with partial pivoting *)
From Coq Require Import Bool Arith ZArith Lia Ring Field.
From Verif.Core Require Import Scalar.
From Verif.Spec Require Import LinAlg LU.
From Verif.Proof Require Import SumLemmas OrdLemmas LUMath RsclProof GetrfProof.
Local Open Scope T_scope.

Section B.
Context {E : Env} {FL : FieldLaws E} {CL : ConjLaws E} {QL : EqbLaws E} {RL : ROrdLaws E} {XL : CplxLaws E}.
Add Field Tf : fth.

Lemma lt_sq a b : nonneg a -> nonneg b -> ltb a b = true -> ltb (a * a) (b * b) = true.
Proof.
  intros Ha Hb H. apply sub_lt. replace (b * b - a * a) with ((b - a) * (b + a)) by ring.
  assert (Pb : ltb 0 b = true). { destruct (nonneg_cases a Ha) as [->|Pa]; auto. eapply lt_trans; eauto. }
  destruct Ha as [Ra Na], Hb as [Rb Nb].
  apply lt_mul; [apply real_sub; auto|apply real_add; auto|apply lt_sub; auto|apply pos_nonneg_add; auto; split; auto].
Qed.
Lemma lt_sq_inv a b : nonneg a -> nonneg b -> ltb (a * a) (b * b) = true -> ltb a b = true.
Proof.
  intros Ha Hb H. destruct (lt_tot a b) as [K|[K|K]]; auto; [apply Ha|apply Hb| |].
  - subst. rewrite lt_irr in H. discriminate.
  - apply (lt_sq b a Hb Ha) in K. apply lt_le in K. congruence.
Qed.
Lemma lt_mul_r a b c : conj a = a -> conj b = b -> conj c = c -> ltb a b = true -> ltb 0 c = true -> ltb (a * c) (b * c) = true.
Proof.
  intros Ra Rb Rc H Hc. apply sub_lt. replace (b * c - a * c) with ((b - a) * c) by ring. apply lt_mul; auto; [apply real_sub; auto|apply lt_sub; auto].
Qed.
(** not less: a <= b on reals *)
Lemma lt_le_trans a b c : conj b = b -> conj c = c -> ltb a b = true -> ltb c b = false -> ltb a c = true.
Proof. intros Rb Rc H K. destruct (lt_tot b c) as [L|[L|L]]; auto; [eapply lt_trans; eauto|subst; auto|congruence]. Qed.
Lemma le_lt_trans a b c : conj a = a -> conj b = b -> ltb b a = false -> ltb b c = true -> ltb a c = true.
Proof. intros Ra Rb H K. destruct (lt_tot a b) as [L|[L|L]]; auto; [eapply lt_trans; eauto|subst; auto|congruence]. Qed.
Lemma le_of_nonneg a b : nonneg (b - a) -> ltb b a = false.
Proof. intros H. destruct (ltb b a) eqn:e; auto. apply lt_sub in e. apply pos_opp in e. replace (- (a - b)) with (b - a) in e by ring. destruct H; congruence. Qed.

Lemma norm_sq x : absv x * absv x = x * conj x.
Proof. apply abs_spec. Qed.
Lemma norm_mult y p : y * p * conj (y * p) = (y * conj y) * (p * conj p).
Proof. rewrite conj_mul. ring. Qed.

(** pivoting by the modulus: the multipliers do not exceed 1 in modulus *)
Lemma multiplier_absv y : multiplier absv y -> ltb 1 (absv y) = false.
Proof.
  intros (x & p & Hp & -> & Hle). destruct (ltb 1 (absv (x / p))) eqn:e; auto. exfalso.
  set (y := x / p) in *. assert (Ex : x = y * p) by (unfold y; field; auto).
  assert (N1 : nonneg 1) by (apply nonneg_pos; [apply real_1|apply one_pos]).
  apply (lt_sq 1 (absv y) N1 (absv_nonneg y)) in e. replace (1 * 1) with 1 in e by ring. rewrite norm_sq in e.
  assert (K : ltb (p * conj p) (x * conj x) = true).
  { rewrite Ex, norm_mult. replace (p * conj p) with (1 * (p * conj p)) at 1 by ring. apply lt_mul_r; auto using real_1, real_norm, norm_pos. }
  rewrite <- !norm_sq in K. apply lt_sq_inv in K; auto using absv_nonneg. congruence.
Qed.
Lemma abs1_real x : conj x = x -> abs1 x = absv x.
Proof. intros H. rewrite abs1_spec, (re_idem x H), (im_0 x H), absv_0. ring. Qed.
Lemma multiplier_abs1_real y : cplx = false -> multiplier abs1 y -> ltb 1 (absv y) = false.
Proof.
  intros Hc (x & p & Hp & Hy & Hle). apply multiplier_absv. exists x, p. split; auto. split; auto.
  rewrite !abs1_real in Hle by (apply real_type; auto). auto.
Qed.
Lemma abs1_nonneg x : nonneg (abs1 x).
Proof. rewrite abs1_spec. apply nonneg_add; apply absv_nonneg. Qed.
Lemma abs1_sq x : abs1 x * abs1 x = x * conj x + (absv (re x) * absv (im x) + absv (re x) * absv (im x)).
Proof.
  rewrite abs1_spec, norm_re_im. transitivity (absv (re x) * absv (re x) + absv (im x) * absv (im x) + (absv (re x) * absv (im x) + absv (re x) * absv (im x))); [ring|].
  rewrite !norm_sq, re_real, im_real. ring.
Qed.
(** pivoting by |re| + |im|: the squared modulus does not exceed 2 *)
Lemma multiplier_abs1 y : multiplier abs1 y -> ltb (1 + 1) (absv y * absv y) = false.
Proof.
  intros (x & p & Hp & -> & Hle). destruct (ltb (1 + 1) _) eqn:e; auto. exfalso.
  set (y := x / p) in *. assert (Ex : x = y * p) by (unfold y; field; auto). rewrite norm_sq in e.
  assert (K : ltb ((1 + 1) * (p * conj p)) (x * conj x) = true).
  { rewrite Ex, norm_mult. apply lt_mul_r; auto using real_1, real_norm, norm_pos. apply real_add; apply real_1. }
  assert (K1 : ltb (abs1 p * abs1 p) (abs1 x * abs1 x) = true).
  { assert (R1 := abs1_nonneg p). assert (R2 := abs1_nonneg x). destruct R1 as [R1 _], R2 as [R2 _].
    apply (lt_le_trans _ (x * conj x)); auto using real_norm, real_mul.
    - apply (le_lt_trans _ ((1 + 1) * (p * conj p))); auto using real_norm, real_mul, real_add, real_1.
      apply le_of_nonneg. set (d := absv (re p) - absv (im p)).
      replace ((1 + 1) * (p * conj p) - abs1 p * abs1 p) with (d * conj d); [apply nonneg_norm|].
      assert (Hd : conj d = d) by (apply real_sub; apply absv_nonneg). rewrite Hd, abs1_sq. unfold d.
      transitivity (absv (re p) * absv (re p) + absv (im p) * absv (im p) - (absv (re p) * absv (im p) + absv (re p) * absv (im p))); [ring|].
      rewrite !norm_sq, re_real, im_real. replace (re p * re p + im p * im p) with (p * conj p) by apply norm_re_im. ring.
    - apply le_of_nonneg. rewrite abs1_sq. replace (x * conj x + (absv (re x) * absv (im x) + absv (re x) * absv (im x)) - x * conj x) with (absv (re x) * absv (im x) + absv (re x) * absv (im x)) by ring.
      apply nonneg_add; apply nonneg_mul; apply absv_nonneg. }
  apply lt_sq_inv in K1; auto using abs1_nonneg. congruence.
Qed.
End B.
