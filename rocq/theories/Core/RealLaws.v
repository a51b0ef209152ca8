(** * The real elements of a scalar type are the real numbers

    [RLaws E]: the [conj]-invariant elements of [T] are in bijection with [R] through [ofR]/[toR], compatibly
    with addition, multiplication, order and square root.  It holds for exact real and exact complex
    arithmetic ([RE], [CE]) and lets statements speak of real numbers (moduli, norms, cosines). *)
From Coq Require Import Bool Arith ZArith Reals Lra Ring Field.
From Verif.Core Require Import Scalar Instances Quiet.

Class RLaws (E : Env) := {
  ofR : R -> T;
  toR : T -> R;
  toR_ofR : forall x, toR (ofR x) = x;
  ofR_toR : forall a : T, conj a = a -> ofR (toR a) = a;
  ofR_real : forall x, conj (ofR x) = ofR x;
  ofR_0 : ofR 0 = zero;
  ofR_1 : ofR 1 = one;
  ofR_add : forall x y, ofR (x + y) = add (ofR x) (ofR y);
  ofR_mul : forall x y, ofR (x * y) = mul (ofR x) (ofR y);
  ofR_lt : forall x y, ltb (ofR x) (ofR y) = Rltb x y;
  ofR_sqrt : forall x, (0 <= x)%R -> sqrtv (ofR x) = ofR (sqrt x)
}.

#[global] Instance RE_R : RLaws RE.
Proof. refine (@Build_RLaws RE (fun x => x) (fun x => x) _ _ _ _ _ _ _ _ _); auto. Defined.
#[global] Instance CE_R : RLaws CE.
Proof.
  refine (@Build_RLaws CE (fun x => (x, 0%R)) fst _ _ _ _ _ _ _ _ _); auto; cbn.
  - intros [x y] [= H]. cbn. f_equal. lra.
  - intros x. f_equal. lra.
  - intros x y. f_equal. lra.
  - intros x y. unfold Cmul. cbn. f_equal; ring.
Defined.
#[global] Instance quiet_R E (L : RLaws E) : RLaws (quiet E).
Proof. destruct L. exact (@Build_RLaws (quiet E) ofR0 toR0 toR_ofR0 ofR_toR0 ofR_real0 ofR_2 ofR_3 ofR_add0 ofR_mul0 ofR_lt0 ofR_sqrt0). Defined.

Section D.
Context {E : Env} {FL : FieldLaws E} {CL : ConjLaws E} {RL : RLaws E}.
Add Field Tf : fth.
Lemma ofR_inj x y : ofR x = ofR y -> x = y.
Proof. intros H. rewrite <- (toR_ofR x), <- (toR_ofR y), H. auto. Qed.
Lemma ofR_opp x : ofR (- x) = opp (ofR x).
Proof.
  assert (H : add (ofR (- x)) (ofR x) = zero) by (rewrite <- ofR_add, <- ofR_0; f_equal; lra).
  transitivity (add (add (ofR (- x)) (ofR x)) (opp (ofR x))); [ring|rewrite H; ring].
Qed.
Lemma ofR_sub x y : ofR (x - y) = sub (ofR x) (ofR y).
Proof. unfold Rminus. rewrite ofR_add, ofR_opp. ring. Qed.
Lemma ofR_div x y : y <> 0%R -> ofR (x / y) = div (ofR x) (ofR y).
Proof.
  intros H. assert (Hy : ofR y <> zero) by (rewrite <- ofR_0; intros e; apply ofR_inj in e; auto).
  assert (K : mul (ofR (x / y)) (ofR y) = ofR x) by (rewrite <- ofR_mul; f_equal; field; auto).
  rewrite <- K. field. auto.
Qed.
Lemma toR_add a b : conj a = a -> conj b = b -> toR (add a b) = (toR a + toR b)%R.
Proof. intros Ha Hb. apply ofR_inj. rewrite ofR_add, !ofR_toR; auto. rewrite conj_add; congruence. Qed.
Lemma toR_mul a b : conj a = a -> conj b = b -> toR (mul a b) = (toR a * toR b)%R.
Proof. intros Ha Hb. apply ofR_inj. rewrite ofR_mul, !ofR_toR; auto. rewrite conj_mul; congruence. Qed.
Lemma toR_0 : toR zero = 0%R.
Proof. rewrite <- ofR_0. apply toR_ofR. Qed.
Lemma toR_1 : toR one = 1%R.
Proof. rewrite <- ofR_1. apply toR_ofR. Qed.
Lemma conj_zero : conj zero = zero.
Proof. rewrite <- ofR_0. apply ofR_real. Qed.
Lemma conj_one : conj one = one.
Proof. rewrite <- ofR_1. apply ofR_real. Qed.
Lemma lt_toR a b : conj a = a -> conj b = b -> ltb a b = Rltb (toR a) (toR b).
Proof. intros Ha Hb. rewrite <- ofR_lt, !ofR_toR; auto. Qed.
Lemma is_ofR a : conj a = a -> exists x, a = ofR x.
Proof. exists (toR a). symmetry. apply ofR_toR. auto. Qed.
Lemma eqb_toR {QL : EqbLaws E} x y : eqb (ofR x) (ofR y) = Reqb x y.
Proof.
  destruct (eqb (ofR x) (ofR y)) eqn:e; symmetry.
  - apply eqb_spec in e. apply Reqb_t. apply ofR_inj; auto.
  - destruct (Reqb x y) eqn:e'; auto. apply Reqb_t in e'. subst. rewrite (proj2 (eqb_spec (ofR y) (ofR y)) eq_refl) in e. discriminate.
Qed.
End D.

Section Abs.
Context {E : Env} {FL : FieldLaws E} {CL : ConjLaws E} {OL : ROrdLaws E} {RL : RLaws E}.
Add Field Tf2 : fth.
(** the modulus as a real number, and the square of the modulus *)
Definition modulus (a : T) : R := toR (absv a).
Lemma absv_ofR a : absv a = ofR (modulus a).
Proof. unfold modulus. rewrite ofR_toR; auto. apply abs_spec. Qed.
Lemma modulus_pos a : (0 <= modulus a)%R.
Proof.
  destruct (abs_spec a) as (_ & _ & H). rewrite absv_ofR in H. rewrite <- ofR_0, ofR_lt in H. apply Rltb_f in H. auto.
Qed.
Lemma conj_nrm a : conj (mul a (conj a)) = mul a (conj a).
Proof. rewrite conj_mul, conj_conj. ring. Qed.
Lemma modulus_sq a : (modulus a * modulus a)%R = toR (mul a (conj a)).
Proof.
  destruct (abs_spec a) as (_ & H & _). rewrite absv_ofR, <- ofR_mul in H. rewrite <- H. rewrite toR_ofR. auto.
Qed.
Lemma modulus_ofR_sq a : mul a (conj a) = ofR (modulus a * modulus a).
Proof. rewrite modulus_sq, ofR_toR; auto. apply conj_nrm. Qed.
Lemma modulus_conj a : modulus (conj a) = modulus a.
Proof.
  apply Rsqr_inj; try apply modulus_pos. unfold Rsqr. rewrite !modulus_sq, conj_conj. f_equal. ring.
Qed.
Lemma modulus_ofR x : modulus (ofR x) = Rabs x.
Proof.
  apply Rsqr_inj; [apply modulus_pos|apply Rabs_pos|]. unfold Rsqr. rewrite modulus_sq, ofR_real, <- ofR_mul, toR_ofR.
  destruct (Rcase_abs x); unfold Rabs; destruct (Rcase_abs x); lra.
Qed.
Lemma modulus_0_iff {QL : EqbLaws E} a : modulus a = 0%R <-> a = zero.
Proof.
  split.
  - intros H. destruct (eqb a zero) eqn:e; [apply eqb_spec; auto|]. assert (N : a <> zero) by (intros N; apply eqb_spec in N; congruence).
    apply norm_pos in N. rewrite modulus_ofR_sq, H, <- ofR_0, ofR_lt in N. apply Rltb_t in N. lra.
  - intros ->. rewrite <- ofR_0, modulus_ofR. apply Rabs_R0.
Qed.
End Abs.
