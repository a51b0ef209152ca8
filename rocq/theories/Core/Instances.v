(** * Instances of [Env]: the reals, the complex numbers, and IEEE binary64

    They show that the law classes of Core/Scalar.v are inhabited (so theorems that assume them are
    not vacuous) and let concrete runs be computed. *)
From Coq Require Import Bool Arith ZArith Reals Lra Lia Ring Field.
From Coq Require PrimFloat.
From Verif.Core Require Import Scalar.
Local Open Scope R_scope.

Definition Rltb (a b : R) : bool := if Rlt_dec a b then true else false.
Definition Reqb (a b : R) : bool := if Req_EM_T a b then true else false.
Lemma Rltb_t a b : Rltb a b = true <-> a < b.
Proof. unfold Rltb. destruct (Rlt_dec a b); split; auto; discriminate. Qed.
Lemma Rltb_f a b : Rltb a b = false <-> b <= a.
Proof. unfold Rltb. destruct (Rlt_dec a b); split; try discriminate; try lra; auto. Qed.
Lemma Reqb_t a b : Reqb a b = true <-> a = b.
Proof. unfold Reqb. destruct (Req_EM_T a b); split; auto; discriminate. Qed.

(** the real numbers (exact real arithmetic); input checks and errors enabled *)
Definition RE : Env := {|
  T := R; zero := 0; one := 1; add := Rplus; sub := Rminus; mul := Rmult; div := Rdiv; opp := Ropp;
  conj := fun x => x; re := fun x => x; im := fun _ => 0; mkc := fun a _ => a; abs1 := Rabs; absv := Rabs; sqrtv := sqrt;
  ltb := Rltb; eqb := Reqb; isnan := fun _ => false; isinf := fun _ => false; cplx := false;
  check_input := true; throw_errors := true |}.

#[global] Instance RE_field : FieldLaws RE.
Proof. exists Rinv. exact Rfield. Defined.
#[global] Instance RE_conj : ConjLaws RE.
Proof. split; cbn; intros; try lra. Qed.
#[global] Instance RE_eqb : EqbLaws RE.
Proof. split. exact Reqb_t. Qed.
#[global] Instance RE_ord : OrdLaws RE.
Proof.
  split; cbn; intros a.
  - rewrite Rltb_f. lra.
  - intros b c. rewrite !Rltb_t. lra.
  - intros b c. rewrite !Rltb_t. lra.
Qed.
#[global] Instance RE_rord : ROrdLaws RE.
Proof.
  split; cbn; intros a.
  - rewrite Rltb_f. lra.
  - intros b c. rewrite !Rltb_t. lra.
  - intros b _ _. rewrite !Rltb_t. destruct (Rtotal_order a b) as [|[|]]; auto.
  - intros b c. rewrite !Rltb_t. lra.
  - intros b _ _. rewrite !Rltb_t. apply Rmult_lt_0_compat.
  - intros H. rewrite Rltb_t. nra.
  - intros _. rewrite !Rltb_f. intros H. split; auto. split; [apply sqrt_sqrt; auto|apply sqrt_pos].
  - split; auto. rewrite Rltb_f. split; [|apply Rabs_pos]. unfold Rabs. destruct (Rcase_abs a); lra.
  - rewrite Rabs_R0. lra.
  - auto.
  - lra.
Qed.

#[global] Instance RE_cplx : CplxLaws RE.
Proof. split; cbn; intros; auto; try discriminate; lra. Qed.

(** the complex numbers as pairs; [ltb] compares real parts (the code only compares real values) *)
Definition C := (R * R)%type.
Definition Cmul (a b : C) : C := (fst a * fst b - snd a * snd b, fst a * snd b + snd a * fst b).
Definition Cnorm2 (a : C) : R := fst a * fst a + snd a * snd a.
Definition Cinv (a : C) : C := (fst a / Cnorm2 a, - snd a / Cnorm2 a).
Definition Ceqb (a b : C) : bool := Reqb (fst a) (fst b) && Reqb (snd a) (snd b).
Definition CE : Env := {|
  T := C; zero := (0, 0); one := (1, 0);
  add := fun a b => (fst a + fst b, snd a + snd b); sub := fun a b => (fst a - fst b, snd a - snd b);
  mul := Cmul; div := fun a b => Cmul a (Cinv b); opp := fun a => (- fst a, - snd a);
  conj := fun a => (fst a, - snd a); re := fun a => (fst a, 0); im := fun a => (snd a, 0); mkc := fun a b => (fst a, fst b);
  abs1 := fun a => (Rabs (fst a) + Rabs (snd a), 0);
  absv := fun a => (sqrt (Cnorm2 a), 0); sqrtv := fun a => (sqrt (fst a), 0);
  ltb := fun a b => Rltb (fst a) (fst b); eqb := Ceqb; isnan := fun _ => false; isinf := fun _ => false;
  cplx := true; check_input := true; throw_errors := true |}.

Lemma Cnorm2_0 a : Cnorm2 a = 0 -> a = (0, 0).
Proof. destruct a as [x y]. unfold Cnorm2; cbn. intros H. f_equal; nra. Qed.
Lemma Cnorm2_pos a : 0 <= Cnorm2 a.
Proof. unfold Cnorm2. nra. Qed.

#[global] Instance CE_field : FieldLaws CE.
Proof.
  exists Cinv. split.
  - split; cbn; intros; unfold Cmul; try (destruct x as [x1 x2]); try (destruct y as [y1 y2]); try (destruct z as [z1 z2]); cbn; f_equal; ring.
  - cbn. intros H. injection H. lra.
  - reflexivity.
  - cbn. intros p H. unfold Cmul, Cinv; cbn.
    assert (Cnorm2 p <> 0) by (intros e; apply H, Cnorm2_0, e).
    unfold Cnorm2 in *. f_equal; field; auto.
Defined.
#[global] Instance CE_conj : ConjLaws CE.
Proof.
  split; cbn; intros; unfold Cmul; try (destruct a as [a1 a2]); try (destruct b as [b1 b2]); cbn in *;
  try (f_equal; ring); auto.
  f_equal. injection H. lra.
Qed.
#[global] Instance CE_eqb : EqbLaws CE.
Proof.
  split. cbn. intros [a1 a2] [b1 b2]. unfold Ceqb; cbn. rewrite andb_true_iff, !Reqb_t. split.
  - intros [-> ->]; auto. - intros [= -> ->]; auto.
Qed.
#[global] Instance CE_ord : OrdLaws CE.
Proof.
  split; cbn; intros a.
  - rewrite Rltb_f. lra.
  - intros b c. rewrite !Rltb_t. lra.
  - intros b c. rewrite !Rltb_t. lra.
Qed.
#[global] Instance CE_rord : ROrdLaws CE.
Proof.
  split; cbn; intros [a1 a2]; unfold Cmul; cbn.
  - rewrite Rltb_f. lra.
  - intros [b1 b2] [c1 c2]. rewrite !Rltb_t. cbn. lra.
  - intros [b1 b2] [= H1] [= H2]. cbn in *. rewrite !Rltb_t. destruct (Rtotal_order a1 b1) as [|[|]]; auto.
    right. left. f_equal; lra.
  - intros [b1 b2] [c1 c2]. rewrite !Rltb_t. cbn. lra.
  - intros [b1 b2] [= H1] [= H2]. cbn in *. rewrite !Rltb_t. assert (a2 = 0) by lra. assert (b2 = 0) by lra. subst. intros. nra.
  - intros H. rewrite Rltb_t. destruct (Req_dec a1 0); [|nra]. destruct (Req_dec a2 0); [|nra]. subst. exfalso; auto.
  - intros [= H]. rewrite !Rltb_f. intros H'. split; [f_equal; ring|]. split; [|apply sqrt_pos].
    f_equal; [rewrite sqrt_sqrt; lra|lra].
  - rewrite Rltb_f. split; [f_equal; ring|]. split; [|apply sqrt_pos].
    unfold Cnorm2; cbn. f_equal; [|lra]. rewrite Rmult_0_l, Rminus_0_r, sqrt_sqrt; nra.
  - unfold Cnorm2; cbn. f_equal; [|lra]. f_equal.
    + rewrite Rmult_0_l, Rplus_0_r. symmetry. apply sqrt_Rsqr_abs.
    + rewrite Rmult_0_l, Rplus_0_r. symmetry. apply sqrt_Rsqr_abs.
  - f_equal; lra.
  - f_equal; lra.
Qed.

#[global] Instance CE_cplx : CplxLaws CE.
Proof.
  split; cbn; try discriminate.
  - intros [a1 a2] [b1 b2] [= H1] [= H2]; cbn. f_equal; lra.
  - intros [a1 a2] [b1 b2] _ [= H1] [= H2]; cbn. f_equal; lra.
  - intros [a1 a2] [b1 b2] [= H1] [= H2]. cbn in *. congruence.
  - intros [a1 a2] [b1 b2]; cbn. f_equal; lra.
  - intros [a1 a2] [b1 b2]; unfold Cmul; cbn. f_equal; lra.
Qed.

(** IEEE binary64, using Coq's primitive floats (round to nearest even, NaN, infinities, signed
    zeros).  No law class holds for it; theorems over an arbitrary [Env] apply to it. *)
Definition FE : Env := {|
  T := PrimFloat.float; zero := PrimFloat.zero; one := PrimFloat.one; add := PrimFloat.add; sub := PrimFloat.sub;
  mul := PrimFloat.mul; div := PrimFloat.div; opp := PrimFloat.opp;
  conj := fun x => x; re := fun x => x; im := fun _ => PrimFloat.zero; mkc := fun a _ => a;
  abs1 := PrimFloat.abs; absv := PrimFloat.abs; sqrtv := PrimFloat.sqrt;
  ltb := PrimFloat.ltb; eqb := PrimFloat.eqb;
  isnan := PrimFloat.is_nan; isinf := PrimFloat.is_infinity; cplx := false;
  check_input := true; throw_errors := true |}.
#[global] Instance RE_fin : FinLaws RE.
Proof. split; reflexivity. Qed.
#[global] Instance CE_fin : FinLaws CE.
Proof. split; reflexivity. Qed.
