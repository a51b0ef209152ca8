(** * The comparisons of binary64 numbers: [<] is asymmetric, and a strict weak order on the numbers that are not NaN *)
From Coq Require Import Bool Arith ZArith Lia Floats.
From Verif.Core Require Import Scalar Instances.

(** the place of a number that is not NaN in the order: (class, exponent, mantissa), lexicographically *)
Definition fkey (x : SpecFloat.spec_float) : option (Z * Z * Z) :=
  match x with
  | SpecFloat.S754_nan => None
  | SpecFloat.S754_infinity s => Some (if s then -2 else 2, 0, 0)%Z
  | SpecFloat.S754_zero _ => Some (0, 0, 0)%Z
  | SpecFloat.S754_finite s m e => Some (if s then (-1, - e, - Z.pos m) else (1, e, Z.pos m))%Z
  end.
Definition klt (a b : Z * Z * Z) : Prop :=
  let '(a1, a2, a3) := a in let '(b1, b2, b3) := b in (a1 < b1 \/ a1 = b1 /\ (a2 < b2 \/ a2 = b2 /\ a3 < b3))%Z.
Lemma sfltb_key x y : SpecFloat.SFltb x y = true <-> exists a b, fkey x = Some a /\ fkey y = Some b /\ klt a b.
Proof.
  split.
  - destruct x as [[]|[]| |[] m e], y as [[]|[]| |[] m' e']; cbn; try discriminate; intros H; do 2 eexists; (split; [reflexivity|]); (split; [reflexivity|]); cbn; try lia.
    + unfold SpecFloat.SFltb, SpecFloat.SFcompare in H. destruct (Z.compare_spec e e'); cbn in H; try discriminate; [|lia].
      destruct (Pos.compare_spec m m') as [?|?|?]; unfold Pos.compare in *; try (destruct (Pos.compare_cont Eq m m') eqn:K); cbn in H; try discriminate; fold (Pos.compare m m') in *; try lia.
      all: try (change (Pos.compare_cont Eq m m') with (Pos.compare m m') in K; apply Pos.compare_gt_iff in K || apply Pos.compare_lt_iff in K || apply Pos.compare_eq_iff in K; lia).
    + unfold SpecFloat.SFltb, SpecFloat.SFcompare in H. destruct (Z.compare_spec e e'); cbn in H; try discriminate; [|lia].
      change (Pos.compare_cont Eq m m') with (Pos.compare m m') in H. destruct (Pos.compare_spec m m'); try discriminate; lia.
  - intros (a & b & Ha & Hb & H). destruct x as [[]|[]| |[] m e], y as [[]|[]| |[] m' e']; cbn in Ha, Hb; try discriminate; inversion Ha; inversion Hb; subst; cbn in H; try reflexivity; try lia.
    + unfold SpecFloat.SFltb, SpecFloat.SFcompare. destruct (Z.compare_spec e e'); auto; try lia.
      change (Pos.compare_cont Eq m m') with (Pos.compare m m'). destruct (Pos.compare_spec m m'); cbn; auto; lia.
    + unfold SpecFloat.SFltb, SpecFloat.SFcompare. destruct (Z.compare_spec e e'); auto; try lia.
      change (Pos.compare_cont Eq m m') with (Pos.compare m m'). destruct (Pos.compare_spec m m'); cbn; auto; lia.
Qed.
Lemma fltb_asym (a b : @T FE) : ltb a b = true -> ltb b a = false.
Proof.
  cbn. rewrite !FloatAxioms.ltb_spec. intros H. destruct (SpecFloat.SFltb (FloatOps.Prim2SF b) _) eqn:K; auto.
  apply sfltb_key in H. apply sfltb_key in K. destruct H as ([[a1 a2] a3] & [[b1 b2] b3] & Ha & Hb & H), K as (x & y & Hx & Hy & K).
  rewrite Hb in Hx. rewrite Ha in Hy. inversion Hx; inversion Hy; subst. unfold klt in *. lia.
Qed.
Lemma nan_key (a : @T FE) : isnan a = false -> exists k, fkey (FloatOps.Prim2SF a) = Some k.
Proof.
  cbn. unfold PrimFloat.is_nan. rewrite FloatAxioms.eqb_spec. intros H. destruct (FloatOps.Prim2SF a) as [| | |] eqn:K; cbn; eauto. discriminate.
Qed.
Lemma f_weak_order (a b c : @T FE) : isnan a = false -> isnan b = false -> isnan c = false ->
  (ltb a b = true -> ltb b c = true -> ltb a c = true) /\ (ltb a b = true -> ltb a c = true \/ ltb c b = true).
Proof.
  intros Na Nb Nc. destruct (nan_key a Na) as ([[a1 a2] a3] & Ha), (nan_key b Nb) as ([[b1 b2] b3] & Hb), (nan_key c Nc) as ([[c1 c2] c3] & Hc).
  cbn. rewrite !FloatAxioms.ltb_spec, !sfltb_key. split.
  - intros (x & y & X & Y & K) (x' & y' & X' & Y' & K'). rewrite Ha in X. rewrite Hb in X', Y. rewrite Hc in Y'. inversion X; inversion Y; inversion X'; inversion Y'; subst.
    do 2 eexists. split; [exact Ha|]. split; [exact Hc|]. unfold klt in *. lia.
  - intros (x & y & X & Y & K). rewrite Ha in X. rewrite Hb in Y. inversion X; inversion Y; subst.
    assert (D : klt (a1, a2, a3) (c1, c2, c3) \/ klt (c1, c2, c3) (b1, b2, b3)) by (unfold klt in *; lia).
    destruct D; [left|right]; do 2 eexists; split; eauto.
Qed.
Lemma feqb_ltb (a b : @T FE) : eqb a b = true -> ltb b a = false.
Proof.
  cbn. rewrite FloatAxioms.eqb_spec, FloatAxioms.ltb_spec. intros H. destruct (SpecFloat.SFltb _ _) eqn:K; auto. apply sfltb_key in K.
  destruct K as ([[b1 b2] b3] & [[a1 a2] a3] & Hb & Ha & K). revert H Ha Hb.
  destruct (FloatOps.Prim2SF a) as [[]|[]| |[] m e], (FloatOps.Prim2SF b) as [[]|[]| |[] m' e']; cbn; try discriminate; intros H Ha Hb; inversion Ha; inversion Hb; subst; unfold klt in K; try lia.
  all: unfold SpecFloat.SFeqb, SpecFloat.SFcompare in H;
    match type of H with context[Z.compare ?x ?y] => destruct (Z.compare_spec x y); try discriminate end;
    match type of H with context[Pos.compare_cont Eq ?x ?y] => change (Pos.compare_cont Eq x y) with (Pos.compare x y) in H; destruct (Pos.compare_spec x y); try discriminate; lia end.
Qed.
