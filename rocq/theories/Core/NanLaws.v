(** * Arithmetic that propagates NaN

    Laws satisfied by IEEE real types (instance [FE_nan] for binary64).  A complex IEEE type violates
    [nan_abs] (std::abs of (NaN, Inf) is Inf), so theorems assuming this class are about real types. *)
From Coq Require Import Bool Arith ZArith.
From Coq Require Import Floats.
From Verif.Core Require Import Scalar Instances.

Class NanLaws (E : Env) : Prop := {
  nan_abs : forall a : T, isnan a = true -> isnan (absv a) = true;
  nan_re : forall a : T, isnan a = true -> isnan (re a) = true;
  nan_add_l : forall a b : T, isnan a = true -> isnan (add a b) = true;
  nan_add_r : forall a b : T, isnan b = true -> isnan (add a b) = true;
  nan_mul_l : forall a b : T, isnan a = true -> isnan (mul a b) = true;
  nan_mul_r : forall a b : T, isnan b = true -> isnan (mul a b) = true;
  nan_div_l : forall a b : T, isnan a = true -> isnan (div a b) = true;
  nan_div_r : forall a b : T, isnan b = true -> isnan (div a b) = true;
  nan_sqrt : forall a : T, isnan a = true -> isnan (sqrtv a) = true;
  nan_lt_l : forall a b : T, isnan a = true -> ltb a b = false;
  nan_lt_r : forall a b : T, isnan b = true -> ltb a b = false;
  nan_eq_l : forall a b : T, isnan a = true -> eqb a b = false
}.

Lemma is_nan_spec x : PrimFloat.is_nan x = true <-> Prim2SF x = S754_nan.
Proof.
  unfold PrimFloat.is_nan. rewrite FloatAxioms.eqb_spec. unfold SFeqb, SFcompare.
  destruct (Prim2SF x) as [[]|[]| |[] m e]; cbn; split; intros H; try discriminate; auto;
  rewrite Z.compare_refl, Pos.compare_refl in H; discriminate.
Qed.
#[global] Instance FE_nan : NanLaws FE.
Proof.
  split; cbn; [intros a H|intros a H|intros a b H|intros a b H|intros a b H|intros a b H|intros a b H|intros a b H|intros a H|intros a b H|intros a b H|intros a b H]; rewrite ?is_nan_spec in *; auto.
  - rewrite FloatAxioms.abs_spec, H. auto.
  - rewrite FloatAxioms.add_spec, H. auto.
  - rewrite FloatAxioms.add_spec, H. unfold SF64add, SFadd. destruct (Prim2SF a) as [[]|[]| |]; auto.
  - rewrite FloatAxioms.mul_spec, H. auto.
  - rewrite FloatAxioms.mul_spec, H. unfold SF64mul, SFmul. destruct (Prim2SF a) as [[]|[]| |]; auto.
  - rewrite FloatAxioms.div_spec, H. auto.
  - rewrite FloatAxioms.div_spec, H. unfold SF64div, SFdiv. destruct (Prim2SF a) as [[]|[]| |]; auto.
  - rewrite FloatAxioms.sqrt_spec, H. auto.
  - rewrite FloatAxioms.ltb_spec, H. auto.
  - rewrite FloatAxioms.ltb_spec, H. unfold SFltb, SFcompare. destruct (Prim2SF a) as [[]|[]| |[]]; auto.
  - rewrite FloatAxioms.eqb_spec, H. auto.
Qed.
