(** * The same arithmetic with errors not thrown (TLAPACK_DISABLE_ERROR_CHECK / non-throwing builds) *)
From Coq Require Import Bool Arith ZArith.
From Verif.Core Require Import Scalar Instances.

Definition quiet (E : Env) : Env := {|
  T := @T E; zero := @zero E; one := @one E; add := @add E; sub := @sub E; mul := @mul E; div := @div E; opp := @opp E;
  conj := @conj E; re := @re E; im := @im E; mkc := @mkc E; abs1 := @abs1 E; absv := @absv E; sqrtv := @sqrtv E;
  ltb := @ltb E; eqb := @eqb E; isnan := @isnan E; isinf := @isinf E; cplx := @cplx E;
  check_input := @check_input E; throw_errors := false |}.
#[global] Instance quiet_field E (FL : FieldLaws E) : FieldLaws (quiet E).
Proof. destruct FL as [f H]. exact (@Build_FieldLaws (quiet E) f H). Defined.
#[global] Instance quiet_conj E (L : ConjLaws E) : ConjLaws (quiet E).
Proof. destruct L. constructor; assumption. Qed.
#[global] Instance quiet_eqb E (L : EqbLaws E) : EqbLaws (quiet E).
Proof. destruct L. constructor; assumption. Qed.
#[global] Instance quiet_rord E (L : ROrdLaws E) : ROrdLaws (quiet E).
Proof. destruct L. constructor; assumption. Qed.
#[global] Instance quiet_ord E (L : OrdLaws E) : OrdLaws (quiet E).
Proof. destruct L. constructor; assumption. Qed.
#[global] Instance quiet_cplx E (L : CplxLaws E) : CplxLaws (quiet E).
Proof. destruct L. constructor; assumption. Qed.
#[global] Instance quiet_fin E (L : FinLaws E) : FinLaws (quiet E).
Proof. destruct L. constructor; assumption. Qed.
