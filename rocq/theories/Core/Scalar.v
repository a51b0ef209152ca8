(** * Scalars, compile-time configuration and option enums.

    The tlapack templates are parametric in the scalar type.  [Env] packages one scalar type with
    exactly the operations the modelled templates use and no law about them, so a theorem that
    quantifies over every [Env] holds for IEEE arithmetic (with NaN and Inf) as well as for exact
    fields.  Simplification: the templates allow alpha, beta, A, B, C to have different scalar types;
    the model uses a single type [T] for all of them.  Real-valued results (real parts, abs1, norms,
    square roots) are modelled as elements of the same type [T]. *)
From Coq Require Import Bool Arith ZArith Ring_theory Field_theory.

Class Env := {
  T : Type;
  zero : T;
  one : T;
  add : T -> T -> T;
  sub : T -> T -> T;
  mul : T -> T -> T;
  div : T -> T -> T;
  opp : T -> T;
  conj : T -> T;                (* include/tlapack/base/utils.hpp: conj (identity on real types) *)
  re : T -> T;                  (* include/tlapack/base/utils.hpp: real *)
  im : T -> T;                  (* include/tlapack/base/utils.hpp: imag, as an element of T *)
  mkc : T -> T -> T;            (* the constructor T(a, b) of a complex type from real parts *)
  abs1 : T -> T;                (* include/tlapack/base/utils.hpp: abs1, |re|+|im| *)
  absv : T -> T;                (* include/tlapack/base/utils.hpp: abs, the modulus *)
  sqrtv : T -> T;               (* include/tlapack/base/utils.hpp: sqrt, on real arguments *)
  ltb : T -> T -> bool;         (* a < b, on real arguments *)
  eqb : T -> T -> bool;         (* a == b *)
  isnan : T -> bool;            (* include/tlapack/base/utils.hpp: isnan *)
  isinf : T -> bool;            (* include/tlapack/base/utils.hpp: isinf *)
  cplx : bool;                  (* is_complex<T> *)
  check_input : bool;           (* tlapack_check enabled: TLAPACK_CHECK_INPUT and not TLAPACK_NDEBUG *)
  throw_errors : bool           (* tlapack_error throws: not TLAPACK_NDEBUG *)
}.

Declare Scope T_scope.
Delimit Scope T_scope with T.
Bind Scope T_scope with T.
Infix "+" := add : T_scope.
Infix "-" := sub : T_scope.
Infix "*" := mul : T_scope.
Infix "/" := div : T_scope.
Notation "- x" := (opp x) : T_scope.
Notation "0" := zero : T_scope.
Notation "1" := one : T_scope.

(** Option enums, include/tlapack/base/types.hpp. *)
Inductive op_t := NoTrans | Trans | ConjTrans | Conj.
Inductive uplo_t := Upper | Lower | General | UpperHessenberg | LowerHessenberg | StrictUpper | StrictLower.
Inductive side_t := Left | Right.
Inductive diag_t := NonUnit | Unit.
Inductive direction_t := Forward | Backward.
Inductive storev_t := Columnwise | Rowwise.
Inductive norm_t := MaxNorm | OneNorm | TwoNorm | InfNorm | FroNorm.

Definition op_eqb (a b : op_t) : bool :=
  match a, b with NoTrans, NoTrans | Trans, Trans | ConjTrans, ConjTrans | Conj, Conj => true | _, _ => false end.
Definition uplo_eqb (a b : uplo_t) : bool :=
  match a, b with
  | Upper, Upper | Lower, Lower | General, General | UpperHessenberg, UpperHessenberg
  | LowerHessenberg, LowerHessenberg | StrictUpper, StrictUpper | StrictLower, StrictLower => true
  | _, _ => false end.
Definition side_eqb (a b : side_t) : bool :=
  match a, b with Left, Left | Right, Right => true | _, _ => false end.
Definition diag_eqb (a b : diag_t) : bool :=
  match a, b with NonUnit, NonUnit | Unit, Unit => true | _, _ => false end.

(** The type of a [beta] argument: an ordinary scalar, or tlapack's [StrongZero]
    (include/tlapack/base/StrongZero.hpp:33-160). *)
Inductive coef {E : Env} := SZ | Sc (b : T).

(** [x *= beta]: with StrongZero the result is 0 whatever [x] is (StrongZero.hpp:120-128). *)
Definition mulc {E : Env} (x : T) (b : coef) : T :=
  match b with SZ => zero | Sc b => mul x b end.
(** [y + beta * x]: StrongZero * x is StrongZero, and y + StrongZero is y (StrongZero.hpp:60-118). *)
Definition addc {E : Env} (y : T) (b : coef) (x : T) : T :=
  match b with SZ => y | Sc b => add y (mul b x) end.
(** [beta * x] converted to the element type (herk.hpp:97). *)
Definition cmul {E : Env} (b : coef) (x : T) : T :=
  match b with SZ => zero | Sc b => mul b x end.
(** [beta * x + y] (hemm.hpp:102): StrongZero + y is y. *)
Definition cadd {E : Env} (b : coef) (x y : T) : T :=
  match b with SZ => y | Sc b => add (mul b x) y end.
(** The scalar a coefficient stands for. *)
Definition cval {E : Env} (b : coef) : T := match b with SZ => zero | Sc b => b end.

(** ** Laws (hypotheses of the exact-arithmetic theorems) *)

(** [T] is a field (the value of x/0 is unconstrained) *)
Class FieldLaws (E : Env) := {
  finv : T -> T;
  fth : field_theory zero one add mul sub opp div finv (@eq T)
}.

(** [conj] is an involutive automorphism, [re x] is the [conj]-symmetric part of [x] *)
Class ConjLaws (E : Env) : Prop := {
  conj_add : forall a b : T, conj (a + b)%T = (conj a + conj b)%T;
  conj_mul : forall a b : T, conj (a * b)%T = (conj a * conj b)%T;
  conj_conj : forall a : T, conj (conj a) = a;
  re_idem : forall a : T, conj a = a -> re a = a;
  re_real : forall a : T, conj (re a) = re a;
  re_add : forall a b : T, re (a + b)%T = (re a + re b)%T;
  re_conj : forall a : T, re (conj a) = re a;
  re_mul : forall a b : T, re (a * b)%T = (re a * re b - im a * im b)%T;
  im_conj : forall a : T, im (conj a) = (- im a)%T;
  conj_re2 : forall a : T, (a + conj a)%T = (re a + re a)%T
}.

(** [eqb] decides equality *)
Class EqbLaws (E : Env) : Prop := { eqb_spec : forall a b : T, eqb a b = true <-> a = b }.

(** [ltb] is a strict weak order (on the whole type; for complex types it compares real parts, and
    the code only ever applies it to real values) *)
Class OrdLaws (E : Env) : Prop := {
  ltb_irr : forall a : T, ltb a a = false;
  ltb_trans : forall a b c : T, ltb a b = true -> ltb b c = true -> ltb a c = true;
  ltb_cotrans : forall a b c : T, ltb a b = true -> ltb a c = true \/ ltb c b = true
}.

(** The real elements ([conj a = a]) form an ordered field; moduli and square roots behave as in the
    reals.  Both the reals and the complex numbers satisfy this (Core/Instances.v). *)
Class ROrdLaws (E : Env) : Prop := {
  lt_irr : forall a : T, ltb a a = false;
  lt_trans : forall a b c : T, ltb a b = true -> ltb b c = true -> ltb a c = true;
  lt_tot : forall a b : T, conj a = a -> conj b = b -> ltb a b = true \/ a = b \/ ltb b a = true;
  lt_add : forall a b c : T, ltb a b = true -> ltb (a + c)%T (b + c)%T = true;
  lt_mul : forall a b : T, conj a = a -> conj b = b -> ltb 0%T a = true -> ltb 0%T b = true -> ltb 0%T (a * b)%T = true;
  norm_pos : forall a : T, a <> 0%T -> ltb 0%T (a * conj a)%T = true;
  sqrt_spec : forall a : T, conj a = a -> ltb a 0%T = false ->
    conj (sqrtv a) = sqrtv a /\ (sqrtv a * sqrtv a)%T = a /\ ltb (sqrtv a) 0%T = false;
  abs_spec : forall a : T, conj (absv a) = absv a /\ (absv a * absv a)%T = (a * conj a)%T /\ ltb (absv a) 0%T = false;
  abs1_spec : forall a : T, abs1 a = (absv (re a) + absv (im a))%T;
  im_real : forall a : T, conj (im a) = im a;
  norm_re_im : forall a : T, (a * conj a)%T = (re a * re a + im a * im a)%T
}.

(** [mkc a b] is the number with real part [a] and imaginary part [b]; numbers of a real type are real *)
Class CplxLaws (E : Env) : Prop := {
  re_mkc : forall a b : T, conj a = a -> conj b = b -> re (mkc a b) = a;
  im_mkc : forall a b : T, cplx = true -> conj a = a -> conj b = b -> im (mkc a b) = b;
  reim_ext : forall a b : T, re a = re b -> im a = im b -> a = b;
  im_add : forall a b : T, im (a + b)%T = (im a + im b)%T;
  im_mul : forall a b : T, im (a * b)%T = (re a * im b + im a * re b)%T;
  real_type : cplx = false -> forall a : T, conj a = a
}.

(** exact arithmetic: no NaN, no infinity *)
Class FinLaws (E : Env) : Prop := {
  fin_nan : forall a : T, isnan a = false;
  fin_inf : forall a : T, isinf a = false
}.
