(** * Rounding-error bounds: the vocabulary of the statements *)
From Coq Require Import Arith Reals.
From Verif.Core Require Import Scalar.
Local Open Scope R_scope.

(** the sum of f(0), ..., f(n-1), in real numbers *)
Fixpoint rsum (n : nat) (f : nat -> R) : R :=
  match n with O => 0 | S k => rsum k f + f k end.
(** the constant gamma_n = n u / (1 - n u) of rounding-error analysis *)
Definition gam (n : nat) (u : R) : R := INR n * u / (1 - INR n * u).
(** the real value of a beta argument (0 for StrongZero) *)
Definition coefR {E : Env} (fR : T -> R) (b : coef) : R := match b with SZ => 0 | Sc b => fR b end.
