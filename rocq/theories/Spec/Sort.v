(** * Sorted sequences *)
From Coq Require Import Bool Arith ZArith List Permutation.
From Verif.Core Require Import Scalar.

Section S.
Context {E : Env}.
(** the comparison [<] is a strict weak order on the values [P] (every set of numbers without NaN) *)
Definition weak_order_on (P : T -> Prop) : Prop :=
  (forall a, P a -> ltb a a = false) /\
  (forall a b c, P a -> P b -> P c -> ltb a b = true -> ltb b c = true -> ltb a c = true) /\
  (forall a b c, P a -> P b -> P c -> ltb a b = true -> ltb a c = true \/ ltb c b = true).
(** the values f 0, ..., f (n-1) *)
Definition among (n : nat) (f : nat -> T) (a : T) : Prop := exists i, i < n /\ a = f i.
Definition values (n : nat) (f : nat -> T) : list T := map f (seq 0 n).
(** no element is less (greater) than an earlier one *)
Definition increasing (n : nat) (f : nat -> T) : Prop := forall i j, i < j < n -> ltb (f j) (f i) = false.
Definition decreasing (n : nat) (f : nat -> T) : Prop := forall i j, i < j < n -> ltb (f i) (f j) = false.
End S.
