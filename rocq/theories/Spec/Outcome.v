(** * How theorems describe a run *)
From Coq Require Import Bool Arith ZArith.
From Verif.Core Require Import Scalar Prog View.

Section Outcome.
Context {E : Env}.

(** the program, started in [s], returns normally with a value and a final state satisfying [Q]
    (in particular: no exception, no out-of-bounds access, no non-termination) *)
Definition returns {A} (p : M A) (s : state) (Q : A -> state -> Prop) : Prop :=
  exists a s', p s = Ok a s' /\ Q a s'.

(** the program returns normally or reports a failure by a runtime error; the final state satisfies [Q] in
    both cases *)
Definition completes {A} (p : M A) (s : state) (Q : state -> Prop) : Prop :=
  (exists a s', p s = Ok a s' /\ Q s') \/ (exists k s', p s = Exn (RuntimeError k) s' /\ Q s').

(** the program throws std::domain_error and the memory is exactly as before *)
Definition rejects {A} (p : M A) (s : state) : Prop := p s = Exn DomainError s.

(** a vector object: one column *)
Definition isvec (x : view) (n : nat) : Prop := nr x = n /\ nc x = 1.
(** an [m]-by-[n] matrix object *)
Definition shape (A : view) (m n : nat) : Prop := nr A = m /\ nc A = n.
End Outcome.

(** ** Comparing two runs *)
Section Two.
Context {E : Env}.

(** every position *)
Definition anywhere : nat -> nat -> Prop := fun _ _ => True.
(** the positions of a matrix argument that belong to the triangle [u] (all of them unless [u] is
    Upper or Lower) *)
Definition in_triangle (u : uplo_t) : nat -> nat -> Prop := fun i j =>
  match u with Upper => i <= j | Lower => j <= i | _ => True end.
(** the positions of a triangular matrix argument that are referenced: the triangle, without the
    diagonal when it is declared to be unit *)
Definition referenced (u : uplo_t) (d : diag_t) : nat -> nat -> Prop := fun i j =>
  in_triangle u i j /\ (d = Unit -> i <> j).
(** the stored half of a Hermitian or symmetric argument of hemm/symm: the lower triangle for Lower,
    else the upper triangle *)
Definition stored_half (u : uplo_t) : nat -> nat -> Prop := fun i j =>
  match u with Lower => j <= i | _ => i <= j end.

(** matrix object [A1] in memory [s1] and [A2] in memory [s2] have the same dimensions and the same
    elements at the positions [p] *)
Definition agree (p : nat -> nat -> Prop) (A1 : view) (s1 : state) (A2 : view) (s2 : state) : Prop :=
  nr A2 = nr A1 /\ nc A2 = nc A1 /\
  forall i j, i < nr A1 -> j < nc A1 -> p i j -> val A1 s1 i j = val A2 s2 i j.

(** memory locations of the elements of [A] at positions [p] *)
Definition cells (A : view) (p : nat -> nat -> Prop) (l : Z) : Prop :=
  exists i j, i < nr A /\ j < nc A /\ p i j /\ l = ad A i j.
(** nothing outside the locations [P] has changed *)
Definition only_changes (P : Z -> Prop) (s s' : state) : Prop :=
  (forall l, ~ P l -> mem s' l = mem s l) /\ imem s' = imem s.

(** both runs return normally, with the same value, in final states related by [Q] *)
Definition both_return {A} (p1 p2 : M A) (s1 s2 : state) (Q : A -> state -> state -> Prop) : Prop :=
  exists a s1' s2', p1 s1 = Ok a s1' /\ p2 s2 = Ok a s2' /\ Q a s1' s2'.
(** both runs return normally with the same value, or both throw the same runtime error; the final states
    are related by [Q] *)
Definition both_complete {A} (p1 p2 : M A) (s1 s2 : state) (Q : state -> state -> Prop) : Prop :=
  (exists a s1' s2', p1 s1 = Ok a s1' /\ p2 s2 = Ok a s2' /\ Q s1' s2') \/
  (exists k s1' s2', p1 s1 = Exn (RuntimeError k) s1' /\ p2 s2 = Exn (RuntimeError k) s2' /\ Q s1' s2').
End Two.
