(** * Specification vocabulary: sums, matrix products, stored matrices

    Nothing here refers to memory, programs or the tlapack code.  Matrices are functions
    [nat -> nat -> T]; only the entries inside the stated dimensions matter. *)
From Coq Require Import Bool Arith Lia.
From Verif.Core Require Import Scalar.

Section LinAlg.
Context {E : Env}.

(** [sum n f] = f 0 + f 1 + ... + f (n-1) *)
Fixpoint sum (n : nat) (f : nat -> T) : T :=
  match n with O => zero | S k => add (sum k f) (f k) end.

Definition mat := nat -> nat -> T.

(** op(A) *)
Definition opm (o : op_t) (A : mat) : mat := fun i j =>
  match o with
  | NoTrans => A i j
  | Trans => A j i
  | ConjTrans => conj (A j i)
  | Conj => conj (A i j)
  end.

(** (A*B)(i,j) with inner dimension k *)
Definition mmul (k : nat) (A B : mat) : mat := fun i j => sum k (fun l => mul (A i l) (B l j)).
(** (A*x)(i) *)
Definition mvmul (k : nat) (A : mat) (x : nat -> T) : nat -> T := fun i => sum k (fun l => mul (A i l) (x l)).

(** Conjugate transpose *)
Definition ctr (A : mat) : mat := fun i j => conj (A j i).
Definition tr (A : mat) : mat := fun i j => A j i.

(** identity matrix *)
Definition idm : mat := fun i j => if i =? j then one else zero.

(** position (i,j) is in the closed triangle selected by uplo *)
Definition intri (u : uplo_t) (i j : nat) : bool :=
  match u with Upper => i <=? j | Lower => j <=? i | _ => true end.

(** triangular matrix given by the stored triangle *)
Definition trim (u : uplo_t) (d : diag_t) (A : mat) : mat := fun i j =>
  if i =? j then match d with Unit => one | NonUnit => A i j end
  else if intri u i j then A i j else zero.

(** Hermitian matrix given by the stored triangle (imaginary parts of the diagonal ignored) *)
Definition herm (u : uplo_t) (A : mat) : mat := fun i j =>
  if i =? j then re (A i j)
  else if intri u i j then A i j else conj (A j i).

(** symmetric matrix given by the stored triangle *)
Definition symm_ (u : uplo_t) (A : mat) : mat := fun i j =>
  if intri u i j then A i j else A j i.

(** [facc n f c] = (...((c + f 0) + f 1) + ...) + f (n-1): the value of an accumulation loop in
    arbitrary (e.g. floating-point) arithmetic *)
Fixpoint facc (n : nat) (f : nat -> T) (c : T) : T :=
  match n with O => c | S k => add (facc k f c) (f k) end.

End LinAlg.
