(** * Norms of matrices, as real numbers *)
From Coq Require Import Bool Arith Reals.
From Verif.Core Require Import Scalar Instances RealLaws.

(** f 0 + ... + f (n-1) *)
Fixpoint rsum (n : nat) (f : nat -> R) : R := match n with O => 0%R | S k => (rsum k f + f k)%R end.
(** [r] is the largest element of [P]; 0 when there is none *)
Definition max_of (P : R -> Prop) (r : R) : Prop :=
  (P r \/ ((forall x, ~ P x) /\ r = 0%R)) /\ forall x, P x -> (x <= r)%R.

Section S.
Context {E : Env} {RL : RLaws E}.
(** the Max, One and Inf norms of the m-by-n matrix [A]: largest modulus, largest column sum, largest row
    sum of moduli *)
Definition is_norm (nt : norm_t) (m n : nat) (A : nat -> nat -> T) (r : R) : Prop :=
  match nt with
  | MaxNorm => max_of (fun x => exists i j, i < m /\ j < n /\ x = modulus (A i j)) r
  | OneNorm => max_of (fun x => exists j, j < n /\ x = rsum m (fun i => modulus (A i j))) r
  | InfNorm => max_of (fun x => exists i, i < m /\ x = rsum n (fun j => modulus (A i j))) r
  | _ => (0 <= r /\ r * r = rsum n (fun j => rsum m (fun i => modulus (A i j) * modulus (A i j))))%R
  end.
(** the sum of the squares of the moduli *)
Definition sumsq2 (m n : nat) (A : nat -> nat -> T) : R :=
  rsum n (fun j => rsum m (fun i => modulus (A i j) * modulus (A i j))%R).
(** [r] approximates the square root of [F]: never more than it, at most [k] squares of numbers below
    [small] are missing from its square, and none when F <= big^2 or when [exact] holds *)
Definition near_root (small big : R) (k : nat) (exact : Prop) (F r : R) : Prop :=
  (0 <= r /\ r * r <= F /\ F <= r * r + INR k * (small * small))%R /\
  ((F <= big * big)%R -> (r * r)%R = F) /\ (exact -> (r * r)%R = F).
(** no entry of [A] has a nonzero modulus below [small] *)
Definition no_tiny (small : R) (m n : nat) (A : nat -> nat -> T) : Prop :=
  forall i j, i < m -> j < n -> modulus (A i j) = 0%R \/ (small <= modulus (A i j))%R.
End S.
