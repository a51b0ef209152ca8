(** * Plane rotations *)
From Coq Require Import Bool Arith List Reals.
From Verif.Core Require Import Scalar.
From Verif.Spec Require Import LinAlg.
Import ListNotations.
Local Open Scope T_scope.

Section S.
Context {E : Env}.
(** P(i): the identity, except for the block [c_i s_i; -conj(s_i) c_i] in rows and columns i and i+1 *)
Definition prot (c s : nat -> T) (i : nat) : mat := fun r q =>
  if (r =? i)%nat then (if (q =? i)%nat then c i else if (q =? i + 1)%nat then s i else 0)
  else if (r =? i + 1)%nat then (if (q =? i)%nat then - conj (s i) else if (q =? i + 1)%nat then c i else 0)
  else idm r q.
(** the product of the P(i), i in the list [l], in that order *)
Definition pseq (m : nat) (c s : nat -> T) (l : list nat) : mat := fold_right (fun i Q => mmul m (prot c s i) Q) idm l.
(** P(0) P(1) ... P(k-1) and P(k-1) ... P(1) P(0) *)
Definition pasc (m : nat) (c s : nat -> T) (k : nat) : mat := pseq m c s (seq 0 k).
Definition pdesc (m : nat) (c s : nat -> T) (k : nat) : mat := pseq m c s (rev (seq 0 k)).
(** one plane rotation applied to the elements i and i+1 of a column x (Left) or of a row x (Right) of a matrix;
    several of them, in the order of the list *)
Definition rot_line (side : side_t) (c s : nat -> T) (x : nat -> T) (i : nat) : nat -> T := fun r =>
  if (r =? i)%nat then match side with Left => c i * x i + s i * x (i + 1)%nat | Right => c i * x i + conj (s i) * x (i + 1)%nat end
  else if (r =? i + 1)%nat then match side with Left => - conj (s i) * x i + c i * x (i + 1)%nat | Right => - s i * x i + c i * x (i + 1)%nat end
  else x r.
Definition rot_lines (side : side_t) (c s : nat -> T) (l : list nat) (x : nat -> T) : nat -> T := fold_left (rot_line side c s) l x.
(** the sequences of rotations 0, ..., n-1 (column j of c and s holds sequence j), one after the other *)
Definition rot_seqs (side : side_t) (c s : mat) (order : list nat) (n : nat) (x : nat -> T) : nat -> T :=
  fold_left (fun x j => rot_lines side (fun i => c i j) (fun i => s i j) order x) (seq 0 n) x.
(** P(n-1) ... P(1) P(0) for matrices P(j) *)
Fixpoint stack_prod (m : nat) (P : nat -> mat) (n : nat) : mat := match n with O => idm | S n' => mmul m (P n') (stack_prod m P n') end.
End S.

Section H.
Local Open Scope R_scope.
(** The weights of the modified rotation of (a, b) before any rescaling: with u = 1 + q2/q1 (q1 = d1 a^2,
    q2 = d2 b^2) they are d1/u and d2/u when |q1| > |q2|; otherwise, with u = 1 + q1/q2, d2/u and d1/u *)
Definition mrot_weights (d1 d2 a b : R) : R * R :=
  let q1 := d1 * a * a in let q2 := d2 * b * b in
  if Rlt_dec (Rabs q2) (Rabs q1) then (d1 / (1 + q2 / q1), d2 / (1 + q2 / q1)) else (d2 / (1 + q1 / q2), d1 / (1 + q1 / q2)).
(** a weight needs no rescaling: 4096^-2 < x < 4096^2; at most one: 4096^-4 < x < 4096^4 *)
Definition in_band (x : R) : Prop := / (4096 * 4096) < x < 4096 * 4096.
Definition near_band (x : R) : Prop := / (4096 * 4096 * (4096 * 4096)) < x < 4096 * 4096 * (4096 * 4096).
(** A modified rotation (rotmg): the 2-by-2 matrix H with rows (h11, h12), (h21, h22) maps (a, b) to (a', 0) and
    carries the weights d1, d2 to d1', d2': H^T diag(d1', d2') H = diag(d1, d2), so that
    diag(sqrt d1', sqrt d2') H diag(sqrt d1, sqrt d2)^-1 is a rotation (if the weights are positive) *)
Definition mrot (d1 d2 a b d1' d2' a' h11 h12 h21 h22 : R) : Prop :=
  h11 * a + h12 * b = a' /\ h21 * a + h22 * b = 0 /\
  h11 * d1' * h11 + h21 * d2' * h21 = d1 /\ h11 * d1' * h12 + h21 * d2' * h22 = 0 /\ h12 * d1' * h12 + h22 * d2' * h22 = d2.
End H.
