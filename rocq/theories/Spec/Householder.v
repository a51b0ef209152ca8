(** * Elementary reflectors *)
From Coq Require Import Bool Arith Reals.
From Verif.Core Require Import Scalar RealLaws.
From Verif.Spec Require Import LinAlg Norms.
Local Open Scope T_scope.

Section S.
Context {E : Env}.
(** H = I - tau v v^H *)
Definition refl (tau : T) (v : nat -> T) : mat := fun i j => idm i j - tau * v i * conj (v j).
(** the position of the implicit 1 in a vector of length [n]: first (Forward) or last (Backward) *)
Definition hpos (d : direction_t) (n : nat) : nat := match d with Forward => 0 | Backward => n - 1 end.
(** the stored vector with its implicit 1 filled in *)
Definition hvec (d : direction_t) (n : nat) (v : nat -> T) : nat -> T := fun i => if (i =? hpos d n)%nat then 1 else v i.
(** a stored vector stands for itself (Columnwise) or for its conjugate (Rowwise) *)
Definition hst (sm : storev_t) (x : nat -> T) : nat -> T :=
  match sm with Columnwise => x | Rowwise => fun i => conj (x i) end.
(** Q^H Q = Q Q^H = I *)
Definition unitary (n : nat) (Q : mat) : Prop :=
  forall i j, (i < n)%nat -> (j < n)%nat -> mmul n (ctr Q) Q i j = idm i j /\ mmul n Q (ctr Q) i j = idm i j.
(** H^H z (Columnwise), z H with z a row vector (Rowwise) *)
Definition happly (sm : storev_t) (n : nat) (H : mat) (z : nat -> T) : nat -> T := fun i =>
  match sm with Columnwise => mvmul n (ctr H) z i | Rowwise => sum n (fun l => z l * H l i) end.
(** Matrices represented by reflectors: the k-th reflector vector of length m is stored in column k of [A] below
    the diagonal, with zeros above and 1 on the diagonal *)
Definition qvec (A : mat) (k : nat) : nat -> T := fun r => if (r <? k)%nat then 0 else if (r =? k)%nat then 1 else A r k.
(** the product H_0 H_1 ... H_(k-1) of m-by-m matrices *)
Fixpoint mprod (m : nat) (H : nat -> mat) (k : nat) : mat := match k with O => idm | S k' => mmul m (mprod m H k') (H k') end.
(** Q = H_0 ... H_(k-1), as stored by a QR factorization *)
Definition qmat (m : nat) (A : mat) (tau : nat -> T) (k : nat) : mat := mprod m (fun i => refl (tau i) (qvec A i)) k.
(** the upper triangular (trapezoidal) part *)
Definition rtri (A : mat) : mat := fun i j => if (i <=? j)%nat then A i j else 0.
End S.
Section R.
Context {E : Env} {RL : RLaws E}.
(** sum of the squares of the moduli of the elements of a vector *)
Definition vsq (n : nat) (f : nat -> T) : R := rsum n (fun i => modulus (f i) * modulus (f i))%R.
(** nrm2 neglects nothing on [f] (see C27): the sum of squares is at most [bt]^2, or no element is tiny *)
Definition norm_exact (st bt : R) (n : nat) (f : nat -> T) : Prop :=
  (vsq n f <= bt * bt)%R \/ forall i, (i < n)%nat -> modulus (f i) = 0%R \/ (st <= modulus (f i))%R.
(** What a reflector (tau, v) generated from the vector [z] of length [n] must satisfy: with H = I - tau u u^H,
    u being [v] (conjugated when Rowwise) with its implicit 1, and beta the element of [v] in the place of the 1:
    beta is real and |beta| is the norm of z; H is unitary; H^H z (resp. z H) is beta at that place and 0
    elsewhere; tau = 0 exactly when z is already of that form; otherwise 1 <= re tau <= 2, |tau - 1| <= 1 *)
Record reflects (md : storev_t) (dir : direction_t) (n : nat) (z : nat -> T) (tau : T) (v : nat -> T) : Prop := {
  rf_beta : conj (v (hpos dir n)) = v (hpos dir n);
  rf_norm : (modulus (v (hpos dir n)) * modulus (v (hpos dir n)) = vsq n z)%R;
  rf_unitary : unitary n (refl tau (hvec dir n (hst md v)));
  rf_apply : forall i, (i < n)%nat -> happly md n (refl tau (hvec dir n (hst md v))) z i = if (i =? hpos dir n)%nat then v (hpos dir n) else 0;
  rf_trivial : (forall i, (i < n)%nat -> i <> hpos dir n -> z i = 0) /\ im (z (hpos dir n)) = 0 <-> tau = 0;
  rf_tau : tau <> 0 -> (exists t, re tau = ofR t /\ (1 <= t <= 2)%R) /\ (modulus (tau - 1) <= 1)%R
}.
End R.

(** ** Sets of reflectors *)
Section Q.
Context {E : Env}.
(** Reflector number [i] of [k] reflectors of length [nq] stored in the matrix V, in its columns (Columnwise) or,
    conjugated, in its rows (Rowwise).  The implicit 1 is at place i (Forward) or nq-k+i (Backward); the elements
    before it (Forward) or after it (Backward) are implicit zeros. *)
Definition rpos (d : direction_t) (nq k i : nat) : nat := match d with Forward => i | Backward => nq - k + i end.
Definition rvec (d : direction_t) (sm : storev_t) (nq k : nat) (V : mat) (i : nat) : nat -> T := fun r =>
  if (r =? rpos d nq k i)%nat then 1
  else if (match d with Forward => r <? i | Backward => nq - k + i <? r end)%nat then 0
  else match sm with Columnwise => V r i | Rowwise => conj (V i r) end.
(** the products H_(k-1) ... H_0; H_0 ... H_(k-1) (Forward) or H_(k-1) ... H_0 (Backward) *)
Fixpoint rprod (m : nat) (H : nat -> mat) (k : nat) : mat := match k with O => idm | S k' => mmul m (H k') (rprod m H k') end.
Definition hprod (d : direction_t) (m : nat) (H : nat -> mat) (k : nat) : mat := match d with Forward => mprod m H k | Backward => rprod m H k end.
(** the matrix Q a set of reflectors stands for: that product (Columnwise), or its conjugate transpose (Rowwise) *)
Definition qof (d : direction_t) (sm : storev_t) (nq : nat) (V : mat) (tau : nat -> T) (k : nat) : mat :=
  let P := hprod d nq (fun i => refl (tau i) (rvec d sm nq k V i)) k in
  match sm with Columnwise => P | Rowwise => ctr P end.
(** The rows or columns of Q that fit into an m-by-n matrix: the first ones (Forward), the last ones (Backward) *)
Definition qpart (d : direction_t) (sm : storev_t) (m n : nat) (Q : mat) : mat := fun i j =>
  match sm, d with Columnwise, Backward => Q i (m - n + j)%nat | Rowwise, Backward => Q (n - m + i)%nat j | _, _ => Q i j end.
(** the k reflector vectors stored in the m-by-n matrix A: in its first (Forward) or last (Backward) k columns
    (Columnwise) or rows (Rowwise) *)
Definition stored (d : direction_t) (sm : storev_t) (m n k : nat) (A : mat) : mat := fun r i =>
  match sm, d with Columnwise, Backward => A r (n - k + i)%nat | Rowwise, Backward => A (m - k + r)%nat i | _, _ => A r i end.
(** The triangular (trapezoidal) factor left in the m-by-n matrix A: R of a QR factorization (upper; Forward
    Columnwise), L of an LQ one (lower; Forward Rowwise), L of a QL one (lower, its diagonal ending in the last row
    and column; Backward Columnwise), R of an RQ one (upper, likewise; Backward Rowwise) *)
Definition trap (d : direction_t) (sm : storev_t) (m n : nat) (A : mat) : mat := fun i j =>
  if (match d, sm with
      | Forward, Columnwise => i <=? j
      | Forward, Rowwise => j <=? i
      | Backward, Columnwise => m + j <=? n + i
      | Backward, Rowwise => n + i <=? m + j
      end)%nat then A i j else 0.
(** The block reflector I - U T U^H of k vectors U_0, ..., U_(k-1) (the columns of U) and the k-by-k matrix T *)
Definition blkrefl (k : nat) (Tm : mat) (U : nat -> nat -> T) : mat := fun r c =>
  idm r c - sum k (fun a => sum k (fun b => U a r * Tm a b * conj (U b c))).
(** T is stored in the upper (Forward) or lower (Backward) triangle *)
Definition tupl (d : direction_t) : uplo_t := match d with Forward => Upper | Backward => Lower end.
End Q.
