(** * Model of the legacy containers and their views
    include/tlapack/LegacyMatrix.hpp, LegacyVector.hpp, LegacyBandedMatrix.hpp and
    include/tlapack/plugins/legacyArray.hpp.

    Pointers are integer addresses (in units of one element); idx_t arithmetic is modelled by
    unbounded naturals, so overflow of size_t is out of scope.  [const] overloads repeat the code of
    the non-const ones and are represented by the same function. *)
From Coq Require Import Bool Arith ZArith Lia.
From Verif.Core Require Import Scalar Prog View.

Inductive layout_t := ColMajor | RowMajor.
Definition is_col (l : layout_t) : bool := match l with ColMajor => true | RowMajor => false end.

(** LegacyMatrix.hpp:34-39 *)
Record lmat := mklmat { lm : nat; ln : nat; lptr : Z; ldim : nat; lay : layout_t }.

(** operator(), LegacyMatrix.hpp:41-59: address of element (i,j) *)
Definition laddr (A : lmat) (i j : nat) : Z :=
  (if is_col (lay A) then lptr A + (Z.of_nat i + Z.of_nat j * Z.of_nat (ldim A))
   else lptr A + (Z.of_nat i * Z.of_nat (ldim A) + Z.of_nat j))%Z.
Definition lview (A : lmat) : view := mkview (lm A) (ln A) (laddr A).

(** Constructor with leading dimension, LegacyMatrix.hpp:61-67 ([None]: tlapack_check fails) *)
Definition new_lmat (m n : nat) (p : Z) (ld : nat) (l : layout_t) : option lmat :=
  if (if is_col l then m else n) <=? ld then Some (mklmat m n p ld l) else None.
(** Constructor without leading dimension, LegacyMatrix.hpp:69-74 *)
Definition new_lmat0 (m n : nat) (p : Z) (l : layout_t) : lmat :=
  mklmat m n p (if is_col l then m else n) l.

(** LegacyVector.hpp:42-47; [vdir] is the Direction template argument *)
Record lvec := mklvec { vn : nat; vptr : Z; vinc : Z; vdir : direction_t }.
(** operator[], LegacyVector.hpp:49-63 *)
Definition vaddr (v : lvec) (i : nat) : Z :=
  match vdir v with
  | Forward => (vptr v + Z.of_nat i * vinc v)%Z
  | Backward => (vptr v + ((Z.of_nat (vn v) - 1) - Z.of_nat i) * vinc v)%Z
  end.
Definition vview (v : lvec) : view := mkview (vn v) 1 (fun i _ => vaddr v i).

(** the index-range asserts shared by all slicing functions, legacyArray.hpp:214-217 *)
Definition range_ok (a b n : nat) : bool := ((a <? n) || (a =? b)) && (b <=? n) && (a <=? b).

(** slice(A, rows, cols), legacyArray.hpp:210-227, 401-418 *)
Definition slice (A : lmat) (r0 r1 c0 c1 : nat) : lmat :=
  mklmat (r1 - r0) (c1 - c0)
    (if is_col (lay A) then lptr A + (Z.of_nat r0 + Z.of_nat c0 * Z.of_nat (ldim A))
     else lptr A + (Z.of_nat r0 * Z.of_nat (ldim A) + Z.of_nat c0))%Z
    (ldim A) (lay A).
(** slice(A, rowIdx, cols), legacyArray.hpp:233-247, 424-438 *)
Definition slice_row (A : lmat) (r c0 c1 : nat) : lvec :=
  mklvec (c1 - c0)
    (if is_col (lay A) then lptr A + (Z.of_nat r + Z.of_nat c0 * Z.of_nat (ldim A))
     else lptr A + (Z.of_nat r * Z.of_nat (ldim A) + Z.of_nat c0))%Z
    (if is_col (lay A) then Z.of_nat (ldim A) else 1%Z) Forward.
(** slice(A, rows, colIdx), legacyArray.hpp:251-265, 442-456 *)
Definition slice_col (A : lmat) (r0 r1 c : nat) : lvec :=
  mklvec (r1 - r0)
    (if is_col (lay A) then lptr A + (Z.of_nat r0 + Z.of_nat c * Z.of_nat (ldim A))
     else lptr A + (Z.of_nat r0 * Z.of_nat (ldim A) + Z.of_nat c))%Z
    (if is_col (lay A) then 1%Z else Z.of_nat (ldim A)) Forward.
(** rows(A, range), legacyArray.hpp:269-281, 460-472 *)
Definition rows (A : lmat) (r0 r1 : nat) : lmat :=
  mklmat (r1 - r0) (ln A)
    (if is_col (lay A) then lptr A + Z.of_nat r0 else lptr A + Z.of_nat r0 * Z.of_nat (ldim A))%Z
    (ldim A) (lay A).
(** row(A, i), legacyArray.hpp:285-300, 476-491 *)
Definition row (A : lmat) (r : nat) : lvec :=
  if is_col (lay A) then mklvec (ln A) (lptr A + Z.of_nat r)%Z (Z.of_nat (ldim A)) Forward
  else mklvec (ln A) (lptr A + Z.of_nat r * Z.of_nat (ldim A))%Z 1%Z Forward.
(** cols(A, range), legacyArray.hpp:304-316, 495-507 *)
Definition cols (A : lmat) (c0 c1 : nat) : lmat :=
  mklmat (lm A) (c1 - c0)
    (if is_col (lay A) then lptr A + Z.of_nat c0 * Z.of_nat (ldim A) else lptr A + Z.of_nat c0)%Z
    (ldim A) (lay A).
(** col(A, j), legacyArray.hpp:320-335, 511-526 *)
Definition col (A : lmat) (c : nat) : lvec :=
  if is_col (lay A) then mklvec (lm A) (lptr A + Z.of_nat c * Z.of_nat (ldim A))%Z 1%Z Forward
  else mklvec (lm A) (lptr A + Z.of_nat c)%Z (Z.of_nat (ldim A)) Forward.
(** diag(A, diagIdx), legacyArray.hpp:339-352, 530-542.  [min(m+d,n)-d] and, for negative d,
    [min(m,n-d)+d] (modular unsigned arithmetic whose exact value is computed here in Z). *)
Definition diag_ok (A : lmat) (d : Z) : bool :=
  ((0 <=? d) || (- d <? Z.of_nat (lm A)))%Z && ((d <=? 0) || (d <? Z.of_nat (ln A)))%Z.
Definition diag_ (A : lmat) (d : Z) : lvec :=
  mklvec
    (Z.to_nat (if 0 <=? d then Z.min (Z.of_nat (lm A) + d) (Z.of_nat (ln A)) - d
               else Z.min (Z.of_nat (lm A)) (Z.of_nat (ln A) - d) + d)%Z)
    (if is_col (lay A)
     then (if 0 <=? d then lptr A + d * Z.of_nat (ldim A) else lptr A + (- d))
     else (if 0 <=? d then lptr A + d else lptr A + (- d) * Z.of_nat (ldim A)))%Z
    (Z.of_nat (ldim A) + 1)%Z Forward.
(** transpose_view(A), legacyArray.hpp:356-368, 546-556 *)
Definition transpose_view (A : lmat) : lmat :=
  mklmat (ln A) (lm A) (lptr A) (ldim A) (if is_col (lay A) then RowMajor else ColMajor).
(** slice(v, range), legacyArray.hpp:376-385, 564-573 *)
Definition vslice (v : lvec) (a b : nat) : lvec :=
  mklvec (b - a) (vptr v + Z.of_nat a * vinc v)%Z (vinc v) (vdir v).

(** is_contiguous, legacyArray.hpp:586-589, 625-628 *)
Definition contiguous (A : lmat) : bool :=
  (lm A * ln A <=? 1) || (is_col (lay A) && ((ldim A =? lm A) || (ln A <=? 1)))
  || (negb (is_col (lay A)) && ((ldim A =? ln A) || (lm A <=? 1))).
(** reshape(A, m, n), legacyArray.hpp:577-615 ([None]: std::domain_error) *)
Definition reshape (A : lmat) (m n : nat) : option (lmat * lmat) :=
  let size := lm A * ln A in
  let new_size := m * n in
  if size <? new_size then None else
  if contiguous A then
    Some (new_lmat0 m n (lptr A) (lay A),
          if is_col (lay A) then new_lmat0 (size - new_size) 1 (lptr A + Z.of_nat new_size)%Z (lay A)
          else new_lmat0 1 (size - new_size) (lptr A + Z.of_nat new_size)%Z (lay A))
  else if (m =? lm A) || (n =? 0) then Some (cols A 0 n, cols A n (ln A))
  else if (n =? ln A) || (m =? 0) then Some (rows A 0 m, rows A m (lm A))
  else None.
(** reshape(A, n) to a vector, legacyArray.hpp:617-670 *)
Definition reshape_v (A : lmat) (n : nat) : option (lvec * lmat) :=
  let size := lm A * ln A in
  if size <? n then None else
  if contiguous A then
    Some (mklvec n (lptr A) 1 Forward,
          if is_col (lay A) then new_lmat0 (size - n) 1 (lptr A + Z.of_nat n)%Z (lay A)
          else new_lmat0 1 (size - n) (lptr A + Z.of_nat n)%Z (lay A))
  else if n =? 0 then Some (mklvec 0 (lptr A) 1 Forward, A)
  else if n =? lm A then
    (if is_col (lay A)
     then Some (mklvec n (lptr A) 1 Forward, mklmat (lm A) (ln A - 1) (lptr A + Z.of_nat (ldim A))%Z (ldim A) (lay A))
     else Some (mklvec n (lptr A) (Z.of_nat (ldim A)) Forward, mklmat (lm A) (ln A - 1) (lptr A + 1)%Z (ldim A) (lay A)))
  else if n =? ln A then
    (if is_col (lay A)
     then Some (mklvec n (lptr A) (Z.of_nat (ldim A)) Forward, mklmat (lm A - 1) (ln A) (lptr A + 1)%Z (ldim A) (lay A))
     else Some (mklvec n (lptr A) 1 Forward, mklmat (lm A - 1) (ln A) (lptr A + Z.of_nat (ldim A))%Z (ldim A) (lay A)))
  else None.
(** reshape(v, m, n) of a vector, legacyArray.hpp:674-701 *)
Definition vreshape (v : lvec) (m n : nat) : option (lmat * lvec) :=
  let new_size := m * n in
  let s := vn v - new_size in
  let contig := (vinc v =? 1)%Z || (vn v <=? 1) in
  if vn v <? new_size then None else
  if negb contig && (1 <? m) then None else
  if contig then Some (new_lmat0 m n (vptr v) ColMajor, mklvec s (vptr v + Z.of_nat new_size)%Z 1 (vdir v))
  else Some (mklmat m n (vptr v) (Z.to_nat (vinc v)) ColMajor,
             mklvec s (vptr v + Z.of_nat new_size * vinc v)%Z (vinc v) (vdir v)).
(** reshape(v, n) of a vector, legacyArray.hpp:703-712 *)
Definition vreshape_v (v : lvec) (n : nat) : option (lvec * lvec) :=
  if vn v <? n then None else Some (vslice v 0 n, vslice v n (vn v)).

(** LegacyBandedMatrix.hpp:30-71 *)
Record lband := mklband { bm : nat; bn : nat; bkl : nat; bku : nat; bptr : Z }.
Definition baddr (A : lband) (i j : nat) : Z :=
  (bptr A + (Z.of_nat (bku A + i) + Z.of_nat j * Z.of_nat (bku A + bkl A)))%Z.
(** the asserts of operator(), LegacyBandedMatrix.hpp:44-49 *)
Definition bin (A : lband) (i j : nat) : bool :=
  (i <? bm A) && (j <? bn A) && (j <=? i + bku A) && (i <=? j + bkl A).

(** well-formedness established by the constructors *)
Definition lok (A : lmat) : Prop := (if is_col (lay A) then lm A else ln A) <= ldim A.
