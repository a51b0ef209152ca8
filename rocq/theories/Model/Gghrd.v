(** * Hessenberg-triangular reduction — include/tlapack/lapack/gghrd.hpp, hessenberg_rq.hpp *)
From Coq Require Import Bool Arith ZArith.
From Verif.Core Require Import Scalar Prog View Slice.
From Verif.Model Require Import Blas1 Rot.
Local Open Scope T_scope.

Section Model.
Context {E : Env}.
(** The overloads of rotg (Model/Rot.v) as functions of (a, b) to (r, c, s): the new value of a, and the rotation.  The
    new value of b (written by the real overload only) is left out: both callers overwrite b with zero. *)
Definition rotgR (safmin safmax a b : T) : T * T * T := let '(r, _, c, s) := rotg_real safmin safmax a b in (r, c, s).
Definition rotgC (safmin safmax rtmin rtmax a b : T) : T * T * T := rotg_cplx safmin safmax rtmin rtmax a b.

(** gghrd.hpp:69-71 *)
Definition gg_zero (n : nat) (B : view) : M unit :=
  for_ j in 0 upto n do for_ i in (j + 1) upto n do wr B i j 0.
(** gghrd.hpp:76-93: rotate rows i-1 and i to eliminate A(i,j) *)
Definition gg_left (rotg : T -> T -> T * T * T) (wantq : bool) (n : nat) (A B Q : view) (i j : nat) : M unit :=
  a <- rd A (i - 1) j;; b <- rd A i j;;
  let '(r, c, s) := rotg a b in
  wr A (i - 1) j r;;
  wr A i j 0;;
  (a1 <- slrow A (i - 1) (j + 1) n;; a2 <- slrow A i (j + 1) n;; rot a1 a2 c s);;
  (b1 <- slrow B (i - 1) (i - 1) n;; b2 <- slrow B i (i - 1) n;; rot b1 b2 c s);;
  if wantq then q1 <- slcol Q 0 n (i - 1);; q2 <- slcol Q 0 n i;; rot q1 q2 c (conj s) else ret tt.
(** gghrd.hpp:99-117: rotate columns i and i-1 to remove the fill-in B(i,i-1) *)
Definition gg_right (rotg : T -> T -> T * T * T) (wantz : bool) (n ihi : nat) (A B Z : view) (i : nat) : M unit :=
  a <- rd B i i;; b <- rd B i (i - 1);;
  let '(r, c, s) := rotg a b in
  wr B i i r;;
  wr B i (i - 1) 0;;
  (a1 <- slcol A 0 ihi i;; a2 <- slcol A 0 ihi (i - 1);; rot a1 a2 c s);;
  (b1 <- slcol B 0 i i;; b2 <- slcol B 0 i (i - 1);; rot b1 b2 c s);;
  if wantz then z1 <- slcol Z 0 n i;; z2 <- slcol Z 0 n (i - 1);; rot z1 z2 c s else ret tt.
(** gghrd.hpp:37-123; i runs downwards from ihi-1 to j+2 *)
Definition gghrd (rotg : T -> T -> T * T * T) (wantq wantz : bool) (ilo ihi : nat) (A B Q Z : view) : M BinNums.Z :=
  let n := nc A in
  check (ilo <? n)%nat;;
  check ((ilo <? ihi)%nat && (ihi <=? n)%nat);;
  check (n =? nr A)%nat;;
  check (n =? nc B)%nat;;
  check (n =? nr B)%nat;;
  check (n =? nc Q)%nat;;
  check (n =? nr Q)%nat;;
  check (n =? nc Z)%nat;;
  check (n =? nr Z)%nat;;
  if (n <=? 1)%nat then ret 0%Z else
  gg_zero n B;;
  (for_ j in ilo upto (ihi - 2) do
     fordown (j + 2) ihi (fun i =>
       gg_left rotg wantq n A B Q i j;;
       gg_right rotg wantz n ihi A B Z i));;
  ret 0%Z.
(** hessenberg_rq.hpp:62-67, 71-77: the left rotations hi-1, ..., 0 applied to column col (rot_one Left is the same
    computation as in rot_sequence) *)
Definition hrq_col (cl sl A : view) (hi col : nat) : M unit := ford_ j in 0 upto hi do rot_one Left cl sl A j col.
(** hessenberg_rq.hpp:79-88: eliminate A(i,i-1) by a rotation of the columns i-1 and i *)
Definition hrq_right (rotg : T -> T -> T * T * T) (A cr sr : view) (i : nat) : M unit :=
  a <- rd A i i;; b <- rd A i (i - 1);;
  let '(r, c, s) := rotg a b in
  wr A i i r;;
  wrv cr (i - 1) c;;
  wrv sr (i - 1) s;;
  x <- rdv sr (i - 1);;
  wrv sr (i - 1) (- x);;
  wr A i (i - 1) 0;;
  t1 <- slcol A 0 i (i - 1);; t2 <- slcol A 0 i i;;
  c' <- rdv cr (i - 1);; s' <- rdv sr (i - 1);;
  rot t1 t2 c' (conj s').
(** hessenberg_rq.hpp:48-90; T is called A.  For n = 0, k = n-1 wraps around and the first loop reads cl out of
    bounds: undefined behaviour.  i runs downwards from n-1 to 1. *)
Definition hessenberg_rq (rotg : T -> T -> T * T * T) (A cl sl cr sr : view) : M unit :=
  let n := nc A in
  if (n =? 0)%nat then ub else
  if (n - 1 <? 1)%nat then ret tt else
  hrq_col cl sl A (n - 1) (n - 1);;
  fordown 1 n (fun i => hrq_col cl sl A i (i - 1);; hrq_right rotg A cr sr i).
End Model.
