(** * Applying and generating the unitary matrices of the reductions: unmhr, ungtr, ungbr *)
From Coq Require Import Bool Arith ZArith.
From Verif.Core Require Import Scalar Prog View Slice Loops.
From Verif.Model Require Import Gemm Blas1 Blas2 Blas3 Legacy LaAux Norms Work Householder QGen BlockQ.
Local Open Scope T_scope.

Section Model.
Context {E : Env}.

(** the slices of unmhr.hpp:62-66 and 95-99; [ihi - 1] is unsigned, and wraps around for ihi = 0 (the first slice is then
    out of range) *)
Definition unmhr_slices (side : side_t) (ilo ihi : nat) (A tau C : view) : M (view * view * view) :=
  assert_ (0 <? ihi)%nat;;
  As <- slc A (ilo + 1) ihi ilo (ihi - 1);;
  taus <- slvec tau ilo (ihi - 1);;
  Cs <- (match side with Left => slc C (ilo + 1) ihi 0 (nc C) | Right => slc C 0 (nr C) (ilo + 1) ihi end);;
  ret (As, taus, Cs).
(** unmhr.hpp:51-70 *)
Definition unmhr_worksize (side : side_t) (ilo ihi : nat) (A tau C : view) : M winfo :=
  x <- unmhr_slices side ilo ihi A tau C;;
  unmq_level2_worksize side Columnwise (fst (fst x)) (snd (fst x)) (snd x).
(** unmhr.hpp:83-103 *)
Definition unmhr_work (side : side_t) (trans : op_t) (ilo ihi : nat) (A tau C : view) (work : lmat) : M Z :=
  x <- unmhr_slices side ilo ihi A tau C;;
  unmq_level2_work side trans Forward Columnwise (fst (fst x)) (snd (fst x)) (snd x) work.
(** unmhr.hpp:138-157 *)
Definition unmhr (p : Z) (l : layout_t) (side : side_t) (trans : op_t) (ilo ihi : nat) (A tau C : view) : M Z :=
  w <- unmhr_worksize side ilo ihi A tau C;;
  work <- new_work p l w;;
  unmhr_work side trans ilo ihi A tau C work.

(** ungtr.hpp:42-95; [nbo] is the block size of ungqr and ungql (32 by default), [p] the address of the workspace they
    allocate *)
Definition ungtr (p : Z) (l : layout_t) (nbo : nat) (uplo : uplo_t) (Q tau : view) : M Z :=
  let n := nc Q in
  if (n =? 0)%nat then ret 0%Z else
  match uplo with
  | Lower =>
    (ford_ j in 1 upto (n - 1) do
      for_ i in j + 1 upto n do (a <- rd Q i (j - 1);; wr Q i j a));;
    (for_ i in 1 upto n do (wr Q i 0 0;; wr Q 0 i 0));;
    wr Q 0 0 1;;
    Qrefl <- slc Q 1 n 1 n;;
    ungq p l nbo Forward Columnwise Qrefl tau
  | _ =>
    (for_ j in 1 upto (n - 1) do
      for_ i in 0 upto j do (a <- rd Q i (j + 1);; wr Q i j a));;
    (for_ i in 0 upto (n - 1) do (wr Q i (n - 1) 0;; wr Q (n - 1) i 0));;
    wr Q (n - 1) (n - 1) 1;;
    Qrefl <- slc Q 0 (n - 1) 0 (n - 1);;
    ungq p l nbo Backward Columnwise Qrefl tau
  end.

(** ungbr.hpp:48-69; [m - 1] wraps around for m = 0, and the slice is then out of range *)
Definition ungbr_q_worksize (nbo k : nat) (A tau : view) : M winfo :=
  let m := nr A in
  if (k <=? m)%nat then ungq_worksize nbo Forward Columnwise A tau else
  assert_ (0 <? m)%nat;;
  A2 <- slc A 0 (m - 1) 0 (m - 1);;
  tau2 <- slvec tau 0 (m - 1);;
  ungq_worksize nbo Forward Columnwise A2 tau2.
(** ungbr.hpp:92-113 *)
Definition ungbr_p_worksize (nbo k : nat) (A tau : view) : M winfo :=
  let n := nc A in
  if (n <=? k)%nat then
    assert_ (0 <? n)%nat;;
    A2 <- slc A 0 (n - 1) 0 (n - 1);;
    tau2 <- slvec tau 0 (n - 1);;
    ungq_worksize nbo Forward Rowwise A2 tau2
  else ungq_worksize nbo Forward Rowwise A tau.
(** ungbr.hpp:126-168 *)
Definition ungbr_q_work (nbo k : nat) (A tau : view) (work : lmat) : M Z :=
  let m := nr A in
  (if (k <=? m)%nat then ungq_work nbo Forward Columnwise A tau work;; ret tt
   else
     assert_ (0 <? m)%nat;;
     (ford_ j in 1 upto m do (
        wr A 0 j 0;;
        for_ i in j + 1 upto m do (a <- rd A i (j - 1);; wr A i j a)));;
     wr A 0 0 1;;
     (for_ i in 1 upto m do wr A i 0 0);;
     if (1 <? m)%nat then
       A2 <- slc A 1 m 1 m;;
       tau2 <- slvec tau 0 (m - 1);;
       ungq_work nbo Forward Columnwise A2 tau2 work;; ret tt
     else ret tt);;
  ret 0%Z.
(** ungbr.hpp:201-218 *)
Definition ungbr_q (p : Z) (l : layout_t) (nbo k : nat) (A tau : view) : M Z :=
  w <- ungbr_q_worksize nbo k A tau;;
  work <- new_work p l w;;
  ungbr_q_work nbo k A tau work.
(** ungbr.hpp:231-278 *)
Definition ungbr_p_work (nbo k : nat) (A tau : view) (work : lmat) : M Z :=
  let n := nc A in
  (if (k <? n)%nat then ungq_work nbo Forward Rowwise A tau work;; ret tt
   else
     wr A 0 0 1;;
     (for_ i in 1 upto n do wr A i 0 0);;
     (for_ j in 1 upto n do (
        (ford_ i in 1 upto j do (a <- rd A (i - 1) j;; wr A i j a));;
        wr A 0 j 0));;
     if (1 <? n)%nat then
       A2 <- slc A 1 n 1 n;;
       tau2 <- slvec tau 0 (n - 1);;
       ungq_work nbo Forward Rowwise A2 tau2 work;; ret tt
     else ret tt);;
  ret 0%Z.
(** ungbr.hpp:311-328 *)
Definition ungbr_p (p : Z) (l : layout_t) (nbo k : nat) (A tau : view) : M Z :=
  w <- ungbr_p_worksize nbo k A tau;;
  work <- new_work p l w;;
  ungbr_p_work nbo k A tau work.
End Model.
