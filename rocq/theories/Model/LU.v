(** * Model of the LU factorization with partial pivoting and the inverse computed from it —
    include/tlapack/lapack/{getrf_level0,getrf_recursive,getrf,getri_uxli,getri}.hpp *)
From Coq Require Import Bool Arith ZArith.
From Verif.Core Require Import Scalar Prog View Slice Loops IVec.
From Verif.Model Require Import Gemm Blas1 Blas2 Blas3 LaAux Triangular.
Local Open Scope T_scope.

Section Model.
Context {E : Env}.

(** getrf_level0.hpp:50-105 *)
Definition getrf_level0 (A piv : view) : M Z :=
  let m := nr A in
  let n := nc A in
  let end_ := Nat.min m n in
  check (end_ <=? nr piv)%nat;;
  if (m <=? 0)%nat || (n <=? 0)%nat then ret 0%Z else
  r <- forret 0 end_ (fun j =>
    iwr piv j j;;
    (for_ i in (j + 1) upto m do (
       a <- rd A i j;; p <- ird piv j;; b <- rd A p j;;
       if ltb (abs1 b) (abs1 a) then iwr piv j i else ret tt));;
    p <- ird piv j;;
    d <- rd A p j;;
    if eqb d zero then ret (Some (Z.of_nat j + 1)%Z) else
    p <- ird piv j;;
    (if negb (p =? j)%nat then
       for_ i in 0 upto n do (
         tmp <- rd A j i;;
         p <- ird piv j;; a <- rd A p i;; wr A j i a;;
         p <- ird piv j;; wr A p i tmp)
     else ret tt);;
    (for_ i in (j + 1) upto m do (a <- rd A i j;; d <- rd A j j;; wr A i j (a / d)));;
    (for_ row in (j + 1) upto m do for_ col in (j + 1) upto n do (
       c <- rd A row col;; a <- rd A row j;; b <- rd A j col;; wr A row col (c - a * b)));;
    ret None);;
  ret (match r with Some k => k | None => 0%Z end).

(** the row interchanges of getrf_recursive.hpp:128-134, 153-159, 183-189:
    for j in [0, k): if piv[j] != j, swap rows j and piv[j] of B *)
Definition swap_rows (k : nat) (piv B : view) : M unit :=
  for_ j in 0 upto k do (
    p <- ird piv j;;
    if negb (p =? j)%nat then
      v1 <- slrow B j 0 (nc B);;
      p <- ird piv j;;
      v2 <- slrow B p 0 (nc B);;
      swap v1 v2
    else ret tt).

(** getrf_recursive.hpp:56-202; [safeMin], [safeMax] are used by rscl, [oneFourth] and [nancheck] by iamax,
    [fuel] bounds the depth of the recursion.  [int(-1)] stored into piv[0] by a failed iamax is never a
    valid row: the next access is out of bounds. *)
Fixpoint getrf_recursive_f (fuel : nat) (safeMin safeMax oneFourth : T) (nancheck : bool) (A piv : view) : M Z :=
  match fuel with
  | O => nofuel
  | S fu =>
    let m := nr A in
    let n := nc A in
    let k := Nat.min m n in
    check (k <=? nr piv)%nat;;
    if (m <=? 0)%nat || (n <=? 0)%nat then ret 0%Z
    else if (m =? 1)%nat then
      iwr piv 0 0;;
      p <- ird piv 0;;
      a <- rd A p 0;;
      if eqb a zero then ret 1%Z else ret 0%Z
    else if (n =? 1)%nat then
      c <- slcol A 0 m 0;;
      r <- iamax oneFourth nancheck absv c;;
      match r with
      | None => ub
      | Some p0 =>
        iwr piv 0 p0;;
        p <- ird piv 0;;
        a <- rd A p 0;;
        if eqb a zero then ret 1%Z else
        p <- ird piv 0;;
        (if negb (p =? 0)%nat then
           p <- ird piv 0;; aux <- rd A p 0;;
           a0 <- rd A 0 0;; p <- ird piv 0;; wr A p 0 a0;;
           wr A 0 0 aux
         else ret tt);;
        l <- slcol A 1 m 0;;
        d <- rd A 0 0;;
        rscl safeMin safeMax d l;;
        ret 0%Z
      end
    else if (m <? n)%nat then
      A0 <- slc A 0 m 0 m;;
      A1 <- slc A 0 m m n;;
      info <- getrf_recursive_f fu safeMin safeMax oneFourth nancheck A0 piv;;
      if negb (info =? 0)%Z then ret info else
      swap_rows k piv A1;;
      trsm Left Lower NoTrans Unit one A0 A1;;
      ret 0%Z
    else
      let k0 := Nat.div2 k in
      A0 <- slc A 0 m 0 k0;;
      A1 <- slc A 0 m k0 n;;
      piv0 <- slvec piv 0 k0;;
      info <- getrf_recursive_f fu safeMin safeMax oneFourth nancheck A0 piv0;;
      if negb (info =? 0)%Z then ret info else
      swap_rows k0 piv0 A1;;
      A00 <- slc A 0 k0 0 k0;;
      A01 <- slc A 0 k0 k0 n;;
      A10 <- slc A k0 m 0 k0;;
      A11 <- slc A k0 m k0 n;;
      piv1 <- slvec piv k0 k;;
      trsm Left Lower NoTrans Unit one A00 A01;;
      gemm NoTrans NoTrans (- one) A10 A01 (Sc one) A11;;
      info <- getrf_recursive_f fu safeMin safeMax oneFourth nancheck A11 piv1;;
      if negb (info =? 0)%Z then ret (info + Z.of_nat k0)%Z else
      swap_rows (k - k0) piv1 A10;;
      (for_ i in 0 upto (k - k0) do (p <- ird piv1 i;; iwr piv1 i (p + k0)%nat));;
      ret 0%Z
  end.
Definition getrf_recursive (safeMin safeMax oneFourth : T) (nancheck : bool) (A piv : view) : M Z :=
  getrf_recursive_f (S (nr A + nc A)) safeMin safeMax oneFourth nancheck A piv.

(** getrf.hpp:22-73 *)
Inductive getrf_variant := Level0 | RecursiveLU.
Definition getrf (v : getrf_variant) (safeMin safeMax oneFourth : T) (nancheck : bool) (A piv : view) : M Z :=
  match v with
  | RecursiveLU => getrf_recursive safeMin safeMax oneFourth nancheck A piv
  | Level0 => getrf_level0 A piv
  end.

(** getri_uxli.hpp:46-94; [W] is the vector of length n-1 obtained by reshape(work, n - 1).  For n = 0 the
    expression n - 1 wraps around: the reshape cannot succeed. *)
Definition getri_uxli (A W : view) : M Z :=
  let n := nc A in
  check (nr A =? n)%nat;;
  assert_ (negb (n =? 0)%nat && (nr W =? n - 1)%nat);;
  r <- forret 0 n (fun i =>
    let j := (n - 1 - i)%nat in
    d <- rd A j j;;
    if eqb d zero then ret (Some (Z.of_nat j + 1)%Z) else
    if (j =? n - 1)%nat then
      d <- rd A j j;; wr A j j (one / d);; ret None
    else
      X22 <- slc A (j + 1) n (j + 1) n;;
      l21 <- slcol A (j + 1) n j;;
      u12 <- slrow A j (j + 1) n;;
      w <- slvec W 0 (n - j - 1);;
      d <- rd A j j;;
      gemv Trans (- one / d) X22 u12 SZ w;;
      d <- rd A j j;;
      t <- dotu l21 w;;
      wr A j j (one / d - t);;
      copy w u12;;
      gemv NoTrans (- one) X22 l21 SZ w;;
      copy w l21;;
      ret None);;
  ret (match r with Some k => k | None => 0%Z end).

(** getri.hpp:112-150; the variant is [UXLI] with workspace vector [W], or [UILI] *)
Inductive getri_variant := UILI | UXLI (W : view).
Definition getri (v : getri_variant) (A piv : view) : M Z :=
  let n := nc A in
  info <- (match v with UXLI W => getri_uxli A W | UILI => getri_uili A end);;
  if negb (info =? 0)%Z then ret info else
  (fordown 0 n (fun j =>
     p <- ird piv j;;
     if negb (p =? j)%nat then
       v1 <- slcol A 0 (nr A) j;;
       p <- ird piv j;;
       v2 <- slcol A 0 (nr A) p;;
       swap v1 v2
     else ret tt));;
  ret 0%Z.
End Model.
