(** * Sorting and merging: lasrt, lamrg *)
From Coq Require Import Bool Arith ZArith List Ascii.
From Verif.Core Require Import Scalar Prog View Slice IVec.
Import ListNotations.

Section Model.
Context {E : Env}.

(** "x belongs strictly before y": [x > y] when sorting in decreasing order ([dir == 0]), [x < y] when sorting
    in increasing order; lasrt.hpp:76-77, 116-120 *)
Definition prec (asc : bool) (x y : T) : bool := if asc then ltb x y else ltb y x.

(** the inner loop of the insertion sort, lasrt.hpp:75-86, with [j] = start + [c] *)
Fixpoint ins_down (asc : bool) (d : view) (start c : nat) : M unit :=
  match c with
  | O => ret tt
  | S c' =>
    let j := start + S c' in
    x <- rdv d j;; y <- rdv d (j - 1);;
    if prec asc x y then
      temp <- rdv d j;; z <- rdv d (j - 1);; wrv d j z;; wrv d (j - 1) temp;; ins_down asc d start c'
    else ret tt
  end.
(** lasrt.hpp:74-87 *)
Definition ins_sort (asc : bool) (d : view) (start end_ : nat) : M unit :=
  for_ i in (start + 1) upto (end_ + 1) do ins_down asc d start (i - start).
(** lasrt.hpp:90-111 *)
Definition median3 (d1 d2 d3 : T) : T :=
  if ltb d1 d2 then (if ltb d3 d1 then d1 else if ltb d3 d2 then d3 else d2)
  else (if ltb d3 d2 then d2 else if ltb d3 d1 then d3 else d1).
(** [while (i <= end && ...) ++i], lasrt.hpp:116-118; [c] = end + 1 - i *)
Fixpoint scan_up (asc : bool) (d : view) (pivot : T) (c i : nat) : M nat :=
  match c with
  | O => ret i
  | S c' => x <- rdv d i;; if prec asc x pivot then scan_up asc d pivot c' (S i) else ret i
  end.
(** [while (j >= start && ...) --j], lasrt.hpp:119-121.  [idx_t] is modelled as an unsigned type: decrementing
    [j = 0] gives a huge index, with which the next comparison reads out of bounds. *)
Fixpoint scan_down (asc : bool) (d : view) (pivot : T) (start j : nat) : M nat :=
  if start <=? j then
    x <- rdv d j;;
    if prec asc pivot x then match j with O => ub | S j' => scan_down asc d pivot start j' end else ret j
  else ret j.
(** the partition loop, lasrt.hpp:113-134; [fuel] bounds the number of iterations; the result is the final [j] *)
Fixpoint partition (fuel : nat) (asc : bool) (d : view) (pivot : T) (start end_ i j : nat) : M nat :=
  match fuel with
  | O => nofuel
  | S fuel' =>
    i <- scan_up asc d pivot (end_ + 1 - i) i;;
    j <- scan_down asc d pivot start j;;
    if i <? j then
      temp <- rdv d i;; x <- rdv d j;; wrv d i x;; wrv d j temp;;
      partition fuel' asc d pivot start end_ (i + 1) (j - 1)
    else ret j
  end.
(** the main loop over the stack of pending segments (top of the stack first), lasrt.hpp:65-144.
    [start <= j < end] after the partition is asserted here because the size_t computations that follow
    (j - start, end - j - 1, j + 1) rely on it; the theorems show that it always holds. *)
Fixpoint sort_loop (fuel : nat) (asc : bool) (d : view) (stack : list (nat * nat)) : M unit :=
  match fuel with
  | O => nofuel
  | S fuel' =>
    match stack with
    | [] => ret tt
    | (start, end_) :: stack =>
      if (end_ - start <=? 20) && (start <? end_) then ins_sort asc d start end_;; sort_loop fuel' asc d stack
      else if 20 <? end_ - start then
        d1 <- rdv d start;; d2 <- rdv d end_;;
        d3 <- rdv d ((start + end_) / 2);;
        let pivot := median3 d1 d2 d3 in
        j <- partition (end_ - start + 2) asc d pivot start end_ start end_;;
        assert_ ((start <=? j) && (j <? end_));;
        if end_ - j - 1 <? j - start then sort_loop fuel' asc d ((j + 1, end_) :: (start, j) :: stack)
        else sort_loop fuel' asc d ((start, j) :: (j + 1, end_) :: stack)
      else sort_loop fuel' asc d stack
    end
  end.
(** lasrt.hpp:50-147 ([n < 0] never holds for an unsigned n).  The std::vector used as a stack is modelled as a
    list; memory exhaustion is not modelled. *)
Definition lasrt (fuel : nat) (id : ascii) (n : nat) (d : view) : M Z :=
  let dir := if (Ascii.eqb id "d" || Ascii.eqb id "D")%char then Some false
             else if (Ascii.eqb id "i" || Ascii.eqb id "I")%char then Some true else None in
  match dir with
  | None => ret (-1)%Z
  | Some asc => if n <=? 1 then ret 0%Z else sort_loop fuel asc d [(0, n - 1)];; ret 0%Z
  end.

(** [a[ind]], [ind] an unsigned number that may have wrapped around (modelled as a negative number or a number
    past the end: both are out of bounds) *)
Definition rdz (a : view) (ind : Z) : M T := if (0 <=? ind)%Z then rdv a (Z.to_nat ind) else ub.
(** [index[i] = ind]; storing a wrapped value, which is not the index of an element, counts as an error *)
Definition iwrz (p : view) (i : nat) (ind : Z) : M unit := if (0 <=? ind)%Z then iwr p i (Z.to_nat ind) else ub.
(** [a <= b] on real arguments (false when one of them is NaN) *)
Definition leb (a b : T) : bool := ltb a b || eqb a b.
(** the merge loop, lamrg.hpp:87-100; structural on the number [c] = n1sv + n2sv of remaining elements *)
Fixpoint merge_loop (c : nat) (a : view) (dtrd1 dtrd2 : Z) (index : view) (i n1 n2 : nat) (ind1 ind2 : Z) : M (nat * nat * nat * Z * Z) :=
  match c with
  | O => ret (i, n1, n2, ind1, ind2)
  | S c' =>
    if (0 <? n1) && (0 <? n2) then
      x <- rdz a ind1;; y <- rdz a ind2;;
      if leb x y then iwrz index i ind1;; merge_loop c' a dtrd1 dtrd2 index (i + 1) (n1 - 1) n2 (ind1 + dtrd1)%Z ind2
      else iwrz index i ind2;; merge_loop c' a dtrd1 dtrd2 index (i + 1) n1 (n2 - 1) ind1 (ind2 + dtrd2)%Z
    else ret (i, n1, n2, ind1, ind2)
  end.
(** the copying loops, lamrg.hpp:102-115 *)
Fixpoint copy_loop (c : nat) (dtrd : Z) (index : view) (i : nat) (ind : Z) : M unit :=
  match c with O => ret tt | S c' => iwrz index i ind;; copy_loop c' dtrd index (i + 1) (ind + dtrd)%Z end.
(** lamrg.hpp:63-118 *)
Definition lamrg (n1 n2 : nat) (a : view) (dtrd1 dtrd2 : Z) (index : view) : M unit :=
  let ind1 := (if (0 <? dtrd1)%Z then 0 else Z.of_nat n1 - 1)%Z in
  let ind2 := (if (0 <? dtrd2)%Z then Z.of_nat n1 else Z.of_nat n1 + Z.of_nat n2 - 1)%Z in
  r <- merge_loop (n1 + n2) a dtrd1 dtrd2 index 0 n1 n2 ind1 ind2;;
  let '(i, n1sv, n2sv, ind1, ind2) := r in
  if n1sv =? 0 then copy_loop n2sv dtrd2 index i ind2 else copy_loop n1sv dtrd1 index i ind1.
End Model.
