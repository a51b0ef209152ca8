(** * The symmetric tridiagonal eigenvalue solver — include/tlapack/lapack/{lapy2,lae2,laev2,steqr}.hpp,
    blas/lartg.hpp *)
From Coq Require Import Bool Arith ZArith Ascii.
From Verif.Core Require Import Scalar Prog View Slice.
From Verif.Model Require Import Blas1 Householder Sort Rot.
Local Open Scope T_scope.

Section Model.
Context {E : Env}.

(** lapy2.hpp:33-56 *)
Definition lapy2 (x y : T) : T :=
  let xabs := absv x in
  let yabs := absv y in
  let w := if ltb yabs xabs then xabs else yabs in
  let z := if ltb yabs xabs then yabs else xabs in
  if eqb z 0 then w else w * sqrtv (1 + (z / w) * (z / w)).

(** blas/lartg.hpp:37-43 (real types).  [safmin], [safmax] are the constants of rotg.  Results c, s, r. *)
Definition lartg (safmin safmax : T) (a b : T) : T * T * T :=
  let '(r, _, c, s) := rotg_real safmin safmax a b in (c, s, r).

(** lae2.hpp:58-82, laev2.hpp:68-92; T(0.5) is written 1 / 2 *)
Definition ev2_rt (a b c : T) : T :=
  let df := a - c in
  let adf := absv df in
  let tb := b + b in
  let ab := absv tb in
  if ltb ab adf then adf * sqrtv (1 + (ab / adf) * (ab / adf))
  else if ltb adf ab then ab * sqrtv (1 + (adf / ab) * (adf / ab))
  else ab * sqrtv (1 + 1).
(** lae2.hpp:49-104; results s1, s2 *)
Definition lae2 (a b c : T) : T * T :=
  let half := 1 / (1 + 1) in
  let sm := a + c in
  let acmx := if ltb (absv c) (absv a) then a else c in
  let acmn := if ltb (absv c) (absv a) then c else a in
  let rt := ev2_rt a b c in
  if ltb sm 0 then
    let s1 := half * (sm - rt) in (s1, acmx / s1 * acmn - b / s1 * b)
  else if ltb 0 sm then
    let s1 := half * (sm + rt) in (s1, acmx / s1 * acmn - b / s1 * b)
  else (half * rt, - half * rt).
(** laev2.hpp:58-151; results s1, s2, cs, sn.  sign1 and sign2 (1 or -1) are booleans, true for 1. *)
Definition laev2 (a b c : T) : T * T * T * T :=
  let half := 1 / (1 + 1) in
  let sm := a + c in
  let df := a - c in
  let tb := b + b in
  let ab := absv tb in
  let acmx := if ltb (absv c) (absv a) then a else c in
  let acmn := if ltb (absv c) (absv a) then c else a in
  let rt := ev2_rt a b c in
  let '(s1, s2, sign1) :=
    if ltb sm 0 then
      let s1 := half * (sm - rt) in (s1, acmx / s1 * acmn - b / s1 * b, false)
    else if ltb 0 sm then
      let s1 := half * (sm + rt) in (s1, acmx / s1 * acmn - b / s1 * b, true)
    else (half * rt, - half * rt, true) in
  let sign2 := leb 0 df in
  let cs := if sign2 then df + rt else df - rt in
  let '(cs, sn) :=
    if ltb ab (absv cs) then
      let ct := - tb / cs in
      let sn := 1 / sqrtv (1 + ct * ct) in (ct * sn, sn)
    else if eqb ab 0 then (1, 0)
    else
      let tn := - cs / tb in
      let cs := 1 / sqrtv (1 + tn * tn) in (cs, tn * cs) in
  if Bool.eqb sign1 sign2 then (s1, s2, - sn, cs) else (s1, s2, cs, sn).

(** ** steqr *)
(** rot applied to two columns of Z: steqr.hpp:150-152, 199-201, 233-235 *)
Definition rot_cols (Z : view) (j1 j2 : nat) (c s : T) : M unit :=
  z1 <- slcol Z 0 (nr Z) j1;; z2 <- slcol Z 0 (nr Z) j2;; rot z1 z2 c s.
(** steqr.hpp:127-134: the search for the active block, downwards from i = istart + [c].  Result: the new istart. *)
Fixpoint st_find (eps2 safmin : T) (d e : view) (istart c : nat) : M nat :=
  match c with
  | O => ret istart
  | S c' =>
    let i := (istart + S c')%nat in
    x <- rdv e (i - 1);; a <- rdv d (i - 1);; b <- rdv d i;;
    if leb (x * x) (eps2 * absv a * absv b + safmin) then wrv e (i - 1) 0;; ret i
    else st_find eps2 safmin d e istart c'
  end.
(** steqr.hpp:174-205: one QR sweep on the block istart..istop-1 *)
Definition st_qr (safmin safmax : T) (want_z : bool) (d e Z : view) (istart istop : nat) : M unit :=
  p <- rdv d (istop - 1);;
  x <- rdv d (istop - 2);; y <- rdv e (istop - 2);;
  let g := (x - p) / ((1 + 1) * y) in
  let r := lapy2 g 1 in
  d0 <- rdv d istart;; y <- rdv e (istop - 2);;
  let g := d0 - p + y / (g + sgnT g * r) in
  st <- foldup istart (istop - 1) (1, 1, 0, g) (fun i st =>
    let '(s, c, p, g) := st in
    ei <- rdv e i;;
    let f := s * ei in
    ei <- rdv e i;;
    let b := c * ei in
    let '(c, s, r) := lartg safmin safmax g f in
    (if negb (i =? istart)%nat then wrv e (i - 1) r else ret tt);;
    di <- rdv d i;;
    let g := di - p in
    di1 <- rdv d (i + 1);;
    let r := (di1 - g) * s + (1 + 1) * c * b in
    let p := s * r in
    wrv d i (g + p);;
    let g := c * r - b in
    (if want_z then rot_cols Z i (i + 1) c s else ret tt);;
    ret (s, c, p, g));;
  let '(_, _, p, g) := st in
  x <- rdv d (istop - 1);; wrv d (istop - 1) (x - p);; wrv e (istop - 2) g.
(** steqr.hpp:208-239: one QL sweep *)
Definition st_ql (safmin safmax : T) (want_z : bool) (d e Z : view) (istart istop : nat) : M unit :=
  p <- rdv d istart;;
  x <- rdv d (istart + 1);; y <- rdv e istart;;
  let g := (x - p) / ((1 + 1) * y) in
  let r := lapy2 g 1 in
  d0 <- rdv d (istop - 1);; y <- rdv e istart;;
  let g := d0 - p + y / (g + sgnT g * r) in
  st <- folddown (istart + 1) istop (1, 1, 0, g) (fun i st =>
    let '(s, c, p, g) := st in
    ei <- rdv e (i - 1);;
    let f := s * ei in
    ei <- rdv e (i - 1);;
    let b := c * ei in
    let '(c, s, r) := lartg safmin safmax g f in
    (if negb (i =? istop - 1)%nat then wrv e i r else ret tt);;
    di <- rdv d i;;
    let g := di - p in
    di1 <- rdv d (i - 1);;
    let r := (di1 - g) * s + (1 + 1) * c * b in
    let p := s * r in
    wrv d i (g + p);;
    let g := c * r - b in
    (if want_z then rot_cols Z i (i - 1) c s else ret tt);;
    ret (s, c, p, g));;
  let '(_, _, p, g) := st in
  x <- rdv d istart;; wrv d istart (x - p);; wrv e istart g.
(** steqr.hpp:145-159: a 2-by-2 block *)
Definition st_22 (want_z : bool) (d e Z : view) (istart : nat) : M unit :=
  a <- rdv d istart;; b <- rdv e istart;; c <- rdv d (istart + 1);;
  ss <- (if want_z then
           let '(s1, s2, cs, sn) := laev2 a b c in
           rot_cols Z istart (istart + 1) cs sn;; ret (s1, s2)
         else ret (lae2 a b c));;
  let '(s1, s2) := ss in
  wrv d istart s1;; wrv d (istart + 1) s2;; wrv e istart 0.
(** steqr.hpp:115-241: the main loop; [iters] is the number of iterations left.  The test `iter == itmax` at line
    116 is never true inside the loop `iter < itmax`: when the iterations are used up, the loop just ends.
    [old] is None for istart_old = istop_old = -1, the largest idx_t: then `istart >= istop_old` is false and
    `istop <= istart_old` is true. *)
Fixpoint st_loop (iters : nat) (eps2 safmin safmax : T) (want_z : bool) (d e Z : view)
    (istart istop : nat) (old : option (nat * nat)) (forward : bool) : M unit :=
  match iters with
  | O => ret tt
  | S k =>
    if (istop <=? 1)%nat then ret tt else
    istart <- st_find eps2 safmin d e istart (istop - 1 - istart);;
    if (istart =? istop - 1)%nat then
      st_loop k eps2 safmin safmax want_z d e Z 0 (istop - 1) old forward
    else if (istart + 1 =? istop - 1)%nat then
      st_22 want_z d e Z istart;;
      st_loop k eps2 safmin safmax want_z d e Z 0 (istop - 2) old forward
    else
      forward <- (if match old with None => true | Some (a, b) => (b <=? istart) || (istop <=? a) end%nat then
                    x <- rdv d istart;; y <- rdv d (istop - 1);; ret (ltb (absv y) (absv x))
                  else ret forward);;
      (if forward then st_qr safmin safmax want_z d e Z istart istop
       else st_ql safmin safmax want_z d e Z istart istop);;
      st_loop k eps2 safmin safmax want_z d e Z istart istop (Some (istart, istop)) forward
  end.
(** steqr.hpp:250-266: selection sort of the eigenvalues together with the columns of Z *)
Definition st_sort (n : nat) (d Z : view) : M unit :=
  for_ i in 0 upto (n - 1) do (
    di <- rdv d i;;
    kp <- foldup (i + 1) n (i, di) (fun j kp =>
      dj <- rdv d j;;
      if ltb dj (snd kp) then (dj <- rdv d j;; ret (j, dj)) else ret kp);;
    let '(k, p) := kp in
    if negb (k =? i)%nat then
      di <- rdv d i;; wrv d k di;; wrv d i p;;
      z1 <- slcol Z 0 (nr Z) i;; z2 <- slcol Z 0 (nr Z) k;; swap z1 z2
    else ret tt).
(** steqr.hpp:76-270; [eps] is ulp, [fuel] bounds the quick sort of lasrt *)
Definition steqr (fuel : nat) (eps safmin safmax : T) (want_z : bool) (d e Z : view) : M BinNums.Z :=
  let n := nr d in
  if (n =? 0)%nat then ret 0%Z else
  if (n =? 1)%nat then ret 0%Z else
  st_loop (30 * n) (eps * eps) safmin safmax want_z d e Z 0 n None true;;
  (if negb want_z then (lasrt fuel "I" n d;; ret tt) else st_sort n d Z);;
  ret 0%Z.
End Model.
