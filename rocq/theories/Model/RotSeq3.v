(** * Several sequences of rotations at once — include/tlapack/lapack/rot_sequence3.hpp *)
From Coq Require Import Bool Arith ZArith.
From Verif.Core Require Import Scalar Prog View Slice.
From Verif.Model Require Import Rot.
Local Open Scope T_scope.

Section Model.
Context {E : Env}.

(** The eight branches of rot_sequence3.hpp:128-930 (layout x side x direction) differ only in the element they call
    A(g, i1) (Left) or A(i1, g) (Right), in where conj is put (see [upf], [dnf] of Model/Rot.v), in the direction
    of g, and in whether the loop over the lines i1 is the outermost or the innermost one.
    Elements of C and S that are read several times in one block of assignments are read once here. *)
(** one rotation: rot_sequence3.hpp:140-145, 199-205, 220-225, 239-244, ... *)
Definition rot1 (side : side_t) (C S A : view) (g i j : nat) : M unit :=
  c <- rd C g i;; s <- rd S g i;;
  x <- rds side A g j;; y <- rds side A (g + 1) j;;
  let temp := c * x + upf side s * y in
  wrs side A (g + 1) j (dnf side s * x + c * y);;
  wrs side A g j temp.
(** four fused rotations (g,i), (g-1,i), (g+1,i+1), (g,i+1): rot_sequence3.hpp:154-190, 353-391, 553-589, 756-793 *)
Definition rot4_fwd (side : side_t) (C S A : view) (g i j : nat) : M unit :=
  c <- rd C g i;; s <- rd S g i;;
  x <- rds side A g j;; y <- rds side A (g + 1) j;;
  let temp1 := c * x + upf side s * y in
  let temp2 := dnf side s * x + c * y in
  c <- rd C (g - 1) i;; s <- rd S (g - 1) i;;
  z <- rds side A (g - 1) j;;
  let temp3 := dnf side s * z + c * temp1 in
  wrs side A (g - 1) j (c * z + upf side s * temp1);;
  c <- rd C (g + 1) (i + 1);; s <- rd S (g + 1) (i + 1);;
  z <- rds side A (g + 2) j;;
  let temp4 := c * temp2 + upf side s * z in
  wrs side A (g + 2) j (dnf side s * temp2 + c * z);;
  c <- rd C g (i + 1);; s <- rd S g (i + 1);;
  wrs side A g j (c * temp3 + upf side s * temp4);;
  wrs side A (g + 1) j (dnf side s * temp3 + c * temp4).
(** four fused rotations (g,i), (g+1,i), (g-1,i+1), (g,i+1): rot_sequence3.hpp:252-289, 452-487, 652-690, 854-890 *)
Definition rot4_bwd (side : side_t) (C S A : view) (g i j : nat) : M unit :=
  c <- rd C g i;; s <- rd S g i;;
  x <- rds side A g j;; y <- rds side A (g + 1) j;;
  let temp1 := c * x + upf side s * y in
  let temp2 := dnf side s * x + c * y in
  c <- rd C (g + 1) i;; s <- rd S (g + 1) i;;
  z <- rds side A (g + 2) j;;
  let temp3 := c * temp2 + upf side s * z in
  wrs side A (g + 2) j (dnf side s * temp2 + c * z);;
  c <- rd C (g - 1) (i + 1);; s <- rd S (g - 1) (i + 1);;
  z <- rds side A (g - 1) j;;
  let temp4 := dnf side s * z + c * temp1 in
  wrs side A (g - 1) j (c * z + upf side s * temp1);;
  c <- rd C g (i + 1);; s <- rd S g (i + 1);;
  wrs side A g j (c * temp4 + upf side s * temp3);;
  wrs side A (g + 1) j (dnf side s * temp4 + c * temp3).
(** g2 counts the rotations of one sequence; g = dim-2-g2 for Forward, g2 for Backward *)
Definition gof (direction : direction_t) (dim g2 : nat) : nat :=
  match direction with Forward => (dim - 2 - g2)%nat | Backward => g2 end.

(** The phases.  [on] runs a body on the lines of the block: a loop when the lines are the innermost loop, the body
    itself on one line when they are the outermost one. *)
(** rot_sequence3.hpp:135-147, 235-246, 335-347, 435-447, ... *)
Definition startup (on : (nat -> M unit) -> M unit) side direction (dim l : nat) (C S A : view) : M unit :=
  for_ j in 0 upto (l - 1) do for_ i in 0 upto (j + 1) do
    on (rot1 side C S A (gof direction dim (j - i)) i).
(** rot_sequence3.hpp:148-214, 247-313, 348-415, 448-511, ...: j = l-1, l+1, ... while j+1 < dim-1 is counted by
    [t], i = 0, 2, ... while i+1 < l by [u] *)
Definition pipeline (on : (nat -> M unit) -> M unit) side direction (dim l : nat) (C S A : view) : M unit :=
  for_ t in 0 upto ((dim - 1 - l + 1) / 2) do (
    let j := (l - 1 + 2 * t)%nat in
    (for_ u in 0 upto (l / 2) do
       on (match direction with
           | Forward => rot4_fwd side C S A (gof direction dim (j - 2 * u)) (2 * u)
           | Backward => rot4_bwd side C S A (gof direction dim (j - 2 * u)) (2 * u)
           end));;
    if (l mod 2 =? 1)%nat then
      let i := (l - 1)%nat in
      let g := gof direction dim (j - (l - 1)) in
      on (fun i1 => rot1 side C S A g i i1;;
                    rot1 side C S A (match direction with Forward => g - 1 | Backward => g + 1 end)%nat i i1)
    else ret tt).
(** rot_sequence3.hpp:215-228, 314-325, 416-429, 512-523, ... *)
Definition shutdown (on : (nat -> M unit) -> M unit) side direction (dim l : nat) (C S A : view) : M unit :=
  for_ j in ((dim - l + 1) mod 2) upto l do for_ i in j upto l do
    on (rot1 side C S A (gof direction dim (dim - 2 - (i - j))) i).
(** the lines lo, ..., hi-1, as the outermost or the innermost loop *)
Definition lines (outer : bool) (lo hi : nat) (phase : ((nat -> M unit) -> M unit) -> M unit) : M unit :=
  if outer then for_ i1 in lo upto hi do phase (fun f => f i1)
  else phase (fun f => for_ i1 in lo upto hi do f i1).
(** one block of lines.  In the branches Left, Forward the startup phase runs over all lines, 0..other-1, instead of
    those of the block (rot_sequence3.hpp:136, 539). *)
Definition rot3_block (outer : bool) side direction (dim l other ib ib2 : nat) (C S A : view) : M unit :=
  (match side, direction with
   | Left, Forward => lines outer 0 other (fun on => startup on side direction dim l C S A)
   | _, _ => lines outer ib ib2 (fun on => startup on side direction dim l C S A)
   end);;
  lines outer ib ib2 (fun on => pipeline on side direction dim l C S A);;
  lines outer ib ib2 (fun on => shutdown on side direction dim l C S A).
(** rot_sequence3.hpp:92-931 for the blocking parameter [nb]; the blocks ib = 0, nb, ... are counted by [b].  The
    pragma `omp parallel for` on the loop over the blocks is ignored.  [colmajor] is
    [layout<A_t> == Layout::ColMajor].  For dim = 0, k = dim-1 wraps around to SIZE_MAX: the check on nrows(C)
    fails, and without checks the loops leave the arrays unless l = 0. *)
Definition rot_sequence3_nb (nb : nat) (colmajor : bool) (side : side_t) (direction : direction_t) (C S A : view) : M unit :=
  let m := nr A in
  let n := nc A in
  let dim := match side with Left => m | Right => n end in
  let other := match side with Left => n | Right => m end in
  let l := nc C in
  check (nc S =? l)%nat;;
  if (dim =? 0)%nat then check false;; (if (l <? 1)%nat then ret tt else ub)
  else
    let k := (dim - 1)%nat in
    check (nr C =? k)%nat;;
    check (nr S =? k)%nat;;
    if (k <? 1)%nat || (l <? 1)%nat then ret tt else
    if (l =? 1)%nat || (k <? l)%nat then
      for_ j in 0 upto l do (
        c <- slcol C 0 (nr C) j;; s <- slcol S 0 (nr S) j;;
        rot_sequence colmajor side direction c s A;; ret tt)
    else
      let outer := match side, colmajor with Left, true | Right, false => true | _, _ => false end in
      for_ b in 0 upto ((other + nb - 1) / nb) do
        rot3_block outer side direction dim l other (b * nb) (Nat.min (b * nb + nb) other) C S A.
(** rot_sequence3.hpp:105: nb = 256 *)
Definition rot_sequence3 := rot_sequence3_nb 256.
End Model.
