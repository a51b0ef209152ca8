(** * Plane rotations: rotg, rotmg, rot_sequence (rot and rotm are in Model/Blas1.v) *)
From Coq Require Import Bool Arith ZArith.
From Verif.Core Require Import Scalar Prog View.
From Verif.Model Require Import Householder Sort.
Local Open Scope T_scope.

Section Model.
Context {E : Env}.

(** std::min *)
Definition minT (a b : T) : T := if ltb b a then b else a.
(** base/utils.hpp:106-112: sgn, converted to the real type *)
Definition sgnT (v : T) : T :=
  if ltb 0 v then (if ltb v 0 then 0 else 1) else (if ltb v 0 then - (1) else 0).

(** rotg.hpp:36-78, real types.  [safmin], [safmax] are safe_min and safe_max.  The references a, b, c, s are
    results here, in that order. *)
Definition rotg_real (safmin safmax : T) (a b : T) : T * T * T * T :=
  let anorm := absv a in
  let bnorm := absv b in
  if eqb bnorm 0 then (a, 0, 1, 0)
  else if eqb anorm 0 then (b, 1, 0, 1)
  else
    let scl := minT safmax (maxT safmin (maxT anorm bnorm)) in
    let sigma := if ltb bnorm anorm then sgnT a else sgnT b in
    let r := sigma * scl * sqrtv (a / scl * (a / scl) + b / scl * (b / scl)) in
    let c := a / r in
    let s := b / r in
    (r, (if ltb bnorm anorm then s else if negb (eqb c 0) then 1 / c else 1), c, s).

(** rotg.hpp:101-186, complex types; [rtmin] = sqrt(safmin/ulp) and [rtmax] = sqrt(safmax*ulp) are taken as
    parameters.  Results a, c, s. *)
Definition rotg_cplx (safmin safmax rtmin rtmax : T) (a b : T) : T * T * T :=
  let sq (z : T) : T := re z * re z + im z * im z in
  let mx (z : T) : T := maxT (absv (re z)) (absv (im z)) in
  if eqb b 0 then (a, 1, 0)
  else if eqb a 0 then
    let g1 := mx b in
    if ltb rtmin g1 && ltb g1 rtmax then
      let g2 := sq b in
      let d := sqrtv g2 in
      (d, 0, conj b / d)
    else
      let u := minT safmax (maxT safmin g1) in
      let uu := 1 / u in
      let gs := b * uu in
      let g2 := sq gs in
      let d := sqrtv g2 in
      (d * u, 0, conj gs / d)
  else
    let f1 := mx a in
    let g1 := mx b in
    if ltb rtmin f1 && ltb f1 rtmax && ltb rtmin g1 && ltb g1 rtmax then
      let f2 := sq a in
      let g2 := sq b in
      let h2 := f2 + g2 in
      let d := if ltb rtmin f2 && ltb h2 rtmax then sqrtv (f2 * h2) else sqrtv f2 * sqrtv h2 in
      let p := 1 / d in
      (a * (h2 * p), f2 * p, conj b * (a * p))
    else
      let u := minT safmax (maxT safmin (maxT f1 g1)) in
      let uu := 1 / u in
      let gs := b * uu in
      let g2 := sq gs in
      let '(w, fs, f2, h2) :=
        if ltb (f1 * uu) rtmin then
          let v := minT safmax (maxT safmin f1) in
          let vv := 1 / v in
          let w := v * uu in
          let fs := a * vv in
          let f2 := sq fs in
          (w, fs, f2, f2 * w * w + g2)
        else
          let fs := a * uu in
          let f2 := sq fs in
          (1, fs, f2, f2 + g2) in
      let d := if ltb rtmin f2 && ltb h2 rtmax then sqrtv (f2 * h2) else sqrtv f2 * sqrtv h2 in
      let p := 1 / d in
      (fs * (h2 * p) * u, f2 * p * w, conj gs * (fs * p)).

(** ** rotmg *)
(** the variables of rotmg: flag, d1, d2, a and the array h *)
Record rmg := mkrmg { rflag : Z; rd1 : T; rd2 : T; ra : T; rh0 : T; rh1 : T; rh2 : T; rh3 : T }.
(** rotmg.hpp:160-169, 187-196: at the start of a rescaling step, [if (flag == 0) ... else ...] *)
Definition rmg_flag (r : rmg) : rmg :=
  if Z.eqb (rflag r) 0 then mkrmg (-1) (rd1 r) (rd2 r) (ra r) 1 (rh1 r) (rh2 r) 1
  else mkrmg (-1) (rd1 r) (rd2 r) (ra r) (rh0 r) (- (1)) 1 (rh3 r).
(** rotmg.hpp:159-182: the loop rescaling d1 *)
Fixpoint rmg_loop1 (fuel : nat) (gam gamsq rgamsq : T) (r : rmg) : M rmg :=
  if leb (rd1 r) rgamsq || leb gamsq (rd1 r) then
    match fuel with
    | O => nofuel
    | S fu =>
        let r := rmg_flag r in
        rmg_loop1 fu gam gamsq rgamsq
          (if leb (rd1 r) rgamsq then
             mkrmg (rflag r) (rd1 r * (gam * gam)) (rd2 r) (ra r / gam) (rh0 r / gam) (rh1 r) (rh2 r / gam) (rh3 r)
           else
             mkrmg (rflag r) (rd1 r / (gam * gam)) (rd2 r) (ra r * gam) (rh0 r * gam) (rh1 r) (rh2 r * gam) (rh3 r))
    end
  else ret r.
(** rotmg.hpp:186-207: the loop rescaling d2 *)
Fixpoint rmg_loop2 (fuel : nat) (gam gamsq rgamsq : T) (r : rmg) : M rmg :=
  if leb (absv (rd2 r)) rgamsq || leb gamsq (absv (rd2 r)) then
    match fuel with
    | O => nofuel
    | S fu =>
        let r := rmg_flag r in
        rmg_loop2 fu gam gamsq rgamsq
          (if leb (absv (rd2 r)) rgamsq then
             mkrmg (rflag r) (rd1 r) (rd2 r * (gam * gam)) (ra r) (rh0 r) (rh1 r / gam) (rh2 r) (rh3 r / gam)
           else
             mkrmg (rflag r) (rd1 r) (rd2 r / (gam * gam)) (ra r) (rh0 r) (rh1 r * gam) (rh2 r) (rh3 r * gam))
    end
  else ret r.
(** rotmg.hpp:126-155: the rotation before rescaling *)
Definition rmg_start (d1 d2 a b : T) : rmg :=
  let p2 := d2 * b in
  let p1 := d1 * a in
  let q2 := p2 * b in
  let q1 := p1 * a in
  if ltb (absv q2) (absv q1) then
    let h1 := - b / a in
    let h2 := p2 / p1 in
    let u := 1 - h2 * h1 in
    if ltb 0 u then mkrmg 0 (d1 / u) (d2 / u) (a * u) 0 h1 h2 0 else mkrmg 0 d1 d2 a 0 h1 h2 0
  else if ltb q2 0 then mkrmg (-1) 0 0 0 0 0 0 0
  else
    let h0 := p1 / p2 in
    let h3 := a / b in
    let u := 1 + h0 * h3 in
    mkrmg 1 (d2 / u) (d1 / u) (b * u) h0 0 0 h3.
(** rotmg.hpp:95-213; [gam] is the constant T(4096) *)
Definition rotmg (fuel : nat) (gam : T) (d1 d2 a b : T) : M rmg :=
  check (negb (leb d1 0));;
  let gamsq := gam * gam in
  let rgamsq := 1 / gamsq in
  if ltb d1 0 then ret (mkrmg (-1) 0 0 0 0 0 0 0)
  else if eqb (d2 * b) 0 then ret (mkrmg (-2) d1 d2 a 0 0 0 0)
  else
    let r := rmg_start d1 d2 a b in
    r <- (if negb (eqb (rd1 r) 0) then rmg_loop1 fuel gam gamsq rgamsq r else ret r);;
    (if negb (eqb (rd2 r) 0) then rmg_loop2 fuel gam gamsq rgamsq r else ret r).

(** ** rot_sequence *)
(** the element the code calls A(i,j) (Left) or A(j,i) (Right) *)
Definition rds (side : side_t) (A : view) (i j : nat) : M T := match side with Left => rd A i j | Right => rd A j i end.
Definition wrs (side : side_t) (A : view) (i j : nat) (v : T) : M unit := match side with Left => wr A i j v | Right => wr A j i v end.
(** the factors of the rotation: [s[i]] and [-conj(s[i])] (Left), [conj(s[i])] and [-s[i]] (Right) *)
Definition upf (side : side_t) (s : T) : T := match side with Left => s | Right => conj s end.
Definition dnf (side : side_t) (s : T) : T := match side with Left => - conj s | Right => - s end.
(** rot_sequence.hpp:106-109, 147-149, 161-164, 200-202, 245-248, 258-260, 292-295, 304-306 *)
Definition rot_one (side : side_t) (c s A : view) (i j : nat) : M unit :=
  ci <- rdv c i;; si <- rdv s i;;
  x <- rds side A i j;; y <- rds side A (i + 1) j;;
  let temp := ci * x + upf side si * y in
  wrs side A (i + 1) j (dnf side si * x + ci * y);;
  wrs side A i j temp.
(** rot_sequence.hpp:103-113, 253-263 (Forward): the rotations k-1, ..., 0 on one line [j] after the other *)
Definition plain_fwd (side : side_t) (k n : nat) (c s A : view) : M unit :=
  for_ j in 0 upto n do ford_ i in 0 upto k do rot_one side c s A i j.
(** rot_sequence.hpp:158-167, 300-309 (Backward) *)
Definition plain_bwd (side : side_t) (k n : nat) (c s A : view) : M unit :=
  for_ j in 0 upto n do for_ i in 0 upto k do rot_one side c s A i j.
(** rot_sequence.hpp:123-140, 219-236: three rotations i, i-1, i-2 applied at once to line [j] *)
Definition rot3_fwd (side : side_t) (c s A : view) (i j : nat) : M unit :=
  temp <- rds side A (i + 1) j;; temp0 <- rds side A i j;; temp1 <- rds side A (i - 1) j;;
  ci <- rdv c i;; si <- rdv s i;;
  wrs side A (i + 1) j (dnf side si * temp0 + ci * temp);;
  let temp0 := ci * temp0 + upf side si * temp in
  ci <- rdv c (i - 1);; si <- rdv s (i - 1);;
  wrs side A i j (dnf side si * temp1 + ci * temp0);;
  let temp1 := ci * temp1 + upf side si * temp0 in
  ci <- rdv c (i - 2);; si <- rdv s (i - 2);;
  z <- rds side A (i - 2) j;;
  wrs side A (i - 1) j (dnf side si * z + ci * temp1);;
  z <- rds side A (i - 2) j;;
  wrs side A (i - 2) j (ci * z + upf side si * temp1).
(** rot_sequence.hpp:117-151, 213-250.  The loop [for (i2 = k; i2 > k % 3; i2 -= 3)], i = i2-1, is counted by
    [t], i2 = k - 3t. *)
Definition unr_fwd (side : side_t) (k n : nat) (c s A : view) : M unit :=
  (for_ t in 0 upto k / 3 do for_ j in 0 upto n do rot3_fwd side c s A (k - 3 * t - 1) j);;
  ford_ i in 0 upto k mod 3 do for_ j in 0 upto n do rot_one side c s A i j.
(** rot_sequence.hpp:175-193, 271-285 *)
Definition rot3_bwd (side : side_t) (c s A : view) (i j : nat) : M unit :=
  temp <- rds side A i j;; temp0 <- rds side A (i + 1) j;; temp1 <- rds side A (i + 2) j;;
  ci <- rdv c i;; si <- rdv s i;;
  wrs side A i j (ci * temp + upf side si * temp0);;
  let temp0 := dnf side si * temp + ci * temp0 in
  ci <- rdv c (i + 1);; si <- rdv s (i + 1);;
  wrs side A (i + 1) j (ci * temp0 + upf side si * temp1);;
  let temp1 := dnf side si * temp0 + ci * temp1 in
  ci <- rdv c (i + 2);; si <- rdv s (i + 2);;
  z <- rds side A (i + 3) j;;
  wrs side A (i + 2) j (ci * temp1 + upf side si * z);;
  z <- rds side A (i + 3) j;;
  wrs side A (i + 3) j (dnf side si * temp1 + ci * z).
(** rot_sequence.hpp:172-205, 268-297.  The loop [for (i = 0; i + 1 < ii; i += 3)], ii = k - k % 3, is counted by
    [t], i = 3t. *)
Definition unr_bwd (side : side_t) (k n : nat) (c s A : view) : M unit :=
  (for_ t in 0 upto k / 3 do for_ j in 0 upto n do rot3_bwd side c s A (3 * t) j);;
  for_ i in (k - k mod 3) upto k do for_ j in 0 upto n do rot_one side c s A i j.
(** rot_sequence.hpp:82-312; [colmajor] is [layout<A_t> == Layout::ColMajor].  When the dimension the rotations act
    on is 0, [k = m-1] wraps around to SIZE_MAX: the check fails, and without checks the loops are out of bounds
    (modelled as undefined behaviour, also when the other dimension is 0 and the loops would be empty). *)
Definition rot_sequence (colmajor : bool) (side : side_t) (direction : direction_t) (c s A : view) : M Z :=
  let m := nr A in
  let n := nc A in
  let dim := match side with Left => m | Right => n end in
  let other := match side with Left => n | Right => m end in
  if (dim =? 0)%nat then check false;; ub
  else
    let k := (dim - 1)%nat in
    check (nr c =? k)%nat;;
    check (nr s =? k)%nat;;
    if (k <? 1)%nat then ret 0%Z else
    (match direction, side, colmajor with
     | Forward, Left, true | Forward, Right, false => plain_fwd side k other c s A
     | Forward, _, _ => unr_fwd side k other c s A
     | Backward, Left, true | Backward, Right, false => plain_bwd side k other c s A
     | Backward, _, _ => unr_bwd side k other c s A
     end);;
    ret 0%Z.
End Model.
