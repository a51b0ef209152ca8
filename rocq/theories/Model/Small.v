(** * Small kernels of the eigenvalue and SVD algorithms — include/tlapack/lapack/{ladiv,lahqr_eig22,lahqr_schur22,
    lahqr_shiftcolumn,inv_house3,singularvalues22,svd22,laed5}.hpp.
    Scalars that the code returns through references are results here, in the order of the parameters.  An integer
    result of sgn is converted to the scalar type (sgnT). *)
From Coq Require Import Bool Arith ZArith.
From Verif.Core Require Import Scalar Prog View Slice.
From Verif.Model Require Import Householder Sort Rot Steqr.
Local Open Scope T_scope.

Section Model.
Context {E : Env}.
Definition two : T := 1 + 1.
Definition halfT : T := 1 / two.
Definition fourT : T := two + two.

(** ladiv.hpp:47-57 *)
Definition ladiv2 (a b c d r t : T) : T :=
  if negb (eqb r 0) then
    let br := b * r in
    if negb (eqb br 0) then (a + br) * t else a * t + (b * t) * r
  else (a + d * (b / c)) * t.
(** ladiv.hpp:60-66; results p, q *)
Definition ladiv1 (a b c d : T) : T * T :=
  let r := d / c in
  let t := 1 / (c + d * r) in
  (ladiv2 a b c d r t, ladiv2 b (- a) c d r t).
(** ladiv.hpp:33-142 (real types); [ov]: the largest finite number, [safmin]: safe_min, [u]: uroundoff.  Results p, q *)
Definition ladiv (ov safmin u : T) (a b c d : T) : T * T :=
  let bs := two in
  let be := bs / (u * u) in
  if eqb d 0 then (a / c, b / c) else
  if eqb c 0 then (b / d, (- a) / d) else
  let ab := maxT (absv a) (absv b) in
  let cd := maxT (absv c) (absv d) in
  let '(aa, bb, s) := if leb (halfT * ov) ab then (a * halfT, b * halfT, 1 * two) else (a, b, 1) in
  let '(cc, dd, s) := if leb (halfT * ov) cd then (c * halfT, d * halfT, s * halfT) else (c, d, s) in
  let '(aa, bb, s) := if leb ab (safmin * bs / u) then (aa * be, bb * be, s / be) else (aa, bb, s) in
  let '(cc, dd, s) := if leb cd (safmin * bs / u) then (cc * be, dd * be, s * be) else (cc, dd, s) in
  let '(p, q) := if leb (absv d) (absv c) then ladiv1 aa bb cc dd else (let '(p, q) := ladiv1 bb aa dd cc in (p, - q)) in
  if negb (eqb s 1) then (p * s, q * s) else (p, q).

(** lahqr_eig22.hpp:33-62; [csqrt]: the complex square root.  For a real matrix the arithmetic up to [det] is real; the
    model computes with the same values in the complex type.  Results s1, s2 *)
Definition lahqr_eig22 (csqrt : T -> T) (a00 a01 a10 a11 : T) : T * T :=
  let s := abs1 a00 + abs1 a01 + abs1 a10 + abs1 a11 in
  if eqb s 0 then (0, 0) else
  let a00 := a00 / s in
  let a01 := a01 / s in
  let a10 := a10 / s in
  let a11 := a11 / s in
  let tr := (a00 + a11) / two in
  let det := (a00 - tr) * (a00 - tr) + a01 * a10 in
  let rtdisc := csqrt det in
  (s * (tr + rtdisc), s * (tr - rtdisc)).

(** lahqr_schur22.hpp:110-123: [n] rounds of the scaling loop; [safmx2] is 1 / safmn2 *)
Fixpoint schur22_scale (n : nat) (safmn2 safmx2 sigma temp : T) : T * T :=
  match n with
  | O => (sigma, temp)
  | S n =>
    let scale := maxT (absv temp) (absv sigma) in
    if leb safmx2 scale then schur22_scale n safmn2 safmx2 (sigma * safmn2) (temp * safmn2)
    else if leb scale safmn2 then schur22_scale n safmn2 safmx2 (sigma * safmx2) (temp * safmx2)
    else (sigma, temp)
  end.
(** lahqr_schur22.hpp:46-170 (real types), without the eigenvalues; [eps]: ulp, [safmn2] as in the code.
    Results a, b, c, d, cs, sn *)
Definition schur22_factor (eps safmn2 : T) (a b c d : T) : T * T * T * T * T * T :=
  let multpl := fourT in
  let safmx2 := 1 / safmn2 in
  if eqb c 0 then (a, b, c, d, 1, 0) else
  if eqb b 0 then (d, - c, 0, a, 0, 1) else
  if eqb (a - d) 0 && negb (eqb (sgnT b) (sgnT c)) then (a, b, c, d, 1, 0) else
  let temp := a - d in
  let p := halfT * temp in
  let bcmax := maxT (absv b) (absv c) in
  let bcmin := minT (absv b) (absv c) * (sgnT b * sgnT c) in
  let scale := maxT (absv p) bcmax in
  let z := (p / scale) * p + (bcmax / scale) * bcmin in
  if leb (multpl * eps) z then
    let z := p + sgnT p * sqrtv scale * sqrtv z in
    let a := d + z in
    let d := d - (bcmax / z) * bcmin in
    let tau := lapy2 c z in
    (a, b - c, 0, d, z / tau, c / tau)
  else
    let '(sigma, temp) := schur22_scale 20 safmn2 safmx2 (b + c) temp in
    let p := halfT * temp in
    let tau := lapy2 sigma temp in
    let cs := sqrtv (halfT * (1 + absv sigma / tau)) in
    let sn := - (p / (tau * cs)) * sgnT sigma in
    let aa := a * cs + b * sn in
    let bb := (- a) * sn + b * cs in
    let cc := c * cs + d * sn in
    let dd := (- c) * sn + d * cs in
    let a := aa * cs + cc * sn in
    let b := bb * cs + dd * sn in
    let c := (- aa) * sn + cc * cs in
    let d := (- bb) * sn + dd * cs in
    let temp := halfT * (a + d) in
    if negb (eqb c 0) && negb (eqb b 0) && eqb (sgnT b) (sgnT c) then
      let sab := sqrtv (absv b) in
      let sac := sqrtv (absv c) in
      let p := if ltb 0 c then sab * sac else (- sab) * sac in
      let tau := 1 / sqrtv (absv (b + c)) in
      let cs1 := sab * tau in
      let sn1 := sac * tau in
      (temp + p, b - c, 0, temp - p, cs * cs1 - sn * sn1, cs * sn1 + sn * cs1)
    else (temp, b, c, temp, cs, sn).
(** lahqr_schur22.hpp:171-180: the eigenvalues, each as real and imaginary part.  Results s1, s2 *)
Definition schur22_eig (a b c d : T) : (T * T) * (T * T) :=
  if negb (eqb c 0) then let temp := sqrtv (absv b) * sqrtv (absv c) in ((a, temp), (d, - temp)) else ((a, 0), (d, 0)).
(** lahqr_schur22.hpp:46-181 *)
Definition lahqr_schur22 (eps safmn2 : T) (a b c d : T) : (T * T * T * T) * ((T * T) * (T * T)) * (T * T) :=
  let '(aa, bb, cc, dd, cs, sn) := schur22_factor eps safmn2 a b c d in
  ((aa, bb, cc, dd), schur22_eig aa bb cc dd, (cs, sn)).

(** lahqr_shiftcolumn.hpp:40-100 (real types); s1 and s2 are given by their real and imaginary parts *)
Definition shiftcolumn_real (H v : view) (s1 s2 : T * T) : M Z :=
  let n := nc H in
  let '(r1, i1) := s1 in
  let '(r2, i2) := s2 in
  check (negb (negb (n =? 2)%nat && negb (n =? 3)%nat));;
  check (n =? nr H)%nat;;
  check (nr v =? n)%nat;;
  if (n =? 2)%nat then
    h00 <- rd H 0 0;; h10 <- rd H 1 0;;
    let s := absv (h00 - r2) + absv i2 + absv h10 in
    (if eqb s 0 then wrv v 0 0;; wrv v 1 0
     else
       h01 <- rd H 0 1;; h11 <- rd H 1 1;;
       let h10s := h10 / s in
       wrv v 0 (h10s * h01 + (h00 - r1) * ((h00 - r2) / s) - i1 * (i2 / s));;
       wrv v 1 (h10s * (h00 + h11 - r1 - r2)));;
    ret 0%Z
  else
    h00 <- rd H 0 0;; h10 <- rd H 1 0;; h20 <- rd H 2 0;;
    let s := absv (h00 - r2) + absv i2 + absv h10 + absv h20 in
    (if eqb s 0 then wrv v 0 0;; wrv v 1 0;; wrv v 2 0
     else
       h01 <- rd H 0 1;; h02 <- rd H 0 2;; h11 <- rd H 1 1;; h12 <- rd H 1 2;; h21 <- rd H 2 1;; h22 <- rd H 2 2;;
       let h10s := h10 / s in
       let h20s := h20 / s in
       wrv v 0 ((h00 - r1) * ((h00 - r2) / s) - i1 * (i2 / s) + h01 * h10s + h02 * h20s);;
       wrv v 1 (h10s * (h00 + h11 - r1 - r2) + h12 * h20s);;
       wrv v 2 (h20s * (h00 + h22 - r1 - r2) + h10s * h21));;
    ret 0%Z.
(** lahqr_shiftcolumn.hpp:122-164 (complex types) *)
Definition shiftcolumn_cplx (H v : view) (s1 s2 : T) : M Z :=
  let n := nc H in
  check (negb (negb (n =? 2)%nat && negb (n =? 3)%nat));;
  check (n =? nr H)%nat;;
  check (nr v =? n)%nat;;
  if (n =? 2)%nat then
    h00 <- rd H 0 0;; h10 <- rd H 1 0;;
    let s := abs1 (h00 - s2) + abs1 h10 in
    (if eqb s 0 then wrv v 0 0;; wrv v 1 0
     else
       h01 <- rd H 0 1;; h11 <- rd H 1 1;;
       let h10s := h10 / s in
       wrv v 0 (h10s * h01 + (h00 - s1) * ((h00 - s2) / s));;
       wrv v 1 (h10s * (h00 + h11 - s1 - s2)));;
    ret 0%Z
  else
    h00 <- rd H 0 0;; h10 <- rd H 1 0;; h20 <- rd H 2 0;;
    let s := abs1 (h00 - s2) + abs1 h10 + abs1 h20 in
    (if eqb s 0 then wrv v 0 0;; wrv v 1 0;; wrv v 2 0
     else
       h01 <- rd H 0 1;; h02 <- rd H 0 2;; h11 <- rd H 1 1;; h12 <- rd H 1 2;; h21 <- rd H 2 1;; h22 <- rd H 2 2;;
       let h10s := h10 / s in
       let h20s := h20 / s in
       wrv v 0 ((h00 - s1) * ((h00 - s2) / s) + h01 * h10s + h02 * h20s);;
       wrv v 1 (h10s * (h00 + h11 - s1 - s2) + h12 * h20s);;
       wrv v 2 (h20s * (h00 + h22 - s1 - s2) + h10s * h21));;
    ret 0%Z.

(** inv_house3.hpp:44-114; tau is returned, [hsafe h] is safe_min.  The elements of A are read at the start (the code
    reads each of them at least once before it writes v, or not at all after) *)
Definition inv_house3 (h : hconst) (A v : view) : M T :=
  let safemin := hsafe h in
  a00 <- rd A 0 0;; a01 <- rd A 0 1;; a02 <- rd A 0 2;; a10 <- rd A 1 0;; a11 <- rd A 1 1;; a12 <- rd A 1 2;;
  let temp1 := maxT (abs1 a01) (abs1 a02) in
  let temp2 := maxT (abs1 a11) (abs1 a12) in
  if ltb temp1 safemin && ltb temp2 safemin then
    wrv v 0 0;; wrv v 1 1;; wrv v 2 0;; larfg h Forward Columnwise v
  else
    let '(b11, b12, b21, b22, v1, v2) :=
      if leb temp2 temp1 then (a01, a02, a11, a12, - a00, - a10) else (a11, a12, a01, a02, - a10, - a00) in
    let colswapped := ltb (abs1 b11) (abs1 b12) in
    let '(u11, u12, b21, b22) := if colswapped then (b12, b11, b22, b21) else (b11, b12, b21, b22) in
    let l21 := b21 / u11 in
    let u22 := b22 - l21 * u12 in
    let v2 := v2 - v1 * l21 in
    if ltb (abs1 u22) safemin then
      wrv v 0 0;; wrv v 1 1;; wrv v 2 ((- u12) / u11);; larfg h Forward Columnwise v
    else
      let scale := 1 in
      let scale := if ltb (abs1 u22) (abs1 v2) then abs1 (u22 / v2) else scale in
      let scale := if ltb (abs1 u11) (abs1 v1) then minT scale (abs1 (u11 / v1)) else scale in
      let v2 := (scale * v2) / u22 in
      let v1 := (scale * v1 - u12 * v2) / u11 in
      (if colswapped then wrv v 0 scale;; wrv v 1 v2;; wrv v 2 v1 else wrv v 0 scale;; wrv v 1 v1;; wrv v 2 v2);;
      larfg h Forward Columnwise v.

(** singularvalues22.hpp:38-88; results ssmin, ssmax *)
Definition singularvalues22 (f g h : T) : T * T :=
  let sq (x : T) : T := x * x in
  let fa := absv f in
  let ga := absv g in
  let ha := absv h in
  let fhmn := minT fa ha in
  let fhmx := maxT fa ha in
  if eqb fhmn 0 then
    (0, if eqb fhmx 0 then ga else maxT fhmx ga * sqrtv (1 + sq (minT fhmx ga / maxT fhmx ga)))
  else if ltb ga fhmx then
    let as_ := 1 + fhmn / fhmx in
    let at_ := (fhmx - fhmn) / fhmx in
    let au := sq (ga / fhmx) in
    let c := two / (sqrtv (as_ * as_ + au) + sqrtv (at_ * at_ + au)) in
    (fhmn * c, fhmx / c)
  else
    let au := fhmx / ga in
    if eqb au 0 then ((fhmn * fhmx) / ga, ga)
    else
      let as_ := 1 + fhmn / fhmx in
      let at_ := (fhmx - fhmn) / fhmx in
      let c := 1 / (sqrtv (1 + sq (as_ * au)) + sqrtv (1 + sq (at_ * au))) in
      let ssmin := (fhmn * c) * au in
      (ssmin + ssmin, ga / (c + c)).

(** svd22.hpp:105-167: the part after the (virtual) exchange of f and h.  Results ssmin, ssmax, clt, slt, crt, srt and
    whether g is the largest element *)
Definition svd22_core (eps : T) (ft fa ht ha gt ga : T) : T * T * (T * T * T * T) * bool :=
  if eqb ga 0 then (ha, fa, (1, 0, 1, 0), false) else
  let gbig := ltb fa ga in
  if gbig && ltb (fa / ga) eps then
    ((if ltb 1 ha then fa / (ga / ha) else (fa / ga) * ha), ga, (1, ht / gt, ft / gt, 1), gbig)
  else
    let d := fa - ha in
    let l := if eqb d fa then 1 else d / fa in
    let m := gt / ft in
    let t := two - l in
    let mm := m * m in
    let tt := t * t in
    let s := sqrtv (tt + mm) in
    let r := if eqb l 0 then absv m else sqrtv (l * l + mm) in
    let a := halfT * (s + r) in
    let ssmin := ha / a in
    let ssmax := fa * a in
    let t := if eqb mm 0 then (if eqb l 0 then two * sgnT ft * sgnT gt else gt / (absv d * sgnT ft) + m / t)
             else (m / (s + t) + m / (r + l)) * (1 + a) in
    let l := sqrtv (t * t + fourT) in
    let crt := two / l in
    let srt := t / l in
    let clt := (crt + srt * m) / a in
    let slt := (ht / ft) * srt / a in
    (ssmin, ssmax, (clt, slt, crt, srt), gbig).
(** svd22.hpp:56-201; results ssmin, ssmax, csl, snl, csr, snr *)
Definition svd22 (eps : T) (f g h : T) : T * T * T * T * T * T :=
  let fa := absv f in
  let ha := absv h in
  let swap := ltb fa ha in
  let '(ft, fa, ht, ha) := if swap then (h, ha, f, fa) else (f, fa, h, ha) in
  let '(ssmin, ssmax, (clt, slt, crt, srt), gbig) := svd22_core eps ft fa ht ha g (absv g) in
  let '(csl, snl, csr, snr) := if swap then (srt, crt, slt, clt) else (clt, slt, crt, srt) in
  let tsign :=
    if gbig then sgnT snr * sgnT csl * sgnT g
    else if swap then sgnT snr * sgnT snl * sgnT h
    else sgnT csr * sgnT csl * sgnT f in
  (ssmin * sgnT (tsign * sgnT f * sgnT h), ssmax * sgnT tsign, csl, snl, csr, snr).

(** laed5.hpp:57-120; d, z are given by their two elements.  Results delta[0], delta[1], dlam *)
Definition laed5 (i : nat) (d0 d1 z0 z1 rho : T) : T * T * T :=
  let norm (x y : T) : T * T := let temp := sqrtv (x * x + y * y) in (x / temp, y / temp) in
  let del := d1 - d0 in
  if (i =? 0)%nat then
    let w := 1 + two * rho * (z1 * z1 - z0 * z0) / del in
    if ltb 0 w then
      let b := del + rho * (z0 * z0 + z1 * z1) in
      let c := rho * z0 * z0 * del in
      let tau := two * c / (b + sqrtv (absv (b * b - fourT * c))) in
      let '(x, y) := norm ((- z0) / tau) (z1 / (del - tau)) in
      (x, y, d0 + tau)
    else
      let b := - del + rho * (z0 * z0 + z1 * z1) in
      let c := rho * z1 * z1 * del in
      let tau := if ltb 0 b then (- two) * c / (b + sqrtv (b * b + fourT * c)) else (b - sqrtv (b * b + fourT * c)) / two in
      let '(x, y) := norm ((- z0) / (del + tau)) ((- z1) / tau) in
      (x, y, d1 + tau)
  else
    let b := - del + rho * (z0 * z0 + z1 * z1) in
    let c := rho * z1 * z1 * del in
    let tau := if ltb 0 b then (b + sqrtv (b * b + fourT * c)) / two else two * c / (- b + sqrtv (b * b + fourT * c)) in
    let '(x, y) := norm ((- z0) / (del + tau)) ((- z1) / tau) in
    (x, y, d1 + tau).
End Model.
