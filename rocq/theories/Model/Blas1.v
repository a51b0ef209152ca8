(** * Model of the level-1 kernels — include/tlapack/blas/ *)
From Coq Require Import Bool Arith ZArith.
From Verif.Core Require Import Scalar Prog View.
Local Open Scope T_scope.

Section Model.
Context {E : Env}.

(** asum.hpp:27-41 *)
Definition asum (x : view) : M T :=
  foldup 0 (nr x) zero (fun i result => xi <- rdv x i;; ret (result + abs1 xi)).

(** axpy.hpp:34-46 *)
Definition axpy (alpha : T) (x y : view) : M unit :=
  let n := nr x in
  check (negb (nr y <? n)%nat);;
  for_ i in 0 upto n do (yi <- rdv y i;; xi <- rdv x i;; wrv y i (yi + alpha * xi)).

(** copy.hpp:31-43 *)
Definition copy (x y : view) : M unit :=
  let n := nr x in
  check (negb (nr y <? n)%nat);;
  for_ i in 0 upto n do (xi <- rdv x i;; wrv y i xi).

(** dot.hpp:32-48 *)
Definition dot (x y : view) : M T :=
  let n := nr x in
  check (nr y =? n)%nat;;
  foldup 0 n zero (fun i result => xi <- rdv x i;; yi <- rdv y i;; ret (result + conj xi * yi)).

(** dotu.hpp:32-48 *)
Definition dotu (x y : view) : M T :=
  let n := nr x in
  check (nr y =? n)%nat;;
  foldup 0 n zero (fun i result => xi <- rdv x i;; yi <- rdv y i;; ret (result + xi * yi)).

(** scal.hpp:30-39 *)
Definition scal (alpha : T) (x : view) : M unit :=
  for_ i in 0 upto nr x do (xi <- rdv x i;; wrv x i (xi * alpha)).

(** swap.hpp:31-47 *)
Definition swap (x y : view) : M unit :=
  let n := nr x in
  check (nr y =? n)%nat;;
  for_ i in 0 upto n do (
    aux <- rdv x i;; yi <- rdv y i;; wrv x i yi;; wrv y i aux).

(** rot.hpp:44-64 *)
Definition rot (x y : view) (c s : T) : M unit :=
  let n := nr x in
  check (nr y =? n)%nat;;
  if (n =? 0)%nat || (eqb c one && eqb s zero) then ret tt else
  for_ i in 0 upto n do (
    xi <- rdv x i;; yi <- rdv y i;;
    let stmp := c * xi + s * yi in
    yi' <- rdv y i;; xi' <- rdv x i;;
    wrv y i (c * yi' - conj s * xi');;
    wrv x i stmp).

(** rotm.hpp:75-107; [flag] is the template parameter, [h] the array of four entries *)
Definition rotm (flag : Z) (x y : view) (h0 h1 h2 h3 : T) : M unit :=
  let n := nr x in
  check (nr y =? n)%nat;;
  if Z.eqb flag (-1) then
    for_ i in 0 upto n do (
      xi <- rdv x i;; yi <- rdv y i;;
      let stmp := h0 * xi + h2 * yi in
      wrv y i (h3 * yi + h1 * xi);; wrv x i stmp)
  else if Z.eqb flag 0 then
    for_ i in 0 upto n do (
      xi <- rdv x i;; yi <- rdv y i;;
      let stmp := xi + h2 * yi in
      wrv y i (yi + h1 * xi);; wrv x i stmp)
  else if Z.eqb flag 1 then
    for_ i in 0 upto n do (
      xi <- rdv x i;; yi <- rdv y i;;
      let stmp := h0 * xi + yi in
      wrv y i (h3 * yi - xi);; wrv x i stmp)
  else ret tt.

(** ** iamax.hpp *)

(** index of the running maximum: [None] is the C++ value [idx_t(-1)] *)
Record iastate := mkia { ia_scaled : bool; ia_smax : T; ia_index : option nat }.

(** iamax.hpp:103-130 (and 181-208): update on a finite entry; [oneFourth] is the constant 0.25 *)
Definition iamax_update (oneFourth : T) (absf : T -> T) (i : nat) (xi : T) (st : iastate) : iastate :=
  if negb cplx then
    let a := absf xi in
    if ltb (ia_smax st) a then mkia (ia_scaled st) a (Some i) else st
  else if negb (ia_scaled st) then
    let a := absf xi in
    if isinf a then mkia true (absf (oneFourth * xi)) (Some i)
    else if ltb (ia_smax st) a then mkia (ia_scaled st) a (Some i) else st
  else
    let a := absf (oneFourth * xi) in
    if ltb (ia_smax st) a then mkia (ia_scaled st) a (Some i) else st.

(** iamax.hpp:93-98: the first NaN at position k or later, within n *)
Fixpoint first_nan (x : view) (cnt k : nat) : M (option nat) :=
  match cnt with
  | O => ret None
  | S cnt' => xk <- rdv x k;; if isnan xk then ret (Some k) else first_nan x cnt' (S k)
  end.

(** iamax.hpp:86-131 *)
Fixpoint iamax_ec_loop (oneFourth : T) (absf : T -> T) (x : view) (cnt i : nat) (st : iastate) : M (option nat) :=
  match cnt with
  | O => ret (ia_index st)
  | S cnt' =>
      xi <- rdv x i;;
      if isnan xi then ret (Some i)
      else if isinf xi then
        r <- first_nan x cnt' (S i);;
        match r with Some k => ret (Some k) | None => ret (Some i) end
      else iamax_ec_loop oneFourth absf x cnt' (S i) (iamax_update oneFourth absf i xi st)
  end.

(** iamax.hpp:68-134. The result is [None] when the code returns idx_t(-1). *)
Definition iamax_ec (oneFourth : T) (absf : T -> T) (x : view) : M (option nat) :=
  let n := nr x in
  if (n =? 0)%nat then ret (Some O) else
  iamax_ec_loop oneFourth absf x n 0 (mkia false (- one) None).

(** iamax.hpp:176-209 *)
Fixpoint iamax_nc_loop (oneFourth : T) (absf : T -> T) (x : view) (cnt i : nat) (st : iastate) : M (option nat) :=
  match cnt with
  | O => ret (ia_index st)
  | S cnt' =>
      xi <- rdv x i;;
      if isinf xi then ret (Some i)
      else iamax_nc_loop oneFourth absf x cnt' (S i) (iamax_update oneFourth absf i xi st)
  end.

(** iamax.hpp:158-212 *)
Definition iamax_nc (oneFourth : T) (absf : T -> T) (x : view) : M (option nat) :=
  let n := nr x in
  if (n =? 0)%nat then ret (Some O) else
  r <- iamax_nc_loop oneFourth absf x n 0 (mkia false (- one) None);;
  ret (match r with Some k => Some k | None => Some O end).

(** iamax.hpp:234-251: the default option checks NaN and uses abs1 *)
Definition iamax (oneFourth : T) (nancheck : bool) (absf : T -> T) (x : view) : M (option nat) :=
  if nancheck then iamax_ec oneFourth absf x else iamax_nc oneFourth absf x.

End Model.
