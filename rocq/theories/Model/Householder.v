(** * Householder reflectors: lapy2, lapy3, larfg, larf, larft, larfb; QR: geqr2, geqrf, ungq, unmq *)
From Coq Require Import Bool Arith ZArith.
From Verif.Core Require Import Scalar Prog View Slice Loops.
From Verif.Model Require Import Gemm Blas1 Blas2 Blas3 Legacy LaAux Norms Work.
Local Open Scope T_scope.

Section Model.
Context {E : Env}.

(** the machine constants used below: those of Blue's algorithm (nrm2), safe_min/uroundoff (larfg.hpp:92),
    safe_min and safe_max (rscl) *)
Record hconst := mkhconst { hblue : blue; hsafe : T; hmin : T; hmax : T }.

(** lapy2.hpp:33-56 *)
Definition lapy2 (x y : T) : T :=
  let xabs := absv x in
  let yabs := absv y in
  let '(w, z) := if ltb yabs xabs then (xabs, yabs) else (yabs, xabs) in
  if eqb z 0 then w else w * sqrtv (1 + z / w * (z / w)).
(** std::max *)
Definition maxT (a b : T) : T := if ltb a b then b else a.
(** lapy3.hpp:36-58 *)
Definition lapy3 (x y z : T) : T :=
  let xabs := absv x in
  let yabs := absv y in
  let zabs := absv z in
  let w := maxT xabs (maxT yabs zabs) in
  if eqb w 0 then xabs + yabs + zabs
  else w * sqrtv (xabs / w * (xabs / w) + yabs / w * (yabs / w) + zabs / w * (zabs / w)).

(** larfg.hpp:104-106, 117-119: the norm of (alpha, x), with the sign opposite to real(alpha) *)
Definition larfg_beta (alpha xnorm : T) : T :=
  let temp := if cplx then lapy3 (re alpha) (im alpha) xnorm else lapy2 (re alpha) xnorm in
  if ltb (re alpha) 0 then temp else - temp.
(** larfg.hpp:111-116: [while (abs(beta) < safemin && knt < 20)]; [left] is 20 - knt.  Result: beta, alpha,
    knt *)
Fixpoint larfg_scale (left : nat) (safemin rsafemin : T) (x : view) (beta alpha : T) (knt : nat) : M (T * T * nat) :=
  match left with
  | O => ret (beta, alpha, knt)
  | S left' =>
    if ltb (absv beta) safemin then
      scal rsafemin x;;
      larfg_scale left' safemin rsafemin x (beta * rsafemin) (alpha * rsafemin) (S knt)
    else ret (beta, alpha, knt)
  end.
(** larfg.hpp:73-137.  [alpha] and [tau] are references in the code; here the new values (alpha, tau) are
    returned (so an [alpha] or [tau] stored inside [x] is outside the model). *)
Definition larfg_x (h : hconst) (storeMode : storev_t) (alpha : T) (x : view) : M (T * T) :=
  let safemin := hsafe h in
  let rsafemin := 1 / safemin in
  xnorm <- nrm2 (hblue h) x;;
  if ltb 0 xnorm || negb (eqb (im alpha) 0) then
    let beta := larfg_beta alpha xnorm in
    r <- (if ltb (absv beta) safemin then
            r <- larfg_scale 20 safemin rsafemin x beta alpha 0;;
            let '(_, alpha, knt) := r in
            xnorm <- nrm2 (hblue h) x;;
            ret (larfg_beta alpha xnorm, alpha, knt)
          else ret (beta, alpha, 0%nat));;
    let '(beta, alpha, knt) := r in
    let tau := (beta - alpha) / beta in
    rscl (hmin h) (hmax h) (alpha - beta) x;;
    let tau := match storeMode with Rowwise => conj tau | Columnwise => tau end in
    beta <- foldup 0 knt beta (fun _ beta => ret (beta * safemin));;
    ret (beta, tau)
  else ret (alpha, 0).
(** larfg.hpp:195-216: the vector [alpha x] or [x alpha] is overwritten; tau is returned *)
Definition larfg (h : hconst) (direction : direction_t) (storeMode : storev_t) (v : view) : M T :=
  let n := nr v in
  let fwd := match direction with Forward => true | Backward => false end in
  let alpha_idx := if fwd then 0%nat else (n - 1)%nat in
  assert_ (negb (n =? 0)%nat);;
  x <- (if fwd then slvec v 1 n else slvec v 0 (n - 1));;
  alpha <- rdv v alpha_idx;;
  r <- larfg_x h storeMode alpha x;;
  wrv v alpha_idx (fst r);;
  ret (snd r).

(** larf.hpp:180-201: workspace query of larf for (C0, C1); [n] and [m] are the dimensions of C1 *)
Definition larf_worksize1 (side : side_t) (m n : nat) : winfo :=
  if ((0 <? m) && (0 <? n))%nat then winfo_v (sel side n m) else winfo_v 0.
(** larf.hpp:48-140.  The third check reads [size(x) == (side == Side::Left) ? m : n], which C++ parses as
    [(size(x) == (side == Side::Left)) ? m : n]. *)
Definition larf_work1 (side : side_t) (storeMode : storev_t) (x : view) (tau : T) (C0 C1 : view) (work : lmat) : M unit :=
  let k := nr C0 in
  let m := nr C1 in
  let n := nc C1 in
  check (if (nr x =? sel side 1 0)%nat then negb (m =? 0)%nat else negb (n =? 0)%nat);;
  if ((m =? 0) || (n =? 0))%nat then
    for_ i in 0 upto k do (c <- rdv C0 i;; wrv C0 i (c - tau * c))
  else
    ww <- wk_vec work k;;
    let w := fst ww in
    match side with
    | Left =>
      match storeMode with
      | Columnwise =>
        for_ i in 0 upto k do (c <- rdv C0 i;; wrv w i (conj c));;
        gemv ConjTrans 1 C1 x (Sc 1) w;;
        ger (- tau) x w C1;;
        for_ i in 0 upto k do (c <- rdv C0 i;; wi <- rdv w i;; wrv C0 i (c - tau * conj wi))
      | Rowwise =>
        for_ i in 0 upto k do (c <- rdv C0 i;; wrv w i c);;
        gemv Trans 1 C1 x (Sc 1) w;;
        for_ j in 0 upto n do for_ i in 0 upto m do (
          c <- rd C1 i j;; xi <- rdv x i;; wj <- rdv w j;; wr C1 i j (c - tau * conj xi * wj));;
        for_ i in 0 upto k do (c <- rdv C0 i;; wi <- rdv w i;; wrv C0 i (c - tau * wi))
      end
    | Right =>
      match storeMode with
      | Columnwise =>
        for_ i in 0 upto k do (c <- rdv C0 i;; wrv w i c);;
        gemv NoTrans 1 C1 x (Sc 1) w;;
        ger (- tau) w x C1;;
        for_ i in 0 upto k do (c <- rdv C0 i;; wi <- rdv w i;; wrv C0 i (c - tau * wi))
      | Rowwise =>
        for_ i in 0 upto k do (c <- rdv C0 i;; wrv w i c);;
        for_ j in 0 upto n do for_ i in 0 upto m do (
          wi <- rdv w i;; c <- rd C1 i j;; xj <- rdv x j;; wrv w i (wi + c * conj xj));;
        geru (- tau) w x C1;;
        for_ i in 0 upto k do (c <- rdv C0 i;; wi <- rdv w i;; wrv C0 i (c - tau * wi))
      end
    end.
(** larf.hpp:261-300 *)
Definition larf1 (p : Z) (l : layout_t) (side : side_t) (storeMode : storev_t) (x : view) (tau : T) (C0 C1 : view) : M unit :=
  let k := nr C0 in
  let m := nr C1 in
  let n := nc C1 in
  check (if (nr x =? sel side 1 0)%nat then negb (m =? 0)%nat else negb (n =? 0)%nat);;
  if ((m =? 0) || (n =? 0))%nat then
    for_ i in 0 upto k do (c <- rdv C0 i;; wrv C0 i (c - tau * c))
  else
    work <- new_work p l (larf_worksize1 side m n);;
    larf_work1 side storeMode x tau C0 C1 work.

(** larf.hpp:328-385 *)
Definition larf_work (side : side_t) (direction : direction_t) (storeMode : storev_t) (v : view) (tau : T) (C : view) (work : lmat) : M unit :=
  let m := nr C in
  let n := nc C in
  check (nr v =? sel side m n)%nat;;
  if ((m =? 0) || (n =? 0))%nat then ret tt else
  match side, direction with
  | Left, Forward =>
    C0 <- slrow C 0 0 n;; C1 <- slc C 1 m 0 n;; x <- slvec v 1 m;; larf_work1 Left storeMode x tau C0 C1 work
  | Left, Backward =>
    C0 <- slrow C (m - 1) 0 n;; C1 <- slc C 0 (m - 1) 0 n;; x <- slvec v 0 (m - 1);; larf_work1 Left storeMode x tau C0 C1 work
  | Right, Forward =>
    C0 <- slcol C 0 m 0;; C1 <- slc C 0 m 1 n;; x <- slvec v 1 n;; larf_work1 Right storeMode x tau C0 C1 work
  | Right, Backward =>
    C0 <- slcol C 0 m (n - 1);; C1 <- slc C 0 m 0 (n - 1);; x <- slvec v 0 (n - 1);; larf_work1 Right storeMode x tau C0 C1 work
  end.
(** larf.hpp:422-449 *)
Definition larf_worksize (side : side_t) (m n : nat) : winfo :=
  match side with
  | Left => if (0 <? m)%nat then larf_worksize1 Left (m - 1) n else winfo_v 0
  | Right => if (0 <? n)%nat then larf_worksize1 Right m (n - 1) else winfo_v 0
  end.
(** larf.hpp:496-532 *)
Definition larf (p : Z) (l : layout_t) (side : side_t) (direction : direction_t) (storeMode : storev_t) (v : view) (tau : T) (C : view) : M unit :=
  let m := nr C in
  let n := nc C in
  check (nr v =? sel side m n)%nat;;
  if ((m =? 0) || (n =? 0))%nat then ret tt else
  work <- new_work p l (larf_worksize side m n);;
  larf_work side direction storeMode v tau C work.

(** geqr2.hpp:32-47 *)
Definition geqr2_worksize (m n : nat) : winfo := if (1 <? n)%nat then larf_worksize Left m (n - 1) else winfo_v 0.
(** geqr2.hpp:60-102 *)
Definition geqr2_work (h : hconst) (A tau : view) (work : lmat) : M Z :=
  let m := nr A in
  let n := nc A in
  let k := Nat.min m (n - 1) in
  check (negb (nr tau <? Nat.min m n)%nat);;
  if ((n <=? 0) || (m <=? 0))%nat then ret 0%Z else
  for_ i in 0 upto k do (
    v <- slcol A i m i;;
    t <- larfg h Forward Columnwise v;;
    wrv tau i t;;
    C <- slc A i m (i + 1) n;;
    ti <- rdv tau i;;
    larf_work Left Forward Columnwise v (conj ti) C work);;
  (if (n - 1 <? m)%nat then
     v <- slcol A (n - 1) m (n - 1);;
     t <- larfg h Forward Columnwise v;;
     wrv tau (n - 1) t
   else ret tt);;
  ret 0%Z.
(** geqr2.hpp:132-153 *)
Definition geqr2 (p : Z) (l : layout_t) (h : hconst) (A tau : view) : M Z :=
  let m := nr A in
  let n := nc A in
  if ((n <=? 0) || (m <=? 0))%nat then ret 0%Z else
  (if (1 <? n)%nat then rdv tau 0;; ret tt else ret tt);; (* the query evaluates tau[0] *)
  work <- new_work p l (geqr2_worksize m n);;
  geqr2_work h A tau work.
End Model.
