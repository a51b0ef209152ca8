(** * lassq, nrm2, lange, lansy, lanhe, lantr *)
From Coq Require Import Bool Arith ZArith.
From Verif.Core Require Import Scalar Prog View Slice Loops.
From Verif.Model Require Import Gemm Blas1.
Local Open Scope T_scope.

Section Model.
Context {E : Env}.

(** [for (i = lo; i < lo+n; ++i) body] updating a local variable [a]; the body yields [inl r] when it
    executes [return r] *)
Fixpoint fornacc {A R} (n lo : nat) (a : A) (f : nat -> A -> M (R + A)) : M (R + A) :=
  match n with
  | O => ret (inr a)
  | S n' => r <- f lo a;; match r with inl x => ret (inl x) | inr a' => fornacc n' (S lo) a' f end
  end.
Definition foracc {A R} (lo hi : nat) (a : A) (f : nat -> A -> M (R + A)) : M (R + A) := fornacc (hi - lo) lo a f.
(** the returned value, or the value of the local variable at the end *)
Definition outcome (r : T + T) : T := match r with inl x => x | inr x => x end.

(** [if (temp > norm) norm = temp; else { if (isnan(temp)) return temp; }]: lange.hpp:66-71 and everywhere else *)
Definition upd (temp norm : T) : T + T :=
  if ltb norm temp then inr temp else if isnan temp then inl temp else inr norm.

(** real_t(k) for an integer k (k small enough to be representable) *)
Fixpoint nat2T (k : nat) : T := match k with O => 0 | S k' => nat2T k' + 1 end.

(** the constants of Blue's algorithm, base/constants.hpp:99-159 *)
Record blue := mkblue { tsml : T; tbig : T; ssml : T; sbig : T }.

(** lassq.hpp:84-92: one element [ax] into the accumulators (asml, amed, abig) *)
Definition lassq_acc (bc : blue) (ax : T) (st : T * T * T) : T * T * T :=
  let '(asml, amed, abig) := st in
  if ltb (tbig bc) ax then (asml, amed, abig + ax * sbig bc * (ax * sbig bc))
  else if ltb ax (tsml bc) then
    ((if eqb abig 0 then asml + ax * ssml bc * (ax * ssml bc) else asml), amed, abig)
  else (asml, amed + ax * ax, abig).
(** lassq.hpp:95-121: the incoming scale, sumsq into the accumulators (scale is not read afterwards) *)
Definition lassq_init (bc : blue) (scale sumsq : T) (st : T * T * T) : T * T * T :=
  let '(asml, amed, abig) := st in
  if ltb 0 sumsq then
    let ax := scale * sqrtv sumsq in
    if ltb (tbig bc) ax then
      if ltb 1 scale then
        let scale := scale * sbig bc in (asml, amed, abig + scale * (scale * sumsq))
      else (asml, amed, abig + scale * (scale * (sbig bc * (sbig bc * sumsq))))
    else if ltb ax (tsml bc) then
      if eqb abig 0 then
        if ltb scale 1 then
          let scale := scale * ssml bc in (asml + scale * (scale * sumsq), amed, abig)
        else (asml + scale * (scale * (ssml bc * (ssml bc * sumsq))), amed, abig)
      else (asml, amed, abig)
    else (asml, amed + scale * (scale * sumsq), abig)
  else (asml, amed, abig).
(** lassq.hpp:123-160: the accumulators are combined into (scale, sumsq) *)
Definition lassq_fin (bc : blue) (st : T * T * T) : T * T :=
  let '(asml, amed, abig) := st in
  if ltb 0 abig then
    (1 / sbig bc, if ltb 0 amed || isnan amed then abig + amed * sbig bc * sbig bc else abig)
  else if ltb 0 asml then
    if ltb 0 amed || isnan amed then
      let amed := sqrtv amed in
      let asml := sqrtv asml / ssml bc in
      let '(ymin, ymax) := if ltb amed asml then (amed, asml) else (asml, amed) in
      (1, ymax * ymax * (1 + ymin / ymax * (ymin / ymax)))
    else (1 / ssml bc, asml)
  else (1, amed).
(** lassq.hpp:45-160 *)
Definition lassq (bc : blue) (absf : T -> T) (x : view) (scale sumsq : T) : M (T * T) :=
  if isnan scale || isnan sumsq then ret (scale, sumsq) else
  let scale := if eqb sumsq 0 then 1 else scale in
  let '(scale, sumsq) := if eqb scale 0 then (1, 0) else (scale, sumsq) in
  if (nr x =? 0)%nat then ret (scale, sumsq) else
  st <- foldup 0 (nr x) (0, 0, 0) (fun i st => xi <- rdv x i;; ret (lassq_acc bc (absf xi) st));;
  ret (lassq_fin bc (lassq_init bc scale sumsq st)).

(** nrm2.hpp:36-47 *)
Definition nrm2 (bc : blue) (x : view) : M T :=
  r <- lassq bc absv x 1 0;; ret (fst r * sqrtv (snd r)).

(** the check on normType of every norm routine (lange.hpp:51-52) *)
Definition norm_ok (nt : norm_t) : bool := match nt with TwoNorm => false | _ => true end.

(** sums of absolute values over [i] from [lo] to [hi]: lange.hpp:79-80, 93-94 and similar *)
Definition abs_sum (lo hi : nat) (v0 : T) (p : nat -> M T) : M T :=
  foldup lo hi v0 (fun i sum => a <- p i;; ret (sum + absv a)).

(** lange.hpp:38-109 *)
Definition lange (bc : blue) (nt : norm_t) (A : view) : M T :=
  let m := nr A in
  let n := nc A in
  check (norm_ok nt);;
  if ((m =? 0) || (n =? 0))%nat then ret 0 else
  match nt with
  | MaxNorm =>
      r <- foracc 0 n 0 (fun j norm => foracc 0 m norm (fun i norm => a <- rd A i j;; ret (upd (absv a) norm)));;
      ret (outcome r)
  | InfNorm =>
      r <- foracc 0 m 0 (fun i norm => sum <- abs_sum 0 n 0 (fun j => rd A i j);; ret (upd sum norm));;
      ret (outcome r)
  | OneNorm =>
      r <- foracc 0 n 0 (fun j norm => sum <- abs_sum 0 m 0 (fun i => rd A i j);; ret (upd sum norm));;
      ret (outcome r)
  | _ =>
      r <- foldup 0 n (0, 1) (fun j q => c <- slcol A 0 m j;; lassq bc absv c (fst q) (snd q));;
      ret (fst r * sqrtv (snd r))
  end.

(** diag(A, 0): legacyArray.hpp:339-352 (see Model/Legacy.v for the pointer computation) *)
Definition vdiag (A : view) : view := mkview (Nat.min (nr A) (nc A)) 1 (fun i _ => ad A i i).

(** lansy.hpp:44-150 ([herm] = false) and lanhe.hpp:44-174 ([herm] = true): the diagonal enters through
    [dabs]; n is the number of rows, the code does not look at the number of columns *)
Definition lanxy (herm : bool) (bc : blue) (nt : norm_t) (uplo : uplo_t) (A : view) : M T :=
  let n := nr A in
  let dabs := fun a => if herm then absv (re a) else absv a in
  check (norm_ok nt);;
  check (match uplo with Upper | Lower => true | _ => false end);;
  if (n =? 0)%nat then ret 0 else
  match nt with
  | MaxNorm =>
      r <- foracc 0 n 0 (fun j norm =>
        if uplo_eqb uplo Upper then
          r <- foracc 0 j norm (fun i norm => a <- rd A i j;; ret (upd (absv a) norm));;
          match r with
          | inl x => ret (inl x)
          | inr norm => a <- rd A j j;; ret (upd (dabs a) norm)
          end
        else
          a <- rd A j j;;
          match upd (dabs a) norm with
          | inl x => ret (inl x)
          | inr norm => foracc (j + 1) n norm (fun i norm => a <- rd A i j;; ret (upd (absv a) norm))
          end);;
      ret (outcome r)
  | OneNorm | InfNorm =>
      r <- foracc 0 n 0 (fun j norm =>
        if uplo_eqb uplo Upper then
          temp <- abs_sum 0 j 0 (fun i => rd A i j);;
          a <- rd A j j;;
          temp <- abs_sum (j + 1) n (temp + dabs a) (fun i => rd A j i);;
          ret (upd temp norm)
        else
          temp <- abs_sum 0 j 0 (fun i => rd A j i);;
          a <- rd A j j;;
          temp <- abs_sum (j + 1) n (temp + dabs a) (fun i => rd A i j);;
          ret (upd temp norm));;
      ret (outcome r)
  | _ =>
      r <- (if uplo_eqb uplo Upper then
              foldup 1 n (0, 1) (fun j q => c <- slcol A 0 j j;; lassq bc absv c (fst q) (snd q))
            else
              foldup 0 (n - 1) (0, 1) (fun j q => c <- slcol A (j + 1) n j;; lassq bc absv c (fst q) (snd q)));;
      r <- lassq bc dabs (vdiag A) (fst r) (snd r * (1 + 1));;
      ret (fst r * sqrtv (snd r))
  end.
Definition lansy := lanxy false.
Definition lanhe := lanxy true.

(** lantr.hpp:52-235 *)
Definition lantr (bc : blue) (nt : norm_t) (uplo : uplo_t) (diag : diag_t) (A : view) : M T :=
  let m := nr A in
  let n := nc A in
  let up := uplo_eqb uplo Upper in
  let nu := diag_eqb diag NonUnit in
  check (norm_ok nt);;
  check (match uplo with Upper | Lower => true | _ => false end);;
  if ((m =? 0) || (n =? 0))%nat then ret 0 else
  match nt with
  | MaxNorm =>
      r <- foracc 0 n (if nu then 0 else 1) (fun j norm =>
        let lo := if up then 0%nat else if nu then j else (j + 1)%nat in
        let hi := if up then if nu then (Nat.min j (m - 1) + 1)%nat else Nat.min j m else m in
        foracc lo hi norm (fun i norm => a <- rd A i j;; ret (upd (absv a) norm)));;
      ret (outcome r)
  | InfNorm =>
      r <- foracc 0 m 0 (fun i norm =>
        sum <- (if up then
                  if nu then abs_sum i n 0 (fun j => rd A i j) else abs_sum (i + 1) n 1 (fun j => rd A i j)
                else
                  if nu || (n <=? i)%nat then abs_sum 0 (Nat.min i (n - 1) + 1) 0 (fun j => rd A i j)
                  else abs_sum 0 i 1 (fun j => rd A i j));;
        ret (upd sum norm));;
      ret (outcome r)
  | OneNorm =>
      r <- foracc 0 n 0 (fun j norm =>
        sum <- (if up then
                  if nu || (m <=? j)%nat then abs_sum 0 (Nat.min j (m - 1) + 1) 0 (fun i => rd A i j)
                  else abs_sum 0 j 1 (fun i => rd A i j)
                else
                  if nu then abs_sum j m 0 (fun i => rd A i j) else abs_sum (j + 1) m 1 (fun i => rd A i j));;
        ret (upd sum norm));;
      ret (outcome r)
  | _ =>
      r <- (if up then
              if nu then foldup 0 n (1, 0) (fun j q => c <- slcol A 0 (Nat.min (j + 1) m) j;; lassq bc absv c (fst q) (snd q))
              else foldup 1 n (1, nat2T (Nat.min m n)) (fun j q => c <- slcol A 0 (Nat.min j m) j;; lassq bc absv c (fst q) (snd q))
            else
              if nu then foldup 0 (Nat.min m n) (1, 0) (fun j q => c <- slcol A j m j;; lassq bc absv c (fst q) (snd q))
              else foldup 0 (Nat.min (m - 1) n) (1, nat2T (Nat.min m n)) (fun j q => c <- slcol A (j + 1) m j;; lassq bc absv c (fst q) (snd q)));;
      ret (fst r * sqrtv (snd r))
  end.
End Model.
