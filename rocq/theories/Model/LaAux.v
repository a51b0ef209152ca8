(** * Model of the auxiliary LAPACK routines: lacpy, laset, transpose, conjugate, hasnan, hasinf, lascl,
    rscl — include/tlapack/lapack/ *)
From Coq Require Import Bool Arith ZArith.
From Verif.Core Require Import Scalar Prog View Slice Loops.
From Verif.Model Require Import Blas1.
Local Open Scope T_scope.

Section Model.
Context {E : Env}.

Definition uplo3g (u : uplo_t) : bool := match u with Upper | Lower | General => true | _ => false end.

(** lacpy.hpp:38-73.  The cast (TB)A(i,j) is the identity: one scalar type. *)
Definition lacpy (uplo : uplo_t) (A B : view) : M unit :=
  let m := nr A in
  let n := nc A in
  check (uplo3g uplo);;
  match uplo with
  | Upper =>
    for_ j in 0 upto n do
      let M' := Nat.min m (j + 1) in
      for_ i in 0 upto M' do (a <- rd A i j;; wr B i j a)
  | Lower =>
    let N := Nat.min m n in
    for_ j in 0 upto N do for_ i in j upto m do (a <- rd A i j;; wr B i j a)
  | _ =>
    for_ j in 0 upto n do for_ i in 0 upto m do (a <- rd A i j;; wr B i j a)
  end.

(** laset.hpp:38-82 *)
Definition laset (uplo : uplo_t) (alpha beta : T) (A : view) : M unit :=
  let m := nr A in
  let n := nc A in
  check (uplo3g uplo);;
  (match uplo with
   | Upper =>
     for_ j in 1 upto n do
       let M' := Nat.min m j in
       for_ i in 0 upto M' do wr A i j alpha
   | Lower =>
     let N := Nat.min m n in
     for_ j in 0 upto N do for_ i in (j + 1) upto m do wr A i j alpha
   | _ =>
     for_ j in 0 upto n do for_ i in 0 upto m do wr A i j alpha
   end);;
  let N := Nat.min m n in
  for_ i in 0 upto N do wr A i i beta.

(** transpose.hpp:37-75 (conjtranspose, [f] = conj) and 92-130 (transpose, [f] = identity); [nx] is
    TransposeOpts::nx, [fuel] bounds the depth of the recursion *)
Fixpoint transpose_f (fuel : nat) (f : T -> T) (nx : nat) (A B : view) : M unit :=
  match fuel with
  | O => nofuel
  | S fu =>
    let m := nr A in
    let n := nc A in
    check (m =? nc B)%nat;; check (n =? nr B)%nat;; check (2 <=? nx)%nat;;
    if (Nat.min m n <=? nx)%nat then
      for_ i in 0 upto m do for_ j in 0 upto n do (a <- rd A i j;; wr B j i (f a))
    else
      let m1 := Nat.div2 m in
      let n1 := Nat.div2 n in
      A00 <- slc A 0 m1 0 n1;; A01 <- slc A 0 m1 n1 n;; A10 <- slc A m1 m 0 n1;; A11 <- slc A m1 m n1 n;;
      B00 <- slc B 0 n1 0 m1;; B01 <- slc B 0 n1 m1 m;; B10 <- slc B n1 n 0 m1;; B11 <- slc B n1 n m1 m;;
      transpose_f fu f nx A00 B00;;
      transpose_f fu f nx A01 B10;;
      transpose_f fu f nx A10 B01;;
      transpose_f fu f nx A11 B11
  end.
(** transpose.hpp:92-130 *)
Definition transpose (nx : nat) (A B : view) : M unit := transpose_f (S (nr A)) (fun a => a) nx A B.
(** transpose.hpp:37-75 *)
Definition conjtranspose (nx : nat) (A B : view) : M unit := transpose_f (S (nr A)) conj nx A B.

(** conjugate.hpp:24-32 *)
Definition conjugate (x : view) : M unit :=
  for_ i in 0 upto nr x do (a <- rdv x i;; wrv x i (conj a)).

(** Bounds of the row loop in column j, for each matrix type: hasnan.hpp:55-97, hasinf.hpp:55-97 and
    lascl.hpp:131-166 use the same expressions. *)
Definition plo (u : uplo_t) (j : nat) : nat :=
  match u with
  | LowerHessenberg => if (1 <? j)%nat then j - 1 else 0
  | Lower => j
  | StrictLower => j + 1
  | _ => 0
  end.
Definition phi (u : uplo_t) (m j : nat) : nat :=
  match u with
  | UpperHessenberg => if (j <? m)%nat then j + 2 else m
  | Upper => if (j <? m)%nat then j + 1 else m
  | StrictUpper => if (j <? m)%nat then j else m
  | _ => m
  end.
(** Band: hasnan.hpp:119-120, hasinf.hpp:119-120, lascl.hpp:262-263 *)
Definition blo (ku j : nat) : nat := if (ku <=? j)%nat then j - ku else 0.
Definition bhi (kl m j : nat) : nat := Nat.min m (j + kl + 1).

(** column-by-column search for an element satisfying [p] *)
Definition scan (p : T -> bool) (lo hi : nat -> nat) (A : view) : M bool :=
  r <- forret 0 (nc A) (fun j => forret (lo j) (hi j) (fun i => a <- rd A i j;; ret (if p a then Some true else None)));;
  ret (match r with Some b => b | None => false end).
(** hasnan.hpp:42-98 ([p] = isnan), hasinf.hpp:42-98 ([p] = isinf); the check that uplo is one of the
    enumerators always succeeds *)
Definition hasnan (uplo : uplo_t) (A : view) : M bool := scan isnan (plo uplo) (phi uplo (nr A)) A.
Definition hasinf (uplo : uplo_t) (A : view) : M bool := scan isinf (plo uplo) (phi uplo (nr A)) A.
(** hasnan.hpp:109-123, hasinf.hpp:109-123 *)
Definition hasnan_band (kl ku : nat) (A : view) : M bool := scan isnan (blo ku) (bhi kl (nr A)) A.
Definition hasinf_band (kl ku : nat) (A : view) : M bool := scan isinf (blo ku) (bhi kl (nr A)) A.
(** hasnan.hpp:136-146, hasinf.hpp:136-146 *)
Definition scanv (p : T -> bool) (x : view) : M bool :=
  r <- forret 0 (nr x) (fun i => a <- rdv x i;; ret (if p a then Some true else None));;
  ret (match r with Some b => b | None => false end).
Definition hasnan_vec (x : view) : M bool := scanv isnan x.
Definition hasinf_vec (x : view) : M bool := scanv isinf x.

(** lascl.hpp:89-167 (218-266 for the band version): one iteration of the while loop chooses the factor [c],
    multiplies the selected part by it and updates a_, b_; [small], [big] are safe_min, safe_max *)
Definition scale_part (lo hi : nat -> nat) (c : T) (A : view) : M unit :=
  for_ j in 0 upto nc A do for_ i in lo j upto hi j do (a <- rd A i j;; wr A i j (a * c)).
Fixpoint lascl_loop (fuel : nat) (small big : T) (lo hi : nat -> nat) (b a_ b_ : T) (A : view) : M unit :=
  match fuel with
  | O => nofuel
  | S fu =>
    let b1 := b * small in
    if eqb b1 b_ then scale_part lo hi (a_ / b_) A
    else
      let a1 := a_ / big in
      if eqb a1 a_ then scale_part lo hi a_ A
      else if ltb (absv a_) (absv b1) && negb (eqb a_ zero) then
        scale_part lo hi small A;; lascl_loop fu small big lo hi b a_ b1 A
      else if ltb (absv b_) (absv a1) then
        scale_part lo hi big A;; lascl_loop fu small big lo hi b a1 b_ A
      else scale_part lo hi (a_ / b_) A
  end.
(** lascl.hpp:61-170 *)
Definition lascl (fuel : nat) (small big : T) (uplo : uplo_t) (b a : T) (A : view) : M Z :=
  let m := nr A in
  let n := nc A in
  check (negb (eqb b zero || isnan b));;
  check (negb (isnan a));;
  if (m <=? 0)%nat || (n <=? 0)%nat then ret 0%Z
  else lascl_loop fuel small big (plo uplo) (phi uplo m) b a b A;; ret 0%Z.
(** lascl.hpp:194-269 *)
Definition lascl_band (fuel : nat) (small big : T) (kl ku : nat) (b a : T) (A : view) : M Z :=
  let m := nr A in
  let n := nc A in
  check (negb ((m <=? kl)%nat || (n <=? ku)%nat));;
  check (negb (eqb b zero || isnan b));;
  check (negb (isnan a));;
  if (m <=? 0)%nat || (n <=? 0)%nat then ret 0%Z
  else lascl_loop fuel small big (blo ku) (bhi kl m) b a b A;; ret 0%Z.

(** rscl.hpp:22-41 (real alpha) *)
Definition rscl_real (safeMin safeMax alpha : T) (x : view) : M unit :=
  let r := absv alpha in
  if ltb safeMax r then scal safeMin x;; scal (safeMax / alpha) x
  else if ltb r safeMin then scal (safeMin / alpha) x;; scal safeMax x
  else scal (one / alpha) x.
(** rscl.hpp:71-151 (complex alpha) *)
Definition rscl_cplx (safeMin safeMax alpha : T) (x : view) : M unit :=
  let aR := re alpha in
  let aI := im alpha in
  let absR := absv aR in
  let absI := absv aI in
  if eqb aI zero then rscl_real safeMin safeMax aR x
  else if eqb aR zero then
    if ltb safeMax absI then scal safeMin x;; scal (mkc zero (- safeMax / aI)) x
    else if ltb absI safeMin then scal (mkc zero (- safeMin / aI)) x;; scal safeMax x
    else scal (mkc zero (- one / aI)) x
  else
    let a := aR + aI * (aI / aR) in
    let b := aI + aR * (aR / aI) in
    if ltb (absv a) safeMin || ltb (absv b) safeMin then scal (mkc (safeMin / a) (- safeMin / b)) x;; scal safeMax x
    else if ltb safeMax (absv a) || ltb safeMax (absv b) then
      if isinf aR || isinf aI then scal (mkc (one / a) (- one / b)) x
      else
        scal safeMin x;;
        if isinf a || isinf b then
          if negb (ltb absR absI) then
            let a := safeMin * aR + safeMin * (aI * (aI / aR)) in
            let b := safeMin * aI + aR * (safeMin * aR / aI) in
            scal (mkc (one / a) (- one / b)) x
          else
            let a := safeMin * aR + aI * (safeMin * aI / aR) in
            let b := safeMin * aI + safeMin * (aR * (aR / aI)) in
            scal (mkc (one / a) (- one / b)) x
        else scal (mkc (safeMax / a) (- safeMax / b)) x
    else scal (mkc (one / a) (- one / b)) x.
(** overload resolution on the type of alpha *)
Definition rscl (safeMin safeMax alpha : T) (x : view) : M unit :=
  if cplx then rscl_cplx safeMin safeMax alpha x else rscl_real safeMin safeMax alpha x.
End Model.
