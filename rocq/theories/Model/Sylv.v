(** * Small Sylvester equations: lasy2 — include/tlapack/lapack/lasy2.hpp *)
From Coq Require Import Bool Arith ZArith List.
From Verif.Core Require Import Scalar Prog View.
From Verif.Model Require Import Householder Sort.
Import ListNotations.
Local Open Scope T_scope.

Section Model.
Context {E : Env}.
(** exchange of two indices *)
Definition swapi (a b k : nat) : nat := if (k =? a)%nat then b else if (k =? b)%nat then a else k.
(** the 4-by-4 system: matrix, right-hand side, column exchanges jpiv, info *)
Definition sy_state : Type := ((nat -> nat -> T) * (nat -> T) * (nat -> nat) * Z)%type.
(** lasy2.hpp:161-173, the search of the pivot of step i; the last of the largest elements. Results ipsv, jpsv *)
Definition sy_pivot (A : nat -> nat -> T) (i : nat) : nat * nat :=
  snd (fold_left (fun acc ip => fold_left (fun acc jp => if leb (fst acc) (absv (A ip jp)) then (absv (A ip jp), (ip, jp)) else acc) (seq i (4 - i)) acc) (seq i (4 - i)) (0, (i, i))).
(** lasy2.hpp:157-199, step i of the elimination. Rows below i only depend on row i, so they are computed at once *)
Definition sy_step (smin : T) (i : nat) (st : sy_state) : sy_state :=
  let '(A, b, piv, info) := st in
  let '(ip, jp) := sy_pivot A i in
  let A2 := fun r c => A (swapi ip i r) (swapi jp i c) in
  let b2 := fun r => b (swapi ip i r) in
  let small := ltb (absv (A2 i i)) smin in
  let A3 := fun r c => if ((r =? i) && (c =? i))%nat then (if small then smin else A2 i i) else A2 r c in
  let l := fun r => A3 r i / A3 i i in
  (fun r c => if (i <? r)%nat then (if (c =? i)%nat then l r else if (i <? c)%nat then A3 r c - l r * A3 i c else A3 r c) else A3 r c,
   fun r => if (i <? r)%nat then b2 r - l r * b2 i else b2 r,
   fun k => if (k =? i)%nat then jp else piv k,
   if small then 1%Z else info).
(** lasy2.hpp:201-216, the last pivot and the scaling. Results: matrix, right-hand side, jpiv, info, scale *)
Definition sy_scale (smin small_num eight : T) (st : sy_state) : sy_state * T :=
  let '(A, b, piv, info) := st in
  let small := ltb (absv (A 3%nat 3%nat)) smin in
  let A' := fun r c => if ((r =? 3) && (c =? 3))%nat && small then smin else A r c in
  let big k := ltb (absv (A' k k)) (eight * small_num * absv (b k)) in
  let info' := if small then 1%Z else info in
  if big 0%nat || big 1%nat || big 2%nat || big 3%nat then
    let sc := (1 / eight) / maxT (maxT (absv (b 0%nat)) (absv (b 1%nat))) (maxT (absv (b 2%nat)) (absv (b 3%nat))) in
    ((A', fun k => b k * sc, piv, info'), sc)
  else ((A', b, piv, info'), 1).
(** lasy2.hpp:217-224, back substitution (the loops are unrolled) *)
Definition sy_back (A : nat -> nat -> T) (b : nat -> T) : nat -> T :=
  let t k := 1 / A k k in
  let x3 := b 3%nat * t 3%nat in
  let x2 := b 2%nat * t 2%nat - t 2%nat * A 2%nat 3%nat * x3 in
  let x1 := b 1%nat * t 1%nat - t 1%nat * A 1%nat 2%nat * x2 - t 1%nat * A 1%nat 3%nat * x3 in
  let x0 := b 0%nat * t 0%nat - t 0%nat * A 0%nat 1%nat * x1 - t 0%nat * A 0%nat 2%nat * x2 - t 0%nat * A 0%nat 3%nat * x3 in
  fun k => nth k [x0; x1; x2; x3] 0.
(** lasy2.hpp:225-231, the column exchanges are undone *)
Definition sy_solve (st : sy_state) : nat -> T :=
  let '(A, b, piv, info) := st in
  fun k => sy_back A b (swapi (piv 2%nat) 2 (swapi (piv 1%nat) 1 (swapi (piv 0%nat) 0 k))).
(** lasy2.hpp:117-155. ConjTrans and Conj take the branch of NoTrans *)
Definition sy_mat (tl tr : op_t) (sgn : T) (L R : nat -> nat -> T) : nat -> nat -> T :=
  let l := fun a b => match tl with Trans => L b a | _ => L a b end in
  let r := fun a b => match tr with Trans => R b a | _ => R a b end in
  let L00 := L 0%nat 0%nat in let L11 := L 1%nat 1%nat in let R00 := R 0%nat 0%nat in let R11 := R 1%nat 1%nat in
  let l01 := l 0%nat 1%nat in let l10 := l 1%nat 0%nat in let r01 := r 0%nat 1%nat in let r10 := r 1%nat 0%nat in
  fun i j => nth j (nth i [[L00 + sgn * R00; l01; sgn * r10; 0]; [l10; L11 + sgn * R00; 0; sgn * r10];
                           [sgn * r01; 0; L00 + sgn * R11; l01]; [0; sgn * r01; l10; L11 + sgn * R11]] []) 0.
Definition sy_max (A : nat -> nat -> T) : T := maxT (maxT (absv (A 0%nat 0%nat)) (absv (A 0%nat 1%nat))) (maxT (absv (A 1%nat 0%nat)) (absv (A 1%nat 1%nat))).
Definition sy_eight : T := let two := 1 + 1 in let four := two + two in four + four.
(** the values of the two cases; [eps]: ulp, [small_num]: safe_min / eps. Results info, scale, X *)
Definition sylv1 (small_num sgn l r b : T) : Z * T * T :=
  let tau1 := l + sgn * r in
  let sm := ltb (absv tau1) small_num in
  let tau1 := if sm then small_num else tau1 in
  let bet := if sm then small_num else absv (l + sgn * r) in
  let gam := absv b in
  let scale := if ltb bet (small_num * gam) then 1 / gam else 1 in
  (if sm then 1%Z else 0%Z, scale, b * scale / tau1).
Definition sylv2 (eps small_num : T) (tl tr : op_t) (sgn : T) (L R B : nat -> nat -> T) : Z * T * (nat -> T) :=
  let smin := maxT (eps * maxT (sy_max R) (sy_max L)) small_num in
  let b := fun k => nth k [B 0%nat 0%nat; B 1%nat 0%nat; B 0%nat 1%nat; B 1%nat 1%nat] 0 in
  let st := sy_step smin 2 (sy_step smin 1 (sy_step smin 0 (sy_mat tl tr sgn L R, b, (fun k => k), 0%Z))) in
  let '(st', sc) := sy_scale smin small_num sy_eight st in
  (snd st', sc, sy_solve st').
(** lasy2.hpp:45-237. The elements of the operands are read at once, before X is written. Results info, scale, xnorm *)
Definition rd22 (A : view) : M (nat -> nat -> T) :=
  a <- rd A 0 0;; b <- rd A 0 1;; c <- rd A 1 0;; d <- rd A 1 1;;
  ret (fun i j => nth j (nth i [[a; b]; [c; d]] []) 0).
Definition lasy2 (eps small_num : T) (tl tr : op_t) (isign : Z) (TL TR B X : view) : M (Z * T * T) :=
  check ((isign =? -1) || (isign =? 1))%Z;;
  let n1 := nc TL in
  let n2 := nc TR in
  let sgn := if (isign =? 1)%Z then 1 else - (1) in
  if ((n1 =? 0) || (n2 =? 0))%nat then ret (0%Z, 1, 0) else
  if ((n1 =? 1) && (n2 =? 1))%nat then
    l <- rd TL 0 0;; r <- rd TR 0 0;; b <- rd B 0 0;;
    let '(info, scale, x) := sylv1 small_num sgn l r b in
    wr X 0 0 x;;
    ret (info, scale, absv x)
  else if (((n1 =? 2) && (n2 =? 1)) || ((n1 =? 1) && (n2 =? 2)))%nat then
    error (-1)%Z;; ret ((-1)%Z, 1, 0)
  else if ((n1 =? 2) && (n2 =? 2))%nat then
    r <- rd22 TR;; l <- rd22 TL;; b <- rd22 B;;
    let '(info, scale, x) := sylv2 eps small_num tl tr sgn l r b in
    wr X 0 0 (x 0%nat);; wr X 1 0 (x 1%nat);; wr X 0 1 (x 2%nat);; wr X 1 1 (x 3%nat);;
    ret (info, scale, maxT (absv (x 0%nat) + absv (x 2%nat)) (absv (x 1%nat) + absv (x 3%nat)))
  else ret (0%Z, 1, 0).
End Model.
