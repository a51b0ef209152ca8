(** * Recursive QR factorization that keeps the block reflector factor: geqrt3 *)
From Coq Require Import Bool Arith ZArith.
From Verif.Core Require Import Scalar Prog View Slice.
From Verif.Model Require Import Gemm Blas1 Blas2 Blas3 Legacy LaAux Norms Work Householder QFact BlockQ.
Local Open Scope T_scope.

Section S.
Context {E : Env}.

(** geqrt3.hpp:132-165, steps 2-8 of the recursive case: the trailing columns of A are multiplied by the conjugate
    transpose of the block reflector of the first n1 columns, T12 is scratch. [m], [n], [n1] are the dimensions. The
    slices are taken by the caller *)
Definition geqrt3_update (n1 n2 : nat) (A11 A12 A21 A22 A31 A32 T11 T12 : view) : M unit :=
  lacpy General A12 T12;;
  trmm Left Lower ConjTrans Unit 1 A11 T12;;
  gemm ConjTrans NoTrans 1 A21 A22 (Sc 1) T12;;
  gemm ConjTrans NoTrans 1 A31 A32 (Sc 1) T12;;
  trmm Left Upper ConjTrans NonUnit 1 T11 T12;;
  gemm NoTrans NoTrans (- (1)) A21 T12 (Sc 1) A22;;
  gemm NoTrans NoTrans (- (1)) A31 T12 (Sc 1) A32;;
  trmm Left Lower NoTrans Unit 1 A11 T12;;
  for_ j in 0 upto n2 do for_ i in 0 upto n1 do (c <- rd A12 i j;; w <- rd T12 i j;; wr A12 i j (c - w)).
(** geqrt3.hpp:169-196, steps 10-14: the upper right block of T. std::conj of a complex element, the element itself of
    a real one: [conj] of the model in both cases *)
Definition geqrt3_t12 (n1 n2 : nat) (A21 A22 A31 A32 T11 T12 T22 : view) : M unit :=
  for_ j in 0 upto n2 do for_ i in 0 upto n1 do (v <- rd A21 j i;; wr T12 i j (conj v));;
  trmm Right Lower NoTrans Unit 1 A22 T12;;
  gemm ConjTrans NoTrans 1 A31 A32 (Sc 1) T12;;
  trmm Left Upper NoTrans NonUnit (- (1)) T11 T12;;
  trmm Right Upper NoTrans NonUnit 1 T22 T12.
(** geqrt3.hpp:63-199. [isw], [nx] are the fields of opts. When m < n the code prints a message and returns (the message
    is not modelled). tau = diag(Tmatrix) is a view of the elements (i,i) of T: it shares them with the T that larft
    writes. [p], [l]: where and how geqrf, called with its default opts.nb = 32 ([nbo]), gets its workspace. [fuel]
    bounds the depth of the recursion *)
Fixpoint geqrt3_f (fuel : nat) (p : Z) (l : layout_t) (h : hconst) (nbo nx : nat) (isw : bool) (A Tm : view) : M unit :=
  let m := nr A in
  let n := nc A in
  if (m <? n)%nat then ret tt else
  if (n =? 1)%nat then
    a <- slcol A 0 m 0;;
    t <- larfg h Forward Columnwise a;;
    wr Tm 0 0 t
  else if (n <=? nx)%nat then
    geqrf p l h nbo A (vdiag Tm);;
    larft Forward Columnwise A (vdiag Tm) Tm;;
    ret tt
  else match fuel with
  | O => nofuel
  | S fuel' =>
    let n1 := (n / 2)%nat in
    let n2 := (n - n1)%nat in
    A1 <- slc A 0 m 0 n1;;
    A11 <- slc A 0 n1 0 n1;;
    A12 <- slc A 0 n1 n1 n;;
    A21 <- slc A n1 (n2 + n1) 0 n1;;
    A22 <- slc A n1 (n2 + n1) n1 n;;
    A22_32 <- slc A n1 m n1 n;;
    A31 <- slc A (n2 + n1) m 0 n1;;
    A32 <- slc A (n2 + n1) m n1 n;;
    T11 <- slc Tm 0 n1 0 n1;;
    T12 <- slc Tm 0 n1 n1 n;;
    T22 <- slc Tm n1 n n1 n;;
    geqrt3_f fuel' p l h nbo nx false A1 T11;;
    geqrt3_update n1 n2 A11 A12 A21 A22 A31 A32 T11 T12;;
    geqrt3_f fuel' p l h nbo nx isw A22_32 T22;;
    if isw then ret tt else geqrt3_t12 n1 n2 A21 A22 A31 A32 T11 T12 T22
  end.
(** the depth never exceeds the number of columns *)
Definition geqrt3 (p : Z) (l : layout_t) (h : hconst) (nx : nat) (isw : bool) (A Tm : view) : M unit :=
  geqrt3_f (S (nc A)) p l h 32 nx isw A Tm.
End S.
