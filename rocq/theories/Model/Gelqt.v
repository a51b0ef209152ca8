(** * Blocked LQ factorization that keeps the block reflector factors: gelqt *)
From Coq Require Import Bool Arith ZArith.
From Verif.Core Require Import Scalar Prog View Slice Loops.
From Verif.Model Require Import Gemm Blas1 Blas2 Blas3 Legacy LaAux Norms Work Householder QFact BlockQ.
Local Open Scope T_scope.

Section S.
Context {E : Env}.

(** gelqt.hpp:33-49, the query. The slices it takes are evaluated *)
Definition gelqt_worksize (A : view) (TT : lmat) : M winfo :=
  let n := nc A in
  let nb := Nat.min (ln TT) (Nat.min (nr A) n) in
  TT1 <- slc (lview TT) 0 nb 0 nb;;
  A11 <- slc A 0 nb 0 n;;
  gelq2_worksize A11 (vdiag TT1).
(** the loop body, gelqt.hpp:76-98. work1, a slice of TT, is passed to larfb as its workspace: TT is a matrix of the
    layout of the plugin legacyArray, whose slices keep the leading dimension *)
Definition gelqt_step (h : hconst) (A : view) (TT work : lmat) (j : nat) : M (option Z) :=
  let m := nr A in
  let n := nc A in
  let k := Nat.min m n in
  let ib := Nat.min (ln TT) (k - j) in
  TT1 <- slc (lview TT) j (j + ib) 0 ib;;
  A11 <- slc A j (j + ib) j n;;
  gelq2_work h A11 (vdiag TT1) work;;
  larft Forward Rowwise A11 (vdiag TT1) TT1;;
  (if (j + ib <? k)%nat then
     A12 <- slc A (j + ib) m j n;;
     assert_ ((j + ib <=? m) && (m <=? lm TT) && (ib <=? ln TT))%nat;;
     larfb_work Right NoTrans Forward Rowwise A11 TT1 A12 (slice TT (j + ib) m 0 ib);;
     ret tt
   else ret tt);;
  ret None.
(** gelqt.hpp:60-102; [fuel] bounds the number of blocks. [nb = ncols(TT)], so the second half of the check is void *)
Definition gelqt_work_f (fuel : nat) (h : hconst) (A : view) (TT work : lmat) : M Z :=
  check (negb ((lm TT <? nr A) || (ln TT <? ln TT)))%nat;;
  blkret fuel 0 (Nat.min (nr A) (nc A)) (ln TT) (gelqt_step h A TT work);;
  ret 0%Z.
Definition gelqt_work (h : hconst) (A : view) (TT work : lmat) : M Z := gelqt_work_f (Nat.min (nr A) (nc A)) h A TT work.
(** gelqt.hpp:148-160 *)
Definition gelqt (p : Z) (l : layout_t) (h : hconst) (A : view) (TT : lmat) : M Z :=
  w <- gelqt_worksize A TT;;
  work <- new_work p l w;;
  gelqt_work h A TT work.
End S.
