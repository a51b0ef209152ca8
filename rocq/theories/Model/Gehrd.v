(** * Blocked reduction to Hessenberg form — include/tlapack/lapack/lahr2.hpp, gehrd.hpp, hessenberg.hpp *)
From Coq Require Import Bool Arith ZArith.
From Verif.Core Require Import Scalar Prog View Slice Loops.
From Verif.Model Require Import Gemm Blas1 Blas2 Blas3 Legacy LaAux Norms Work Householder QGen BlockQ Reduce Drivers.
Local Open Scope T_scope.

Section Model.
Context {E : Env}.
(** lahr2.hpp:89-141: bring column i up to date (i > 0); [ei] is the element saved by the previous step *)
Definition lahr2_update (k nb : nat) (A Tm Y : view) (ei : T) (i : nat) : M unit :=
  let n := nr A in
  Y2 <- slc Y (k + 1) n 0 i;;
  Vti <- slrow A (k + i) 0 i;;
  b <- slcol A (k + 1) n i;;
  (for_ j in 0 upto i do (x <- rdv Vti j;; wrv Vti j (conj x)));;
  gemv NoTrans (- one) Y2 Vti (Sc 1) b;;
  (for_ j in 0 upto i do (x <- rdv Vti j;; wrv Vti j (conj x)));;
  b1 <- slvec b 0 i;;
  b2 <- slvec b i (nr b);;
  V <- slc A (k + 1) n 0 i;;
  V1 <- slc V 0 i 0 i;;
  V2 <- slc V i (nr V) 0 i;;
  w <- slcol Tm 0 i (nb - 1);;
  copy b1 w;;
  trmv Lower ConjTrans Unit V1 w;;
  gemv ConjTrans 1 V2 b2 (Sc 1) w;;
  T2 <- slc Tm 0 i 0 i;;
  trmv Upper ConjTrans NonUnit T2 w;;
  gemv NoTrans (- one) V2 w (Sc 1) b2;;
  trmv Lower NoTrans Unit V1 w;;
  axpy (- one) w b1;;
  wr A (k + i) (i - 1) ei.
(** lahr2.hpp:142-169: the reflector of column i, column i of Y and of T; returns the new [ei] *)
Definition lahr2_reflect (h : hconst) (k : nat) (A tau Tm Y : view) (i : nat) : M T :=
  let n := nr A in
  v <- slcol A (k + i + 1) n i;;
  t <- larfg h Forward Columnwise v;;
  wrv tau i t;;
  ei <- rdv v 0;;
  wrv v 0 1;;
  A2 <- slc A (k + 1) n (i + 1) (n - k);;
  y <- slcol Y (k + 1) n i;;
  gemv NoTrans 1 A2 v SZ y;;
  t <- slcol Tm 0 i i;;
  A3 <- slc A (k + i + 1) n 0 i;;
  gemv ConjTrans 1 A3 v SZ t;;
  Y2 <- slc Y (k + 1) n 0 i;;
  gemv NoTrans (- one) Y2 t (Sc 1) y;;
  ti <- rdv tau i;;
  scal ti y;;
  scal (- ti) t;;
  T2 <- slc Tm 0 i 0 i;;
  trmv Upper NoTrans NonUnit T2 t;;
  wr Tm i i ti;;
  ret ei.
(** lahr2.hpp:172-189: rows 0, ..., k of Y *)
Definition lahr2_top (k nb : nat) (A Tm Y : view) : M unit :=
  let n := nr A in
  A4 <- slc A 0 (k + 1) 1 (nb + 1);;
  Y1 <- slc Y 0 (k + 1) 0 nb;;
  lacpy General A4 Y1;;
  V1 <- slc A (k + 1) (k + nb + 1) 0 nb;;
  trmm Right Lower NoTrans Unit 1 V1 Y1;;
  (if (k + nb + 1 <? n)%nat then
    A5 <- slc A 0 (k + 1) (nb + 1) (n - k);;
    V2 <- slc A (k + nb + 1) n 0 nb;;
    gemm NoTrans NoTrans 1 A5 V2 (Sc 1) Y1
   else ret tt);;
  trmm Right Upper NoTrans NonUnit 1 Tm Y1.
(** lahr2.hpp:60-192; with nb = 0 the index [nb - 1] of line 172 wraps around *)
Definition lahr2 (h : hconst) (k nb : nat) (A tau Tm Y : view) : M Z :=
  let n := nr A in
  if (n <=? 1)%nat then ret 0%Z else
  assert_ (0 <? nb)%nat;;
  ei <- foldup 0 nb (0 : T) (fun i ei =>
    (if (0 <? i)%nat then lahr2_update k nb A Tm Y ei i else ret tt);;
    lahr2_reflect h k A tau Tm Y i);;
  wr A (k + nb) (nb - 1) ei;;
  lahr2_top k nb A Tm Y;;
  ret 0%Z.

(** reshape(work, m, n), keeping the matrix (its transposed view is needed) *)
Definition wk_lmat (work : lmat) (m n : nat) : M (lmat * lmat) :=
  match reshape work m n with Some x => ret x | None => throw DomainError end.
(** gehrd.hpp:63-64, 113-115 *)
Definition gehrd_nb (nbo ilo ihi : nat) : nat := if (ilo <? ihi)%nat then Nat.min nbo (ihi - ilo - 1) else 0%nat.
Definition gehrd_blocked (nbo nxo ilo ihi : nat) : bool := ((ilo <? ihi) && (Nat.max (gehrd_nb nbo ilo ihi) nxo <? ihi - ilo - 1))%nat.
(** gehrd.hpp:49-87; [nbo], [nxo]: opts.nb, opts.nx_switch *)
Definition gehrd_worksize (nbo nxo ilo ihi : nat) (A tau : view) : M winfo :=
  let n := nc A in
  let nb := gehrd_nb nbo ilo ihi in
  if (0 <? n)%nat then
    w <- (if gehrd_blocked nbo nxo ilo ihi then
        slc A (ilo + 1) ihi ilo (ilo + nb);;
        slc A 0 nb 0 nb;;
        A5 <- slc A (ilo + 1) ihi (ilo + nb) n;;
        ret (wminmax (winfo_m (n + nb) nb) (wtranspose (larfb_worksize Left nb (nr A5) (nc A5))))
      else ret (winfo_v 0));;
    w2 <- gehd2_worksize ilo ihi A tau;;
    ret (wminmax w w2)
  else ret (winfo_v 0).
(** gehrd.hpp:142-183: one block.  Y and matrixT are views of the workspace, Yt the transposed view of Y *)
Definition gehrd_block (h : hconst) (ihi nb i : nat) (A tau Y matrixT : view) (Yt : lmat) : M unit :=
  let n := nc A in
  let nb2 := Nat.min nb (ihi - i - 1) in
  V <- slc A (i + 1) ihi i (i + nb2);;
  A2 <- slc A 0 ihi i ihi;;
  tau2 <- slvec tau i ihi;;
  T_s <- slc matrixT 0 nb2 0 nb2;;
  Y_s <- slc Y 0 n 0 nb2;;
  lahr2 h i nb2 A2 tau2 T_s Y_s;;
  (if (i + nb2 <? ihi)%nat then
    V2 <- slc V (nb2 - 1) (ihi - i - 1) 0 nb2;;
    ei <- rd V (nb2 - 1) (nb2 - 1);;
    wr V (nb2 - 1) (nb2 - 1) 1;;
    A3 <- slc A 0 ihi (i + nb2) ihi;;
    Y_2 <- slc Y 0 ihi 0 nb2;;
    gemm NoTrans ConjTrans (- one) Y_2 V2 (Sc 1) A3;;
    wr V (nb2 - 1) (nb2 - 1) ei
   else ret tt);;
  V1 <- slc A (i + 1) (i + nb2 + 1) i (i + nb2);;
  trmm Right Lower ConjTrans Unit 1 V1 Y_s;;
  (for_ j in 0 upto (nb2 - 1) do (
    A4 <- slcol A 0 (i + 1) (i + j + 1);;
    y <- slcol Y 0 (i + 1) j;;
    axpy (- one) y A4));;
  A5 <- slc A (i + 1) ihi (i + nb2) n;;
  larfb_work Left ConjTrans Forward Columnwise V T_s A5 Yt;;
  ret tt.
(** gehrd.hpp:141: for (; i + nx < ihi - 1; i = i + nb); returns the final i.  [fuel] bounds the number of rounds. *)
Fixpoint gehrd_loop (fuel : nat) (h : hconst) (ihi nb nx i : nat) (A tau Y matrixT : view) (Yt : lmat) : M nat :=
  if (i + nx <? ihi - 1)%nat then
    match fuel with
    | O => nofuel
    | S fuel => gehrd_block h ihi nb i A tau Y matrixT Yt;; gehrd_loop fuel h ihi nb nx (i + nb) A tau Y matrixT Yt
    end
  else ret i.
(** gehrd.hpp:97-186.  [size(tau) < n - 1] holds for n = 0; ihi = 0 (with n > 0) makes [ihi - 1] wrap around and the
    first block slice out of range *)
Definition gehrd_work (h : hconst) (nbo nxo ilo ihi : nat) (A tau : view) (work : lmat) : M Z :=
  let n := nc A in
  let nb := gehrd_nb nbo ilo ihi in
  let nx := Nat.max nb nxo in
  check (ilo <? n)%nat;;
  check (ihi <=? n)%nat;;
  check (nc A =? nr A)%nat;;
  check (negb ((n =? 0) || (nr tau <? n - 1)))%nat;;
  if (n <=? 0)%nat then ret 0%Z else
  let blk := gehrd_blocked nbo nxo ilo ihi in
  yw <- (if blk then wk_lmat work n nb else wk_lmat work 0 0);;
  let Y := fst yw in
  tw <- (if blk then wk_lmat (snd yw) nb nb else wk_lmat (snd yw) 0 0);;
  laset General 0 0 (lview Y);;
  assert_ (0 <? ihi)%nat;;
  i <- gehrd_loop ihi h ihi nb nx ilo A tau (lview Y) (lview (fst tw)) (transpose_view Y);;
  gehd2_work h i ihi A tau work.
(** gehrd.hpp:224-252 *)
Definition gehrd (p : Z) (l : layout_t) (h : hconst) (nbo nxo ilo ihi : nat) (A tau : view) : M Z :=
  let n := nc A in
  if (n <=? 0)%nat then ret 0%Z else
  w <- gehrd_worksize nbo nxo ilo ihi A tau;;
  work <- new_work p l w;;
  gehrd_work h nbo nxo ilo ihi A tau work.
(** hessenberg.hpp:60-75, 121-131 *)
Definition hessenberg_work (v : variant_t) (h : hconst) (nbo nxo ilo ihi : nat) (A tau : view) (work : lmat) : M Z :=
  match v with Level2 => gehd2_work h ilo ihi A tau work | Blocked => gehrd_work h nbo nxo ilo ihi A tau work end.
Definition hessenberg (p : Z) (l : layout_t) (v : variant_t) (h : hconst) (nbo nxo ilo ihi : nat) (A tau : view) : M Z :=
  match v with Level2 => gehd2 p l h ilo ihi A tau | Blocked => gehrd p l h nbo nxo ilo ihi A tau end.
End Model.
