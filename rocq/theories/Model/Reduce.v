(** * Unblocked two-sided reductions: gehd2, unghr, gebd2, hetd2 *)
From Coq Require Import Bool Arith ZArith.
From Verif.Core Require Import Scalar Prog View Slice Loops.
From Verif.Model Require Import Gemm Blas1 Blas2 Blas3 Legacy LaAux Norms Work Householder QGen BlockQ.
Local Open Scope T_scope.

Section Model.
Context {E : Env}.

(** gehd2.hpp:38-63; the query evaluates tau[0] *)
Definition gehd2_worksize (ilo ihi : nat) (A tau : view) : M winfo :=
  let n := nc A in
  if ((ilo + 1 <? ihi) && (0 <? n))%nat then
    slcol A (ilo + 1) ihi ilo;;
    C0 <- slc A 0 ihi (ilo + 1) ihi;;
    rdv tau 0;;
    C1 <- slc A (ilo + 1) ihi (ilo + 1) n;;
    ret (wminmax (larf_worksize Right (nr C0) (nc C0)) (larf_worksize Left (nr C1) (nc C1)))
  else ret (winfo_v 0).
(** gehd2.hpp:76-112.  The indices are unsigned: [size(tau) < n - 1] holds for n = 0 ([n - 1] wraps around), and
    with ihi = 0 (and n > 0, hence ilo = 0) the loop bound [ihi - 1] wraps around, and the first [slice] is out of
    range *)
Definition gehd2_work (h : hconst) (ilo ihi : nat) (A tau : view) (work : lmat) : M Z :=
  let n := nc A in
  check (nc A =? nr A)%nat;;
  check (negb ((n =? 0) || (nr tau <? n - 1)))%nat;;
  if (n <=? 0)%nat then ret 0%Z else
  assert_ (0 <? ihi)%nat;;
  for_ i in ilo upto (ihi - 1) do (
    v <- slcol A (i + 1) ihi i;;
    t <- larfg h Forward Columnwise v;;
    wrv tau i t;;
    C0 <- slc A 0 ihi (i + 1) ihi;;
    t <- rdv tau i;;
    larf_work Right Forward Columnwise v t C0 work;;
    C1 <- slc A (i + 1) ihi (i + 1) n;;
    t <- rdv tau i;;
    larf_work Left Forward Columnwise v (conj t) C1 work);;
  ret 0%Z.
(** gehd2.hpp:154-180 *)
Definition gehd2 (p : Z) (l : layout_t) (h : hconst) (ilo ihi : nat) (A tau : view) : M Z :=
  let n := nc A in
  check (nc A =? nr A)%nat;;
  check (negb ((n =? 0) || (nr tau <? n - 1)))%nat;;
  if (n <=? 0)%nat then ret 0%Z else
  w <- gehd2_worksize ilo ihi A tau;;
  work <- new_work p l w;;
  gehd2_work h ilo ihi A tau work.

(** unghr.hpp:39-58; [nbo] is the block size option of ungq (32 by default) *)
Definition unghr_worksize (nbo ilo ihi : nat) (A tau : view) : M winfo :=
  let nh := (if ilo + 1 <? ihi then ihi - 1 - ilo else 0)%nat in
  if ((0 <? nh) && (ilo + 1 <? ihi))%nat then
    As <- slc A (ilo + 1) ihi (ilo + 1) ihi;;
    taus <- slvec tau ilo (ihi - 1);;
    ungq_worksize nbo Forward Columnwise As taus
  else ret (winfo_v 0).
(** unghr.hpp:71-129.  With ihi = 0 the start [ihi - 1] of the first loop wraps around, and A(0, ihi - 1) is out of
    range *)
Definition unghr_work (nbo ilo ihi : nat) (A tau : view) (work : lmat) : M Z :=
  let m := nr A in
  let n := nc A in
  let nh := (if ilo + 1 <? ihi then ihi - 1 - ilo else 0)%nat in
  check (negb (nr tau + 1 <? Nat.min m n))%nat;;
  assert_ (0 <? ihi)%nat;;
  ford_ j in ilo + 1 upto ihi do (
    (for_ i in 0 upto j do wr A i j 0);;
    (for_ i in j + 1 upto ihi do (a <- rd A i (j - 1);; wr A i j a));;
    for_ i in ihi upto n do wr A i j 0);;
  (for_ j in 0 upto (ilo + 1) do (
    (for_ i in 0 upto n do wr A i j 0);;
    wr A j j 1));;
  (for_ j in ihi upto n do (
    (for_ i in 0 upto n do wr A i j 0);;
    wr A j j 1));;
  if (0 <? nh)%nat then
    As <- slc A (ilo + 1) ihi (ilo + 1) ihi;;
    taus <- slvec tau ilo (ihi - 1);;
    ungq_work nbo Forward Columnwise As taus work
  else ret 0%Z.
(** unghr.hpp:152-168 *)
Definition unghr (p : Z) (l : layout_t) (nbo ilo ihi : nat) (A tau : view) : M Z :=
  w <- unghr_worksize nbo ilo ihi A tau;;
  work <- new_work p l w;;
  unghr_work nbo ilo ihi A tau work.

(** gebd2.hpp:36-62; the query evaluates tauv[0] and tauw[0] *)
Definition gebd2_worksize (A tauv tauw : view) : M winfo :=
  let m := nr A in
  let n := nc A in
  if (1 <? n)%nat then
    rdv tauv 0;;
    let w := larf_worksize Left m (n - 1) in
    if (1 <? m)%nat then
      rdv tauw 0;;
      ret (wminmax w (larf_worksize Right (m - 1) (n - 1)))
    else ret w
  else ret (winfo_v 0).
(** gebd2.hpp:75-151 *)
Definition gebd2_work (h : hconst) (A tauv tauw : view) (work : lmat) : M Z :=
  let m := nr A in
  let n := nc A in
  check (negb (nr tauv <? Nat.min m n)%nat);;
  check (negb (nr tauw <? Nat.min m n)%nat);;
  if (n <=? 0)%nat then ret 0%Z else
  (if (n <=? m)%nat then
     for_ j in 0 upto n do (
       v <- slcol A j m j;;
       t <- larfg h Forward Columnwise v;;
       wrv tauv j t;;
       if (j <? n - 1)%nat then
         A11 <- slc A j m (j + 1) n;;
         t <- rdv tauv j;;
         larf_work Left Forward Columnwise v (conj t) A11 work;;
         w <- slrow A j (j + 1) n;;
         t <- larfg h Forward Rowwise w;;
         wrv tauw j t;;
         if (j <? m - 1)%nat then
           B11 <- slc A (j + 1) m (j + 1) n;;
           t <- rdv tauw j;;
           larf_work Right Forward Rowwise w t B11 work
         else ret tt
       else wrv tauw j 0)
   else
     for_ j in 0 upto m do (
       w <- slrow A j j n;;
       t <- larfg h Forward Rowwise w;;
       wrv tauw j t;;
       if (j <? m - 1)%nat then
         A11 <- slc A (j + 1) m j n;;
         t <- rdv tauw j;;
         larf_work Right Forward Rowwise w t A11 work;;
         v <- slcol A (j + 1) m j;;
         t <- larfg h Forward Columnwise v;;
         wrv tauv j t;;
         if (j <? n - 1)%nat then
           B11 <- slc A (j + 1) m (j + 1) n;;
           t <- rdv tauv j;;
           larf_work Left Forward Columnwise v (conj t) B11 work
         else ret tt
       else wrv tauv j 0));;
  ret 0%Z.
(** gebd2.hpp:204-223 *)
Definition gebd2 (p : Z) (l : layout_t) (h : hconst) (A tauv tauw : view) : M Z :=
  if (nc A <=? 0)%nat then ret 0%Z else
  w <- gebd2_worksize A tauv tauw;;
  work <- new_work p l w;;
  gebd2_work h A tauv tauw work.

(** [real_t half(0.5)]: modelled as 1/(1+1), which is 0.5 in floating-point arithmetic as well *)
Definition half : T := 1 / (1 + 1).
(** hetd2.hpp:48-158.  [size(tau) >= n - 1] fails for n = 0, as [n - 1] wraps around *)
Definition hetd2 (h : hconst) (uplo : uplo_t) (A tau : view) : M Z :=
  let n := nc A in
  check (uplo2 uplo);;
  check (nr A =? nc A)%nat;;
  check (negb (n =? 0) && (n - 1 <=? nr tau))%nat;;
  if (n <=? 0)%nat then ret 0%Z else
  match uplo with
  | Upper =>
    a <- rd A (n - 1) (n - 1);; wr A (n - 1) (n - 1) (re a);;
    ford_ i in 0 upto (n - 1) do (
      v <- slcol A 0 (i + 1) (i + 1);;
      taui <- larfg h Backward Columnwise v;;
      (if negb (eqb taui 0) then
         C <- slc A 0 (i + 1) 0 (i + 1);;
         w <- slvec tau 0 (i + 1);;
         beta <- rd A i (i + 1);;
         wr A i (i + 1) 1;;
         hemv_nobeta Upper taui C v w;;
         d <- dot w v;;
         axpy (- half * taui * d) v w;;
         her2 Upper (- (1)) v w C;;
         wr A i (i + 1) beta
       else a <- rd A i i;; wr A i i (re a));;
      wrv tau i taui);;
    ret 0%Z
  | _ =>
    a <- rd A 0 0;; wr A 0 0 (re a);;
    for_ i in 0 upto (n - 1) do (
      v <- slcol A (i + 1) n i;;
      taui <- larfg h Forward Columnwise v;;
      (if negb (eqb taui 0) then
         C <- slc A (i + 1) n (i + 1) n;;
         w <- slvec tau i (n - 1);;
         beta <- rd A (i + 1) i;;
         wr A (i + 1) i 1;;
         hemv_nobeta Lower taui C v w;;
         d <- dot w v;;
         axpy (- half * taui * d) v w;;
         her2 Lower (- (1)) v w C;;
         wr A (i + 1) i beta
       else a <- rd A (i + 1) (i + 1);; wr A (i + 1) (i + 1) (re a));;
      wrv tau i taui);;
    ret 0%Z
  end.
End Model.
