(** * Blocked reflectors: larft, larfb; blocked factorizations geqrf, gelqf, geqlf, gerqf; ungq, unmq *)
From Coq Require Import Bool Arith ZArith.
From Verif.Core Require Import Scalar Prog View Slice Loops.
From Verif.Model Require Import Gemm Blas1 Blas2 Blas3 Legacy LaAux Norms Work Householder QGen QFact.
Local Open Scope T_scope.

Section Model.
Context {E : Env}.

(** larft.hpp:130-177, one iteration of the loop, i >= 1.  tau[i] is read once. *)
Definition larft_fwd_step (storeMode : storev_t) (n : nat) (V tau Tm : view) (i : nat) : M unit :=
  t <- slcol Tm 0 i i;;
  ti <- rdv tau i;;
  (if eqb ti 0 then for_ j in 0 upto i do wrv t j 0
   else
     (match storeMode with
      | Columnwise =>
        for_ j in 0 upto i do (v <- rd V i j;; wrv t j (- ti * conj v));;
        if (i + 1 <? n)%nat then
          V1 <- slc V (i + 1) n 0 i;; v <- slcol V (i + 1) n i;; gemv ConjTrans (- ti) V1 v (Sc 1) t
        else ret tt
      | Rowwise =>
        for_ j in 0 upto i do (v <- rd V j i;; wrv t j (- ti * v));;
        if (i + 1 <? n)%nat then
          Ti <- slc Tm 0 i i (i + 1);;
          V1 <- slc V 0 i (i + 1) n;; V2 <- slc V i (i + 1) (i + 1) n;;
          gemm NoTrans ConjTrans (- ti) V1 V2 (Sc 1) Ti
        else ret tt
      end);;
     T1 <- slc Tm 0 i 0 i;;
     trmv Upper NoTrans NonUnit T1 t);;
  wr Tm i i ti.
(** larft.hpp:184-226, one iteration, i <= k-2.  A negative [n - k + i] wraps in the code and makes the access to
    V that follows out of bounds. *)
Definition larft_bwd_step (storeMode : storev_t) (n k : nat) (V tau Tm : view) (i : nat) : M unit :=
  t <- slcol Tm (i + 1) k i;;
  ti <- rdv tau i;;
  (if eqb ti 0 then for_ j in 0 upto (k - i - 1) do wrv t j 0
   else
     assert_ (k <=? n + i)%nat;;
     let r := (n + i - k)%nat in
     (match storeMode with
      | Columnwise =>
        for_ j in 0 upto (k - i - 1) do (v <- rd V r (j + i + 1);; wrv t j (- ti * conj v));;
        V1 <- slc V 0 r (i + 1) k;; v <- slcol V 0 r i;; gemv ConjTrans (- ti) V1 v (Sc 1) t
      | Rowwise =>
        for_ j in 0 upto (k - i - 1) do (v <- rd V (j + i + 1) r;; wrv t j (- ti * v));;
        Ti <- slc Tm (i + 1) k i (i + 1);;
        V1 <- slc V (i + 1) k 0 r;; V2 <- slc V i (i + 1) 0 r;;
        gemm NoTrans ConjTrans (- ti) V1 V2 (Sc 1) Ti
      end);;
     T1 <- slc Tm (i + 1) k (i + 1) k;;
     trmv Lower NoTrans NonUnit T1 t);;
  wr Tm i i ti.
(** larft.hpp:92-229 *)
Definition larft (direction : direction_t) (storeMode : storev_t) (V tau Tm : view) : M Z :=
  let n := match storeMode with Columnwise => nr V | Rowwise => nc V end in
  let k := nr tau in
  check (negb (match storeMode with Columnwise => nc V | Rowwise => nr V end <? k)%nat);;
  check (negb ((nr Tm <? k) || (nc Tm <? k))%nat);;
  if ((n =? 0) || (k =? 0))%nat then ret 0%Z else
  (match direction with
   | Forward =>
     t0 <- rdv tau 0;;
     wr Tm 0 0 t0;;
     for_ i in 1 upto k do larft_fwd_step storeMode n V tau Tm i
   | Backward =>
     t0 <- rdv tau (k - 1);;
     wr Tm (k - 1) (k - 1) t0;;
     ford_ i in 0 upto (k - 1) do larft_bwd_step storeMode n k V tau Tm i
   end);;
  ret 0%Z.

(** The body of larfb for side = Left; larfb.hpp:158-190 (Columnwise, Forward), 226-258 (Columnwise, Backward),
    296-328 (Rowwise, Forward), 364-396 (Rowwise, Backward).  V1, C1: the k rows (columns) with the unit
    triangle; V2, C2: the others; [rest] is m > k. *)
Definition larfb_left (uploV uploT : uplo_t) (opA opB trans : op_t) (k n : nat) (rest : bool) (V1 V2 Tm C1 C2 W : view) : M unit :=
  lacpy General C1 W;;
  trmm Left uploV opA Unit 1 V1 W;;
  (if rest then gemm opA NoTrans 1 V2 C2 (Sc 1) W else ret tt);;
  trmm Left uploT trans NonUnit 1 Tm W;;
  (if rest then gemm opB NoTrans (- (1)) V2 W (Sc 1) C2 else ret tt);;
  trmm Left uploV opB Unit (- (1)) V1 W;;
  for_ j in 0 upto n do for_ i in 0 upto k do (c <- rd C1 i j;; w <- rd W i j;; wr C1 i j (c + w)).
(** side = Right; larfb.hpp:191-223, 259-291, 329-361, 397-429 *)
Definition larfb_right (uploV uploT : uplo_t) (opA opB trans : op_t) (m k : nat) (rest : bool) (V1 V2 Tm C1 C2 W : view) : M unit :=
  lacpy General C1 W;;
  trmm Right uploV opB Unit 1 V1 W;;
  (if rest then gemm NoTrans opB 1 C2 V2 (Sc 1) W else ret tt);;
  trmm Right uploT trans NonUnit 1 Tm W;;
  (if rest then gemm NoTrans opA (- (1)) W V2 (Sc 1) C2 else ret tt);;
  trmm Right uploV opA Unit (- (1)) V1 W;;
  for_ j in 0 upto k do for_ i in 0 upto m do (c <- rd C1 i j;; w <- rd W i j;; wr C1 i j (c + w)).
(** larfb.hpp:73-93 *)
Definition larfb_worksize (side : side_t) (k m n : nat) : winfo := match side with Left => winfo_m k n | Right => winfo_m m k end.
(** the k rows (columns) of the unit triangle, and the others: the first k (Forward) or the last k (Backward) of
    nq.  [nq - k] wraps in the code when k > nq, which violates the range assertion of the slice. *)
Definition larfb_ranges (direction : direction_t) (nq k : nat) : M (nat * nat * (nat * nat)) :=
  match direction with
  | Forward => ret ((0%nat, k), (k, nq))
  | Backward => assert_ (k <=? nq)%nat;; ret ((nq - k, nq)%nat, (0, nq - k)%nat)
  end.
(** larfb.hpp:111-434.  The check of the shape of V reads [(ncols(V) == k) && (side == Left) ? a : b], which C++
    parses as [((ncols(V) == k) && (side == Left)) ? a : b]. *)
Definition larfb_work (side : side_t) (trans : op_t) (direction : direction_t) (storeMode : storev_t) (V Tm C : view) (work : lmat) : M Z :=
  let m := nr C in
  let n := nc C in
  let k := nr Tm in
  let left := match side with Left => true | Right => false end in
  check (match trans with NoTrans | ConjTrans => true | Trans => negb cplx | Conj => false end);;
  check (match storeMode with
         | Columnwise => if (nc V =? k) && left then nr V =? m else nr V =? n
         | Rowwise => if (nr V =? k) && left then nc V =? m else nc V =? n
         end)%nat;;
  check (nr Tm =? nc Tm)%nat;;
  if ((m <=? 0) || (n <=? 0) || (k <=? 0))%nat then ret 0%Z else
  ww <- (match side with Left => wk_mat work k n | Right => wk_mat work m k end);;
  let W := fst ww in
  let nq := sel side m n in
  ab <- larfb_ranges direction nq k;;
  let a1 := fst (fst ab) in let b1 := snd (fst ab) in
  let a2 := fst (snd ab) in let b2 := snd (snd ab) in
  V1 <- (match storeMode with Columnwise => slc V a1 b1 0 (nc V) | Rowwise => slc V 0 (nr V) a1 b1 end);;
  V2 <- (match storeMode with Columnwise => slc V a2 b2 0 (nc V) | Rowwise => slc V 0 (nr V) a2 b2 end);;
  C1 <- (match side with Left => slc C a1 b1 0 n | Right => slc C 0 m a1 b1 end);;
  C2 <- (match side with Left => slc C a2 b2 0 n | Right => slc C 0 m a2 b2 end);;
  (match storeMode, direction, side with
   | Columnwise, Forward, Left => larfb_left Lower Upper ConjTrans NoTrans trans k n (k <? m)%nat V1 V2 Tm C1 C2 W
   | Columnwise, Forward, Right => larfb_right Lower Upper ConjTrans NoTrans trans m k (k <? n)%nat V1 V2 Tm C1 C2 W
   | Columnwise, Backward, Left => larfb_left Upper Lower ConjTrans NoTrans trans k n (k <? m)%nat V1 V2 Tm C1 C2 W
   | Columnwise, Backward, Right => larfb_right Upper Lower ConjTrans NoTrans trans m k (k <? n)%nat V1 V2 Tm C1 C2 W
   | Rowwise, Forward, Left => larfb_left Upper Upper NoTrans ConjTrans trans k n (k <? m)%nat V1 V2 Tm C1 C2 W
   | Rowwise, Forward, Right => larfb_right Upper Upper NoTrans ConjTrans trans m k (k <? n)%nat V1 V2 Tm C1 C2 W
   | Rowwise, Backward, Left => larfb_left Lower Lower NoTrans ConjTrans trans k n (k <? m)%nat V1 V2 Tm C1 C2 W
   | Rowwise, Backward, Right => larfb_right Lower Lower NoTrans ConjTrans trans m k (k <? n)%nat V1 V2 Tm C1 C2 W
   end);;
  ret 0%Z.
(** larfb.hpp:512-545 *)
Definition larfb (p : Z) (l : layout_t) (side : side_t) (trans : op_t) (direction : direction_t) (storeMode : storev_t) (V Tm C : view) : M Z :=
  let m := nr C in
  let n := nc C in
  let k := nr Tm in
  if ((m <=? 0) || (n <=? 0) || (k <=? 0))%nat then ret 0%Z else
  work <- new_work p l (larfb_worksize side k m n);;
  larfb_work side trans direction storeMode V Tm C work.

(** geqrf.hpp:41-69.  [nbo] is opts.nb.  The slices of the query are evaluated, and tau[0] by the inner query. *)
Definition geqrf_worksize (nbo : nat) (A tau : view) : M winfo :=
  let m := nr A in
  let n := nc A in
  let k := Nat.min m n in
  let nb := Nat.min nbo k in
  A11 <- slc A 0 m 0 nb;;
  tauw1 <- slvec tau 0 nb;;
  w <- (if (1 <? nb)%nat then rdv tauw1 0;; ret (geqr2_worksize (nr A11) (nc A11)) else ret (geqr2_worksize (nr A11) (nc A11)));;
  if (nb <? n)%nat then
    TT1 <- slc A 0 nb 0 nb;;
    A12 <- slc A 0 m nb n;;
    ret (wadd (wminmax w (larfb_worksize Left (nr TT1) (nr A12) (nc A12))) (winfo_m nb nb))
  else ret w.
(** the loop body, geqrf.hpp:98-118 *)
Definition geqrf_step (h : hconst) (nb : nat) (A tau : view) (work : lmat) (TT : view) (work2 : lmat) (j2 : nat) : M (option Z) :=
  let m := nr A in
  let n := nc A in
  let k := Nat.min m n in
  let ib := Nat.min nb (k - j2) in
  A11 <- slc A j2 m j2 (j2 + ib);;
  tauw1 <- slvec tau j2 (j2 + ib);;
  geqr2_work h A11 tauw1 work;;
  (if (j2 + ib <? n)%nat then
     TT1 <- slc TT 0 ib 0 ib;;
     larft Forward Columnwise A11 tauw1 TT1;;
     A12 <- slc A j2 m (j2 + ib) n;;
     larfb_work Left ConjTrans Forward Columnwise A11 TT1 A12 work2;;
     ret tt
   else ret tt);;
  ret None.
(** geqrf.hpp:80-121; [fuel] bounds the number of blocks *)
Definition geqrf_work_f (fuel : nat) (h : hconst) (nbo : nat) (A tau : view) (work : lmat) : M Z :=
  let m := nr A in
  let n := nc A in
  let k := Nat.min m n in
  let nb := Nat.min nbo k in
  check (negb (nr tau <? k)%nat);;
  tw <- (if (nb <? n)%nat then wk_mat work nb nb else wk_mat work 0 0);;
  blkret fuel 0 k nb (geqrf_step h nb A tau work (fst tw) (snd tw));;
  ret 0%Z.
Definition geqrf_work (h : hconst) (nbo : nat) (A tau : view) (work : lmat) : M Z := geqrf_work_f (Nat.min (nr A) (nc A)) h nbo A tau work.
(** geqrf.hpp:158-170 *)
Definition geqrf (p : Z) (l : layout_t) (h : hconst) (nbo : nat) (A tau : view) : M Z :=
  w <- geqrf_worksize nbo A tau;;
  work <- new_work p l w;;
  geqrf_work h nbo A tau work.

(** gelqf.hpp:41-69.  [nbo] is opts.nb.  The slices of the query are evaluated, and tau[0] by the inner query. *)
Definition gelqf_worksize (nbo : nat) (A tau : view) : M winfo :=
  let m := nr A in
  let n := nc A in
  let k := Nat.min m n in
  let nb := Nat.min nbo k in
  A11 <- slc A 0 nb 0 n;;
  tauw1 <- slvec tau 0 nb;;
  w <- gelq2_worksize A11 tauw1;;
  if (nb <? m)%nat then
    TT1 <- slc A 0 nb 0 nb;;
    A12 <- slc A nb m 0 n;;
    ret (wadd (wminmax w (larfb_worksize Right (nr TT1) (nr A12) (nc A12))) (winfo_m nb nb))
  else ret w.
(** the loop body, gelqf.hpp:98-118 *)
Definition gelqf_step (h : hconst) (nb : nat) (A tau : view) (work : lmat) (TT : view) (work2 : lmat) (j2 : nat) : M (option Z) :=
  let m := nr A in
  let n := nc A in
  let k := Nat.min m n in
  let ib := Nat.min nb (k - j2) in
  A11 <- slc A j2 (j2 + ib) j2 n;;
  tauw1 <- slvec tau j2 (j2 + ib);;
  gelq2_work h A11 tauw1 work;;
  (if (j2 + ib <? m)%nat then
     TT1 <- slc TT 0 ib 0 ib;;
     larft Forward Rowwise A11 tauw1 TT1;;
     A12 <- slc A (j2 + ib) m j2 n;;
     larfb_work Right NoTrans Forward Rowwise A11 TT1 A12 work2;;
     ret tt
   else ret tt);;
  ret None.
(** gelqf.hpp:80-121; [fuel] bounds the number of blocks *)
Definition gelqf_work_f (fuel : nat) (h : hconst) (nbo : nat) (A tau : view) (work : lmat) : M Z :=
  let m := nr A in
  let n := nc A in
  let k := Nat.min m n in
  let nb := Nat.min nbo k in
  check (negb (nr tau <? k)%nat);;
  tw <- (if (nb <? m)%nat then wk_mat work nb nb else wk_mat work 0 0);;
  blkret fuel 0 k nb (gelqf_step h nb A tau work (fst tw) (snd tw));;
  ret 0%Z.
Definition gelqf_work (h : hconst) (nbo : nat) (A tau : view) (work : lmat) : M Z := gelqf_work_f (Nat.min (nr A) (nc A)) h nbo A tau work.
(** gelqf.hpp:157-169 *)
Definition gelqf (p : Z) (l : layout_t) (h : hconst) (nbo : nat) (A tau : view) : M Z :=
  w <- gelqf_worksize nbo A tau;;
  work <- new_work p l w;;
  gelqf_work h nbo A tau work.

(** geqlf.hpp:41-69.  [nbo] is opts.nb.  The slices of the query are evaluated, and tau[0] by the inner query. *)
Definition geqlf_worksize (nbo : nat) (A tau : view) : M winfo :=
  let m := nr A in
  let n := nc A in
  let k := Nat.min m n in
  let nb := Nat.min nbo k in
  A11 <- slc A 0 m 0 nb;;
  tauw1 <- slvec tau 0 nb;;
  w <- geql2_worksize A11 tauw1;;
  if (nb <? n)%nat then
    TT1 <- slc A 0 nb 0 nb;;
    A12 <- slc A 0 m nb n;;
    ret (wadd (wminmax w (larfb_worksize Left (nr TT1) (nr A12) (nc A12))) (winfo_m nb nb))
  else ret w.
(** the loop body, geqlf.hpp:98-118 *)
Definition geqlf_step (h : hconst) (nb : nat) (A tau : view) (work : lmat) (TT : view) (work2 : lmat) (j2 : nat) : M (option Z) :=
  let m := nr A in
  let n := nc A in
  let k := Nat.min m n in
  let ib := Nat.min nb (k - j2) in
  let j := (n - j2)%nat in
  A11 <- slc A 0 (m - (n - j)) (j - ib) j;;
  tauw1 <- slvec tau (k - (n - j) - ib) (k - (n - j));;
  geql2_work h A11 tauw1 work;;
  (if (ib <? j)%nat then
     TT1 <- slc TT 0 ib 0 ib;;
     larft Backward Columnwise A11 tauw1 TT1;;
     A12 <- slc A 0 (m - (n - j)) 0 (j - ib);;
     larfb_work Left ConjTrans Backward Columnwise A11 TT1 A12 work2;;
     ret tt
   else ret tt);;
  ret None.
(** geqlf.hpp:80-121; [fuel] bounds the number of blocks *)
Definition geqlf_work_f (fuel : nat) (h : hconst) (nbo : nat) (A tau : view) (work : lmat) : M Z :=
  let m := nr A in
  let n := nc A in
  let k := Nat.min m n in
  let nb := Nat.min nbo k in
  check (negb (nr tau <? k)%nat);;
  tw <- (if (nb <? n)%nat then wk_mat work nb nb else wk_mat work 0 0);;
  blkret fuel 0 k nb (geqlf_step h nb A tau work (fst tw) (snd tw));;
  ret 0%Z.
Definition geqlf_work (h : hconst) (nbo : nat) (A tau : view) (work : lmat) : M Z := geqlf_work_f (Nat.min (nr A) (nc A)) h nbo A tau work.
(** geqlf.hpp:157-169 *)
Definition geqlf (p : Z) (l : layout_t) (h : hconst) (nbo : nat) (A tau : view) : M Z :=
  w <- geqlf_worksize nbo A tau;;
  work <- new_work p l w;;
  geqlf_work h nbo A tau work.

(** gerqf.hpp:41-69.  [nbo] is opts.nb.  The slices of the query are evaluated, and tau[0] by the inner query. *)
Definition gerqf_worksize (nbo : nat) (A tau : view) : M winfo :=
  let m := nr A in
  let n := nc A in
  let k := Nat.min m n in
  let nb := Nat.min nbo k in
  A11 <- slc A 0 nb 0 n;;
  tauw1 <- slvec tau 0 nb;;
  w <- gerq2_worksize A11 tauw1;;
  if (nb <? m)%nat then
    TT1 <- slc A 0 nb 0 nb;;
    A12 <- slc A nb m 0 n;;
    ret (wadd (wminmax w (larfb_worksize Right (nr TT1) (nr A12) (nc A12))) (winfo_m nb nb))
  else ret w.
(** the loop body, gerqf.hpp:98-118 *)
Definition gerqf_step (h : hconst) (nb : nat) (A tau : view) (work : lmat) (TT : view) (work2 : lmat) (j2 : nat) : M (option Z) :=
  let m := nr A in
  let n := nc A in
  let k := Nat.min m n in
  let ib := Nat.min nb (k - j2) in
  let j := (m - j2 - ib)%nat in
  A11 <- slc A j (j + ib) 0 (n - j2);;
  tauw1 <- slvec tau (k - j2 - ib) (k - j2);;
  gerq2_work h A11 tauw1 work;;
  (if (0 <? j)%nat then
     TT1 <- slc TT 0 ib 0 ib;;
     larft Backward Rowwise A11 tauw1 TT1;;
     A12 <- slc A 0 j 0 (n - j2);;
     larfb_work Right NoTrans Backward Rowwise A11 TT1 A12 work2;;
     ret tt
   else ret tt);;
  ret None.
(** gerqf.hpp:80-121; [fuel] bounds the number of blocks *)
Definition gerqf_work_f (fuel : nat) (h : hconst) (nbo : nat) (A tau : view) (work : lmat) : M Z :=
  let m := nr A in
  let n := nc A in
  let k := Nat.min m n in
  let nb := Nat.min nbo k in
  check (negb (nr tau <? k)%nat);;
  tw <- (if (nb <? m)%nat then wk_mat work nb nb else wk_mat work 0 0);;
  blkret fuel 0 k nb (gerqf_step h nb A tau work (fst tw) (snd tw));;
  ret 0%Z.
Definition gerqf_work (h : hconst) (nbo : nat) (A tau : view) (work : lmat) : M Z := gerqf_work_f (Nat.min (nr A) (nc A)) h nbo A tau work.
(** gerqf.hpp:160-172 *)
Definition gerqf (p : Z) (l : layout_t) (h : hconst) (nbo : nat) (A tau : view) : M Z :=
  w <- gerqf_worksize nbo A tau;;
  work <- new_work p l w;;
  gerqf_work h nbo A tau work.

(** unmq.hpp:79-113 *)
Definition unmq_worksize (nbo : nat) (side : side_t) (storeMode : storev_t) (V tau C : view) : M winfo :=
  let m := nr C in
  let n := nc C in
  let nQ := sel side m n in
  let nb := Nat.min nbo (nr tau) in
  Vi <- (match storeMode with Columnwise => slc V 0 nQ 0 nb | Rowwise => slc V 0 nb 0 nQ end);;
  Ti <- slc V 0 nb 0 nb;;
  ret (wadd (winfo_m nb nb) (larfb_worksize side (nr Ti) m n)).
(** the range of rows (columns) of the block of reflectors [i, i + ib), unmq.hpp:183-185.  A negative
    [nQ - k + i + ib] wraps in the code and violates the assertion of the slice that follows. *)
Definition brange (direction : direction_t) (nQ k i ib : nat) : M (nat * nat) :=
  match direction with
  | Forward => ret (i, nQ)
  | Backward => assert_ (k <=? nQ + i + ib)%nat;; ret (0%nat, (nQ + i + ib - k)%nat)
  end.
(** the loop body, unmq.hpp:182-198 (Columnwise), 202-220 (Rowwise) *)
Definition unmq_bstep (nb : nat) (side : side_t) (trans : op_t) (direction : direction_t) (storeMode : storev_t)
    (V tau C matrixT : view) (work1 : lmat) (i : nat) : M unit :=
  let m := nr C in
  let n := nc C in
  let k := nr tau in
  let ib := Nat.min nb (k - i) in
  ab <- brange direction (sel side m n) k i ib;;
  let a := fst ab in let b := snd ab in
  Vi <- (match storeMode with Columnwise => slc V a b i (i + ib) | Rowwise => slc V i (i + ib) a b end);;
  taui <- slvec tau i (i + ib);;
  Ti <- slc matrixT 0 ib 0 ib;;
  larft direction storeMode Vi taui Ti;;
  Ci <- (match side with Left => slc C a b 0 n | Right => slc C 0 m a b end);;
  larfb_work side (match storeMode with Columnwise => trans | Rowwise => match trans with NoTrans => ConjTrans | _ => NoTrans end end)
    direction storeMode Vi Ti Ci work1;;
  ret tt.
(** unmq.hpp:131-224.  The blocks are visited in ascending or descending order; [(k - 1) / nb] is a division by
    zero when opts.nb = 0. *)
Definition unmq_work (nbo : nat) (side : side_t) (trans : op_t) (direction : direction_t) (storeMode : storev_t)
    (V tau C : view) (work : lmat) : M Z :=
  let m := nr C in
  let n := nc C in
  let k := nr tau in
  let nQ := sel side m n in
  let nb := Nat.min nbo k in
  check (match trans with NoTrans | ConjTrans => true | Trans => negb cplx | Conj => false end);;
  check (match storeMode with
         | Columnwise => (nc V =? k) && (nr V =? nQ)
         | Rowwise => (nr V =? k) && (nc V =? nQ)
         end)%nat;;
  if ((m <=? 0) || (n <=? 0) || (k <=? 0))%nat then ret 0%Z else
  tw <- wk_mat work nb nb;;
  let nt := match trans with NoTrans => true | _ => false end in
  let bwd := match direction with Backward => true | Forward => false end in
  let positiveIncLeft :=
    match storeMode with
    | Columnwise => if bwd then nt else negb nt
    | Rowwise => if negb bwd then nt else negb nt
    end in
  let positiveInc := match side with Left => positiveIncLeft | Right => negb positiveIncLeft end in
  assert_ (0 <? nb)%nat;;
  let nblk := ((k - 1) / nb + 1)%nat in
  let step b := unmq_bstep nb side trans direction storeMode V tau C (fst tw) (snd tw) (b * nb) in
  (if positiveInc then for_ b in 0 upto nblk do step b else ford_ b in 0 upto nblk do step b);;
  ret 0%Z.
(** unmq.hpp:282-313; unmqr.hpp, unmlq.hpp, unmql.hpp, unmrq.hpp are this with the direction and storage fixed *)
Definition unmq (p : Z) (l : layout_t) (nbo : nat) (side : side_t) (trans : op_t) (direction : direction_t) (storeMode : storev_t)
    (V tau C : view) : M Z :=
  if ((nr C <=? 0) || (nc C <=? 0) || (nr tau <=? 0))%nat then ret 0%Z else
  w <- unmq_worksize nbo side storeMode V tau C;;
  work <- new_work p l w;;
  unmq_work nbo side trans direction storeMode V tau C work.

(** ungq.hpp:59-123; [(k - 1) / nb] divides by zero when nb = 0 *)
Definition ungq_worksize (nbo : nat) (direction : direction_t) (storeMode : storev_t) (A tau : view) : M winfo :=
  let m := nr A in
  let n := nc A in
  let k := nr tau in
  let nb := Nat.min nbo k in
  V <- (match storeMode with Columnwise => slc A 0 m 0 nb | Rowwise => slc A 0 nb 0 n end);;
  let q := match storeMode with Columnwise => n | Rowwise => m end in
  w <- (if (nb <? q)%nat then
          matrixT <- slc A 0 nb 0 nb;;
          ab <- (match direction with
                 | Forward => ret (nb, q)
                 | Backward => assert_ (0 <? nb)%nat;; assert_ (k <=? q + (k - 1) / nb * nb)%nat;; ret (0, q + (k - 1) / nb * nb - k)%nat
                 end);;
          C <- (match storeMode with Columnwise => slc A 0 m (fst ab) (snd ab) | Rowwise => slc A (fst ab) (snd ab) 0 n end);;
          ret (wadd (larfb_worksize (match storeMode with Columnwise => Left | Rowwise => Right end) (nr matrixT) (nr C) (nc C)) (winfo_m nb nb))
        else ret (winfo_v 0));;
  taui <- slvec tau 0 nb;;
  w2 <- ungq_level2_worksize storeMode V taui;;
  ret (wminmax w w2).
(** the loop bodies, ungq.hpp:179-200 (Columnwise, Forward), 211-235 (Columnwise, Backward), 246-267 (Rowwise,
    Forward), 278-302 (Rowwise, Backward) *)
Definition ungq_bstep (nb : nat) (direction : direction_t) (storeMode : storev_t) (A tau matrixT : view) (work work1 : lmat) (j : nat) : M unit :=
  let m := nr A in
  let n := nc A in
  let k := nr tau in
  let ib := Nat.min nb (k - j) in
  tauj <- slvec tau j (j + ib);;
  match storeMode, direction with
  | Columnwise, Forward =>
    V <- slc A j m j (j + ib);;
    (if (j + ib <? n)%nat then
       Tj <- slc matrixT 0 ib 0 ib;; C <- slc A j m (j + ib) n;;
       larft Forward Columnwise V tauj Tj;; larfb_work Left NoTrans Forward Columnwise V Tj C work1;; ret tt
     else ret tt);;
    A0 <- slc A 0 j j (j + ib);;
    laset General 0 0 A0;;
    ungq_level2_work Forward Columnwise V tauj work;; ret tt
  | Columnwise, Backward =>
    let sizev := (m - k + j + ib)%nat in
    let jj := (n - k + j)%nat in
    V <- slc A 0 sizev jj (jj + ib);;
    (if (0 <? jj)%nat then
       Tj <- slc matrixT 0 ib 0 ib;; C <- slc A 0 sizev 0 jj;;
       larft Backward Columnwise V tauj Tj;; larfb_work Left NoTrans Backward Columnwise V Tj C work1;; ret tt
     else ret tt);;
    A0 <- slc A sizev m jj (jj + ib);;
    ungq_level2_work Backward Columnwise V tauj work;;
    laset General 0 0 A0
  | Rowwise, Forward =>
    V <- slc A j (j + ib) j n;;
    (if (j + ib <? m)%nat then
       Tj <- slc matrixT 0 ib 0 ib;; C <- slc A (j + ib) m j n;;
       larft Forward Rowwise V tauj Tj;; larfb_work Right ConjTrans Forward Rowwise V Tj C work1;; ret tt
     else ret tt);;
    A0 <- slc A j (j + ib) 0 j;;
    laset General 0 0 A0;;
    ungq_level2_work Forward Rowwise V tauj work;; ret tt
  | Rowwise, Backward =>
    let sizev := (n - k + j + ib)%nat in
    let ii := (m - k + j)%nat in
    V <- slc A ii (ii + ib) 0 sizev;;
    (if (0 <? ii)%nat then
       Tj <- slc matrixT 0 ib 0 ib;; C <- slc A 0 ii 0 sizev;;
       larft Backward Rowwise V tauj Tj;; larfb_work Right ConjTrans Backward Rowwise V Tj C work1;; ret tt
     else ret tt);;
    A0 <- slc A ii (ii + ib) sizev n;;
    ungq_level2_work Backward Rowwise V tauj work;;
    laset General 0 0 A0
  end.
(** ungq.hpp:138-307.  Forward: the blocks are visited from the last one, [((k - 1) / nb) * nb], down to 0, which
    divides by zero when nb = 0; Backward: upwards ([fuel] bounds the number of blocks) *)
Definition ungq_work_f (fuel nbo : nat) (direction : direction_t) (storeMode : storev_t) (A tau : view) (work : lmat) : M Z :=
  let m := nr A in
  let n := nc A in
  let k := nr tau in
  let nb := Nat.min nbo k in
  check (match storeMode with
         | Columnwise => (n <=? m) && (k <=? n)
         | Rowwise => (m <=? n) && (k <=? m)
         end)%nat;;
  if ((m <=? 0) || (n <=? 0))%nat then ret 0%Z else
  tw <- (if (nb <? Nat.min m n)%nat then wk_mat work nb nb else wk_mat work 0 0);;
  let step j := ungq_bstep nb direction storeMode A tau (fst tw) work (snd tw) j in
  (match storeMode, direction with
   | Columnwise, Forward => A0 <- slc A 0 k k n;; A1 <- slc A k m k n;; laset General 0 0 A0;; laset General 0 1 A1
   | Columnwise, Backward =>
     A0 <- slc A 0 (m - n) 0 (n - k);; A1 <- slc A (m - n) (m - k) 0 (n - k);; A2 <- slc A (m - k) m 0 (n - k);;
     laset General 0 0 A0;; laset General 0 1 A1;; laset General 0 0 A2
   | Rowwise, Forward => A0 <- slc A k m 0 k;; A1 <- slc A k m k n;; laset General 0 0 A0;; laset General 0 1 A1
   | Rowwise, Backward =>
     A0 <- slc A 0 (m - k) 0 (n - m);; A1 <- slc A 0 (m - k) (n - m) (n - k);; A2 <- slc A 0 (m - k) (n - k) n;;
     laset General 0 0 A0;; laset General 0 1 A1;; laset General 0 0 A2
   end);;
  (match direction with
   | Forward => assert_ (0 <? nb)%nat;; ford_ b in 0 upto ((k - 1) / nb + 1) do step (b * nb)%nat
   | Backward => blkret (A:=unit) fuel 0 k nb (fun j => step j;; ret None);; ret tt
   end);;
  ret 0%Z.
Definition ungq_work (nbo : nat) (direction : direction_t) (storeMode : storev_t) (A tau : view) (work : lmat) : M Z :=
  ungq_work_f (nr tau) nbo direction storeMode A tau work.
(** ungq.hpp:352-378; ungqr.hpp, unglq.hpp, ungql.hpp, ungrq.hpp are this with the direction and storage fixed *)
Definition ungq (p : Z) (l : layout_t) (nbo : nat) (direction : direction_t) (storeMode : storev_t) (A tau : view) : M Z :=
  if ((nr A <=? 0) || (nc A <=? 0))%nat then ret 0%Z else
  w <- ungq_worksize nbo direction storeMode A tau;;
  work <- new_work p l w;;
  ungq_work nbo direction storeMode A tau work.
End Model.
