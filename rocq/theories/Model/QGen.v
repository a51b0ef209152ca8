(** * Generating and applying the unitary matrix of a set of reflectors; LQ, QL and RQ factorizations *)
From Coq Require Import Bool Arith ZArith.
From Verif.Core Require Import Scalar Prog View Slice Loops.
From Verif.Model Require Import Gemm Blas1 Blas2 Blas3 Legacy LaAux Norms Work Householder.
Local Open Scope T_scope.

Section Model.
Context {E : Env}.

(** the range of rows (columns) of reflector [i] of [k] reflectors of length [nQ]: [range{i, nQ}] (Forward) or
    [range{0, nQ - k + i + 1}] (Backward), unmq_level2.hpp:159-161.  In size_t arithmetic a negative
    [nQ - k + i + 1] wraps to a number larger than any dimension, which violates the assertion of the slice
    that follows. *)
Definition rrange (direction : direction_t) (nQ k i : nat) : M (nat * nat) :=
  match direction with
  | Forward => ret (i, nQ)
  | Backward => assert_ (k <=? nQ + i + 1)%nat;; ret (0%nat, (nQ + i + 1 - k)%nat)
  end.
(** the i-th stored vector: a column (Columnwise) or a row (Rowwise) of V, unmq_level2.hpp:162, 190 *)
Definition rslice (storeMode : storev_t) (V : view) (a b i : nat) : M view :=
  match storeMode with Columnwise => slcol V a b i | Rowwise => slrow V i a b end.
(** unmq_level2.hpp:70-86.  The query evaluates tau[0] and slices V. *)
Definition unmq_level2_worksize (side : side_t) (storeMode : storev_t) (V tau C : view) : M winfo :=
  let nQ := sel side (nr C) (nc C) in
  rslice storeMode V 0 nQ 0;;
  rdv tau 0;;
  ret (larf_worksize side (nr C) (nc C)).
(** the loop body, unmq_level2.hpp:156-212 *)
Definition unmq_step (side : side_t) (trans : op_t) (direction : direction_t) (storeMode : storev_t)
    (V tau C : view) (work : lmat) (i : nat) : M unit :=
  let m := nr C in
  let n := nc C in
  ab <- rrange direction (sel side m n) (nr tau) i;;
  v <- rslice storeMode V (fst ab) (snd ab) i;;
  Ci <- (match side with Left => slc C (fst ab) (snd ab) 0 n | Right => slc C 0 m (fst ab) (snd ab) end);;
  t <- rdv tau i;;
  let t := match storeMode with
           | Columnwise => match trans with ConjTrans => conj t | _ => t end
           | Rowwise => match trans with NoTrans => conj t | _ => t end
           end in
  larf_work side direction storeMode v t Ci work.
(** unmq_level2.hpp:104-215 ([Conj] is not accepted; [Trans] only for real element types) *)
Definition unmq_level2_work (side : side_t) (trans : op_t) (direction : direction_t) (storeMode : storev_t)
    (V tau C : view) (work : lmat) : M Z :=
  let m := nr C in
  let n := nc C in
  let k := nr tau in
  let nQ := sel side m n in
  check (match trans with NoTrans | ConjTrans => true | Trans => negb cplx | Conj => false end);;
  check (match storeMode with
         | Columnwise => (nc V =? k) && (nr V =? nQ)
         | Rowwise => (nr V =? k) && (nc V =? nQ)
         end)%nat;;
  if ((m <=? 0) || (n <=? 0) || (k <=? 0))%nat then ret 0%Z else
  let nt := match trans with NoTrans => true | _ => false end in
  let bwd := match direction with Backward => true | Forward => false end in
  let positiveIncLeft :=
    match storeMode with
    | Columnwise => if bwd then nt else negb nt
    | Rowwise => if negb bwd then nt else negb nt
    end in
  let positiveInc := match side with Left => positiveIncLeft | Right => negb positiveIncLeft end in
  let step i := unmq_step side trans direction storeMode V tau C work i in
  (if positiveInc then for_ i in 0 upto k do step i else ford_ i in 0 upto k do step i);;
  ret 0%Z.
(** unmq_level2.hpp:300-334; unm2r.hpp, unm2l.hpp, unml2.hpp, unmr2.hpp are this with the direction and
    storage fixed *)
Definition unmq_level2 (p : Z) (l : layout_t) (side : side_t) (trans : op_t) (direction : direction_t) (storeMode : storev_t)
    (V tau C : view) : M Z :=
  if ((nr C <=? 0) || (nc C <=? 0) || (nr tau <=? 0))%nat then ret 0%Z else
  w <- unmq_level2_worksize side storeMode V tau C;;
  work <- new_work p l w;;
  unmq_level2_work side trans direction storeMode V tau C work.
Definition unm2r p l side trans (A tau C : view) := unmq_level2 p l side trans Forward Columnwise A tau C.
Definition unm2l p l side trans (A tau C : view) := unmq_level2 p l side trans Backward Columnwise A tau C.
Definition unml2 p l side trans (A tau C : view) := unmq_level2 p l side trans Forward Rowwise A tau C.
Definition unmr2 p l side trans (A tau C : view) := unmq_level2 p l side trans Backward Rowwise A tau C.

(** ungq_level2.hpp:27-52; tau[0] is evaluated even when tau is empty *)
Definition ungq_level2_worksize (storeMode : storev_t) (A tau : view) : M winfo :=
  let m := nr A in
  let n := nc A in
  match storeMode with
  | Columnwise => if (1 <? n)%nat then rdv tau 0;; ret (larf_worksize Left m (n - 1)) else ret (winfo_v 0)
  | Rowwise => if (1 <? m)%nat then rdv tau 0;; ret (larf_worksize Right (m - 1) n) else ret (winfo_v 0)
  end.
(** ungq_level2.hpp:62-185 *)
Definition ungq_level2_work (direction : direction_t) (storeMode : storev_t) (A tau : view) (work : lmat) : M Z :=
  let m := nr A in
  let n := nc A in
  let k := nr tau in
  check (match storeMode with
         | Columnwise => (n <=? m) && (k <=? n)
         | Rowwise => (m <=? n) && (k <=? m)
         end)%nat;;
  if ((m <=? 0) || (n <=? 0))%nat then ret 0%Z else
  (match storeMode, direction with
   | Columnwise, Forward =>
     A0 <- slc A 0 k k n;; A1 <- slc A k m k n;;
     laset General 0 0 A0;; laset General 0 1 A1;;
     ford_ j in 0 upto k do (
       tauj <- rdv tau j;;
       v <- slcol A j m j;; C <- slc A j m (j + 1) n;;
       larf_work Left Forward Columnwise v tauj C work;;
       scal (- tauj) v;;
       wr A j j (1 - tauj);;
       for_ i in 0 upto j do wr A i j 0)
   | Columnwise, Backward =>
     A0 <- slc A 0 (m - n) 0 (n - k);; A1 <- slc A (m - n) (m - k) 0 (n - k);; A2 <- slc A (m - k) m 0 (n - k);;
     laset General 0 0 A0;; laset General 0 1 A1;; laset General 0 0 A2;;
     for_ j in 0 upto k do (
       let sizev := (m - k + j + 1)%nat in
       let jj := (n - k + j)%nat in
       tauj <- rdv tau j;;
       v <- slcol A 0 sizev jj;; C <- slc A 0 sizev 0 jj;;
       larf_work Left Backward Columnwise v tauj C work;;
       scal (- tauj) v;;
       wr A (sizev - 1) jj (1 - tauj);;
       for_ i in sizev upto m do wr A i jj 0)
   | Rowwise, Forward =>
     A0 <- slc A k m 0 k;; A1 <- slc A k m k n;;
     laset General 0 0 A0;; laset General 0 1 A1;;
     ford_ i in 0 upto k do (
       t <- rdv tau i;;
       let taui := conj t in
       v <- slrow A i i n;; C <- slc A (i + 1) m i n;;
       larf_work Right Forward Rowwise v taui C work;;
       scal (- taui) v;;
       wr A i i (1 - taui);;
       for_ j in 0 upto i do wr A i j 0)
   | Rowwise, Backward =>
     A0 <- slc A 0 (m - k) 0 (n - m);; A1 <- slc A 0 (m - k) (n - m) (n - k);; A2 <- slc A 0 (m - k) (n - k) n;;
     laset General 0 0 A0;; laset General 0 1 A1;; laset General 0 0 A2;;
     for_ i in 0 upto k do (
       let sizev := (n - k + i + 1)%nat in
       let ii := (m - k + i)%nat in
       t <- rdv tau i;;
       let taui := conj t in
       v <- slrow A ii 0 sizev;; C <- slc A 0 ii 0 sizev;;
       larf_work Right Backward Rowwise v taui C work;;
       scal (- taui) v;;
       wr A ii (sizev - 1) (1 - taui);;
       for_ j in sizev upto n do wr A ii j 0)
   end);;
  ret 0%Z.
(** ungq_level2.hpp:230-258 *)
Definition ungq_alloc (p : Z) (l : layout_t) (direction : direction_t) (storeMode : storev_t) (A tau : view) : M Z :=
  w <- ungq_level2_worksize storeMode A tau;;
  work <- new_work p l w;;
  ungq_level2_work direction storeMode A tau work.
Definition ungq_level2 (p : Z) (l : layout_t) (direction : direction_t) (storeMode : storev_t) (A tau : view) : M Z :=
  if ((nr A <=? 0) || (nc A <=? 0))%nat then ret 0%Z else ungq_alloc p l direction storeMode A tau.
(** ung2r.hpp:32-47, 101-126; ung2l.hpp:32-47, 103-124; ungl2.hpp:31-47, 109-123; ungr2.hpp:32-47, 103-124 *)
Definition ung2r p l (A tau : view) := if (nc A <=? 0)%nat then ret 0%Z else ungq_alloc p l Forward Columnwise A tau.
Definition ung2l p l (A tau : view) := if (nc A <=? 0)%nat then ret 0%Z else ungq_alloc p l Backward Columnwise A tau.
Definition ungl2 p l (A tau : view) := ungq_alloc p l Forward Rowwise A tau.
Definition ungr2 p l (A tau : view) := if (nc A <=? 0)%nat then ret 0%Z else ungq_alloc p l Backward Rowwise A tau.
End Model.
