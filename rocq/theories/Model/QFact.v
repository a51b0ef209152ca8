(** * Unblocked LQ, QL and RQ factorizations: gelq2, geql2, gerq2 (geqr2 is in Model/Householder.v) *)
From Coq Require Import Bool Arith ZArith.
From Verif.Core Require Import Scalar Prog View Slice Loops.
From Verif.Model Require Import Gemm Blas1 Blas2 Blas3 Legacy LaAux Norms Work Householder.
Local Open Scope T_scope.

Section Model.
Context {E : Env}.

(** gelq2.hpp:31-47; the query evaluates tauw[0] *)
Definition gelq2_worksize (A tau : view) : M winfo :=
  let m := nr A in
  if (1 <? m)%nat then rdv tau 0;; ret (larf_worksize Right (m - 1) (nc A)) else ret (winfo_v 0).
(** gelq2.hpp:60-90 *)
Definition gelq2_work (h : hconst) (A tau : view) (work : lmat) : M Z :=
  let m := nr A in
  let n := nc A in
  let k := Nat.min m n in
  check (negb (nr tau <? k)%nat);;
  for_ j in 0 upto k do (
    w <- slrow A j j n;;
    t <- larfg h Forward Rowwise w;;
    wrv tau j t;;
    if ((j <? k - 1) || (k <? m))%nat then
      Q11 <- slc A (j + 1) m j n;;
      t <- rdv tau j;;
      larf_work Right Forward Rowwise w t Q11 work
    else ret tt);;
  ret 0%Z.
(** gelq2.hpp:125-140 *)
Definition gelq2 (p : Z) (l : layout_t) (h : hconst) (A tau : view) : M Z :=
  w <- gelq2_worksize A tau;;
  work <- new_work p l w;;
  gelq2_work h A tau work.

(** geql2.hpp:32-47 *)
Definition geql2_worksize (A tau : view) : M winfo :=
  let n := nc A in
  if (1 <? n)%nat then rdv tau 0;; ret (larf_worksize Left (nr A) (n - 1)) else ret (winfo_v 0).
(** geql2.hpp:60-96 *)
Definition geql2_work (h : hconst) (A tau : view) (work : lmat) : M Z :=
  let m := nr A in
  let n := nc A in
  let k := Nat.min m n in
  check (negb (nr tau <? k)%nat);;
  if (n <=? 0)%nat then ret 0%Z else
  for_ i2 in 0 upto k do (
    let i := (k - 1 - i2)%nat in
    v <- slcol A 0 (m - k + i + 1) (n - k + i);;
    t <- larfg h Backward Columnwise v;;
    wrv tau i t;;
    if (k <? n + i)%nat then
      C <- slc A 0 (m - k + i + 1) 0 (n - k + i);;
      t <- rdv tau i;;
      larf_work Left Backward Columnwise v (conj t) C work
    else ret tt);;
  ret 0%Z.
(** geql2.hpp:136-156 *)
Definition geql2 (p : Z) (l : layout_t) (h : hconst) (A tau : view) : M Z :=
  if (nc A <=? 0)%nat then ret 0%Z else
  w <- geql2_worksize A tau;;
  work <- new_work p l w;;
  geql2_work h A tau work.

(** gerq2.hpp:32-47 *)
Definition gerq2_worksize (A tau : view) : M winfo :=
  let m := nr A in
  if (1 <? m)%nat then rdv tau 0;; ret (larf_worksize Right (m - 1) (nc A)) else ret (winfo_v 0).
(** gerq2.hpp:60-97 *)
Definition gerq2_work (h : hconst) (A tau : view) (work : lmat) : M Z :=
  let m := nr A in
  let n := nc A in
  let k := Nat.min m n in
  check (negb (nr tau <? k)%nat);;
  if (n <=? 0)%nat then ret 0%Z else
  for_ i2 in 0 upto k do (
    let i := (k - 1 - i2)%nat in
    v <- slrow A (m - 1 - i2) 0 (n - i2);;
    t <- larfg h Backward Rowwise v;;
    wrv tau i t;;
    if (i2 + 1 <? m)%nat then
      C <- slc A 0 (m - 1 - i2) 0 (n - i2);;
      t <- rdv tau i;;
      larf_work Right Backward Rowwise v t C work
    else ret tt);;
  ret 0%Z.
(** gerq2.hpp:137-157 *)
Definition gerq2 (p : Z) (l : layout_t) (h : hconst) (A tau : view) : M Z :=
  if (nc A <=? 0)%nat then ret 0%Z else
  w <- gerq2_worksize A tau;;
  work <- new_work p l w;;
  gerq2_work h A tau work.
End Model.
