(** * Variant interfaces of the Householder factorizations — include/tlapack/lapack/householder_qr.hpp, householder_lq.hpp,
    householder_ql.hpp, householder_rq.hpp, gen_householder_q.hpp, householder_q_mul.hpp.
    The overloads that take a workspace; the others differ only in calling the allocating form of the same variant. *)
From Coq Require Import Bool Arith ZArith.
From Verif.Core Require Import Scalar Prog View.
From Verif.Model Require Import Legacy Work Householder QGen QFact BlockQ.

Section Model.
Context {E : Env}.
(** householder_qr.hpp:20-25 and the like: opts.variant *)
Inductive variant_t := Level2 | Blocked.
(** householder_qr.hpp:63-73, 109-118 *)
Definition householder_qr_work (v : variant_t) (h : hconst) (nbo : nat) (A tau : view) (work : lmat) : M Z :=
  match v with Level2 => geqr2_work h A tau work | Blocked => geqrf_work h nbo A tau work end.
Definition householder_qr (p : Z) (l : layout_t) (v : variant_t) (h : hconst) (nbo : nat) (A tau : view) : M Z :=
  match v with Level2 => geqr2 p l h A tau | Blocked => geqrf p l h nbo A tau end.
(** householder_lq.hpp:63-73, 109-118 *)
Definition householder_lq_work (v : variant_t) (h : hconst) (nbo : nat) (A tau : view) (work : lmat) : M Z :=
  match v with Level2 => gelq2_work h A tau work | Blocked => gelqf_work h nbo A tau work end.
Definition householder_lq (p : Z) (l : layout_t) (v : variant_t) (h : hconst) (nbo : nat) (A tau : view) : M Z :=
  match v with Level2 => gelq2 p l h A tau | Blocked => gelqf p l h nbo A tau end.
(** householder_ql.hpp:63-73, 110-119 *)
Definition householder_ql_work (v : variant_t) (h : hconst) (nbo : nat) (A tau : view) (work : lmat) : M Z :=
  match v with Level2 => geql2_work h A tau work | Blocked => geqlf_work h nbo A tau work end.
Definition householder_ql (p : Z) (l : layout_t) (v : variant_t) (h : hconst) (nbo : nat) (A tau : view) : M Z :=
  match v with Level2 => geql2 p l h A tau | Blocked => geqlf p l h nbo A tau end.
(** householder_rq.hpp:63-73, 110-119 *)
Definition householder_rq_work (v : variant_t) (h : hconst) (nbo : nat) (A tau : view) (work : lmat) : M Z :=
  match v with Level2 => gerq2_work h A tau work | Blocked => gerqf_work h nbo A tau work end.
Definition householder_rq (p : Z) (l : layout_t) (v : variant_t) (h : hconst) (nbo : nat) (A tau : view) : M Z :=
  match v with Level2 => gerq2 p l h A tau | Blocked => gerqf p l h nbo A tau end.
(** gen_householder_q.hpp:77-88, 157-167 *)
Definition gen_householder_q_work (v : variant_t) (nbo : nat) (direction : direction_t) (storeMode : storev_t) (A tau : view) (work : lmat) : M Z :=
  match v with Level2 => ungq_level2_work direction storeMode A tau work | Blocked => ungq_work nbo direction storeMode A tau work end.
Definition gen_householder_q (p : Z) (l : layout_t) (v : variant_t) (nbo : nat) (direction : direction_t) (storeMode : storev_t) (A tau : view) : M Z :=
  match v with Level2 => ungq_level2 p l direction storeMode A tau | Blocked => ungq p l nbo direction storeMode A tau end.
(** householder_q_mul.hpp:114-130, 233-246 *)
Definition householder_q_mul_work (v : variant_t) (nbo : nat) (side : side_t) (trans : op_t) (direction : direction_t) (storeMode : storev_t)
    (V tau C : view) (work : lmat) : M Z :=
  match v with
  | Level2 => unmq_level2_work side trans direction storeMode V tau C work
  | Blocked => unmq_work nbo side trans direction storeMode V tau C work
  end.
Definition householder_q_mul (p : Z) (l : layout_t) (v : variant_t) (nbo : nat) (side : side_t) (trans : op_t) (direction : direction_t) (storeMode : storev_t)
    (V tau C : view) : M Z :=
  match v with
  | Level2 => unmq_level2 p l side trans direction storeMode V tau C
  | Blocked => unmq p l nbo side trans direction storeMode V tau C
  end.
End Model.
