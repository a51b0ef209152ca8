(** * Model of the Cholesky factorizations — include/tlapack/lapack/{potf2,potrf2,potrf_blocked,
    potrf_blocked_right_looking,potrf,potrs}.hpp

    [info] is modelled by an unbounded integer (the code returns [int]). *)
From Coq Require Import Bool Arith ZArith List.
From Verif.Core Require Import Scalar Prog View Slice Loops.
From Verif.Model Require Import Gemm Blas1 Blas2 Blas3.
Local Open Scope T_scope.

Section Model.
Context {E : Env}.

(** the loop [for (i = 0; i < size(x); ++i) x[i] = conj(x[i])]: potf2.hpp:102-103, 105-106, 138-139, 141-142 *)
Definition conj_vec (x : view) : M unit := for_ i in 0 upto nr x do (xi <- rdv x i;; wrv x i (conj xi)).

(** body of the loop over j of potf2: potf2.hpp:80-110 (Upper), 116-146 (Lower);
    [Some k] stands for [return k] *)
Definition potf2_step (uplo : uplo_t) (A : view) (j : nat) : M (option Z) :=
  let n := nr A in
  match uplo with
  | Upper =>
    colj <- slcol A 0 j j;;
    a <- rd A j j;; d <- dot colj colj;;
    let ajj := re a - re d in
    if ltb zero ajj then
      let ajj := sqrtv ajj in
      wr A j j ajj;;
      if (S j <? n)%nat then
        Ajj <- slc A 0 j (S j) n;;
        rowj <- slrow A j (S j) n;;
        conj_vec colj;;
        gemv Trans (- one) Ajj colj (Sc one) rowj;;
        conj_vec colj;;
        scal (one / ajj) rowj;;
        ret None
      else ret None
    else
      error (Z.of_nat j + 1);; ret (Some (Z.of_nat j + 1)%Z)
  | _ =>
    rowj <- slrow A j 0 j;;
    a <- rd A j j;; d <- dot rowj rowj;;
    let ajj := re a - re d in
    if ltb zero ajj then
      let ajj := sqrtv ajj in
      wr A j j ajj;;
      if (S j <? n)%nat then
        Ajj <- slc A (S j) n 0 j;;
        colj <- slcol A (S j) n j;;
        conj_vec rowj;;
        gemv NoTrans (- one) Ajj rowj (Sc one) colj;;
        conj_vec rowj;;
        scal (one / ajj) colj;;
        ret None
      else ret None
    else
      error (Z.of_nat j + 1);; ret (Some (Z.of_nat j + 1)%Z)
  end.

(** a loop that may [return info], followed by [return 0] *)
Definition info_of (r : option Z) : Z := match r with Some k => k | None => 0%Z end.

(** potf2.hpp:58-151 *)
Definition potf2 (uplo : uplo_t) (A : view) : M Z :=
  check (uplo2 uplo);; check (nr A =? nc A)%nat;;
  r <- forret 0 (nr A) (potf2_step uplo A);; ret (info_of r).

(** potrf2.hpp:73-159; [ec] is opts.ec.internal *)
Fixpoint potrf2_f (fuel : nat) (ec : bool) (uplo : uplo_t) (A : view) : M Z :=
  match fuel with
  | O => nofuel
  | S fu =>
    let n := nr A in
    check (uplo2 uplo);; check (nr A =? nc A)%nat;;
    if (n =? 0)%nat then ret 0%Z
    else if (n =? 1)%nat then
      a <- rd A 0 0;;
      let a00 := re a in
      if ltb zero a00 then wr A 0 0 (sqrtv a00);; ret 0%Z
      else error_if ec 1;; ret 1%Z
    else
      let n1 := Nat.div2 n in
      A11 <- slc A 0 n1 0 n1;;
      A22 <- slc A n1 n n1 n;;
      info <- potrf2_f fu false uplo A11;;
      if negb (info =? 0)%Z then error_if ec info;; ret info
      else
        (match uplo with
         | Upper =>
           A12 <- slc A 0 n1 n1 n;;
           trsm Left Upper ConjTrans NonUnit one A11 A12;;
           herk Upper ConjTrans (- one) A12 (Sc one) A22
         | _ =>
           A21 <- slc A n1 n 0 n1;;
           trsm Right Lower ConjTrans NonUnit one A11 A21;;
           herk Lower NoTrans (- one) A21 (Sc one) A22
         end);;
        info <- potrf2_f fu false uplo A22;;
        if (info =? 0)%Z then ret 0%Z
        else error_if ec (info + Z.of_nat n1);; ret (info + Z.of_nat n1)%Z
  end.
Definition potrf2 (ec : bool) (uplo : uplo_t) (A : view) : M Z := potrf2_f (S (nr A)) ec uplo A.

(** body of the left-looking block loop: potrf_blocked.hpp:93-120 (Upper), 125-152 (Lower) *)
Definition potrf_blocked_step (nb : nat) (uplo : uplo_t) (A : view) (j : nat) : M (option Z) :=
  let n := nr A in
  let jb := Nat.min nb (n - j) in
  match uplo with
  | Upper =>
    AJJ <- slc A j (j + jb) j (j + jb);;
    A1J <- slc A 0 j j (j + jb);;
    herk Upper ConjTrans (- one) A1J (Sc one) AJJ;;
    info <- potf2 Upper AJJ;;
    if negb (info =? 0)%Z then error (info + Z.of_nat j);; ret (Some (info + Z.of_nat j)%Z)
    else if (j + jb <? n)%nat then
      B <- slc A 0 j (j + jb) n;;
      C <- slc A j (j + jb) (j + jb) n;;
      gemm ConjTrans NoTrans (- one) A1J B (Sc one) C;;
      trsm Left Upper ConjTrans NonUnit one AJJ C;;
      ret None
    else ret None
  | _ =>
    AJJ <- slc A j (j + jb) j (j + jb);;
    AJ1 <- slc A j (j + jb) 0 j;;
    herk Lower NoTrans (- one) AJ1 (Sc one) AJJ;;
    info <- potf2 Lower AJJ;;
    if negb (info =? 0)%Z then error (info + Z.of_nat j);; ret (Some (info + Z.of_nat j)%Z)
    else if (j + jb <? n)%nat then
      B <- slc A (j + jb) n 0 j;;
      C <- slc A (j + jb) n j (j + jb);;
      gemm NoTrans ConjTrans (- one) B AJ1 (Sc one) C;;
      trsm Right Lower ConjTrans NonUnit one AJJ C;;
      ret None
    else ret None
  end.
(** potrf_blocked.hpp:66-158; [fuel] bounds the number of block steps *)
Definition potrf_blocked_f (fuel nb : nat) (uplo : uplo_t) (A : view) : M Z :=
  let n := nr A in
  check (uplo2 uplo);; check (nr A =? nc A)%nat;;
  if (n =? 0)%nat then ret 0%Z
  else if (n <=? nb)%nat then potf2 uplo A
  else r <- blkret fuel 0 n nb (potrf_blocked_step nb uplo A);; ret (info_of r).
Definition potrf_blocked (nb : nat) (uplo : uplo_t) (A : view) : M Z := potrf_blocked_f (nr A) nb uplo A.

(** body of the right-looking block loop: potrf_blocked_right_looking.hpp:88-110 (Upper), 115-137 (Lower) *)
Definition potrf_rl_step (nb : nat) (uplo : uplo_t) (A : view) (j : nat) : M (option Z) :=
  let n := nr A in
  let jb := Nat.min nb (n - j) in
  match uplo with
  | Upper =>
    AJJ <- slc A j (j + jb) j (j + jb);;
    info <- potf2 Upper AJJ;;
    if negb (info =? 0)%Z then error (info + Z.of_nat j);; ret (Some (info + Z.of_nat j)%Z)
    else if (j + jb <? n)%nat then
      B <- slc A j (j + jb) (j + jb) n;;
      C <- slc A (j + jb) n (j + jb) n;;
      trsm Left Upper ConjTrans NonUnit one AJJ B;;
      herk Upper ConjTrans (- one) B (Sc one) C;;
      ret None
    else ret None
  | _ =>
    AJJ <- slc A j (j + jb) j (j + jb);;
    info <- potf2 Lower AJJ;;
    if negb (info =? 0)%Z then error (info + Z.of_nat j);; ret (Some (info + Z.of_nat j)%Z)
    else if (j + jb <? n)%nat then
      B <- slc A (j + jb) n j (j + jb);;
      C <- slc A (j + jb) n (j + jb) n;;
      trsm Right Lower ConjTrans NonUnit one AJJ B;;
      herk Lower NoTrans (- one) B (Sc one) C;;
      ret None
    else ret None
  end.
(** potrf_blocked_right_looking.hpp:61-143 *)
Definition potrf_rl_f (fuel nb : nat) (uplo : uplo_t) (A : view) : M Z :=
  let n := nr A in
  check (uplo2 uplo);; check (nr A =? nc A)%nat;;
  if (n =? 0)%nat then ret 0%Z
  else if (n <=? nb)%nat then potf2 uplo A
  else r <- blkret fuel 0 n nb (potrf_rl_step nb uplo A);; ret (info_of r).
Definition potrf_rl (nb : nat) (uplo : uplo_t) (A : view) : M Z := potrf_rl_f (nr A) nb uplo A.

(** potrf.hpp:23-28 *)
Inductive potrf_variant := PBlocked | PRecursive | PLevel2 | PRightLooking.
(** potrf.hpp:78-97 *)
Definition potrf (var : potrf_variant) (nb : nat) (ec : bool) (uplo : uplo_t) (A : view) : M Z :=
  check (uplo2 uplo);; check (nr A =? nc A)%nat;;
  match var with
  | PBlocked => potrf_blocked nb uplo A
  | PRecursive => potrf2 ec uplo A
  | PLevel2 => potf2 uplo A
  | PRightLooking => potrf_rl nb uplo A
  end.

(** potrs.hpp:56-80 *)
Definition potrs (uplo : uplo_t) (A B : view) : M Z :=
  check (uplo2 uplo);; check (nr A =? nc A)%nat;; check (nr B =? nc A)%nat;;
  (match uplo with
   | Upper =>
     trsm Left Upper ConjTrans NonUnit one A B;;
     trsm Left Upper NoTrans NonUnit one A B
   | _ =>
     trsm Left Lower NoTrans NonUnit one A B;;
     trsm Left Lower ConjTrans NonUnit one A B
   end);;
  ret 0%Z.
End Model.
