(** * Model of triangular inversion and products of triangular factors, potri, pttrf —
    include/tlapack/lapack/{trtri_recursive,lauum_recursive,ul_mult,lu_mult,mult_llh,mult_uhu,potri,
    getri_uili,pttrf}.hpp *)
From Coq Require Import Bool Arith ZArith.
From Verif.Core Require Import Scalar Prog View Slice Loops.
From Verif.Model Require Import Gemm Blas1 Blas2 Blas3 Cholesky.
Local Open Scope T_scope.

Section Model.
Context {E : Env}.

(** trtri_recursive.hpp:48-155; [ec] is opts.ec.internal (passed down unchanged), [fuel] bounds the depth.
    The check on diag always succeeds (two enumerators). *)
Fixpoint trtri_f (fuel : nat) (ec : bool) (uplo : uplo_t) (diag : diag_t) (C : view) : M Z :=
  match fuel with
  | O => nofuel
  | S fu =>
    let n := nr C in
    check (uplo2 uplo);; check (nr C =? nc C)%nat;;
    if (n =? 0)%nat then ret 0%Z else
    let n0 := Nat.div2 n in
    if (n =? 1)%nat then
      if nonunit diag then
        c <- rd C 0 0;;
        if negb (eqb c zero) then wr C 0 0 (one / c);; ret 0%Z
        else error_if ec 1;; ret 1%Z
      else ret 0%Z
    else match uplo with
    | Lower =>
      C00 <- slc C 0 n0 0 n0;; C10 <- slc C n0 n 0 n0;; C11 <- slc C n0 n n0 n;;
      trsm Right Lower NoTrans diag (- one) C00 C10;;
      trsm Left Lower NoTrans diag one C11 C10;;
      info <- trtri_f fu ec Lower diag C00;;
      if negb (info =? 0)%Z then error_if ec info;; ret info
      else
        info <- trtri_f fu ec Lower diag C11;;
        if (info =? 0)%Z then ret 0%Z
        else error_if ec (info + Z.of_nat n0);; ret (info + Z.of_nat n0)%Z
    | _ =>
      C00 <- slc C 0 n0 0 n0;; C01 <- slc C 0 n0 n0 n;; C11 <- slc C n0 n n0 n;;
      trsm Left Upper NoTrans diag (- one) C00 C01;;
      trsm Right Upper NoTrans diag one C11 C01;;
      info <- trtri_f fu ec Upper diag C00;;
      if negb (info =? 0)%Z then error_if ec info;; ret info
      else
        info <- trtri_f fu ec Upper diag C11;;
        if (info =? 0)%Z then ret 0%Z
        else error_if ec (info + Z.of_nat n0);; ret (info + Z.of_nat n0)%Z
    end
  end.
Definition trtri (ec : bool) (uplo : uplo_t) (diag : diag_t) (C : view) : M Z := trtri_f (S (nr C)) ec uplo diag C.

(** lauum_recursive.hpp:45-100 *)
Fixpoint lauum_f (fuel : nat) (uplo : uplo_t) (C : view) : M Z :=
  match fuel with
  | O => nofuel
  | S fu =>
    let n := nr C in
    check (nr C =? nc C)%nat;; check (uplo2 uplo);;
    if (n =? 0)%nat then ret 0%Z else
    let n0 := Nat.div2 n in
    if (n =? 1)%nat then
      c <- rd C 0 0;; wr C 0 0 (re c * re c + im c * im c);; ret 0%Z
    else match uplo with
    | Lower =>
      C00 <- slc C 0 n0 0 n0;; C10 <- slc C n0 n 0 n0;; C11 <- slc C n0 n n0 n;;
      lauum_f fu uplo C00;;
      herk Lower ConjTrans one C10 (Sc one) C00;;
      trmm Left uplo ConjTrans NonUnit one C11 C10;;
      lauum_f fu uplo C11;; ret 0%Z
    | _ =>
      C00 <- slc C 0 n0 0 n0;; C01 <- slc C 0 n0 n0 n;; C11 <- slc C n0 n n0 n;;
      lauum_f fu uplo C00;;
      herk Upper NoTrans one C01 (Sc one) C00;;
      trmm Right uplo ConjTrans NonUnit one C11 C01;;
      lauum_f fu Upper C11;; ret 0%Z
    end
  end.
Definition lauum (uplo : uplo_t) (C : view) : M Z := lauum_f (S (nr C)) uplo C.

(** ul_mult.hpp:34-75.  There is no test for n = 0: the code then recurses forever. *)
Fixpoint ul_mult_f (fuel : nat) (A : view) : M Z :=
  match fuel with
  | O => nofuel
  | S fu =>
    check (nr A =? nc A)%nat;;
    let n := nc A in
    if (n =? 1)%nat then ret 0%Z else
    let n0 := Nat.div2 n in
    A00 <- slc A 0 n0 0 n0;; A10 <- slc A n0 n 0 n0;; A01 <- slc A 0 n0 n0 n;; A11 <- slc A n0 n n0 n;;
    ul_mult_f fu A00;;
    gemm NoTrans NoTrans one A01 A10 (Sc one) A00;;
    trmm Left Upper NoTrans NonUnit one A11 A10;;
    trmm Right Lower NoTrans Unit one A11 A01;;
    ul_mult_f fu A11;; ret 0%Z
  end.
Definition ul_mult (A : view) : M Z := ul_mult_f (S (nc A)) A.

(** lu_mult.hpp:40-106; [nx] is LuMultOpts::nx *)
Fixpoint lu_mult_f (fuel nx : nat) (A : view) : M unit :=
  match fuel with
  | O => nofuel
  | S fu =>
    let m := nr A in
    let n := nc A in
    check (m =? n)%nat;; check (1 <=? nx)%nat;;
    if (n =? 0)%nat then ret tt
    else if (n <=? nx)%nat then
      ford_ i in 0 upto n do ford_ j in 0 upto n do (
        sum <- foldup 0 (S (Nat.min i j)) zero (fun k sum =>
          if (i =? k)%nat then a <- rd A k j;; ret (sum + a)
          else a <- rd A i k;; b <- rd A k j;; ret (sum + a * b));;
        wr A i j sum)
    else
      let n0 := Nat.div2 n in
      A00 <- slc A 0 n0 0 n0;; A01 <- slc A 0 n0 n0 n;; A10 <- slc A n0 n 0 n0;; A11 <- slc A n0 n n0 n;;
      lu_mult_f fu nx A11;;
      gemm NoTrans NoTrans one A10 A01 (Sc one) A11;;
      trmm Left Lower NoTrans Unit one A00 A01;;
      trmm Right Upper NoTrans NonUnit one A00 A10;;
      lu_mult_f fu nx A00
  end.
Definition lu_mult (nx : nat) (A : view) : M unit := lu_mult_f (S (nc A)) nx A.

(** mult_llh.hpp:55-72: the unblocked case *)
Definition mult_llh_base (n : nat) (L : view) : M unit :=
  ford_ j in 0 upto n do (
    ljj <- rd L j j;;
    acc <- foldup 0 j (re ljj * re ljj + im ljj * im ljj) (fun k acc =>
      l <- rd L j k;; ret (acc + (re l * re l + im l * im l)));;
    wr L j j acc;;
    ford_ i in 0 upto j do (
      (lji <- rd L j i;; lii <- rd L i i;; wr L j i (lji * conj lii));;
      for_ k in 0 upto i do (
        lji <- rd L j i;; ljk <- rd L j k;; lik <- rd L i k;; wr L j i (lji + ljk * conj lik)))).
(** mult_llh.hpp:40-98 *)
Fixpoint mult_llh_f (fuel nx : nat) (L : view) : M unit :=
  match fuel with
  | O => nofuel
  | S fu =>
    let n := nr L in
    check (n =? nc L)%nat;; check (1 <=? nx)%nat;;
    if (n =? 0)%nat then ret tt
    else if (n <=? nx)%nat then mult_llh_base n L
    else
      let n0 := Nat.div2 n in
      L00 <- slc L 0 n0 0 n0;; L10 <- slc L n0 n 0 n0;; L11 <- slc L n0 n n0 n;;
      mult_llh_f fu nx L11;;
      herk Lower NoTrans one L10 (Sc one) L11;;
      trmm Right Lower ConjTrans NonUnit one L00 L10;;
      mult_llh_f fu nx L00
  end.
Definition mult_llh (nx : nat) (L : view) : M unit := mult_llh_f (S (nr L)) nx L.

(** mult_uhu.hpp:56-71: the unblocked case *)
Definition mult_uhu_base (n : nat) (U : view) : M unit :=
  ford_ j in 0 upto n do (
    ujj <- rd U j j;;
    acc <- foldup 0 j (re ujj * re ujj + im ujj * im ujj) (fun k acc =>
      l <- rd U k j;; ret (acc + (re l * re l + im l * im l)));;
    wr U j j acc;;
    ford_ i in 0 upto j do (
      (uii <- rd U i i;; uij <- rd U i j;; wr U i j (conj uii * uij));;
      ford_ k in 0 upto i do (
        uij <- rd U i j;; uki <- rd U k i;; ukj <- rd U k j;; wr U i j (uij + conj uki * ukj)))).
(** mult_uhu.hpp:41-95 *)
Fixpoint mult_uhu_f (fuel nx : nat) (U : view) : M unit :=
  match fuel with
  | O => nofuel
  | S fu =>
    let n := nr U in
    check (n =? nc U)%nat;; check (1 <=? nx)%nat;;
    if (n =? 0)%nat then ret tt
    else if (n <=? nx)%nat then mult_uhu_base n U
    else
      let n0 := Nat.div2 n in
      U00 <- slc U 0 n0 0 n0;; U01 <- slc U 0 n0 n0 n;; U11 <- slc U n0 n n0 n;;
      mult_uhu_f fu nx U11;;
      herk Upper ConjTrans one U01 (Sc one) U11;;
      trmm Left Upper ConjTrans NonUnit one U00 U01;;
      mult_uhu_f fu nx U00
  end.
Definition mult_uhu (nx : nat) (U : view) : M unit := mult_uhu_f (S (nr U)) nx U.

(** potri.hpp:47-57: default options, so ec.internal = true in the callees; their return values are dropped *)
Definition potri (uplo : uplo_t) (A : view) : M unit :=
  check (uplo2 uplo);; check (nr A =? nc A)%nat;;
  potrf2 true uplo A;;
  trtri true uplo NonUnit A;;
  lauum uplo A;; ret tt.

(** getri_uili.hpp:39-56 *)
Definition getri_uili (A : view) : M Z :=
  check (nr A =? nc A)%nat;;
  info <- trtri true Upper NonUnit A;;
  if negb (info =? 0)%Z then ret info
  else trtri true Lower Unit A;; ul_mult A;; ret 0%Z.

(** x <= 0, false on NaN *)
Definition le0 (x : T) : bool := ltb x zero || eqb x zero.
(** body of the loop of pttrf.hpp:61-73 *)
Definition pttrf_step (ec : bool) (D Ev : view) (i : nat) : M (option Z) :=
  d <- rdv D i;;
  if le0 (re d) then error_if ec (Z.of_nat i + 1);; ret (Some (Z.of_nat i + 1)%Z)
  else
    ei <- rdv Ev i;;
    wrv Ev i (ei / re d);;
    e' <- rdv Ev i;; d' <- rdv D (S i);;
    wrv D (S i) (d' - re (e' * conj ei));; ret None.
(** pttrf.hpp:50-82 *)
Definition pttrf (ec : bool) (D Ev : view) : M Z :=
  let n := nr D in
  check (nr D =? nr Ev + 1)%nat;;
  if (n =? 0)%nat then ret 0%Z else
  r <- forret 0 (n - 1) (pttrf_step ec D Ev);;
  match r with
  | Some k => ret k
  | None =>
    d <- rdv D (n - 1);;
    if le0 (re d) then error_if ec (Z.of_nat n);; ret (Z.of_nat n) else ret 0%Z
  end.
End Model.
