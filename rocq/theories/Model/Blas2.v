(** * Model of the level-2 kernels — include/tlapack/blas/ *)
From Coq Require Import Bool Arith ZArith.
From Verif.Core Require Import Scalar Prog View.
Local Open Scope T_scope.

Section Model.
Context {E : Env}.

Definition notransb (o : op_t) := match o with NoTrans | Conj => true | _ => false end.
Definition uplo2 (u : uplo_t) := match u with Upper | Lower => true | _ => false end.
Definition nonunit (d : diag_t) := match d with NonUnit => true | Unit => false end.

(** gemv.hpp:57-126 *)
Definition gemv (trans : op_t) (alpha : T) (A x : view) (beta : coef) (y : view) : M unit :=
  let m := if notransb trans then nr A else nc A in
  let n := if notransb trans then nc A else nr A in
  check (nr x =? n)%nat;; check (nr y =? m)%nat;;
  if (m =? 0)%nat || (n =? 0)%nat then ret tt else
  (for_ i in 0 upto m do (yi <- rdv y i;; wrv y i (mulc yi beta)));;
  match trans with
  | NoTrans =>
      for_ j in 0 upto n do (
        xj <- rdv x j;; let tmp := alpha * xj in
        for_ i in 0 upto m do (yi <- rdv y i;; a <- rd A i j;; wrv y i (yi + tmp * a)))
  | Conj =>
      for_ j in 0 upto n do (
        xj <- rdv x j;; let tmp := alpha * xj in
        for_ i in 0 upto m do (yi <- rdv y i;; a <- rd A i j;; wrv y i (yi + tmp * conj a)))
  | Trans =>
      for_ i in 0 upto m do (
        tmp <- foldup 0 n zero (fun j tmp => a <- rd A j i;; xj <- rdv x j;; ret (tmp + a * xj));;
        yi <- rdv y i;; wrv y i (yi + alpha * tmp))
  | ConjTrans =>
      for_ i in 0 upto m do (
        tmp <- foldup 0 n zero (fun j tmp => a <- rd A j i;; xj <- rdv x j;; ret (tmp + conj a * xj));;
        yi <- rdv y i;; wrv y i (yi + alpha * tmp))
  end.
(** gemv.hpp:230-237 *)
Definition gemv_nobeta trans alpha A x y := gemv trans alpha A x SZ y.

(** ger.hpp:42-64 *)
Definition ger (alpha : T) (x y A : view) : M unit :=
  check (nr x =? nr A)%nat;; check (nr y =? nc A)%nat;;
  for_ j in 0 upto nc A do (
    yj <- rdv y j;; let tmp := alpha * conj yj in
    for_ i in 0 upto nr A do (a <- rd A i j;; xi <- rdv x i;; wr A i j (a + xi * tmp))).

(** geru.hpp:43-65 *)
Definition geru (alpha : T) (x y A : view) : M unit :=
  check (nr x =? nr A)%nat;; check (nr y =? nc A)%nat;;
  for_ j in 0 upto nc A do (
    yj <- rdv y j;; let tmp := alpha * yj in
    for_ i in 0 upto nr A do (a <- rd A i j;; xi <- rdv x i;; wr A i j (a + xi * tmp))).

(** her.hpp:53-85 *)
Definition her (uplo : uplo_t) (alpha : T) (x A : view) : M unit :=
  let n := nr A in
  check (uplo2 uplo);; check (nr x =? n)%nat;; check (nc A =? n)%nat;;
  match uplo with
  | Upper =>
      for_ j in 0 upto n do (
        xj <- rdv x j;; let tmp := alpha * conj xj in
        (for_ i in 0 upto j do (a <- rd A i j;; xi <- rdv x i;; wr A i j (a + xi * tmp)));;
        a <- rd A j j;;
        wr A j j (re a + re xj * re tmp - im xj * im tmp))
  | _ =>
      for_ j in 0 upto n do (
        xj <- rdv x j;; let tmp := alpha * conj xj in
        a <- rd A j j;;
        wr A j j (re a + re xj * re tmp - im xj * im tmp);;
        for_ i in (S j) upto n do (a <- rd A i j;; xi <- rdv x i;; wr A i j (a + xi * tmp)))
  end.

(** her2.hpp:50-92 *)
Definition her2 (uplo : uplo_t) (alpha : T) (x y A : view) : M unit :=
  let n := nr A in
  check (uplo2 uplo);; check (nr x =? n)%nat;; check (nr y =? n)%nat;; check (nc A =? n)%nat;;
  match uplo with
  | Upper =>
      for_ j in 0 upto n do (
        yj <- rdv y j;; let tmp1 := alpha * conj yj in
        xj <- rdv x j;; let tmp2 := conj (alpha * xj) in
        (for_ i in 0 upto j do (
           a <- rd A i j;; xi <- rdv x i;; yi <- rdv y i;; wr A i j (a + (xi * tmp1 + yi * tmp2))));;
        a <- rd A j j;;
        wr A j j (re a + re xj * re tmp1 - im xj * im tmp1 + re yj * re tmp2 - im yj * im tmp2))
  | _ =>
      for_ j in 0 upto n do (
        yj <- rdv y j;; let tmp1 := alpha * conj yj in
        xj <- rdv x j;; let tmp2 := conj (alpha * xj) in
        a <- rd A j j;;
        wr A j j (re a + re xj * re tmp1 - im xj * im tmp1 + re yj * re tmp2 - im yj * im tmp2);;
        for_ i in (S j) upto n do (
           a <- rd A i j;; xi <- rdv x i;; yi <- rdv y i;; wr A i j (a + (xi * tmp1 + yi * tmp2))))
  end.

(** syr.hpp:45-73 *)
Definition syr (uplo : uplo_t) (alpha : T) (x A : view) : M unit :=
  let n := nr A in
  check (uplo2 uplo);; check (nr x =? n)%nat;; check (nc A =? n)%nat;;
  match uplo with
  | Upper =>
      for_ j in 0 upto n do (
        xj <- rdv x j;; let tmp := alpha * xj in
        for_ i in 0 upto (S j) do (a <- rd A i j;; xi <- rdv x i;; wr A i j (a + xi * tmp)))
  | _ =>
      for_ j in 0 upto n do (
        xj <- rdv x j;; let tmp := alpha * xj in
        for_ i in j upto n do (a <- rd A i j;; xi <- rdv x i;; wr A i j (a + xi * tmp)))
  end.

(** syr2.hpp:48-84 *)
Definition syr2 (uplo : uplo_t) (alpha : T) (x y A : view) : M unit :=
  let n := nr A in
  check (uplo2 uplo);; check (nr x =? n)%nat;; check (nr y =? n)%nat;; check (nc A =? n)%nat;;
  match uplo with
  | Upper =>
      for_ j in 0 upto n do (
        yj <- rdv y j;; let tmp1 := alpha * yj in
        xj <- rdv x j;; let tmp2 := alpha * xj in
        for_ i in 0 upto (S j) do (
           a <- rd A i j;; xi <- rdv x i;; yi <- rdv y i;; wr A i j (a + (xi * tmp1 + yi * tmp2))))
  | _ =>
      for_ j in 0 upto n do (
        yj <- rdv y j;; let tmp1 := alpha * yj in
        xj <- rdv x j;; let tmp2 := alpha * xj in
        for_ i in j upto n do (
           a <- rd A i j;; xi <- rdv x i;; yi <- rdv y i;; wr A i j (a + (xi * tmp1 + yi * tmp2))))
  end.

(** hemv.hpp:53-104 *)
Definition hemv (uplo : uplo_t) (alpha : T) (A x : view) (beta : coef) (y : view) : M unit :=
  let n := nr A in
  check (uplo2 uplo);; check (nc A =? n)%nat;; check (nr x =? n)%nat;; check (nr y =? n)%nat;;
  (for_ i in 0 upto n do (yi <- rdv y i;; wrv y i (mulc yi beta)));;
  match uplo with
  | Upper =>
      for_ j in 0 upto n do (
        xj <- rdv x j;; let tmp1 := alpha * xj in
        sum <- foldup 0 j zero (fun i sum =>
          yi <- rdv y i;; a <- rd A i j;; wrv y i (yi + tmp1 * a);;
          a <- rd A i j;; xi <- rdv x i;; ret (sum + conj a * xi));;
        yj <- rdv y j;; a <- rd A j j;; wrv y j (yj + (tmp1 * re a + alpha * sum)))
  | _ =>
      for_ j in 0 upto n do (
        xj <- rdv x j;; let tmp1 := alpha * xj in
        sum <- foldup (S j) n zero (fun i sum =>
          yi <- rdv y i;; a <- rd A i j;; wrv y i (yi + tmp1 * a);;
          a <- rd A i j;; xi <- rdv x i;; ret (sum + conj a * xi));;
        yj <- rdv y j;; a <- rd A j j;; wrv y j (yj + (tmp1 * re a + alpha * sum)))
  end.
(** hemv.hpp:177-184 *)
Definition hemv_nobeta uplo alpha A x y := hemv uplo alpha A x SZ y.

(** symv.hpp:50-101 *)
Definition symv (uplo : uplo_t) (alpha : T) (A x : view) (beta : coef) (y : view) : M unit :=
  let n := nr A in
  check (uplo2 uplo);; check (nc A =? n)%nat;; check (nr x =? n)%nat;; check (nr y =? n)%nat;;
  (for_ i in 0 upto n do (yi <- rdv y i;; wrv y i (mulc yi beta)));;
  match uplo with
  | Upper =>
      for_ j in 0 upto n do (
        xj <- rdv x j;; let tmp1 := alpha * xj in
        sum <- foldup 0 j zero (fun i sum =>
          yi <- rdv y i;; a <- rd A i j;; wrv y i (yi + tmp1 * a);;
          a <- rd A i j;; xi <- rdv x i;; ret (sum + a * xi));;
        yj <- rdv y j;; a <- rd A j j;; wrv y j (yj + (tmp1 * a + alpha * sum)))
  | _ =>
      for_ j in 0 upto n do (
        xj <- rdv x j;; let tmp1 := alpha * xj in
        sum <- foldup (S j) n zero (fun i sum =>
          yi <- rdv y i;; a <- rd A i j;; wrv y i (yi + tmp1 * a);;
          a <- rd A i j;; xi <- rdv x i;; ret (sum + a * xi));;
        yj <- rdv y j;; a <- rd A j j;; wrv y j (yj + (tmp1 * a + alpha * sum)))
  end.
(** symv.hpp:171-178 *)
Definition symv_nobeta uplo alpha A x y := symv uplo alpha A x SZ y.

(** trmv.hpp:60-176. Inner descending loops start at n-1 (or j-1) and stop before j (or at 0);
    the wrap-around test [i != idx_t(-1)] is modelled by [fordown]. *)
Definition trmv (uplo : uplo_t) (trans : op_t) (diag : diag_t) (A x : view) : M unit :=
  let n := nr A in
  check (uplo2 uplo);; check (nr A =? nc A)%nat;; check (nr x =? n)%nat;;
  match trans with
  | NoTrans =>
      match uplo with
      | Upper =>
          for_ j in 0 upto n do (
            (for_ i in 0 upto j do (
               xi <- rdv x i;; xj <- rdv x j;; a <- rd A i j;; wrv x i (xi + xj * a)));;
            if nonunit diag then xj <- rdv x j;; a <- rd A j j;; wrv x j (xj * a) else ret tt)
      | _ =>
          ford_ j in 0 upto n do (
            (ford_ i in (S j) upto n do (
               xi <- rdv x i;; xj <- rdv x j;; a <- rd A i j;; wrv x i (xi + xj * a)));;
            if nonunit diag then xj <- rdv x j;; a <- rd A j j;; wrv x j (xj * a) else ret tt)
      end
  | Conj =>
      match uplo with
      | Upper =>
          for_ j in 0 upto n do (
            (for_ i in 0 upto j do (
               xi <- rdv x i;; xj <- rdv x j;; a <- rd A i j;; wrv x i (xi + xj * conj a)));;
            if nonunit diag then xj <- rdv x j;; a <- rd A j j;; wrv x j (xj * conj a) else ret tt)
      | _ =>
          ford_ j in 0 upto n do (
            (ford_ i in (S j) upto n do (
               xi <- rdv x i;; xj <- rdv x j;; a <- rd A i j;; wrv x i (xi + xj * conj a)));;
            if nonunit diag then xj <- rdv x j;; a <- rd A j j;; wrv x j (xj * conj a) else ret tt)
      end
  | Trans =>
      match uplo with
      | Upper =>
          ford_ j in 0 upto n do (
            xj <- rdv x j;;
            tmp <- (if nonunit diag then a <- rd A j j;; ret (xj * a) else ret xj);;
            tmp <- folddown 0 j tmp (fun i tmp => a <- rd A i j;; xi <- rdv x i;; ret (tmp + a * xi));;
            wrv x j tmp)
      | _ =>
          for_ j in 0 upto n do (
            xj <- rdv x j;;
            tmp <- (if nonunit diag then a <- rd A j j;; ret (xj * a) else ret xj);;
            tmp <- foldup (S j) n tmp (fun i tmp => a <- rd A i j;; xi <- rdv x i;; ret (tmp + a * xi));;
            wrv x j tmp)
      end
  | ConjTrans =>
      match uplo with
      | Upper =>
          ford_ j in 0 upto n do (
            xj <- rdv x j;;
            tmp <- (if nonunit diag then a <- rd A j j;; ret (xj * conj a) else ret xj);;
            tmp <- folddown 0 j tmp (fun i tmp => a <- rd A i j;; xi <- rdv x i;; ret (tmp + conj a * xi));;
            wrv x j tmp)
      | _ =>
          for_ j in 0 upto n do (
            xj <- rdv x j;;
            tmp <- (if nonunit diag then a <- rd A j j;; ret (xj * conj a) else ret xj);;
            tmp <- foldup (S j) n tmp (fun i tmp => a <- rd A i j;; xi <- rdv x i;; ret (tmp + conj a * xi));;
            wrv x j tmp)
      end
  end.

(** trsv.hpp:64-204 *)
Definition trsv (uplo : uplo_t) (trans : op_t) (diag : diag_t) (A x : view) : M unit :=
  let n := nr A in
  check (uplo2 uplo);; check (nr A =? nc A)%nat;; check (nr x =? n)%nat;;
  match trans with
  | NoTrans =>
      match uplo with
      | Upper =>
          ford_ j in 0 upto n do (
            (if nonunit diag then xj <- rdv x j;; a <- rd A j j;; wrv x j (xj / a) else ret tt);;
            ford_ i in 0 upto j do (
               xi <- rdv x i;; xj <- rdv x j;; a <- rd A i j;; wrv x i (xi - xj * a)))
      | _ =>
          for_ j in 0 upto n do (
            (if nonunit diag then xj <- rdv x j;; a <- rd A j j;; wrv x j (xj / a) else ret tt);;
            for_ i in (S j) upto n do (
               xi <- rdv x i;; xj <- rdv x j;; a <- rd A i j;; wrv x i (xi - xj * a)))
      end
  | Conj =>
      match uplo with
      | Upper =>
          ford_ j in 0 upto n do (
            (if nonunit diag then xj <- rdv x j;; a <- rd A j j;; wrv x j (xj / conj a) else ret tt);;
            ford_ i in 0 upto j do (
               xi <- rdv x i;; xj <- rdv x j;; a <- rd A i j;; wrv x i (xi - xj * conj a)))
      | _ =>
          for_ j in 0 upto n do (
            (if nonunit diag then xj <- rdv x j;; a <- rd A j j;; wrv x j (xj / conj a) else ret tt);;
            for_ i in (S j) upto n do (
               xi <- rdv x i;; xj <- rdv x j;; a <- rd A i j;; wrv x i (xi - xj * conj a)))
      end
  | Trans =>
      match uplo with
      | Upper =>
          for_ j in 0 upto n do (
            tmp <- rdv x j;;
            tmp <- foldup 0 j tmp (fun i tmp => a <- rd A i j;; xi <- rdv x i;; ret (tmp - a * xi));;
            tmp <- (if nonunit diag then a <- rd A j j;; ret (tmp / a) else ret tmp);;
            wrv x j tmp)
      | _ =>
          ford_ j in 0 upto n do (
            tmp <- rdv x j;;
            tmp <- foldup (S j) n tmp (fun i tmp => a <- rd A i j;; xi <- rdv x i;; ret (tmp - a * xi));;
            tmp <- (if nonunit diag then a <- rd A j j;; ret (tmp / a) else ret tmp);;
            wrv x j tmp)
      end
  | ConjTrans =>
      match uplo with
      | Upper =>
          for_ j in 0 upto n do (
            tmp <- rdv x j;;
            tmp <- foldup 0 j tmp (fun i tmp => a <- rd A i j;; xi <- rdv x i;; ret (tmp - conj a * xi));;
            tmp <- (if nonunit diag then a <- rd A j j;; ret (tmp / conj a) else ret tmp);;
            wrv x j tmp)
      | _ =>
          ford_ j in 0 upto n do (
            tmp <- rdv x j;;
            tmp <- foldup (S j) n tmp (fun i tmp => a <- rd A i j;; xi <- rdv x i;; ret (tmp - conj a * xi));;
            tmp <- (if nonunit diag then a <- rd A j j;; ret (tmp / conj a) else ret tmp);;
            wrv x j tmp)
      end
  end.
End Model.
