(** * Model of the out-of-place and structured products — include/tlapack/lapack/{gemmtr,hemm2,mult_hehe,
    trmm_out,trsm_tri}.hpp *)
From Coq Require Import Bool Arith ZArith.
From Verif.Core Require Import Scalar Prog View Slice Loops.
From Verif.Model Require Import Gemm Blas1 Blas2 Blas3.
Local Open Scope T_scope.

Section Model.
Context {E : Env}.

(** gemmtr.hpp:57-307.  The two halves of the code (Upper, Lower) are the same nine loops with the row range
    0..j or j..n-1: [lo], [hi] are that range.  The test on the dimensions of C is `ncols(C) != n &&
    nrows(C) != n` (line 85), so a C with only one matching dimension is let through; the tests at lines 86-87
    and 92-93 compare a value with itself. *)
Definition gemmtr (uplo : uplo_t) (transA transB : op_t) (alpha : T) (A B : view) (beta : coef) (C : view) : M unit :=
  let n := if is_nt transB then nc B else nr B in
  let k := if is_nt transA then nc A else nr A in
  check (uplo2 uplo);; check (op3 transA);; check (op3 transB);;
  check ((nc C =? n) || (nr C =? n))%nat;;
  check ((if is_nt transB then nr B else nc B) =? k)%nat;;
  check ((if is_nt transA then nr A else nc A) =? n)%nat;;
  let lo j := match uplo with Upper => 0%nat | _ => j end in
  let hi j := match uplo with Upper => S j | _ => n end in
  match transA with
  | NoTrans =>
      match transB with
      | NoTrans =>
          for_ j in 0 upto n do (
            (for_ i in (lo j) upto (hi j) do (c <- rd C i j;; wr C i j (mulc c beta)));;
            for_ l in 0 upto k do (
              b <- rd B l j;;
              let alphaTimesblj := alpha * b in
              for_ i in (lo j) upto (hi j) do (
                c <- rd C i j;; a <- rd A i l;; wr C i j (c + a * alphaTimesblj))))
      | Trans =>
          for_ j in 0 upto n do (
            (for_ i in (lo j) upto (hi j) do (c <- rd C i j;; wr C i j (mulc c beta)));;
            for_ l in 0 upto k do (
              b <- rd B j l;;
              let alphaTimesbjl := alpha * b in
              for_ i in (lo j) upto (hi j) do (
                c <- rd C i j;; a <- rd A i l;; wr C i j (c + a * alphaTimesbjl))))
      | _ =>
          for_ j in 0 upto n do (
            (for_ i in (lo j) upto (hi j) do (c <- rd C i j;; wr C i j (mulc c beta)));;
            for_ l in 0 upto k do (
              b <- rd B j l;;
              let alphaTimesbjl := alpha * conj b in
              for_ i in (lo j) upto (hi j) do (
                c <- rd C i j;; a <- rd A i l;; wr C i j (c + a * alphaTimesbjl))))
      end
  | Trans =>
      match transB with
      | NoTrans =>
          for_ j in 0 upto n do for_ i in (lo j) upto (hi j) do (
            sum <- foldup 0 k zero (fun l sum => a <- rd A l i;; b <- rd B l j;; ret (sum + a * b));;
            c <- rd C i j;; wr C i j (addc (alpha * sum) beta c))
      | Trans =>
          for_ j in 0 upto n do for_ i in (lo j) upto (hi j) do (
            sum <- foldup 0 k zero (fun l sum => a <- rd A l i;; b <- rd B j l;; ret (sum + a * b));;
            c <- rd C i j;; wr C i j (addc (alpha * sum) beta c))
      | _ =>
          for_ j in 0 upto n do for_ i in (lo j) upto (hi j) do (
            sum <- foldup 0 k zero (fun l sum => a <- rd A l i;; b <- rd B j l;; ret (sum + a * conj b));;
            c <- rd C i j;; wr C i j (addc (alpha * sum) beta c))
      end
  | _ =>
      match transB with
      | NoTrans =>
          for_ j in 0 upto n do for_ i in (lo j) upto (hi j) do (
            sum <- foldup 0 k zero (fun l sum => a <- rd A l i;; b <- rd B l j;; ret (sum + conj a * b));;
            c <- rd C i j;; wr C i j (addc (alpha * sum) beta c))
      | Trans =>
          for_ j in 0 upto n do for_ i in (lo j) upto (hi j) do (
            sum <- foldup 0 k zero (fun l sum => a <- rd A l i;; b <- rd B j l;; ret (sum + conj a * b));;
            c <- rd C i j;; wr C i j (addc (alpha * sum) beta c))
      | _ =>
          for_ j in 0 upto n do for_ i in (lo j) upto (hi j) do (
            sum <- foldup 0 k zero (fun l sum => a <- rd A l i;; b <- rd B j l;; ret (sum + a * b));;
            c <- rd C i j;; wr C i j (addc (alpha * conj sum) beta c))
      end
  end.

(** hemm2.hpp:74-327.  The check on side always succeeds (two enumerators).  Any transB other than NoTrans and
    Trans runs the ConjTrans loops; uplo = General is accepted and runs the Lower loops on the left
    (line 114 tests `uplo == UPPER_TRIANGLE`) but the Upper loops on the right with transB = NoTrans (line 226
    tests `uplo != LOWER_TRIANGLE`).  The overload without beta (lines 374-390) drops transB and does not compile
    when instantiated: not modelled. *)
Definition hemm2 (side : side_t) (uplo : uplo_t) (transB : op_t) (alpha : T) (A B : view) (beta : coef) (C : view) : M unit :=
  let m := nr B in let n := nc B in
  check (uplo3 uplo);; check (nr A =? nc A)%nat;;
  (if match side, transB with Left, NoTrans | Right, Trans | Right, ConjTrans => true | _, _ => false end
   then check (nc A =? m)%nat else check (nr A =? n)%nat);;
  (if is_nt transB then (check (nr C =? m)%nat;; check (nc C =? n)%nat)
   else (check (nr C =? n)%nat;; check (nc C =? m)%nat));;
  match side, transB with
  | Left, NoTrans =>
    match uplo with
    | Upper =>
      for_ j in 0 upto n do for_ i in 0 upto m do (
        b <- rd B i j;; let alphaTimesBij := alpha * b in
        sum <- foldup 0 i zero (fun k sum =>
          c <- rd C k j;; a <- rd A k i;; wr C k j (c + a * alphaTimesBij);;
          a <- rd A k i;; bk <- rd B k j;; ret (sum + conj a * bk));;
        c <- rd C i j;; a <- rd A i i;;
        wr C i j (cadd beta c (re a * alphaTimesBij) + alpha * sum))
    | _ =>
      for_ j in 0 upto n do ford_ i in 0 upto m do (
        b <- rd B i j;; let alphaTimesBij := alpha * b in
        sum <- foldup (S i) m zero (fun k sum =>
          c <- rd C k j;; a <- rd A k i;; wr C k j (c + a * alphaTimesBij);;
          a <- rd A k i;; bk <- rd B k j;; ret (sum + conj a * bk));;
        c <- rd C i j;; a <- rd A i i;;
        wr C i j (cadd beta c (re a * alphaTimesBij) + alpha * sum))
    end
  | Left, Trans =>
    match uplo with
    | Upper =>
      for_ j in 0 upto n do for_ k in 0 upto m do (
        sum <- foldup 0 j zero (fun i sum => a <- rd A i j;; b <- rd B k i;; ret (sum + conj a * b));;
        a <- rd A j j;; b <- rd B k j;;
        sum <- foldup (S j) n (sum + re a * b) (fun i sum => a <- rd A j i;; b <- rd B k i;; ret (sum + a * b));;
        c <- rd C j k;; wr C j k (addc (alpha * sum) beta c))
    | _ =>
      for_ j in 0 upto n do for_ k in 0 upto m do (
        sum <- foldup 0 j zero (fun i sum => a <- rd A j i;; b <- rd B k i;; ret (sum + a * b));;
        a <- rd A j j;; b <- rd B k j;;
        sum <- foldup (S j) n (sum + re a * b) (fun i sum => a <- rd A i j;; b <- rd B k i;; ret (sum + conj a * b));;
        c <- rd C j k;; wr C j k (addc (alpha * sum) beta c))
    end
  | Left, _ =>
    match uplo with
    | Upper =>
      for_ j in 0 upto n do for_ k in 0 upto m do (
        sum <- foldup 0 j zero (fun i sum => a <- rd A i j;; b <- rd B k i;; ret (sum + conj a * conj b));;
        a <- rd A j j;; b <- rd B k j;;
        sum <- foldup (S j) n (sum + re a * conj b) (fun i sum => a <- rd A j i;; b <- rd B k i;; ret (sum + a * conj b));;
        c <- rd C j k;; wr C j k (addc (alpha * sum) beta c))
    | _ =>
      for_ j in 0 upto n do for_ k in 0 upto m do (
        sum <- foldup 0 j zero (fun i sum => a <- rd A j i;; b <- rd B k i;; ret (sum + a * conj b));;
        a <- rd A j j;; b <- rd B k j;;
        sum <- foldup (S j) n (sum + re a * conj b) (fun i sum => a <- rd A i j;; b <- rd B k i;; ret (sum + conj a * conj b));;
        c <- rd C j k;; wr C j k (addc (alpha * sum) beta c))
    end
  | Right, NoTrans =>
    match uplo with
    | Lower =>
      for_ j in 0 upto n do (
        a <- rd A j j;; let alphaTimesAjj := alpha * re a in
        (for_ i in 0 upto m do (c <- rd C i j;; b <- rd B i j;; wr C i j (cadd beta c (b * alphaTimesAjj))));;
        (for_ k in 0 upto j do (
           a <- rd A j k;; let alphaTimesAjk := alpha * conj a in
           for_ i in 0 upto m do (c <- rd C i j;; b <- rd B i k;; wr C i j (c + b * alphaTimesAjk))));;
        for_ k in (S j) upto n do (
           a <- rd A k j;; let alphaTimesAkj := alpha * a in
           for_ i in 0 upto m do (c <- rd C i j;; b <- rd B i k;; wr C i j (c + b * alphaTimesAkj))))
    | _ =>
      for_ j in 0 upto n do (
        a <- rd A j j;; let alphaTimesAjj := alpha * re a in
        (for_ i in 0 upto m do (c <- rd C i j;; b <- rd B i j;; wr C i j (cadd beta c (b * alphaTimesAjj))));;
        (for_ k in 0 upto j do (
           a <- rd A k j;; let alphaTimesAkj := alpha * a in
           for_ i in 0 upto m do (c <- rd C i j;; b <- rd B i k;; wr C i j (c + b * alphaTimesAkj))));;
        for_ k in (S j) upto n do (
           a <- rd A j k;; let alphaTimesAjk := alpha * conj a in
           for_ i in 0 upto m do (c <- rd C i j;; b <- rd B i k;; wr C i j (c + b * alphaTimesAjk))))
    end
  | Right, Trans =>
    match uplo with
    | Upper =>
      for_ j in 0 upto n do for_ k in 0 upto m do (
        sum <- foldup 0 k zero (fun i sum => b <- rd B i j;; a <- rd A i k;; ret (sum + b * a));;
        b <- rd B k j;; a <- rd A k k;;
        sum <- foldup (S k) m (sum + b * re (conj a)) (fun i sum => b <- rd B i j;; a <- rd A k i;; ret (sum + b * conj a));;
        c <- rd C j k;; wr C j k (addc (alpha * sum) beta c))
    | _ =>
      for_ j in 0 upto n do for_ k in 0 upto m do (
        sum <- foldup 0 k zero (fun i sum => b <- rd B i j;; a <- rd A k i;; ret (sum + b * conj a));;
        b <- rd B k j;; a <- rd A k k;;
        sum <- foldup (S k) m (sum + b * re a) (fun i sum => b <- rd B i j;; a <- rd A i k;; ret (sum + b * a));;
        c <- rd C j k;; wr C j k (addc (alpha * sum) beta c))
    end
  | Right, _ =>
    match uplo with
    | Upper =>
      for_ j in 0 upto n do for_ k in 0 upto m do (
        sum <- foldup 0 k zero (fun i sum => b <- rd B i j;; a <- rd A i k;; ret (sum + conj b * a));;
        b <- rd B k j;; a <- rd A k k;;
        sum <- foldup (S k) m (sum + conj b * re (conj a)) (fun i sum => b <- rd B i j;; a <- rd A k i;; ret (sum + conj b * conj a));;
        c <- rd C j k;; wr C j k (addc (alpha * sum) beta c))
    | _ =>
      for_ j in 0 upto n do for_ k in 0 upto m do (
        sum <- foldup 0 k zero (fun i sum => b <- rd B i j;; a <- rd A k i;; ret (sum + conj b * conj a));;
        b <- rd B k j;; a <- rd A k k;;
        sum <- foldup (S k) m (sum + conj b * re a) (fun i sum => b <- rd B i j;; a <- rd A i k;; ret (sum + conj b * a));;
        c <- rd C j k;; wr C j k (addc (alpha * sum) beta c))
    end
  end.

(** mult_hehe.hpp:50-168; [fuel] bounds the recursion depth.  A non-square A returns silently (line 71); n = 0 takes
    the branch n <= 1 and accesses element (0,0) (line 73).  The line feed printed at line 131 is left out. *)
Fixpoint mult_hehe_f (fuel : nat) (uplo : uplo_t) (alpha : T) (A B : view) (beta : coef) (C : view) : M unit :=
  match fuel with
  | O => nofuel
  | S fu =>
    let m := nr A in
    let n := nc A in
    if negb (m =? n)%nat then ret tt else
    if (n <=? 1)%nat then
      a <- rd A 0 0;; b <- rd B 0 0;; c <- rd C 0 0;; wr C 0 0 (addc (alpha * re a * re b) beta c)
    else
    let n0 := Nat.div2 n in
    match uplo with
    | Upper =>
      A00 <- slc A 0 n0 0 n0;; A01 <- slc A 0 n0 n0 n;; A11 <- slc A n0 n n0 n;;
      B00 <- slc B 0 n0 0 n0;; B01 <- slc B 0 n0 n0 n;; B11 <- slc B n0 n n0 n;;
      C00 <- slc C 0 n0 0 n0;; C01 <- slc C 0 n0 n0 n;; C10 <- slc C n0 n 0 n0;; C11 <- slc C n0 n n0 n;;
      mult_hehe_f fu Upper alpha A00 B00 beta C00;;
      gemm NoTrans ConjTrans alpha A01 B01 (Sc one) C00;;
      hemm2 Left Upper NoTrans alpha A00 B01 beta C01;;
      hemm2 Right Upper NoTrans alpha B11 A01 (Sc one) C01;;
      hemm2 Left Upper ConjTrans alpha A11 B01 beta C10;;
      hemm2 Right Upper ConjTrans alpha B00 A01 (Sc one) C10;;
      mult_hehe_f fu Upper alpha A11 B11 beta C11;;
      gemm ConjTrans NoTrans alpha A01 B01 (Sc one) C11
    | _ =>
      A00 <- slc A 0 n0 0 n0;; A10 <- slc A n0 n 0 n0;; A11 <- slc A n0 n n0 n;;
      B00 <- slc B 0 n0 0 n0;; B10 <- slc B n0 n 0 n0;; B11 <- slc B n0 n n0 n;;
      C00 <- slc C 0 n0 0 n0;; C01 <- slc C 0 n0 n0 n;; C10 <- slc C n0 n 0 n0;; C11 <- slc C n0 n n0 n;;
      mult_hehe_f fu Lower alpha A00 B00 beta C00;;
      gemm ConjTrans NoTrans alpha A10 B10 (Sc one) C00;;
      hemm2 Right Lower NoTrans alpha B00 A10 beta C10;;
      hemm2 Left Lower NoTrans alpha A11 B10 (Sc one) C10;;
      hemm2 Left Lower ConjTrans alpha A00 B10 beta C01;;
      hemm2 Right Lower ConjTrans alpha B11 A10 (Sc one) C01;;
      mult_hehe_f fu Lower alpha A11 B11 beta C11;;
      gemm NoTrans ConjTrans alpha A10 B10 (Sc one) C11
    end
  end.
Definition mult_hehe (uplo : uplo_t) (alpha : T) (A B : view) (beta : coef) (C : view) : M unit :=
  mult_hehe_f (S (nc A)) uplo alpha A B beta C.
(** mult_hehe.hpp:189-197 *)
Definition mult_hehe_nobeta (uplo : uplo_t) (alpha : T) (A B C : view) : M unit := mult_hehe uplo alpha A B SZ C.

(** trmm_out.hpp:76-790.  The code spells out 24 branches (transB x uplo x diag x side); they differ only in how
    B is sliced and read (by transB), in the factor A(0,0) of the base case (by diag), in the dimension that
    is halved (by side) and in which off-diagonal block is used (by uplo), which is how they are written here.
    There is no argument check, and no test for an empty triangular matrix: the code then recurses forever. *)
Fixpoint trmm_out_f (fuel : nat) (side : side_t) (uplo : uplo_t) (transA : op_t) (diag : diag_t) (transB : op_t)
    (alpha : T) (A B : view) (beta : coef) (C : view) : M unit :=
  match fuel with
  | O => nofuel
  | S fu =>
    let m := if is_nt transB then nr B else nc B in
    let n := if is_nt transB then nc B else nr B in
    match side with
    | Right =>
      let n0 := Nat.div2 n in
      if (n =? 1)%nat then
        for_ i in 0 upto m do (
          b <- (match transB with NoTrans => rd B i 0 | ConjTrans => (b <- rd B 0 i;; ret (conj b)) | _ => rd B 0 i end);;
          x <- (if nonunit diag then (a <- rd A 0 0;; ret (alpha * b * a)) else ret (alpha * b));;
          c <- rd C i 0;; wr C i 0 (addc x beta c))
      else
        C0 <- slc C 0 m 0 n0;; C1 <- slc C 0 m n0 n;;
        A00 <- slc A 0 n0 0 n0;;
        Aod <- (match uplo with Upper => slc A 0 n0 n0 n | _ => slc A n0 n 0 n0 end);;
        A11 <- slc A n0 n n0 n;;
        B0 <- (if is_nt transB then slc B 0 m 0 n0 else slc B 0 n0 0 m);;
        B1 <- (if is_nt transB then slc B 0 m n0 n else slc B n0 n 0 m);;
        match uplo with
        | Upper =>
          trmm_out_f fu side uplo transA diag transB alpha A00 B0 beta C0;;
          gemm transB transA alpha B0 Aod beta C1;;
          trmm_out_f fu side uplo transA diag transB alpha A11 B1 (Sc one) C1
        | _ =>
          trmm_out_f fu side uplo transA diag transB alpha A11 B1 beta C1;;
          gemm transB transA alpha B1 Aod beta C0;;
          trmm_out_f fu side uplo transA diag transB alpha A00 B0 (Sc one) C0
        end
    | Left =>
      let m0 := Nat.div2 m in
      if (m =? 1)%nat then
        for_ j in 0 upto n do (
          b <- (match transB with NoTrans => rd B 0 j | ConjTrans => (b <- rd B j 0;; ret (conj b)) | _ => rd B j 0 end);;
          x <- (if nonunit diag then (a <- rd A 0 0;; ret (alpha * b * a)) else ret (alpha * b));;
          c <- rd C 0 j;; wr C 0 j (addc x beta c))
      else
        C0 <- slc C 0 m0 0 n;; C1 <- slc C m0 m 0 n;;
        A00 <- slc A 0 m0 0 m0;;
        Aod <- (match uplo with Upper => slc A 0 m0 m0 m | _ => slc A m0 m 0 m0 end);;
        A11 <- slc A m0 m m0 m;;
        B0 <- (if is_nt transB then slc B 0 m0 0 n else slc B 0 n 0 m0);;
        B1 <- (if is_nt transB then slc B m0 m 0 n else slc B 0 n m0 m);;
        match uplo with
        | Upper =>
          trmm_out_f fu side uplo transA diag transB alpha A11 B1 beta C1;;
          gemm transA transB alpha Aod B1 beta C0;;
          trmm_out_f fu side uplo transA diag transB alpha A00 B0 (Sc one) C0
        | _ =>
          trmm_out_f fu side uplo transA diag transB alpha A00 B0 beta C0;;
          gemm transA transB alpha Aod B0 beta C1;;
          trmm_out_f fu side uplo transA diag transB alpha A11 B1 (Sc one) C1
        end
    end
  end.
Definition trmm_out side uplo transA diag transB alpha A B beta C : M unit :=
  trmm_out_f (S (nr A)) side uplo transA diag transB alpha A B beta C.

(** trsm_tri.hpp:96-285.  No argument check; n = nrows(A) = 0 recurses forever. *)
Fixpoint trsm_tri_f (fuel : nat) (sideA : side_t) (uploB : uplo_t) (transA : op_t) (diagA : diag_t) (alpha : T) (A B : view) : M unit :=
  match fuel with
  | O => nofuel
  | S fu =>
    let uploA := if is_nt transA then uploB else match uploB with Upper => Lower | _ => Upper end in
    let n := nr A in
    match uploB with
    | Upper => for_ j in 0 upto n do for_ i in 0 upto (S j) do (b <- rd B i j;; wr B i j (b * alpha))
    | _ => for_ j in 0 upto n do for_ i in j upto n do (b <- rd B i j;; wr B i j (b * alpha))
    end;;
    if (n =? 1)%nat then
      if nonunit diagA then
        match transA with
        | ConjTrans => b <- rd B 0 0;; a <- rd A 0 0;; wr B 0 0 (b / conj a)
        | _ => b <- rd B 0 0;; a <- rd A 0 0;; wr B 0 0 (b / a)
        end
      else ret tt
    else
    let nd := Nat.div2 n in
    A00 <- slc A 0 nd 0 nd;; A01 <- slc A 0 nd nd n;; A10 <- slc A nd n 0 nd;; A11 <- slc A nd n nd n;;
    B00 <- slc B 0 nd 0 nd;; B01 <- slc B 0 nd nd n;; B10 <- slc B nd n 0 nd;; B11 <- slc B nd n nd n;;
    match sideA with
    | Left =>
      match transA with
      | NoTrans =>
        match uploB with
        | Upper =>
          trsm_tri_f fu sideA uploB transA diagA one A00 B00;;
          trsm_tri_f fu sideA uploB transA diagA one A11 B11;;
          trmm_out Right uploB NoTrans NonUnit transA (- one) B11 A01 (Sc one) B01;;
          trsm sideA uploA transA diagA one A00 B01
        | _ =>
          trsm_tri_f fu sideA uploB transA diagA one A00 B00;;
          trsm_tri_f fu sideA uploB transA diagA one A11 B11;;
          trmm_out Right uploB NoTrans NonUnit transA (- one) B00 A10 (Sc one) B10;;
          trsm sideA uploA transA diagA one A11 B10
        end
      | _ =>
        match uploB with
        | Upper =>
          trsm_tri_f fu sideA uploB transA diagA one A00 B00;;
          trsm_tri_f fu sideA uploB transA diagA one A11 B11;;
          trmm_out Right uploB NoTrans NonUnit transA (- one) B11 A10 (Sc one) B01;;
          trsm sideA uploA transA diagA one A00 B01
        | _ =>
          trsm_tri_f fu sideA uploB transA diagA one A00 B00;;
          trsm_tri_f fu sideA uploB transA diagA one A11 B11;;
          trmm_out Right uploB NoTrans NonUnit transA (- one) B00 A01 (Sc one) B10;;
          trsm sideA uploA transA diagA one A11 B10
        end
      end
    | Right =>
      match transA with
      | NoTrans =>
        match uploB with
        | Upper =>
          trsm_tri_f fu sideA uploB transA diagA one A00 B00;;
          trsm_tri_f fu sideA uploB transA diagA one A11 B11;;
          trmm_out Left uploB NoTrans NonUnit transA (- one) B00 A01 (Sc one) B01;;
          trsm sideA uploA transA diagA one A11 B01
        | _ =>
          trsm_tri_f fu sideA uploB transA diagA one A00 B00;;
          trsm_tri_f fu sideA uploB transA diagA one A11 B11;;
          trmm_out Left uploB NoTrans NonUnit transA (- one) B11 A10 (Sc one) B10;;
          trsm sideA uploA transA diagA one A00 B10
        end
      | _ =>
        match uploB with
        | Upper =>
          trsm_tri_f fu sideA uploB transA diagA one A00 B00;;
          trsm_tri_f fu sideA uploB transA diagA one A11 B11;;
          trmm_out Left uploB NoTrans NonUnit transA (- one) B00 A10 (Sc one) B01;;
          trsm sideA uploA transA diagA one A11 B01
        | _ =>
          trsm_tri_f fu sideA uploB transA diagA one A00 B00;;
          trsm_tri_f fu sideA uploB transA diagA one A11 B11;;
          trmm_out Left uploB NoTrans NonUnit transA (- one) B11 A01 (Sc one) B10;;
          trsm sideA uploA transA diagA one A00 B10
        end
      end
    end
  end.
Definition trsm_tri sideA uploB transA diagA alpha A B : M unit := trsm_tri_f (S (nr A)) sideA uploB transA diagA alpha A B.
End Model.
