(** * Model of the remaining level-3 kernels — include/tlapack/blas/ *)
From Coq Require Import Bool Arith ZArith.
From Verif.Core Require Import Scalar Prog View.
From Verif.Model Require Import Gemm Blas2.
Local Open Scope T_scope.

Section Model.
Context {E : Env}.

Definition uplo3 (u : uplo_t) := match u with Upper | Lower | General => true | _ => false end.
Definition sel {A} (s : side_t) (l r : A) : A := match s with Left => l | Right => r end.

(** trsm.hpp:76-266 *)
Definition trsm (side : side_t) (uplo : uplo_t) (trans : op_t) (diag : diag_t) (alpha : T) (A B : view) : M unit :=
  let m := nr B in let n := nc B in
  check (uplo2 uplo);; check (op3 trans);;
  check (nr A =? nc A)%nat;; check (nr A =? sel side m n)%nat;;
  match side with
  | Left =>
    match trans with
    | NoTrans =>
      match uplo with
      | Upper =>
        for_ j in 0 upto n do (
          (for_ i in 0 upto m do (b <- rd B i j;; wr B i j (b * alpha)));;
          ford_ k in 0 upto m do (
            (if nonunit diag then b <- rd B k j;; a <- rd A k k;; wr B k j (b / a) else ret tt);;
            for_ i in 0 upto k do (
              b <- rd B i j;; a <- rd A i k;; bk <- rd B k j;; wr B i j (b - a * bk))))
      | _ =>
        for_ j in 0 upto n do (
          (for_ i in 0 upto m do (b <- rd B i j;; wr B i j (b * alpha)));;
          for_ k in 0 upto m do (
            (if nonunit diag then b <- rd B k j;; a <- rd A k k;; wr B k j (b / a) else ret tt);;
            for_ i in (S k) upto m do (
              b <- rd B i j;; a <- rd A i k;; bk <- rd B k j;; wr B i j (b - a * bk))))
      end
    | Trans =>
      match uplo with
      | Upper =>
        for_ j in 0 upto n do for_ i in 0 upto m do (
          b <- rd B i j;;
          sum <- foldup 0 i (alpha * b) (fun k sum => a <- rd A k i;; bk <- rd B k j;; ret (sum - a * bk));;
          r <- (if nonunit diag then a <- rd A i i;; ret (sum / a) else ret sum);;
          wr B i j r)
      | _ =>
        for_ j in 0 upto n do ford_ i in 0 upto m do (
          b <- rd B i j;;
          sum <- foldup (S i) m (alpha * b) (fun k sum => a <- rd A k i;; bk <- rd B k j;; ret (sum - a * bk));;
          r <- (if nonunit diag then a <- rd A i i;; ret (sum / a) else ret sum);;
          wr B i j r)
      end
    | _ =>
      match uplo with
      | Upper =>
        for_ j in 0 upto n do for_ i in 0 upto m do (
          b <- rd B i j;;
          sum <- foldup 0 i (alpha * b) (fun k sum => a <- rd A k i;; bk <- rd B k j;; ret (sum - conj a * bk));;
          r <- (if nonunit diag then a <- rd A i i;; ret (sum / conj a) else ret sum);;
          wr B i j r)
      | _ =>
        for_ j in 0 upto n do ford_ i in 0 upto m do (
          b <- rd B i j;;
          sum <- foldup (S i) m (alpha * b) (fun k sum => a <- rd A k i;; bk <- rd B k j;; ret (sum - conj a * bk));;
          r <- (if nonunit diag then a <- rd A i i;; ret (sum / conj a) else ret sum);;
          wr B i j r)
      end
    end
  | Right =>
    match trans with
    | NoTrans =>
      match uplo with
      | Upper =>
        for_ j in 0 upto n do (
          (for_ i in 0 upto m do (b <- rd B i j;; wr B i j (b * alpha)));;
          (for_ k in 0 upto j do for_ i in 0 upto m do (
             b <- rd B i j;; bk <- rd B i k;; a <- rd A k j;; wr B i j (b - bk * a)));;
          if nonunit diag then
            for_ i in 0 upto m do (b <- rd B i j;; a <- rd A j j;; wr B i j (b / a))
          else ret tt)
      | _ =>
        ford_ j in 0 upto n do (
          (for_ i in 0 upto m do (b <- rd B i j;; wr B i j (b * alpha)));;
          (for_ k in (S j) upto n do for_ i in 0 upto m do (
             b <- rd B i j;; bk <- rd B i k;; a <- rd A k j;; wr B i j (b - bk * a)));;
          if nonunit diag then
            for_ i in 0 upto m do (b <- rd B i j;; a <- rd A j j;; wr B i j (b / a))
          else ret tt)
      end
    | Trans =>
      match uplo with
      | Upper =>
        ford_ k in 0 upto n do (
          (if nonunit diag then
             for_ i in 0 upto m do (b <- rd B i k;; a <- rd A k k;; wr B i k (b / a))
           else ret tt);;
          (for_ j in 0 upto k do for_ i in 0 upto m do (
             b <- rd B i j;; bk <- rd B i k;; a <- rd A j k;; wr B i j (b - bk * a)));;
          for_ i in 0 upto m do (b <- rd B i k;; wr B i k (b * alpha)))
      | _ =>
        for_ k in 0 upto n do (
          (if nonunit diag then
             for_ i in 0 upto m do (b <- rd B i k;; a <- rd A k k;; wr B i k (b / a))
           else ret tt);;
          (for_ j in (S k) upto n do for_ i in 0 upto m do (
             b <- rd B i j;; bk <- rd B i k;; a <- rd A j k;; wr B i j (b - bk * a)));;
          for_ i in 0 upto m do (b <- rd B i k;; wr B i k (b * alpha)))
      end
    | _ =>
      match uplo with
      | Upper =>
        ford_ k in 0 upto n do (
          (if nonunit diag then
             for_ i in 0 upto m do (b <- rd B i k;; a <- rd A k k;; wr B i k (b / conj a))
           else ret tt);;
          (for_ j in 0 upto k do for_ i in 0 upto m do (
             b <- rd B i j;; bk <- rd B i k;; a <- rd A j k;; wr B i j (b - bk * conj a)));;
          for_ i in 0 upto m do (b <- rd B i k;; wr B i k (b * alpha)))
      | _ =>
        for_ k in 0 upto n do (
          (if nonunit diag then
             for_ i in 0 upto m do (b <- rd B i k;; a <- rd A k k;; wr B i k (b / conj a))
           else ret tt);;
          (for_ j in (S k) upto n do for_ i in 0 upto m do (
             b <- rd B i j;; bk <- rd B i k;; a <- rd A j k;; wr B i j (b - bk * conj a)));;
          for_ i in 0 upto m do (b <- rd B i k;; wr B i k (b * alpha)))
      end
    end
  end.

(** trmm.hpp:72-280 *)
Definition trmm (side : side_t) (uplo : uplo_t) (trans : op_t) (diag : diag_t) (alpha : T) (A B : view) : M unit :=
  let m := nr B in let n := nc B in
  check (uplo2 uplo);; check (op3 trans);;
  check (nr A =? nc A)%nat;; check (nr A =? sel side m n)%nat;;
  match side with
  | Left =>
    match trans with
    | NoTrans =>
      match uplo with
      | Upper =>
        for_ j in 0 upto n do for_ k in 0 upto m do (
          b <- rd B k j;; let alphaBkj := alpha * b in
          (for_ i in 0 upto k do (b <- rd B i j;; a <- rd A i k;; wr B i j (b + a * alphaBkj)));;
          r <- (if nonunit diag then a <- rd A k k;; ret (a * alphaBkj) else ret alphaBkj);;
          wr B k j r)
      | _ =>
        for_ j in 0 upto n do ford_ k in 0 upto m do (
          b <- rd B k j;; let alphaBkj := alpha * b in
          r <- (if nonunit diag then a <- rd A k k;; ret (a * alphaBkj) else ret alphaBkj);;
          wr B k j r;;
          for_ i in (S k) upto m do (b <- rd B i j;; a <- rd A i k;; wr B i j (b + a * alphaBkj)))
      end
    | Trans =>
      match uplo with
      | Upper =>
        for_ j in 0 upto n do ford_ i in 0 upto m do (
          b <- rd B i j;;
          s <- (if nonunit diag then a <- rd A i i;; ret (a * b) else ret b);;
          sum <- foldup 0 i s (fun k sum => a <- rd A k i;; bk <- rd B k j;; ret (sum + a * bk));;
          wr B i j (alpha * sum))
      | _ =>
        for_ j in 0 upto n do for_ i in 0 upto m do (
          b <- rd B i j;;
          s <- (if nonunit diag then a <- rd A i i;; ret (a * b) else ret b);;
          sum <- foldup (S i) m s (fun k sum => a <- rd A k i;; bk <- rd B k j;; ret (sum + a * bk));;
          wr B i j (alpha * sum))
      end
    | _ =>
      match uplo with
      | Upper =>
        for_ j in 0 upto n do ford_ i in 0 upto m do (
          b <- rd B i j;;
          s <- (if nonunit diag then a <- rd A i i;; ret (conj a * b) else ret b);;
          sum <- foldup 0 i s (fun k sum => a <- rd A k i;; bk <- rd B k j;; ret (sum + conj a * bk));;
          wr B i j (alpha * sum))
      | _ =>
        for_ j in 0 upto n do for_ i in 0 upto m do (
          b <- rd B i j;;
          s <- (if nonunit diag then a <- rd A i i;; ret (conj a * b) else ret b);;
          sum <- foldup (S i) m s (fun k sum => a <- rd A k i;; bk <- rd B k j;; ret (sum + conj a * bk));;
          wr B i j (alpha * sum))
      end
    end
  | Right =>
    match trans with
    | NoTrans =>
      match uplo with
      | Upper =>
        ford_ j in 0 upto n do (
          alphaAjj <- (if nonunit diag then a <- rd A j j;; ret (alpha * a) else ret alpha);;
          (for_ i in 0 upto m do (b <- rd B i j;; wr B i j (b * alphaAjj)));;
          for_ k in 0 upto j do (
            a <- rd A k j;; let alphaAkj := alpha * a in
            for_ i in 0 upto m do (b <- rd B i j;; bk <- rd B i k;; wr B i j (b + bk * alphaAkj))))
      | _ =>
        for_ j in 0 upto n do (
          alphaAjj <- (if nonunit diag then a <- rd A j j;; ret (alpha * a) else ret alpha);;
          (for_ i in 0 upto m do (b <- rd B i j;; wr B i j (b * alphaAjj)));;
          for_ k in (S j) upto n do (
            a <- rd A k j;; let alphaAkj := alpha * a in
            for_ i in 0 upto m do (b <- rd B i j;; bk <- rd B i k;; wr B i j (b + bk * alphaAkj))))
      end
    | Trans =>
      match uplo with
      | Upper =>
        for_ k in 0 upto n do (
          (for_ j in 0 upto k do (
             a <- rd A j k;; let alphaAjk := alpha * a in
             for_ i in 0 upto m do (b <- rd B i j;; bk <- rd B i k;; wr B i j (b + bk * alphaAjk))));;
          alphaAkk <- (if nonunit diag then a <- rd A k k;; ret (alpha * a) else ret alpha);;
          for_ i in 0 upto m do (b <- rd B i k;; wr B i k (b * alphaAkk)))
      | _ =>
        ford_ k in 0 upto n do (
          (for_ j in (S k) upto n do (
             a <- rd A j k;; let alphaAjk := alpha * a in
             for_ i in 0 upto m do (b <- rd B i j;; bk <- rd B i k;; wr B i j (b + bk * alphaAjk))));;
          alphaAkk <- (if nonunit diag then a <- rd A k k;; ret (alpha * a) else ret alpha);;
          for_ i in 0 upto m do (b <- rd B i k;; wr B i k (b * alphaAkk)))
      end
    | _ =>
      match uplo with
      | Upper =>
        for_ k in 0 upto n do (
          (for_ j in 0 upto k do (
             a <- rd A j k;; let alphaAjk := alpha * conj a in
             for_ i in 0 upto m do (b <- rd B i j;; bk <- rd B i k;; wr B i j (b + bk * alphaAjk))));;
          alphaAkk <- (if nonunit diag then a <- rd A k k;; ret (alpha * conj a) else ret alpha);;
          for_ i in 0 upto m do (b <- rd B i k;; wr B i k (b * alphaAkk)))
      | _ =>
        ford_ k in 0 upto n do (
          (for_ j in (S k) upto n do (
             a <- rd A j k;; let alphaAjk := alpha * conj a in
             for_ i in 0 upto m do (b <- rd B i j;; bk <- rd B i k;; wr B i j (b + bk * alphaAjk))));;
          alphaAkk <- (if nonunit diag then a <- rd A k k;; ret (alpha * conj a) else ret alpha);;
          for_ i in 0 upto m do (b <- rd B i k;; wr B i k (b * alphaAkk)))
      end
    end
  end.

(** hemm.hpp:63-174 *)
Definition hemm (side : side_t) (uplo : uplo_t) (alpha : T) (A B : view) (beta : coef) (C : view) : M unit :=
  let m := nr B in let n := nc B in
  check (uplo3 uplo);;
  check (nr A =? nc A)%nat;; check (nr A =? sel side m n)%nat;;
  check (nr C =? m)%nat;; check (nc C =? n)%nat;;
  match side with
  | Left =>
    match uplo with
    | Lower =>
      for_ j in 0 upto n do ford_ i in 0 upto m do (
        b <- rd B i j;; let alphaTimesBij := alpha * b in
        sum <- foldup (S i) m zero (fun k sum =>
          c <- rd C k j;; a <- rd A k i;; wr C k j (c + a * alphaTimesBij);;
          a <- rd A k i;; bk <- rd B k j;; ret (sum + conj a * bk));;
        c <- rd C i j;; a <- rd A i i;;
        wr C i j (cadd beta c (re a * alphaTimesBij) + alpha * sum))
    | _ =>
      for_ j in 0 upto n do for_ i in 0 upto m do (
        b <- rd B i j;; let alphaTimesBij := alpha * b in
        sum <- foldup 0 i zero (fun k sum =>
          c <- rd C k j;; a <- rd A k i;; wr C k j (c + a * alphaTimesBij);;
          a <- rd A k i;; bk <- rd B k j;; ret (sum + conj a * bk));;
        c <- rd C i j;; a <- rd A i i;;
        wr C i j (cadd beta c (re a * alphaTimesBij) + alpha * sum))
    end
  | Right =>
    match uplo with
    | Lower =>
      for_ j in 0 upto n do (
        a <- rd A j j;; let alphaTimesAjj := alpha * re a in
        (for_ i in 0 upto m do (c <- rd C i j;; b <- rd B i j;; wr C i j (cadd beta c (b * alphaTimesAjj))));;
        (for_ k in 0 upto j do (
           a <- rd A j k;; let alphaTimesAjk := alpha * conj a in
           for_ i in 0 upto m do (c <- rd C i j;; b <- rd B i k;; wr C i j (c + b * alphaTimesAjk))));;
        for_ k in (S j) upto n do (
           a <- rd A k j;; let alphaTimesAkj := alpha * a in
           for_ i in 0 upto m do (c <- rd C i j;; b <- rd B i k;; wr C i j (c + b * alphaTimesAkj))))
    | _ =>
      for_ j in 0 upto n do (
        a <- rd A j j;; let alphaTimesAjj := alpha * re a in
        (for_ i in 0 upto m do (c <- rd C i j;; b <- rd B i j;; wr C i j (cadd beta c (b * alphaTimesAjj))));;
        (for_ k in 0 upto j do (
           a <- rd A k j;; let alphaTimesAkj := alpha * a in
           for_ i in 0 upto m do (c <- rd C i j;; b <- rd B i k;; wr C i j (c + b * alphaTimesAkj))));;
        for_ k in (S j) upto n do (
           a <- rd A j k;; let alphaTimesAjk := alpha * conj a in
           for_ i in 0 upto m do (c <- rd C i j;; b <- rd B i k;; wr C i j (c + b * alphaTimesAjk))))
    end
  end.
(** hemm.hpp:273-281 *)
Definition hemm_nobeta side uplo alpha A B C := hemm side uplo alpha A B SZ C.

(** symm.hpp:61-172 *)
Definition symm (side : side_t) (uplo : uplo_t) (alpha : T) (A B : view) (beta : coef) (C : view) : M unit :=
  let m := nr B in let n := nc B in
  check (uplo3 uplo);;
  check (nr A =? nc A)%nat;; check (nr A =? sel side m n)%nat;;
  check (nr C =? m)%nat;; check (nc C =? n)%nat;;
  match side with
  | Left =>
    match uplo with
    | Lower =>
      for_ j in 0 upto n do ford_ i in 0 upto m do (
        b <- rd B i j;; let alphaTimesBij := alpha * b in
        sum <- foldup (S i) m zero (fun k sum =>
          c <- rd C k j;; a <- rd A k i;; wr C k j (c + a * alphaTimesBij);;
          a <- rd A k i;; bk <- rd B k j;; ret (sum + a * bk));;
        c <- rd C i j;; a <- rd A i i;;
        wr C i j (cadd beta c (a * alphaTimesBij) + alpha * sum))
    | _ =>
      for_ j in 0 upto n do for_ i in 0 upto m do (
        b <- rd B i j;; let alphaTimesBij := alpha * b in
        sum <- foldup 0 i zero (fun k sum =>
          c <- rd C k j;; a <- rd A k i;; wr C k j (c + a * alphaTimesBij);;
          a <- rd A k i;; bk <- rd B k j;; ret (sum + a * bk));;
        c <- rd C i j;; a <- rd A i i;;
        wr C i j (cadd beta c (a * alphaTimesBij) + alpha * sum))
    end
  | Right =>
    match uplo with
    | Lower =>
      for_ j in 0 upto n do (
        a <- rd A j j;; let alphaTimesAjj := alpha * a in
        (for_ i in 0 upto m do (c <- rd C i j;; b <- rd B i j;; wr C i j (cadd beta c (b * alphaTimesAjj))));;
        (for_ k in 0 upto j do (
           a <- rd A j k;; let alphaTimesAjk := alpha * a in
           for_ i in 0 upto m do (c <- rd C i j;; b <- rd B i k;; wr C i j (c + b * alphaTimesAjk))));;
        for_ k in (S j) upto n do (
           a <- rd A k j;; let alphaTimesAkj := alpha * a in
           for_ i in 0 upto m do (c <- rd C i j;; b <- rd B i k;; wr C i j (c + b * alphaTimesAkj))))
    | _ =>
      for_ j in 0 upto n do (
        a <- rd A j j;; let alphaTimesAjj := alpha * a in
        (for_ i in 0 upto m do (c <- rd C i j;; b <- rd B i j;; wr C i j (cadd beta c (b * alphaTimesAjj))));;
        (for_ k in 0 upto j do (
           a <- rd A k j;; let alphaTimesAkj := alpha * a in
           for_ i in 0 upto m do (c <- rd C i j;; b <- rd B i k;; wr C i j (c + b * alphaTimesAkj))));;
        for_ k in (S j) upto n do (
           a <- rd A j k;; let alphaTimesAjk := alpha * a in
           for_ i in 0 upto m do (c <- rd C i j;; b <- rd B i k;; wr C i j (c + b * alphaTimesAjk))))
    end
  end.
(** symm.hpp:269-277 *)
Definition symm_nobeta side uplo alpha A B C := symm side uplo alpha A B SZ C.

(** herk.hpp:68-168 *)
Definition herk (uplo : uplo_t) (trans : op_t) (alpha : T) (A : view) (beta : coef) (C : view) : M unit :=
  let n := if is_nt trans then nr A else nc A in
  let k := if is_nt trans then nc A else nr A in
  check (uplo3 uplo);; check (match trans with NoTrans | ConjTrans => true | _ => false end);;
  check (nr C =? nc C)%nat;; check (nr C =? n)%nat;;
  (match trans with
   | NoTrans =>
     match uplo with
     | Lower =>
       for_ j in 0 upto n do (
         (c <- rd C j j;; wr C j j (cmul beta (re c)));;
         (for_ i in (S j) upto n do (c <- rd C i j;; wr C i j (mulc c beta)));;
         for_ l in 0 upto k do (
           ajl <- rd A j l;; let alphaConjAjl := alpha * conj ajl in
           (c <- rd C j j;; wr C j j (c + (re ajl * re alphaConjAjl - im ajl * im alphaConjAjl)));;
           for_ i in (S j) upto n do (c <- rd C i j;; a <- rd A i l;; wr C i j (c + a * alphaConjAjl))))
     | _ =>
       for_ j in 0 upto n do (
         (for_ i in 0 upto j do (c <- rd C i j;; wr C i j (mulc c beta)));;
         (c <- rd C j j;; wr C j j (cmul beta (re c)));;
         for_ l in 0 upto k do (
           ajl <- rd A j l;; let alphaConjAjl := alpha * conj ajl in
           (for_ i in 0 upto j do (c <- rd C i j;; a <- rd A i l;; wr C i j (c + a * alphaConjAjl)));;
           c <- rd C j j;; wr C j j (c + (re ajl * re alphaConjAjl - im ajl * im alphaConjAjl))))
     end
   | _ =>
     match uplo with
     | Lower =>
       for_ j in 0 upto n do (
         (for_ i in (S j) upto n do (
            sum <- foldup 0 k zero (fun l sum => a <- rd A l i;; b <- rd A l j;; ret (sum + conj a * b));;
            c <- rd C i j;; wr C i j (addc (alpha * sum) beta c)));;
         sum <- foldup 0 k zero (fun l sum => a <- rd A l j;; ret (sum + (re a * re a + im a * im a)));;
         c <- rd C j j;; wr C j j (addc (alpha * sum) beta (re c)))
     | _ =>
       for_ j in 0 upto n do (
         (for_ i in 0 upto j do (
            sum <- foldup 0 k zero (fun l sum => a <- rd A l i;; b <- rd A l j;; ret (sum + conj a * b));;
            c <- rd C i j;; wr C i j (addc (alpha * sum) beta c)));;
         sum <- foldup 0 k zero (fun l sum => a <- rd A l j;; ret (sum + (re a * re a + im a * im a)));;
         c <- rd C j j;; wr C j j (addc (alpha * sum) beta (re c)))
     end
   end);;
  match uplo with
  | General => for_ j in 0 upto n do for_ i in (S j) upto n do (c <- rd C j i;; wr C i j (conj c))
  | _ => ret tt
  end.
(** herk.hpp:263-267 *)
Definition herk_nobeta uplo trans alpha A C := herk uplo trans alpha A SZ C.

(** syrk.hpp:59-138 *)
Definition syrk (uplo : uplo_t) (trans : op_t) (alpha : T) (A : view) (beta : coef) (C : view) : M unit :=
  let n := if is_nt trans then nr A else nc A in
  let k := if is_nt trans then nc A else nr A in
  check (uplo3 uplo);; check (match trans with NoTrans | Trans => true | _ => false end);;
  check (nr C =? nc C)%nat;; check (nr C =? n)%nat;;
  (match trans with
   | NoTrans =>
     match uplo with
     | Lower =>
       for_ j in 0 upto n do (
         (for_ i in j upto n do (c <- rd C i j;; wr C i j (mulc c beta)));;
         for_ l in 0 upto k do (
           ajl <- rd A j l;; let alphaAjl := alpha * ajl in
           for_ i in j upto n do (c <- rd C i j;; a <- rd A i l;; wr C i j (c + a * alphaAjl))))
     | _ =>
       for_ j in 0 upto n do (
         (for_ i in 0 upto (S j) do (c <- rd C i j;; wr C i j (mulc c beta)));;
         for_ l in 0 upto k do (
           ajl <- rd A j l;; let alphaAjl := alpha * ajl in
           for_ i in 0 upto (S j) do (c <- rd C i j;; a <- rd A i l;; wr C i j (c + a * alphaAjl))))
     end
   | _ =>
     match uplo with
     | Lower =>
       for_ j in 0 upto n do for_ i in j upto n do (
            sum <- foldup 0 k zero (fun l sum => a <- rd A l i;; b <- rd A l j;; ret (sum + a * b));;
            c <- rd C i j;; wr C i j (addc (alpha * sum) beta c))
     | _ =>
       for_ j in 0 upto n do for_ i in 0 upto (S j) do (
            sum <- foldup 0 k zero (fun l sum => a <- rd A l i;; b <- rd A l j;; ret (sum + a * b));;
            c <- rd C i j;; wr C i j (addc (alpha * sum) beta c))
     end
   end);;
  match uplo with
  | General => for_ j in 0 upto n do for_ i in (S j) upto n do (c <- rd C j i;; wr C i j c)
  | _ => ret tt
  end.
(** syrk.hpp:230-234 *)
Definition syrk_nobeta uplo trans alpha A C := syrk uplo trans alpha A SZ C.

(** her2k.hpp:72-193 *)
Definition her2k (uplo : uplo_t) (trans : op_t) (alpha : T) (A B : view) (beta : coef) (C : view) : M unit :=
  let n := if is_nt trans then nr A else nc A in
  let k := if is_nt trans then nc A else nr A in
  check (uplo3 uplo);; check (match trans with NoTrans | ConjTrans => true | _ => false end);;
  check ((nr B =? nr A) && (nc B =? nc A))%nat;;
  check (nr C =? nc C)%nat;; check (nr C =? n)%nat;;
  (match trans with
   | NoTrans =>
     match uplo with
     | Lower =>
       for_ j in 0 upto n do (
         (c <- rd C j j;; wr C j j (cmul beta (re c)));;
         (for_ i in (S j) upto n do (c <- rd C i j;; wr C i j (mulc c beta)));;
         for_ l in 0 upto k do (
           bjl <- rd B j l;; let alphaConjBjl := alpha * conj bjl in
           ajl <- rd A j l;; let conjAlphaAjl := conj (alpha * ajl) in
           (c <- rd C j j;; wr C j j (c + (one + one) * (re ajl * re alphaConjBjl - im ajl * im alphaConjBjl)));;
           for_ i in (S j) upto n do (
             c <- rd C i j;; a <- rd A i l;; b <- rd B i l;; wr C i j (c + (a * alphaConjBjl + b * conjAlphaAjl)))))
     | _ =>
       for_ j in 0 upto n do (
         (for_ i in 0 upto j do (c <- rd C i j;; wr C i j (mulc c beta)));;
         (c <- rd C j j;; wr C j j (cmul beta (re c)));;
         for_ l in 0 upto k do (
           bjl <- rd B j l;; let alphaConjBjl := alpha * conj bjl in
           ajl <- rd A j l;; let conjAlphaAjl := conj (alpha * ajl) in
           (for_ i in 0 upto j do (
             c <- rd C i j;; a <- rd A i l;; b <- rd B i l;; wr C i j (c + (a * alphaConjBjl + b * conjAlphaAjl))));;
           c <- rd C j j;; wr C j j (c + (one + one) * (re ajl * re alphaConjBjl - im ajl * im alphaConjBjl))))
     end
   | _ =>
     let body (i j : nat) :=
       (sums <- foldup 0 k (zero, zero) (fun l sums =>
          ali <- rd A l i;; blj <- rd B l j;; bli <- rd B l i;; alj <- rd A l j;;
          ret (fst sums + conj ali * blj, snd sums + conj bli * alj));;
        let sum1 := fst sums in let sum2 := snd sums in
        c <- rd C i j;;
        wr C i j (if (i =? j)%nat
                  then addc (re alpha * re sum1 - im alpha * im sum1 + re alpha * re sum2 + im alpha * im sum2) beta (re c)
                  else addc (alpha * sum1 + conj alpha * sum2) beta c)) in
     match uplo with
     | Lower => for_ j in 0 upto n do for_ i in j upto n do body i j
     | _ => for_ j in 0 upto n do for_ i in 0 upto (S j) do body i j
     end
   end);;
  match uplo with
  | General => for_ j in 0 upto n do for_ i in (S j) upto n do (c <- rd C j i;; wr C i j (conj c))
  | _ => ret tt
  end.
(** her2k.hpp:299-307 *)
Definition her2k_nobeta uplo trans alpha A B C := her2k uplo trans alpha A B SZ C.

(** syr2k.hpp:64-156 *)
Definition syr2k (uplo : uplo_t) (trans : op_t) (alpha : T) (A B : view) (beta : coef) (C : view) : M unit :=
  let n := if is_nt trans then nr A else nc A in
  let k := if is_nt trans then nc A else nr A in
  check (uplo3 uplo);; check (match trans with NoTrans | Trans => true | _ => false end);;
  check ((nr B =? nr A) && (nc B =? nc A))%nat;;
  check (nr C =? nc C)%nat;; check (nr C =? n)%nat;;
  (match trans with
   | NoTrans =>
     match uplo with
     | Lower =>
       for_ j in 0 upto n do (
         (for_ i in j upto n do (c <- rd C i j;; wr C i j (mulc c beta)));;
         for_ l in 0 upto k do (
           bjl <- rd B j l;; let alphaBjl := alpha * bjl in
           ajl <- rd A j l;; let alphaAjl := alpha * ajl in
           for_ i in j upto n do (
             c <- rd C i j;; a <- rd A i l;; b <- rd B i l;; wr C i j (c + (a * alphaBjl + b * alphaAjl)))))
     | _ =>
       for_ j in 0 upto n do (
         (for_ i in 0 upto (S j) do (c <- rd C i j;; wr C i j (mulc c beta)));;
         for_ l in 0 upto k do (
           bjl <- rd B j l;; let alphaBjl := alpha * bjl in
           ajl <- rd A j l;; let alphaAjl := alpha * ajl in
           for_ i in 0 upto (S j) do (
             c <- rd C i j;; a <- rd A i l;; b <- rd B i l;; wr C i j (c + (a * alphaBjl + b * alphaAjl)))))
     end
   | _ =>
     let body (i j : nat) :=
       (sums <- foldup 0 k (zero, zero) (fun l sums =>
          ali <- rd A l i;; blj <- rd B l j;; bli <- rd B l i;; alj <- rd A l j;;
          ret (fst sums + ali * blj, snd sums + bli * alj));;
        let sum1 := fst sums in let sum2 := snd sums in
        c <- rd C i j;;
        wr C i j (addc (alpha * sum1 + alpha * sum2) beta c)) in
     match uplo with
     | Lower => for_ j in 0 upto n do for_ i in j upto n do body i j
     | _ => for_ j in 0 upto n do for_ i in 0 upto (S j) do body i j
     end
   end);;
  match uplo with
  | General => for_ j in 0 upto n do for_ i in (S j) upto n do (c <- rd C j i;; wr C i j c)
  | _ => ret tt
  end.
(** syr2k.hpp:256-264 *)
Definition syr2k_nobeta uplo trans alpha A B C := syr2k uplo trans alpha A B SZ C.

End Model.
