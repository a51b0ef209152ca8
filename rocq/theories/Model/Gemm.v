(** * Model of gemm — include/tlapack/blas/gemm.hpp *)
From Coq Require Import Bool Arith ZArith.
From Verif.Core Require Import Scalar Prog View.
Local Open Scope T_scope.

Section Model.
Context {E : Env}.

Definition is_nt (o : op_t) := op_eqb o NoTrans.
Definition op3 (o : op_t) := match o with Conj => false | _ => true end.

(** gemm.hpp:61-195 *)
Definition gemm (transA transB : op_t) (alpha : T) (A B : view) (beta : coef) (C : view) : M unit :=
  let m := if is_nt transA then nr A else nc A in
  let n := if is_nt transB then nc B else nr B in
  let k := if is_nt transA then nc A else nr A in
  check (op3 transA);; check (op3 transB);;
  check (nr C =? m)%nat;; check (nc C =? n)%nat;;
  check ((if is_nt transB then nr B else nc B) =? k)%nat;;
  match transA with
  | NoTrans =>
      match transB with
      | NoTrans =>
          for_ j in 0 upto n do (
            (for_ i in 0 upto m do (c <- rd C i j;; wr C i j (mulc c beta)));;
            for_ l in 0 upto k do (
              b <- rd B l j;;
              let alphaTimesblj := alpha * b in
              for_ i in 0 upto m do (
                c <- rd C i j;; a <- rd A i l;; wr C i j (c + a * alphaTimesblj))))
      | Trans =>
          for_ j in 0 upto n do (
            (for_ i in 0 upto m do (c <- rd C i j;; wr C i j (mulc c beta)));;
            for_ l in 0 upto k do (
              b <- rd B j l;;
              let alphaTimesbjl := alpha * b in
              for_ i in 0 upto m do (
                c <- rd C i j;; a <- rd A i l;; wr C i j (c + a * alphaTimesbjl))))
      | _ =>
          for_ j in 0 upto n do (
            (for_ i in 0 upto m do (c <- rd C i j;; wr C i j (mulc c beta)));;
            for_ l in 0 upto k do (
              b <- rd B j l;;
              let alphaTimesbjl := alpha * conj b in
              for_ i in 0 upto m do (
                c <- rd C i j;; a <- rd A i l;; wr C i j (c + a * alphaTimesbjl))))
      end
  | Trans =>
      match transB with
      | NoTrans =>
          for_ j in 0 upto n do for_ i in 0 upto m do (
            sum <- foldup 0 k zero (fun l sum => a <- rd A l i;; b <- rd B l j;; ret (sum + a * b));;
            c <- rd C i j;; wr C i j (addc (alpha * sum) beta c))
      | Trans =>
          for_ j in 0 upto n do for_ i in 0 upto m do (
            sum <- foldup 0 k zero (fun l sum => a <- rd A l i;; b <- rd B j l;; ret (sum + a * b));;
            c <- rd C i j;; wr C i j (addc (alpha * sum) beta c))
      | _ =>
          for_ j in 0 upto n do for_ i in 0 upto m do (
            sum <- foldup 0 k zero (fun l sum => a <- rd A l i;; b <- rd B j l;; ret (sum + a * conj b));;
            c <- rd C i j;; wr C i j (addc (alpha * sum) beta c))
      end
  | _ =>
      match transB with
      | NoTrans =>
          for_ j in 0 upto n do for_ i in 0 upto m do (
            sum <- foldup 0 k zero (fun l sum => a <- rd A l i;; b <- rd B l j;; ret (sum + conj a * b));;
            c <- rd C i j;; wr C i j (addc (alpha * sum) beta c))
      | Trans =>
          for_ j in 0 upto n do for_ i in 0 upto m do (
            sum <- foldup 0 k zero (fun l sum => a <- rd A l i;; b <- rd B j l;; ret (sum + conj a * b));;
            c <- rd C i j;; wr C i j (addc (alpha * sum) beta c))
      | _ =>
          for_ j in 0 upto n do for_ i in 0 upto m do (
            sum <- foldup 0 k zero (fun l sum => a <- rd A l i;; b <- rd B j l;; ret (sum + a * b));;
            c <- rd C i j;; wr C i j (addc (alpha * conj sum) beta c))
      end
  end.

(** gemm.hpp:348-356: overload without beta *)
Definition gemm_nobeta (transA transB : op_t) (alpha : T) (A B C : view) : M unit :=
  gemm transA transB alpha A B SZ C.
End Model.
