(** * Blocked reduction to bidiagonal form — include/tlapack/lapack/labrd.hpp, gebrd.hpp, bidiag.hpp *)
From Coq Require Import Bool Arith ZArith.
From Verif.Core Require Import Scalar Prog View Slice Loops.
From Verif.Model Require Import Gemm Blas1 Blas2 Blas3 Legacy LaAux Norms Work Householder QGen QFact BlockQ Reduce Drivers.
Local Open Scope T_scope.

Section Model.
Context {E : Env}.
(** The two branches of labrd (upper and lower bidiagonal form) consist of the same four groups of statements, with
    different index ranges.  Each group is modelled once; the ranges are its parameters.  [zero] in labrd is a [real_t],
    so that the products with beta = 0 read their output ([Sc 0], not [SZ]). *)
(** Update of column c from row r0 on: labrd.hpp:80-94 (r0 = c = p = q = i, [one] = true) and
    labrd.hpp:255-266 (r0 = i + 1, c = p = i, q = i + 1, [one] = false) *)
Definition labrd_col (one1 : bool) (r0 c p q : nat) (A X Y : view) : M unit :=
  let m := nr A in
  y <- slrow Y c 0 p;;
  A2 <- slc A r0 m 0 p;;
  a21 <- slcol A r0 m c;;
  conjugate y;;
  gemv NoTrans (- one) A2 y (Sc 1) a21;;
  conjugate y;;
  X2 <- slc X r0 m 0 q;;
  a22 <- slcol A 0 q c;;
  if one1 then
    x <- rd A (q - 1) c;;
    let e := re x in
    wr A (q - 1) c 1;;
    gemv NoTrans (- one) X2 a22 (Sc 1) a21;;
    wr A (q - 1) c e
  else gemv NoTrans (- one) X2 a22 (Sc 1) a21.
(** Update of the conjugate of row r from column c0 on: labrd.hpp:136-157 without the conjugation of the row
    (r = i, c0 = p = i + 1, q = i) and labrd.hpp:200-214 (r = c0 = p = q = i, [one] = true) *)
Definition labrd_row (one1 : bool) (r c0 p q : nat) (a11 A X Y : view) : M unit :=
  let n := nc A in
  s <- slrow A r 0 p;;
  conjugate s;;
  Y3 <- slc Y c0 n 0 p;;
  (if one1 then
    x <- rd A r (p - 1);;
    let e := re x in
    wr A r (p - 1) 1;;
    gemv NoTrans (- one) Y3 s (Sc 1) a11;;
    wr A r (p - 1) e
   else gemv NoTrans (- one) Y3 s (Sc 1) a11);;
  conjugate s;;
  A3 <- slc A 0 q c0 n;;
  x <- slrow X r 0 q;;
  conjugate x;;
  gemv ConjTrans (- one) A3 x (Sc 1) a11;;
  conjugate x.
(** Column i of Y: labrd.hpp:108-130 (r0 = i, c0 = i + 1, p = q = i) and labrd.hpp:279-302 (r0 = c0 = q = i + 1, p = i);
    v is the vector of the reflector *)
Definition labrd_y (r0 c0 p q i : nat) (v A tauq X Y : view) : M unit :=
  let m := nr A in
  let n := nc A in
  y11 <- slcol Y c0 n i;;
  A0 <- slc A r0 m c0 n;;
  gemv ConjTrans 1 A0 v (Sc 0) y11;;
  A1 <- slc A r0 m 0 p;;
  t <- slcol Y 0 p i;;
  gemv ConjTrans 1 A1 v (Sc 0) t;;
  Y2 <- slc Y c0 n 0 p;;
  gemv NoTrans (- one) Y2 t (Sc 1) y11;;
  t2 <- slcol Y 0 q i;;
  X2 <- slc X r0 m 0 q;;
  gemv ConjTrans 1 X2 v (Sc 0) t2;;
  A2 <- slc A 0 q c0 n;;
  gemv ConjTrans (- one) A2 t2 (Sc 1) y11;;
  ti <- rdv tauq i;;
  scal ti y11.
(** Column i of X: labrd.hpp:170-190 (c0 = p = i + 1, q = i, [all] = true) and labrd.hpp:227-250 (c0 = p = q = i, [all] = (i > 0)) *)
Definition labrd_x (all : bool) (c0 p q i : nat) (w A taup X Y : view) : M unit :=
  let m := nr A in
  let n := nc A in
  x11 <- slcol X (i + 1) m i;;
  A4 <- slc A (i + 1) m c0 n;;
  gemv NoTrans 1 A4 w (Sc 0) x11;;
  (if all then
    Y4 <- slc Y c0 n 0 p;;
    t2 <- slcol X 0 p i;;
    gemv ConjTrans 1 Y4 w (Sc 0) t2;;
    A5 <- slc A (i + 1) m 0 p;;
    gemv NoTrans (- one) A5 t2 (Sc 1) x11;;
    A6 <- slc A 0 q c0 n;;
    t3 <- slcol X 0 q i;;
    gemv NoTrans 1 A6 w (Sc 0) t3;;
    X4 <- slc X (i + 1) m 0 q;;
    gemv NoTrans (- one) X4 t3 (Sc 1) x11
   else ret tt);;
  ti <- rdv taup i;;
  scal ti x11;;
  conjugate w.
(** labrd.hpp:78-194 *)
Definition labrd_upper (h : hconst) (A tauq taup X Y : view) (i : nat) : M unit :=
  let m := nr A in
  let n := nc A in
  (if (0 <? i)%nat then labrd_col true i i i i A X Y else ret tt);;
  v <- slcol A i m i;;
  t <- larfg h Forward Columnwise v;;
  wrv tauq i t;;
  if (i <? n - 1)%nat then
    x <- rd A i i;;
    let d := re x in
    wr A i i 1;;
    labrd_y i (i + 1) i i i v A tauq X Y;;
    a11 <- slrow A i (i + 1) n;;
    conjugate a11;;
    labrd_row false i (i + 1) (i + 1) i a11 A X Y;;
    w <- slrow A i (i + 1) n;;
    t <- larfg h Forward Columnwise w;;
    wrv taup i t;;
    x <- rd A i (i + 1);;
    let e := re x in
    wr A i (i + 1) 1;;
    labrd_x true (i + 1) (i + 1) i i w A taup X Y;;
    wr A i i d;;
    wr A i (i + 1) e
  else ret tt.
(** labrd.hpp:200-311 *)
Definition labrd_lower (h : hconst) (A tauq taup X Y : view) (i : nat) : M unit :=
  let m := nr A in
  let n := nc A in
  w <- slrow A i i n;;
  conjugate w;;
  (if (0 <? i)%nat then labrd_row true i i i i w A X Y else ret tt);;
  t <- larfg h Forward Columnwise w;;
  wrv taup i t;;
  if (i + 1 <? m)%nat then
    x <- rd A i i;;
    let d := re x in
    wr A i i 1;;
    labrd_x (0 <? i)%nat i i i i w A taup X Y;;
    labrd_col false (i + 1) i i (i + 1) A X Y;;
    v <- slcol A (i + 1) m i;;
    t <- larfg h Forward Columnwise v;;
    wrv tauq i t;;
    x <- rd A (i + 1) i;;
    let e := re x in
    wr A (i + 1) i 1;;
    labrd_y (i + 1) (i + 1) i (i + 1) i v A tauq X Y;;
    wr A i i d;;
    wr A (i + 1) i e
  else conjugate w.
(** labrd.hpp:55-316 *)
Definition labrd (h : hconst) (A tauq taup X Y : view) : M Z :=
  let m := nr A in
  let n := nc A in
  let nb := nc X in
  if ((m =? 0) || (n =? 0))%nat then ret 0%Z else
  (if (n <=? m)%nat then for_ i in 0 upto nb do labrd_upper h A tauq taup X Y i
   else for_ i in 0 upto nb do labrd_lower h A tauq taup X Y i);;
  ret 0%Z.

(** gebrd.hpp:45-62; [nbo]: opts.nb *)
Definition gebrd_nb (nbo : nat) (A : view) : nat := Nat.min nbo (Nat.min (nr A) (nc A)).
Definition gebrd_worksize (nbo : nat) (A tauv tauw : view) : winfo := winfo_m (nr A + nc A) (gebrd_nb nbo A).
(** gebrd.hpp:100-139: one block.  The assertion: with i + ib = 0 the index i + ib - 1 wraps around *)
Definition gebrd_block (h : hconst) (nb i : nat) (A tauv tauw X Y : view) : M unit :=
  let m := nr A in
  let n := nc A in
  let k := Nat.min m n in
  let ib := Nat.min nb (k - i) in
  A2 <- slc A i m i n;;
  tauq <- slvec tauv i (i + ib);;
  taup <- slvec tauw i (i + ib);;
  X2 <- slc X i m 0 ib;;
  Y2 <- slc Y i n 0 ib;;
  labrd h A2 tauq taup X2 Y2;;
  if ((i + ib <? m) && (i + ib <? n))%nat then
    assert_ (0 <? i + ib)%nat;;
    A3 <- slc A (i + ib) m (i + ib) n;;
    e <- (if (n <=? m)%nat then
            x <- rd A (i + ib - 1) (i + ib);; wr A (i + ib - 1) (i + ib) 1;; ret (re x)
          else
            x <- rd A (i + ib) (i + ib - 1);; wr A (i + ib) (i + ib - 1) 1;; ret (re x));;
    V <- slc A (i + ib) m i (i + ib);;
    Y3 <- slc Y (i + ib) n 0 ib;;
    gemm NoTrans ConjTrans (- one) V Y3 (Sc 1) A3;;
    U <- slc A i (i + ib) (i + ib) n;;
    X3 <- slc X (i + ib) m 0 ib;;
    gemm NoTrans NoTrans (- one) X3 U (Sc 1) A3;;
    if (n <=? m)%nat then wr A (i + ib - 1) (i + ib) e else wr A (i + ib) (i + ib - 1) e
  else ret tt.
(** gebrd.hpp:99: for (i = 0; i < k; i = i + nb); [fuel] bounds the number of rounds *)
Fixpoint gebrd_loop (fuel : nat) (h : hconst) (nb i : nat) (A tauv tauw X Y : view) : M unit :=
  if (i <? Nat.min (nr A) (nc A))%nat then
    match fuel with
    | O => nofuel
    | S fuel => gebrd_block h nb i A tauv tauw X Y;; gebrd_loop fuel h nb (i + nb) A tauv tauw X Y
    end
  else ret tt.
(** gebrd.hpp:73-142; k rounds suffice when nb > 0 *)
Definition gebrd_work (h : hconst) (nbo : nat) (A tauv tauw : view) (work : lmat) : M Z :=
  let m := nr A in
  let n := nc A in
  let nb := gebrd_nb nbo A in
  xw <- wk_mat work m nb;;
  yw <- wk_mat (snd xw) n nb;;
  laset General 0 0 (fst xw);;
  laset General 0 0 (fst yw);;
  gebrd_loop (Nat.min m n) h nb 0 A tauv tauw (fst xw) (fst yw);;
  ret 0%Z.
(** gebrd.hpp:201-223 *)
Definition gebrd (p : Z) (l : layout_t) (h : hconst) (nbo : nat) (A tauv tauw : view) : M Z :=
  work <- new_work p l (gebrd_worksize nbo A tauv tauw);;
  gebrd_work h nbo A tauv tauw work.
(** bidiag.hpp:67-80, 131-146 *)
Definition bidiag_work (v : variant_t) (h : hconst) (nbo : nat) (A tauv tauw : view) (work : lmat) : M Z :=
  match v with Level2 => gebd2_work h A tauv tauw work | Blocked => gebrd_work h nbo A tauv tauw work end.
Definition bidiag (p : Z) (l : layout_t) (v : variant_t) (h : hconst) (nbo : nat) (A tauv tauw : view) : M Z :=
  match v with Level2 => gebd2 p l h A tauv tauw | Blocked => gebrd p l h nbo A tauv tauw end.
End Model.
