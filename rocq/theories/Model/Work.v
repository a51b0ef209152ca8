(** * Workspace queries and workspace objects
    include/tlapack/base/workspace.hpp, plugins/legacyArray.hpp (reshape, CreateImpl) *)
From Coq Require Import Bool Arith ZArith.
From Verif.Core Require Import Scalar Prog View.
From Verif.Model Require Import Legacy.

(** WorkInfo, workspace.hpp:17-31 (sizes are unbounded naturals) *)
Record winfo := mkwinfo { wm : nat; wn : nat; wcontig : bool; wvec : bool }.
Definition winfo_v (s : nat) : winfo := mkwinfo s 1 false true.
Definition winfo_m (m n : nat) : winfo := mkwinfo m n false false.
Definition wsize (w : winfo) : nat := wm w * wn w.
(** minMax, workspace.hpp:42-93 *)
Definition wminmax (w w1 : winfo) : winfo :=
  if wsize w1 =? 0 then w
  else if wsize w =? 0 then w1
  else
    let r :=
      if wcontig w || wcontig w1 then mkwinfo (Nat.max (wsize w) (wsize w1)) 1 true (wvec w)
      else if ((wm w1 <=? wm w) && (wn w1 <=? wn w)) || (wvec w1 && ((wn w1 <=? wm w) && (wm w1 <=? wn w))) then w
      else if ((wm w <=? wm w1) && (wn w <=? wn w1)) || (wvec w && ((wn w <=? wm w1) && (wm w <=? wn w1)))
           then mkwinfo (wm w1) (wn w1) (wcontig w) (wvec w)
      else mkwinfo (Nat.max (wsize w) (wsize w1)) 1 true (wvec w) in
    mkwinfo (wm r) (wn r) (wcontig r) (wvec w && wvec w1).
(** operator+=, workspace.hpp:104-160 *)
Definition wadd (w w1 : winfo) : winfo :=
  if wsize w1 =? 0 then w
  else if wsize w =? 0 then w1
  else
    let r :=
      if wcontig w || wcontig w1 then mkwinfo (wsize w + wsize w1) 1 true (wvec w)
      else if wn w =? wn w1 then mkwinfo (wm w + wm w1) (wn w) (wcontig w) (wvec w)
      else if wm w =? wm w1 then mkwinfo (wm w) (wn w + wn w1) (wcontig w) (wvec w)
      else if wvec w1 && (wn w =? wm w1) then mkwinfo (wm w + 1) (wn w) (wcontig w) (wvec w)
      else if wvec w && (wm w =? wn w1) then mkwinfo (wm w1 + 1) (wn w1) (wcontig w) (wvec w)
      else mkwinfo (wsize w + wsize w1) 1 true (wvec w) in
    mkwinfo (wm r) (wn r) (wcontig r) (wvec w && wvec w1).
(** transpose, workspace.hpp:162-168 *)
Definition wtranspose (w : winfo) : winfo :=
  if (wsize w =? 0) || wvec w then w else winfo_m (wn w) (wm w).

Section W.
Context {E : Env}.
(** reshape(work, k) and reshape(work, m, n): std::domain_error is thrown whatever the compile-time
    configuration *)
Definition wk_vec (work : lmat) (k : nat) : M (view * lmat) :=
  match reshape_v work k with Some (w, r) => ret (vview w, r) | None => throw DomainError end.
Definition wk_mat (work : lmat) (m n : nat) : M (view * lmat) :=
  match reshape work m n with Some (W, r) => ret (lview W, r) | None => throw DomainError end.
(** [std::vector<T> work_; auto work = new_matrix(work_, workinfo.m, workinfo.n)], legacyArray.hpp: the
    vector is resized (zero-filled) and viewed as a matrix without padding.  [p] is the address the
    allocator chose. *)
Definition new_work (p : Z) (l : layout_t) (w : winfo) : M lmat := fun s =>
  Ok (new_lmat0 (wm w) (wn w) p l)
     (mkst E (fun a => if ((p <=? a) && (a <? p + Z.of_nat (wsize w)))%Z then zero else mem s a) (imem s)).
End W.
