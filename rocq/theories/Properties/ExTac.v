(** Tactic that decides the side conditions of theorems on concrete layouts (for the examples) *)
From Coq Require Import Bool Arith ZArith Lia.
From Verif.Core Require Import Scalar Prog View.
From Verif.Spec Require Import Outcome.
From Verif.Model Require Import Legacy.
Create HintDb exv.
#[global] Hint Unfold isvec shape vinj disj : exv.
Ltac exv := autounfold with exv; cbn [nr nc ad vview lview vn lm ln]; unfold vaddr, laddr;
  cbn [vdir vptr vinc vn lptr ldim lay is_col]; lia.
