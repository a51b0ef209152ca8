(** * C15, C16, C37 for triangular inversion, products of triangular factors and the routines built on them: whatever the
    arithmetic (no law is assumed, so IEEE rounding, NaN and infinities are covered), they terminate, stay in bounds, touch
    nothing but the declared part, and their result is a function of the values in it, independent of the layout. *)
From Coq Require Import Bool Arith ZArith Lia List PrimFloat.
From Verif.Core Require Import Scalar Prog View Rel Instances.
From Verif.Spec Require Import LinAlg Outcome.
From Verif.Model Require Import Gemm Blas1 Blas2 Blas3 Legacy Cholesky Triangular.
From Verif.Proof Require Import RelTac BlasRel TwoRuns TwoRunsX CholRel TriRel.
From Verif.Properties Require Import ExTac Blas2.
Import ListNotations.

Section S.
Context {E : Env}.
Implicit Types (A B D e : view) (s : state).

Theorem trtri_safe ec u d A s n : u = Upper \/ u = Lower -> shape A n n ->
  completes (trtri ec u d A) s (fun s' => only_changes (cells A (referenced u d)) s s').
Proof. intros Hu; assert (uplo2 u = true) by (destruct Hu as [->| ->]; reflexivity). intros [N1 N2]. apply safe_run_x. intros R HR WA. apply trtri_rr; auto; congruence. Qed.
Theorem trtri_two_runs ec u d A1 A2 s1 s2 n : u = Upper \/ u = Lower -> shape A1 n n ->
  vinj A1 -> vinj A2 -> agree (referenced u d) A1 s1 A2 s2 ->
  both_complete (trtri ec u d A1) (trtri ec u d A2) s1 s2 (fun s1' s2' =>
    agree (referenced u d) A1 s1' A2 s2' /\ only_changes (inview A1) s1 s1' /\ only_changes (inview A2) s2 s2').
Proof.
  intros Hu; assert (uplo2 u = true) by (destruct Hu as [->| ->]; reflexivity). intros [N1 N2] I1 I2 Ha. apply (two_runs_x _ []); auto; [apply agrees_nil|apply apart_nil|].
  intros R _ RA WA. apply trtri_rr; auto; congruence.
Qed.

Theorem lauum_safe u A s n : u = Upper \/ u = Lower -> shape A n n ->
  completes (lauum u A) s (fun s' => only_changes (cells A (in_triangle u)) s s').
Proof. intros Hu; assert (uplo2 u = true) by (destruct Hu as [->| ->]; reflexivity). intros [N1 N2]. apply safe_run_x. intros R HR WA. apply lauum_rr; auto; congruence. Qed.
Theorem lauum_two_runs u A1 A2 s1 s2 n : u = Upper \/ u = Lower -> shape A1 n n ->
  vinj A1 -> vinj A2 -> agree (in_triangle u) A1 s1 A2 s2 ->
  both_complete (lauum u A1) (lauum u A2) s1 s2 (fun s1' s2' =>
    agree (in_triangle u) A1 s1' A2 s2' /\ only_changes (inview A1) s1 s1' /\ only_changes (inview A2) s2 s2').
Proof.
  intros Hu; assert (uplo2 u = true) by (destruct Hu as [->| ->]; reflexivity). intros [N1 N2] I1 I2 Ha. apply (two_runs_x _ []); auto; [apply agrees_nil|apply apart_nil|].
  intros R _ RA WA. apply lauum_rr; auto; congruence.
Qed.

Theorem potri_safe u A s n : u = Upper \/ u = Lower -> shape A n n ->
  completes (potri u A) s (fun s' => only_changes (cells A (in_triangle u)) s s').
Proof. intros Hu; assert (uplo2 u = true) by (destruct Hu as [->| ->]; reflexivity). intros [N1 N2]. apply safe_run_x. intros R HR WA. apply potri_rr; auto; congruence. Qed.
Theorem potri_two_runs u A1 A2 s1 s2 n : u = Upper \/ u = Lower -> shape A1 n n ->
  vinj A1 -> vinj A2 -> agree (in_triangle u) A1 s1 A2 s2 ->
  both_complete (potri u A1) (potri u A2) s1 s2 (fun s1' s2' =>
    agree (in_triangle u) A1 s1' A2 s2' /\ only_changes (inview A1) s1 s1' /\ only_changes (inview A2) s2 s2').
Proof.
  intros Hu; assert (uplo2 u = true) by (destruct Hu as [->| ->]; reflexivity). intros [N1 N2] I1 I2 Ha. apply (two_runs_x _ []); auto; [apply agrees_nil|apply apart_nil|].
  intros R _ RA WA. apply potri_rr; auto; congruence.
Qed.

Theorem ul_mult_safe  A s n : 0 < n -> shape A n n ->
  completes (ul_mult A) s (fun s' => only_changes (cells A (anywhere)) s s').
Proof. intros Hn. intros [N1 N2]. apply safe_run_x. intros R HR WA. apply ul_mult_rr; auto; congruence. Qed.
Theorem ul_mult_two_runs  A1 A2 s1 s2 n : 0 < n -> shape A1 n n ->
  vinj A1 -> vinj A2 -> agree (anywhere) A1 s1 A2 s2 ->
  both_complete (ul_mult A1) (ul_mult A2) s1 s2 (fun s1' s2' =>
    agree (anywhere) A1 s1' A2 s2' /\ only_changes (inview A1) s1 s1' /\ only_changes (inview A2) s2 s2').
Proof.
  intros Hn. intros [N1 N2] I1 I2 Ha. apply (two_runs_x _ []); auto; [apply agrees_nil|apply apart_nil|].
  intros R _ RA WA. apply ul_mult_rr; auto; congruence.
Qed.

Theorem getri_uili_safe  A s n : 0 < n -> shape A n n ->
  completes (getri_uili A) s (fun s' => only_changes (cells A (anywhere)) s s').
Proof. intros Hn. intros [N1 N2]. apply safe_run_x. intros R HR WA. apply getri_uili_rr; auto; congruence. Qed.
Theorem getri_uili_two_runs  A1 A2 s1 s2 n : 0 < n -> shape A1 n n ->
  vinj A1 -> vinj A2 -> agree (anywhere) A1 s1 A2 s2 ->
  both_complete (getri_uili A1) (getri_uili A2) s1 s2 (fun s1' s2' =>
    agree (anywhere) A1 s1' A2 s2' /\ only_changes (inview A1) s1 s1' /\ only_changes (inview A2) s2 s2').
Proof.
  intros Hn. intros [N1 N2] I1 I2 Ha. apply (two_runs_x _ []); auto; [apply agrees_nil|apply apart_nil|].
  intros R _ RA WA. apply getri_uili_rr; auto; congruence.
Qed.

Theorem lu_mult_safe nx A s n : 0 < nx -> shape A n n ->
  completes (lu_mult nx A) s (fun s' => only_changes (cells A (anywhere)) s s').
Proof. intros Hx. intros [N1 N2]. apply safe_run_x. intros R HR WA. unfold lu_mult. assert (K := WA). destruct K as (K1 & K2 & _). rewrite ?K2. apply lu_mult_f_rr; auto; lia. Qed.
Theorem lu_mult_two_runs nx A1 A2 s1 s2 n : 0 < nx -> shape A1 n n ->
  vinj A1 -> vinj A2 -> agree (anywhere) A1 s1 A2 s2 ->
  both_complete (lu_mult nx A1) (lu_mult nx A2) s1 s2 (fun s1' s2' =>
    agree (anywhere) A1 s1' A2 s2' /\ only_changes (inview A1) s1 s1' /\ only_changes (inview A2) s2 s2').
Proof.
  intros Hx. intros [N1 N2] I1 I2 Ha. apply (two_runs_x _ []); auto; [apply agrees_nil|apply apart_nil|].
  intros R _ RA WA. unfold lu_mult. assert (K := WA). destruct K as (K1 & K2 & _). rewrite ?K2. apply lu_mult_f_rr; auto; lia.
Qed.

Theorem mult_llh_safe nx A s n : 0 < nx -> shape A n n ->
  completes (mult_llh nx A) s (fun s' => only_changes (cells A (in_triangle Lower)) s s').
Proof. intros Hx. intros [N1 N2]. apply safe_run_x. intros R HR WA. unfold mult_llh. assert (K := WA). destruct K as (K1 & K2 & _). rewrite ?K1. apply mult_llh_f_rr; auto; lia. Qed.
Theorem mult_llh_two_runs nx A1 A2 s1 s2 n : 0 < nx -> shape A1 n n ->
  vinj A1 -> vinj A2 -> agree (in_triangle Lower) A1 s1 A2 s2 ->
  both_complete (mult_llh nx A1) (mult_llh nx A2) s1 s2 (fun s1' s2' =>
    agree (in_triangle Lower) A1 s1' A2 s2' /\ only_changes (inview A1) s1 s1' /\ only_changes (inview A2) s2 s2').
Proof.
  intros Hx. intros [N1 N2] I1 I2 Ha. apply (two_runs_x _ []); auto; [apply agrees_nil|apply apart_nil|].
  intros R _ RA WA. unfold mult_llh. assert (K := WA). destruct K as (K1 & K2 & _). rewrite ?K1. apply mult_llh_f_rr; auto; lia.
Qed.

Theorem mult_uhu_safe nx A s n : 0 < nx -> shape A n n ->
  completes (mult_uhu nx A) s (fun s' => only_changes (cells A (in_triangle Upper)) s s').
Proof. intros Hx. intros [N1 N2]. apply safe_run_x. intros R HR WA. unfold mult_uhu. assert (K := WA). destruct K as (K1 & K2 & _). rewrite ?K1. apply mult_uhu_f_rr; auto; lia. Qed.
Theorem mult_uhu_two_runs nx A1 A2 s1 s2 n : 0 < nx -> shape A1 n n ->
  vinj A1 -> vinj A2 -> agree (in_triangle Upper) A1 s1 A2 s2 ->
  both_complete (mult_uhu nx A1) (mult_uhu nx A2) s1 s2 (fun s1' s2' =>
    agree (in_triangle Upper) A1 s1' A2 s2' /\ only_changes (inview A1) s1 s1' /\ only_changes (inview A2) s2 s2').
Proof.
  intros Hx. intros [N1 N2] I1 I2 Ha. apply (two_runs_x _ []); auto; [apply agrees_nil|apply apart_nil|].
  intros R _ RA WA. unfold mult_uhu. assert (K := WA). destruct K as (K1 & K2 & _). rewrite ?K1. apply mult_uhu_f_rr; auto; lia.
Qed.

Theorem pttrf_safe ec D e s n : isvec D (n + 1) -> isvec e n ->
  completes (pttrf ec D e) s (fun s' => only_changes (fun l => inview D l \/ inview e l) s s').
Proof.
  intros [N1 N2] [M1 M2].
  assert (K : completes (pttrf ec D e) s (fun s' => only_changes (cells_l [(D, anywhere); (e, anywhere)]) s s')).
  { apply safe_run_l. intros R HR HW _. apply pttrf_rr; auto; try congruence; apply HW; cbn; auto. }
  assert (I : forall l, cells_l [(D, anywhere); (e, anywhere)] l -> inview D l \/ inview e l).
  { intros l (C & w & [e'|[e'|[]]] & i & j & Hi & Hj & _ & Hl); inversion e'; subst C w; [left|right]; exists i, j; auto. }
  destruct K as [(a & s' & K1 & K2 & K3)|(i & s' & K1 & K2 & K3)]; [left; exists a, s'|right; exists i, s']; (split; [auto|]; split; [|auto]; intros l Hl; apply K2; auto).
Qed.
Theorem pttrf_two_runs ec D1 D2 e1 e2 s1 s2 n : isvec D1 (n + 1) -> isvec e1 n -> vinj D1 -> vinj D2 -> vinj e1 -> vinj e2 -> disj D1 e1 -> disj D2 e2 ->
  agree anywhere D1 s1 D2 s2 -> agree anywhere e1 s1 e2 s2 ->
  both_complete (pttrf ec D1 e1) (pttrf ec D2 e2) s1 s2 (fun s1' s2' =>
    agree anywhere D1 s1' D2 s2' /\ agree anywhere e1 s1' e2 s2' /\
    only_changes (fun l => inview D1 l \/ inview e1 l) s1 s1' /\ only_changes (fun l => inview D2 l \/ inview e2 l) s2 s2').
Proof.
  intros [N1 N2] [M1 M2] I1 I2 J1 J2 X1 X2 Hd He. apply (two_runs_x2 _ []); auto; try apply agrees_nil; try apply apart_nil.
  intros R _ RD WD RE WE _. apply pttrf_rr; auto; congruence.
Qed.
End S.

(** ** Concrete case in IEEE double precision: inverting [3 .; 7 20] stored in two layouts; the strictly upper part differs (1, NaN) *)
Definition tfL : view := lview (mklmat 2 2 100 3 ColMajor).
Definition tfR : view := lview (mklmat 2 2 200 5 RowMajor).
#[global] Hint Unfold tfL tfR : exv.
Definition tfs1 : @state FE := mkst FE (fun l => match l with 100 => 3 | 101 => 7 | 103 => 5 | 104 => 20 | _ => 1 end%float)%Z (fun _ => 0%Z).
Definition tfs2 : @state FE := mkst FE (fun l => match l with 200 => 3 | 205 => 7 | 206 => 20 | _ => nan end%float)%Z (fun _ => 0%Z).
Example trtri_two_runs_example : both_complete (trtri (E:=FE) true Lower NonUnit tfL) (trtri true Lower NonUnit tfR) tfs1 tfs2 (fun s1' s2' =>
    agree (referenced Lower NonUnit) tfL s1' tfR s2' /\ only_changes (inview tfL) tfs1 s1' /\ only_changes (inview tfR) tfs2 s2').
Proof.
  apply (trtri_two_runs true Lower NonUnit tfL tfR tfs1 tfs2 2); auto; try exv.
  split; [reflexivity|split; [reflexivity|]]. intros i j Hi Hj [H _]; cbn in Hi, Hj, H.
  destruct i as [|[|i]]; destruct j as [|[|j]]; try lia; reflexivity.
Qed.
