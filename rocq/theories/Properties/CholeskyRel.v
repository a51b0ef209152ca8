(** * C02, C15, C16 for the Cholesky routines: whatever the arithmetic (no law is assumed, so these cover
    IEEE floating point with rounding, NaN and infinities), potrf and potrs touch nothing but the declared
    triangle, terminate, stay in bounds, and their result is a function of the values in it. *)
From Coq Require Import Bool Arith ZArith Lia List PrimFloat.
From Verif.Core Require Import Scalar Prog View Rel Instances.
From Verif.Spec Require Import LinAlg Outcome.
From Verif.Model Require Import Gemm Blas1 Blas2 Blas3 Legacy Cholesky.
From Verif.Proof Require Import RelTac BlasRel TwoRuns TwoRunsX CholRel.
From Verif.Properties Require Import ExTac Blas2.
Import ListNotations.

Section S.
Context {E : Env}.
Implicit Types (A B : view) (s : state).

Theorem potrf_two_runs v nb ec u A1 A2 s1 s2 n : u = Upper \/ u = Lower -> 0 < nb -> shape A1 n n ->
  vinj A1 -> vinj A2 -> agree (in_triangle u) A1 s1 A2 s2 ->
  both_complete (potrf v nb ec u A1) (potrf v nb ec u A2) s1 s2 (fun s1' s2' =>
    agree (in_triangle u) A1 s1' A2 s2' /\ only_changes (inview A1) s1 s1' /\ only_changes (inview A2) s2 s2').
Proof.
  intros Hu Hnb [N1 N2] I1 I2 Ha. apply (two_runs_x _ []); auto.
  - apply agrees_nil.
  - apply apart_nil.
  - intros R _ RA WA. apply potrf_rr; auto; [destruct Hu as [->| ->]; reflexivity|congruence].
Qed.
Theorem potrs_two_runs u A1 A2 B1 B2 s1 s2 n k : u = Upper \/ u = Lower -> shape A1 n n -> shape B1 n k ->
  vinj B1 -> vinj B2 -> disj A1 B1 -> disj A2 B2 ->
  agree (in_triangle u) A1 s1 A2 s2 -> agree anywhere B1 s1 B2 s2 ->
  both_complete (potrs u A1 B1) (potrs u A2 B2) s1 s2 (fun s1' s2' =>
    agree anywhere B1 s1' B2 s2' /\ only_changes (inview B1) s1 s1' /\ only_changes (inview B2) s2 s2').
Proof.
  intros Hu [N1 N2] [M1 M2] I1 I2 D1 D2 Ha Hb. apply (two_runs_x _ [(A1, A2, in_triangle u)]); auto.
  - apply agrees_cons; auto. apply agrees_nil.
  - apply apart_cons; auto. apply apart_nil.
  - intros R HR RB WB. apply potrs_rr; auto; [destruct Hu as [->| ->]; reflexivity|congruence|congruence|].
    apply HR; cbn; auto.
Qed.
Theorem potrf_safe v nb ec u A s n : u = Upper \/ u = Lower -> 0 < nb -> shape A n n ->
  completes (potrf v nb ec u A) s (fun s' => only_changes (cells A (in_triangle u)) s s').
Proof.
  intros Hu Hnb [N1 N2]. apply safe_run_x. intros R HR WA.
  apply potrf_rr; auto; [destruct Hu as [->| ->]; reflexivity|congruence].
Qed.
Theorem potrs_safe u A B s n k : u = Upper \/ u = Lower -> shape A n n -> shape B n k ->
  completes (potrs u A B) s (fun s' => only_changes (cells B anywhere) s s').
Proof.
  intros Hu [N1 N2] [M1 M2]. apply safe_run_x. intros R HR WA.
  apply potrs_rr; auto; [destruct Hu as [->| ->]; reflexivity|congruence|congruence].
Qed.
Theorem potrf_rejects v nb ec u A s : check_input = true ->
  ~ ((u = Upper \/ u = Lower) /\ exists n, shape A n n) -> rejects (potrf v nb ec u A) s.
Proof.
  intros Hc H. unfold rejects, potrf. destruct (uplo2 u) eqn:Eu.
  - destruct (Nat.eqb_spec (nr A) (nc A)) as [e|e].
    + exfalso. apply H. split; [destruct u; try discriminate; auto|exists (nr A); split; auto].
    + unfold check, bind. rewrite Hc. reflexivity.
  - unfold check, bind. rewrite Hc. reflexivity.
Qed.
Theorem potrs_rejects u A B s : check_input = true ->
  ~ ((u = Upper \/ u = Lower) /\ exists n k, shape A n n /\ shape B n k) -> rejects (potrs u A B) s.
Proof.
  intros Hc H. unfold rejects, potrs. destruct (uplo2 u) eqn:Eu.
  - destruct (Nat.eqb_spec (nr A) (nc A)) as [e|e]; [destruct (Nat.eqb_spec (nr B) (nc A)) as [e'|e']|].
    + exfalso. apply H. split; [destruct u; try discriminate; auto|exists (nr A), (nc B); repeat split; congruence].
    + unfold check, bind. rewrite Hc. reflexivity.
    + unfold check, bind. rewrite Hc. reflexivity.
  - unfold check, bind. rewrite Hc. reflexivity.
Qed.
End S.

(** ** Concrete case in IEEE double precision: the two runs differ in layout and in the strictly upper part *)

Definition exL : view := lview (mklmat 2 2 100 3 ColMajor).
Definition exLr : view := lview (mklmat 2 2 200 5 RowMajor).
#[global] Hint Unfold exL exLr : exv.
Definition cfs1 : @state FE := mkst FE (fun l => match l with 100 => 3 | 101 => 7 | 103 => 5 | 104 => 20 | _ => 1 end%float)%Z (fun _ => 0%Z).
Definition cfs2 : @state FE := mkst FE (fun l => match l with 200 => 3 | 205 => 7 | 206 => 20 | _ => nan end%float)%Z (fun _ => 0%Z).
Example potrf_two_runs_example v : both_complete (potrf (E:=FE) v 1 true Lower exL) (potrf v 1 true Lower exLr) cfs1 cfs2 (fun s1' s2' =>
    agree (in_triangle Lower) exL s1' exLr s2' /\ only_changes (inview exL) cfs1 s1' /\ only_changes (inview exLr) cfs2 s2').
Proof.
  apply (potrf_two_runs v 1 true Lower exL exLr cfs1 cfs2 2); auto; try exv.
  split; [reflexivity|split; [reflexivity|]]. intros i j Hi Hj H; cbn in Hi, Hj, H.
  destruct i as [|[|i]]; destruct j as [|[|j]]; try lia; reflexivity.
Qed.
