(** * C03: overloads without beta do not depend on the old contents of the output.  Any scalar arithmetic. *)
From Coq Require Import Bool Arith ZArith Lia List.
From Verif.Core Require Import Scalar Prog View Rel Instances.
From Verif.Spec Require Import LinAlg Outcome.
From Verif.Model Require Import Gemm Blas1 Blas2 Blas3.
From Verif.Proof Require Import RelTac BlasRel HRel NoBetaProof TwoRuns.
From Verif.Properties Require Import ExTac Blas2.
Import ListNotations.

Ltac vdest := unfold opshape, shape, isvec in *;
  repeat match goal with H : _ /\ _ |- _ => destruct H end.
(** enumerate the option arguments that occur *)
Ltac opts :=
  repeat match goal with
  | H : ?u = Upper \/ _ |- _ => destruct H as [->|H]
  | H : ?u = Lower \/ _ |- _ => destruct H as [->|H]
  | H : ?o = NoTrans \/ _ |- _ => destruct H as [->|H]
  | H : ?u = General |- _ => rewrite H in *; clear H
  | H : ?u = Lower |- _ => rewrite H in *; clear H
  | H : ?u = Trans |- _ => rewrite H in *; clear H
  | H : ?u = ConjTrans |- _ => rewrite H in *; clear H
  end.
Ltac sdo := match goal with
  | sd : side_t |- _ => destruct sd
  | o : op_t |- _ => destruct o; try congruence
  end.
Ltac fin := cbn [is_nt op_eqb notransb sel]; try eassumption; try reflexivity; try congruence;
  try (split; congruence); auto.

Section S.
Context {E : Env}.
Implicit Types (A B C x y : view) (s : state).
Ltac ins3 l := first [ apply agrees_nil | apply agrees_cons; [eassumption|ins3 l] ].

Theorem gemm_nobeta_two_runs ta tb alpha A1 A2 B1 B2 C1 C2 s1 s2 m n k : ta <> Conj /\ tb <> Conj ->
  opshape ta A1 m k -> opshape tb B1 k n -> shape C1 m n -> shape C2 m n ->
  vinj C1 -> vinj C2 -> disj A1 C1 -> disj A2 C2 -> disj B1 C1 -> disj B2 C2 ->
  agree anywhere A1 s1 A2 s2 -> agree anywhere B1 s1 B2 s2 ->
  both_return (gemm_nobeta ta tb alpha A1 B1 C1) (gemm_nobeta ta tb alpha A2 B2 C2) s1 s2 (fun _ s1' s2' =>
    agree anywhere C1 s1' C2 s2' /\ only_changes (inview C1) s1 s1' /\ only_changes (inview C2) s2 s2').
Proof.
  intros. assert (QA1 : nr A2 = nr A1) by (match goal with H : agree _ A1 _ _ _ |- _ => apply H end). assert (QA2 : nc A2 = nc A1) by (match goal with H : agree _ A1 _ _ _ |- _ => apply H end). assert (QB1 : nr B2 = nr B1) by (match goal with H : agree _ B1 _ _ _ |- _ => apply H end). assert (QB2 : nc B2 = nc B1) by (match goal with H : agree _ B1 _ _ _ |- _ => apply H end).
  eapply (hr_two_runs _ [(A1, A2, anywhere : nat -> nat -> Prop); (B1, B2, anywhere : nat -> nat -> Prop)]); [ins3 tt|vdest; congruence|vdest; congruence|].
  intros Hsh HR. assert (RA : forall v, reads (hl _ C1 C2 s1 s2 v) A1 A2 everywhere) by (intros v; apply HR; cbn; auto). assert (RB : forall v, reads (hl _ C1 C2 s1 s2 v) B1 B2 everywhere) by (intros v; apply HR; cbn; auto).
  assert (HA : forall V1 V2 v, In (V1, V2, v) [(A1, A2, anywhere : nat -> nat -> Prop); (B1, B2, anywhere : nat -> nat -> Prop)] -> disj V1 C1 /\ disj V2 C2)
    by (intros ? ? ? HIn; cbn in HIn; repeat destruct HIn as [HIn|HIn]; first [contradiction|inversion HIn; subst; split; assumption]).
  clear HR. vdest. opts.
  all: repeat sdo; vdest; eapply gemm_nb with (m := m) (n := n) (k := k); fin.
Qed.

Theorem gemv_nobeta_two_runs_partial o alpha A1 A2 x1 x2 y1 y2 s1 s2 m n : (n = 0 -> m = 0) ->
  opshape o A1 m n -> isvec x1 n -> isvec y1 m -> isvec y2 m ->
  vinj y1 -> vinj y2 -> disj A1 y1 -> disj A2 y2 -> disj x1 y1 -> disj x2 y2 ->
  agree anywhere A1 s1 A2 s2 -> agree anywhere x1 s1 x2 s2 ->
  both_return (gemv_nobeta o alpha A1 x1 y1) (gemv_nobeta o alpha A2 x2 y2) s1 s2 (fun _ s1' s2' =>
    agree anywhere y1 s1' y2 s2' /\ only_changes (inview y1) s1 s1' /\ only_changes (inview y2) s2 s2').
Proof.
  intros. assert (QA1 : nr A2 = nr A1) by (match goal with H : agree _ A1 _ _ _ |- _ => apply H end). assert (QA2 : nc A2 = nc A1) by (match goal with H : agree _ A1 _ _ _ |- _ => apply H end). assert (Qx1 : nr x2 = nr x1) by (match goal with H : agree _ x1 _ _ _ |- _ => apply H end). assert (Qx2 : nc x2 = nc x1) by (match goal with H : agree _ x1 _ _ _ |- _ => apply H end).
  eapply (hr_two_runs _ [(A1, A2, anywhere : nat -> nat -> Prop); (x1, x2, anywhere : nat -> nat -> Prop)]); [ins3 tt|vdest; congruence|vdest; congruence|].
  intros Hsh HR. assert (RA : forall v, reads (hl _ y1 y2 s1 s2 v) A1 A2 everywhere) by (intros v; apply HR; cbn; auto). assert (Rx : forall v, reads (hl _ y1 y2 s1 s2 v) x1 x2 everywhere) by (intros v; apply HR; cbn; auto).
  assert (HA : forall V1 V2 v, In (V1, V2, v) [(A1, A2, anywhere : nat -> nat -> Prop); (x1, x2, anywhere : nat -> nat -> Prop)] -> disj V1 y1 /\ disj V2 y2)
    by (intros ? ? ? HIn; cbn in HIn; repeat destruct HIn as [HIn|HIn]; first [contradiction|inversion HIn; subst; split; assumption]).
  clear HR. vdest. opts.
  all: repeat sdo; vdest; eapply gemv_nb with (m := m) (n := n); fin.
Qed.

Theorem hemv_nobeta_two_runs u alpha A1 A2 x1 x2 y1 y2 s1 s2 n : u = Upper \/ u = Lower ->
  shape A1 n n -> isvec x1 n -> isvec y1 n -> isvec y2 n ->
  vinj y1 -> vinj y2 -> disj A1 y1 -> disj A2 y2 -> disj x1 y1 -> disj x2 y2 ->
  agree (in_triangle u) A1 s1 A2 s2 -> agree anywhere x1 s1 x2 s2 ->
  both_return (hemv_nobeta u alpha A1 x1 y1) (hemv_nobeta u alpha A2 x2 y2) s1 s2 (fun _ s1' s2' =>
    agree anywhere y1 s1' y2 s2' /\ only_changes (inview y1) s1 s1' /\ only_changes (inview y2) s2 s2').
Proof.
  intros. assert (QA1 : nr A2 = nr A1) by (match goal with H : agree _ A1 _ _ _ |- _ => apply H end). assert (QA2 : nc A2 = nc A1) by (match goal with H : agree _ A1 _ _ _ |- _ => apply H end). assert (Qx1 : nr x2 = nr x1) by (match goal with H : agree _ x1 _ _ _ |- _ => apply H end). assert (Qx2 : nc x2 = nc x1) by (match goal with H : agree _ x1 _ _ _ |- _ => apply H end).
  eapply (hr_two_runs _ [(A1, A2, in_triangle u : nat -> nat -> Prop); (x1, x2, anywhere : nat -> nat -> Prop)]); [ins3 tt|vdest; congruence|vdest; congruence|].
  intros Hsh HR. assert (RA : forall v, reads (hl _ y1 y2 s1 s2 v) A1 A2 (vtri u)) by (intros v; apply HR; cbn; auto). assert (Rx : forall v, reads (hl _ y1 y2 s1 s2 v) x1 x2 everywhere) by (intros v; apply HR; cbn; auto).
  assert (HA : forall V1 V2 v, In (V1, V2, v) [(A1, A2, in_triangle u : nat -> nat -> Prop); (x1, x2, anywhere : nat -> nat -> Prop)] -> disj V1 y1 /\ disj V2 y2)
    by (intros ? ? ? HIn; cbn in HIn; repeat destruct HIn as [HIn|HIn]; first [contradiction|inversion HIn; subst; split; assumption]).
  clear HR. vdest. opts.
  all: repeat sdo; vdest; eapply hemv_nb with (n := n); fin.
Qed.

Theorem symv_nobeta_two_runs u alpha A1 A2 x1 x2 y1 y2 s1 s2 n : u = Upper \/ u = Lower ->
  shape A1 n n -> isvec x1 n -> isvec y1 n -> isvec y2 n ->
  vinj y1 -> vinj y2 -> disj A1 y1 -> disj A2 y2 -> disj x1 y1 -> disj x2 y2 ->
  agree (in_triangle u) A1 s1 A2 s2 -> agree anywhere x1 s1 x2 s2 ->
  both_return (symv_nobeta u alpha A1 x1 y1) (symv_nobeta u alpha A2 x2 y2) s1 s2 (fun _ s1' s2' =>
    agree anywhere y1 s1' y2 s2' /\ only_changes (inview y1) s1 s1' /\ only_changes (inview y2) s2 s2').
Proof.
  intros. assert (QA1 : nr A2 = nr A1) by (match goal with H : agree _ A1 _ _ _ |- _ => apply H end). assert (QA2 : nc A2 = nc A1) by (match goal with H : agree _ A1 _ _ _ |- _ => apply H end). assert (Qx1 : nr x2 = nr x1) by (match goal with H : agree _ x1 _ _ _ |- _ => apply H end). assert (Qx2 : nc x2 = nc x1) by (match goal with H : agree _ x1 _ _ _ |- _ => apply H end).
  eapply (hr_two_runs _ [(A1, A2, in_triangle u : nat -> nat -> Prop); (x1, x2, anywhere : nat -> nat -> Prop)]); [ins3 tt|vdest; congruence|vdest; congruence|].
  intros Hsh HR. assert (RA : forall v, reads (hl _ y1 y2 s1 s2 v) A1 A2 (vtri u)) by (intros v; apply HR; cbn; auto). assert (Rx : forall v, reads (hl _ y1 y2 s1 s2 v) x1 x2 everywhere) by (intros v; apply HR; cbn; auto).
  assert (HA : forall V1 V2 v, In (V1, V2, v) [(A1, A2, in_triangle u : nat -> nat -> Prop); (x1, x2, anywhere : nat -> nat -> Prop)] -> disj V1 y1 /\ disj V2 y2)
    by (intros ? ? ? HIn; cbn in HIn; repeat destruct HIn as [HIn|HIn]; first [contradiction|inversion HIn; subst; split; assumption]).
  clear HR. vdest. opts.
  all: repeat sdo; vdest; eapply symv_nb with (n := n); fin.
Qed.

Theorem hemm_nobeta_two_runs sd u alpha A1 A2 B1 B2 C1 C2 s1 s2 m n : u = Upper \/ u = Lower \/ u = General ->
  (match sd with Left => shape A1 m m | Right => shape A1 n n end) -> shape B1 m n -> shape C1 m n -> shape C2 m n ->
  vinj C1 -> vinj C2 -> disj A1 C1 -> disj A2 C2 -> disj B1 C1 -> disj B2 C2 ->
  agree (stored_half u) A1 s1 A2 s2 -> agree anywhere B1 s1 B2 s2 ->
  both_return (hemm_nobeta sd u alpha A1 B1 C1) (hemm_nobeta sd u alpha A2 B2 C2) s1 s2 (fun _ s1' s2' =>
    agree anywhere C1 s1' C2 s2' /\ only_changes (inview C1) s1 s1' /\ only_changes (inview C2) s2 s2').
Proof.
  intros. assert (QA1 : nr A2 = nr A1) by (match goal with H : agree _ A1 _ _ _ |- _ => apply H end). assert (QA2 : nc A2 = nc A1) by (match goal with H : agree _ A1 _ _ _ |- _ => apply H end). assert (QB1 : nr B2 = nr B1) by (match goal with H : agree _ B1 _ _ _ |- _ => apply H end). assert (QB2 : nc B2 = nc B1) by (match goal with H : agree _ B1 _ _ _ |- _ => apply H end).
  eapply (hr_two_runs _ [(A1, A2, stored_half u : nat -> nat -> Prop); (B1, B2, anywhere : nat -> nat -> Prop)]); [ins3 tt|vdest; congruence|vdest; congruence|].
  intros Hsh HR. assert (RA : forall v, reads (hl _ C1 C2 s1 s2 v) A1 A2 (vtriU u)) by (intros v; apply HR; cbn; auto). assert (RB : forall v, reads (hl _ C1 C2 s1 s2 v) B1 B2 everywhere) by (intros v; apply HR; cbn; auto).
  assert (HA : forall V1 V2 v, In (V1, V2, v) [(A1, A2, stored_half u : nat -> nat -> Prop); (B1, B2, anywhere : nat -> nat -> Prop)] -> disj V1 C1 /\ disj V2 C2)
    by (intros ? ? ? HIn; cbn in HIn; repeat destruct HIn as [HIn|HIn]; first [contradiction|inversion HIn; subst; split; assumption]).
  clear HR. vdest. opts.
  all: repeat sdo; vdest; eapply hemm_nb with (m := m) (n := n); fin.
Qed.

Theorem symm_nobeta_two_runs sd u alpha A1 A2 B1 B2 C1 C2 s1 s2 m n : u = Upper \/ u = Lower \/ u = General ->
  (match sd with Left => shape A1 m m | Right => shape A1 n n end) -> shape B1 m n -> shape C1 m n -> shape C2 m n ->
  vinj C1 -> vinj C2 -> disj A1 C1 -> disj A2 C2 -> disj B1 C1 -> disj B2 C2 ->
  agree (stored_half u) A1 s1 A2 s2 -> agree anywhere B1 s1 B2 s2 ->
  both_return (symm_nobeta sd u alpha A1 B1 C1) (symm_nobeta sd u alpha A2 B2 C2) s1 s2 (fun _ s1' s2' =>
    agree anywhere C1 s1' C2 s2' /\ only_changes (inview C1) s1 s1' /\ only_changes (inview C2) s2 s2').
Proof.
  intros. assert (QA1 : nr A2 = nr A1) by (match goal with H : agree _ A1 _ _ _ |- _ => apply H end). assert (QA2 : nc A2 = nc A1) by (match goal with H : agree _ A1 _ _ _ |- _ => apply H end). assert (QB1 : nr B2 = nr B1) by (match goal with H : agree _ B1 _ _ _ |- _ => apply H end). assert (QB2 : nc B2 = nc B1) by (match goal with H : agree _ B1 _ _ _ |- _ => apply H end).
  eapply (hr_two_runs _ [(A1, A2, stored_half u : nat -> nat -> Prop); (B1, B2, anywhere : nat -> nat -> Prop)]); [ins3 tt|vdest; congruence|vdest; congruence|].
  intros Hsh HR. assert (RA : forall v, reads (hl _ C1 C2 s1 s2 v) A1 A2 (vtriU u)) by (intros v; apply HR; cbn; auto). assert (RB : forall v, reads (hl _ C1 C2 s1 s2 v) B1 B2 everywhere) by (intros v; apply HR; cbn; auto).
  assert (HA : forall V1 V2 v, In (V1, V2, v) [(A1, A2, stored_half u : nat -> nat -> Prop); (B1, B2, anywhere : nat -> nat -> Prop)] -> disj V1 C1 /\ disj V2 C2)
    by (intros ? ? ? HIn; cbn in HIn; repeat destruct HIn as [HIn|HIn]; first [contradiction|inversion HIn; subst; split; assumption]).
  clear HR. vdest. opts.
  all: repeat sdo; vdest; eapply symm_nb with (m := m) (n := n); fin.
Qed.

Theorem herk_nobeta_two_runs u o alpha A1 A2 C1 C2 s1 s2 n k : (u = Upper \/ u = Lower \/ u = General) /\ (o = NoTrans \/ o = ConjTrans) ->
  (match o with NoTrans => shape A1 n k | _ => shape A1 k n end) -> shape C1 n n -> shape C2 n n ->
  vinj C1 -> vinj C2 -> disj A1 C1 -> disj A2 C2 ->
  agree anywhere A1 s1 A2 s2 ->
  both_return (herk_nobeta u o alpha A1 C1) (herk_nobeta u o alpha A2 C2) s1 s2 (fun _ s1' s2' =>
    agree (in_triangle u) C1 s1' C2 s2' /\ only_changes (inview C1) s1 s1' /\ only_changes (inview C2) s2 s2').
Proof.
  intros. assert (QA1 : nr A2 = nr A1) by (match goal with H : agree _ A1 _ _ _ |- _ => apply H end). assert (QA2 : nc A2 = nc A1) by (match goal with H : agree _ A1 _ _ _ |- _ => apply H end).
  eapply (hr_two_runs _ [(A1, A2, anywhere : nat -> nat -> Prop)]); [ins3 tt|vdest; congruence|vdest; congruence|].
  intros Hsh HR. assert (RA : forall v, reads (hl _ C1 C2 s1 s2 v) A1 A2 everywhere) by (intros v; apply HR; cbn; auto).
  assert (HA : forall V1 V2 v, In (V1, V2, v) [(A1, A2, anywhere : nat -> nat -> Prop)] -> disj V1 C1 /\ disj V2 C2)
    by (intros ? ? ? HIn; cbn in HIn; repeat destruct HIn as [HIn|HIn]; first [contradiction|inversion HIn; subst; split; assumption]).
  clear HR. vdest. opts.
  all: repeat sdo; vdest; eapply herk_nb with (n := n) (k := k); fin.
Qed.

Theorem syrk_nobeta_two_runs u o alpha A1 A2 C1 C2 s1 s2 n k : (u = Upper \/ u = Lower \/ u = General) /\ (o = NoTrans \/ o = Trans) ->
  (match o with NoTrans => shape A1 n k | _ => shape A1 k n end) -> shape C1 n n -> shape C2 n n ->
  vinj C1 -> vinj C2 -> disj A1 C1 -> disj A2 C2 ->
  agree anywhere A1 s1 A2 s2 ->
  both_return (syrk_nobeta u o alpha A1 C1) (syrk_nobeta u o alpha A2 C2) s1 s2 (fun _ s1' s2' =>
    agree (in_triangle u) C1 s1' C2 s2' /\ only_changes (inview C1) s1 s1' /\ only_changes (inview C2) s2 s2').
Proof.
  intros. assert (QA1 : nr A2 = nr A1) by (match goal with H : agree _ A1 _ _ _ |- _ => apply H end). assert (QA2 : nc A2 = nc A1) by (match goal with H : agree _ A1 _ _ _ |- _ => apply H end).
  eapply (hr_two_runs _ [(A1, A2, anywhere : nat -> nat -> Prop)]); [ins3 tt|vdest; congruence|vdest; congruence|].
  intros Hsh HR. assert (RA : forall v, reads (hl _ C1 C2 s1 s2 v) A1 A2 everywhere) by (intros v; apply HR; cbn; auto).
  assert (HA : forall V1 V2 v, In (V1, V2, v) [(A1, A2, anywhere : nat -> nat -> Prop)] -> disj V1 C1 /\ disj V2 C2)
    by (intros ? ? ? HIn; cbn in HIn; repeat destruct HIn as [HIn|HIn]; first [contradiction|inversion HIn; subst; split; assumption]).
  clear HR. vdest. opts.
  all: repeat sdo; vdest; eapply syrk_nb with (n := n) (k := k); fin.
Qed.

Theorem her2k_nobeta_two_runs u o alpha A1 A2 B1 B2 C1 C2 s1 s2 n k : (u = Upper \/ u = Lower \/ u = General) /\ (o = NoTrans \/ o = ConjTrans) ->
  (match o with NoTrans => shape A1 n k | _ => shape A1 k n end) -> (match o with NoTrans => shape B1 n k | _ => shape B1 k n end) -> shape C1 n n -> shape C2 n n ->
  vinj C1 -> vinj C2 -> disj A1 C1 -> disj A2 C2 -> disj B1 C1 -> disj B2 C2 ->
  agree anywhere A1 s1 A2 s2 -> agree anywhere B1 s1 B2 s2 ->
  both_return (her2k_nobeta u o alpha A1 B1 C1) (her2k_nobeta u o alpha A2 B2 C2) s1 s2 (fun _ s1' s2' =>
    agree (in_triangle u) C1 s1' C2 s2' /\ only_changes (inview C1) s1 s1' /\ only_changes (inview C2) s2 s2').
Proof.
  intros. assert (QA1 : nr A2 = nr A1) by (match goal with H : agree _ A1 _ _ _ |- _ => apply H end). assert (QA2 : nc A2 = nc A1) by (match goal with H : agree _ A1 _ _ _ |- _ => apply H end). assert (QB1 : nr B2 = nr B1) by (match goal with H : agree _ B1 _ _ _ |- _ => apply H end). assert (QB2 : nc B2 = nc B1) by (match goal with H : agree _ B1 _ _ _ |- _ => apply H end).
  eapply (hr_two_runs _ [(A1, A2, anywhere : nat -> nat -> Prop); (B1, B2, anywhere : nat -> nat -> Prop)]); [ins3 tt|vdest; congruence|vdest; congruence|].
  intros Hsh HR. assert (RA : forall v, reads (hl _ C1 C2 s1 s2 v) A1 A2 everywhere) by (intros v; apply HR; cbn; auto). assert (RB : forall v, reads (hl _ C1 C2 s1 s2 v) B1 B2 everywhere) by (intros v; apply HR; cbn; auto).
  assert (HA : forall V1 V2 v, In (V1, V2, v) [(A1, A2, anywhere : nat -> nat -> Prop); (B1, B2, anywhere : nat -> nat -> Prop)] -> disj V1 C1 /\ disj V2 C2)
    by (intros ? ? ? HIn; cbn in HIn; repeat destruct HIn as [HIn|HIn]; first [contradiction|inversion HIn; subst; split; assumption]).
  clear HR. vdest. opts.
  all: repeat sdo; vdest; eapply her2k_nb with (n := n) (k := k); fin.
Qed.

Theorem syr2k_nobeta_two_runs u o alpha A1 A2 B1 B2 C1 C2 s1 s2 n k : (u = Upper \/ u = Lower \/ u = General) /\ (o = NoTrans \/ o = Trans) ->
  (match o with NoTrans => shape A1 n k | _ => shape A1 k n end) -> (match o with NoTrans => shape B1 n k | _ => shape B1 k n end) -> shape C1 n n -> shape C2 n n ->
  vinj C1 -> vinj C2 -> disj A1 C1 -> disj A2 C2 -> disj B1 C1 -> disj B2 C2 ->
  agree anywhere A1 s1 A2 s2 -> agree anywhere B1 s1 B2 s2 ->
  both_return (syr2k_nobeta u o alpha A1 B1 C1) (syr2k_nobeta u o alpha A2 B2 C2) s1 s2 (fun _ s1' s2' =>
    agree (in_triangle u) C1 s1' C2 s2' /\ only_changes (inview C1) s1 s1' /\ only_changes (inview C2) s2 s2').
Proof.
  intros. assert (QA1 : nr A2 = nr A1) by (match goal with H : agree _ A1 _ _ _ |- _ => apply H end). assert (QA2 : nc A2 = nc A1) by (match goal with H : agree _ A1 _ _ _ |- _ => apply H end). assert (QB1 : nr B2 = nr B1) by (match goal with H : agree _ B1 _ _ _ |- _ => apply H end). assert (QB2 : nc B2 = nc B1) by (match goal with H : agree _ B1 _ _ _ |- _ => apply H end).
  eapply (hr_two_runs _ [(A1, A2, anywhere : nat -> nat -> Prop); (B1, B2, anywhere : nat -> nat -> Prop)]); [ins3 tt|vdest; congruence|vdest; congruence|].
  intros Hsh HR. assert (RA : forall v, reads (hl _ C1 C2 s1 s2 v) A1 A2 everywhere) by (intros v; apply HR; cbn; auto). assert (RB : forall v, reads (hl _ C1 C2 s1 s2 v) B1 B2 everywhere) by (intros v; apply HR; cbn; auto).
  assert (HA : forall V1 V2 v, In (V1, V2, v) [(A1, A2, anywhere : nat -> nat -> Prop); (B1, B2, anywhere : nat -> nat -> Prop)] -> disj V1 C1 /\ disj V2 C2)
    by (intros ? ? ? HIn; cbn in HIn; repeat destruct HIn as [HIn|HIn]; first [contradiction|inversion HIn; subst; split; assumption]).
  clear HR. vdest. opts.
  all: repeat sdo; vdest; eapply syr2k_nb with (n := n) (k := k); fin.
Qed.
End S.
