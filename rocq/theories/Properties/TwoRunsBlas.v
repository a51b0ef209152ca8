(** * C15 and C16: results depend only on the referenced elements of the arguments, not on how they are
    laid out in memory or on anything else in memory.  Any scalar arithmetic (no law is assumed). *)
From Coq Require Import Bool Arith ZArith Lia List.
From Verif.Core Require Import Scalar Prog View Rel Instances.
From Verif.Spec Require Import LinAlg Outcome.
From Verif.Model Require Import Gemm Blas1 Blas2 Blas3.
From Verif.Proof Require Import RelTac BlasRel HRel NoBetaProof TwoRuns.
From Verif.Properties Require Import ExTac Blas2.
Import ListNotations.


Ltac vdest := unfold opshape, shape, isvec in *;
  repeat match goal with H : _ /\ _ |- _ => destruct H end.
(** enumerate the option arguments that occur *)
Ltac opts :=
  repeat match goal with
  | H : ?u = Upper \/ _ |- _ => destruct H as [->|H]
  | H : ?u = Lower \/ _ |- _ => destruct H as [->|H]
  | H : ?o = NoTrans \/ _ |- _ => destruct H as [->|H]
  | H : ?u = General |- _ => rewrite H in *; clear H
  | H : ?u = Lower |- _ => rewrite H in *; clear H
  | H : ?u = Trans |- _ => rewrite H in *; clear H
  | H : ?u = ConjTrans |- _ => rewrite H in *; clear H
  end.
Ltac sdo := match goal with
  | sd : side_t |- _ => destruct sd
  | o : op_t |- _ => destruct o; try congruence
  end.
Ltac fin := cbn [is_nt op_eqb notransb sel]; try eassumption; try reflexivity; try congruence;
  try (split; congruence); auto.

Section S.
Context {E : Env}.
Implicit Types (A B C x y : view) (s : state).
Lemma tri_vtri u i j : in_triangle u i j = vtri u i j. Proof. reflexivity. Qed.
Ltac ins3 l := first [ apply agrees_nil | apply agrees_cons; [eassumption|ins3 l] ].
Ltac ap3 := first [ apply apart_nil | apply apart_cons; [eassumption|eassumption|ap3] ].

Theorem gemm_two_runs ta tb alpha (beta : coef) A1 A2 B1 B2 C1 C2 s1 s2 m n k : ta <> Conj /\ tb <> Conj ->
  opshape ta A1 m k -> opshape tb B1 k n -> shape C1 m n ->
  vinj C1 -> vinj C2 -> disj A1 C1 -> disj A2 C2 -> disj B1 C1 -> disj B2 C2 ->
  agree anywhere A1 s1 A2 s2 -> agree anywhere B1 s1 B2 s2 -> agree anywhere C1 s1 C2 s2 ->
  both_return (gemm ta tb alpha A1 B1 beta C1) (gemm ta tb alpha A2 B2 beta C2) s1 s2 (fun _ s1' s2' =>
    agree anywhere C1 s1' C2 s2' /\ only_changes (inview C1) s1 s1' /\ only_changes (inview C2) s2 s2').
Proof.
  intros. eapply (two_runs _ [(A1, A2, anywhere : nat -> nat -> Prop); (B1, B2, anywhere : nat -> nat -> Prop)]); [ins3 tt|eassumption|ap3|assumption|assumption|].
  intros R HR RC WC. assert (RA : reads R A1 A2 everywhere) by (apply HR; cbn; auto). assert (RB : reads R B1 B2 everywhere) by (apply HR; cbn; auto).
  vdest. clear HR. opts.
  all: repeat sdo; vdest; eapply gemm_rr with (m := m) (n := n) (k := k); fin.
Qed.

Theorem gemv_two_runs o alpha (beta : coef) A1 A2 x1 x2 y1 y2 s1 s2 m n : opshape o A1 m n -> isvec x1 n -> isvec y1 m ->
  vinj y1 -> vinj y2 -> disj A1 y1 -> disj A2 y2 -> disj x1 y1 -> disj x2 y2 ->
  agree anywhere A1 s1 A2 s2 -> agree anywhere x1 s1 x2 s2 -> agree anywhere y1 s1 y2 s2 ->
  both_return (gemv o alpha A1 x1 beta y1) (gemv o alpha A2 x2 beta y2) s1 s2 (fun _ s1' s2' =>
    agree anywhere y1 s1' y2 s2' /\ only_changes (inview y1) s1 s1' /\ only_changes (inview y2) s2 s2').
Proof.
  intros. eapply (two_runs _ [(A1, A2, anywhere : nat -> nat -> Prop); (x1, x2, anywhere : nat -> nat -> Prop)]); [ins3 tt|eassumption|ap3|assumption|assumption|].
  intros R HR RC WC. assert (RA : reads R A1 A2 everywhere) by (apply HR; cbn; auto). assert (Rx : reads R x1 x2 everywhere) by (apply HR; cbn; auto).
  vdest. clear HR. opts.
  all: repeat sdo; vdest; eapply gemv_rr with (m := m) (n := n); fin.
Qed.

Theorem ger_two_runs alpha x1 x2 y1 y2 A1 A2 s1 s2 m n : isvec x1 m -> isvec y1 n -> shape A1 m n ->
  vinj A1 -> vinj A2 -> disj x1 A1 -> disj x2 A2 -> disj y1 A1 -> disj y2 A2 ->
  agree anywhere x1 s1 x2 s2 -> agree anywhere y1 s1 y2 s2 -> agree anywhere A1 s1 A2 s2 ->
  both_return (ger alpha x1 y1 A1) (ger alpha x2 y2 A2) s1 s2 (fun _ s1' s2' =>
    agree anywhere A1 s1' A2 s2' /\ only_changes (inview A1) s1 s1' /\ only_changes (inview A2) s2 s2').
Proof.
  intros. eapply (two_runs _ [(x1, x2, anywhere : nat -> nat -> Prop); (y1, y2, anywhere : nat -> nat -> Prop)]); [ins3 tt|eassumption|ap3|assumption|assumption|].
  intros R HR RC WC. assert (Rx : reads R x1 x2 everywhere) by (apply HR; cbn; auto). assert (Ry : reads R y1 y2 everywhere) by (apply HR; cbn; auto).
  vdest. clear HR. opts.
  all: repeat sdo; vdest; eapply ger_rr; fin.
Qed.

Theorem geru_two_runs alpha x1 x2 y1 y2 A1 A2 s1 s2 m n : isvec x1 m -> isvec y1 n -> shape A1 m n ->
  vinj A1 -> vinj A2 -> disj x1 A1 -> disj x2 A2 -> disj y1 A1 -> disj y2 A2 ->
  agree anywhere x1 s1 x2 s2 -> agree anywhere y1 s1 y2 s2 -> agree anywhere A1 s1 A2 s2 ->
  both_return (geru alpha x1 y1 A1) (geru alpha x2 y2 A2) s1 s2 (fun _ s1' s2' =>
    agree anywhere A1 s1' A2 s2' /\ only_changes (inview A1) s1 s1' /\ only_changes (inview A2) s2 s2').
Proof.
  intros. eapply (two_runs _ [(x1, x2, anywhere : nat -> nat -> Prop); (y1, y2, anywhere : nat -> nat -> Prop)]); [ins3 tt|eassumption|ap3|assumption|assumption|].
  intros R HR RC WC. assert (Rx : reads R x1 x2 everywhere) by (apply HR; cbn; auto). assert (Ry : reads R y1 y2 everywhere) by (apply HR; cbn; auto).
  vdest. clear HR. opts.
  all: repeat sdo; vdest; eapply geru_rr; fin.
Qed.

Theorem her_two_runs u alpha x1 x2 A1 A2 s1 s2 n : u = Upper \/ u = Lower ->
  isvec x1 n -> shape A1 n n ->
  vinj A1 -> vinj A2 -> disj x1 A1 -> disj x2 A2 ->
  agree anywhere x1 s1 x2 s2 -> agree (in_triangle u) A1 s1 A2 s2 ->
  both_return (her u alpha x1 A1) (her u alpha x2 A2) s1 s2 (fun _ s1' s2' =>
    agree (in_triangle u) A1 s1' A2 s2' /\ only_changes (inview A1) s1 s1' /\ only_changes (inview A2) s2 s2').
Proof.
  intros. eapply (two_runs _ [(x1, x2, anywhere : nat -> nat -> Prop)]); [ins3 tt|eassumption|ap3|assumption|assumption|].
  intros R HR RC WC. assert (Rx : reads R x1 x2 everywhere) by (apply HR; cbn; auto).
  vdest. clear HR. opts.
  all: repeat sdo; vdest; eapply her_rr; fin.
Qed.

Theorem syr_two_runs u alpha x1 x2 A1 A2 s1 s2 n : u = Upper \/ u = Lower ->
  isvec x1 n -> shape A1 n n ->
  vinj A1 -> vinj A2 -> disj x1 A1 -> disj x2 A2 ->
  agree anywhere x1 s1 x2 s2 -> agree (in_triangle u) A1 s1 A2 s2 ->
  both_return (syr u alpha x1 A1) (syr u alpha x2 A2) s1 s2 (fun _ s1' s2' =>
    agree (in_triangle u) A1 s1' A2 s2' /\ only_changes (inview A1) s1 s1' /\ only_changes (inview A2) s2 s2').
Proof.
  intros. eapply (two_runs _ [(x1, x2, anywhere : nat -> nat -> Prop)]); [ins3 tt|eassumption|ap3|assumption|assumption|].
  intros R HR RC WC. assert (Rx : reads R x1 x2 everywhere) by (apply HR; cbn; auto).
  vdest. clear HR. opts.
  all: repeat sdo; vdest; eapply syr_rr; fin.
Qed.

Theorem her2_two_runs u alpha x1 x2 y1 y2 A1 A2 s1 s2 n : u = Upper \/ u = Lower ->
  isvec x1 n -> isvec y1 n -> shape A1 n n ->
  vinj A1 -> vinj A2 -> disj x1 A1 -> disj x2 A2 -> disj y1 A1 -> disj y2 A2 ->
  agree anywhere x1 s1 x2 s2 -> agree anywhere y1 s1 y2 s2 -> agree (in_triangle u) A1 s1 A2 s2 ->
  both_return (her2 u alpha x1 y1 A1) (her2 u alpha x2 y2 A2) s1 s2 (fun _ s1' s2' =>
    agree (in_triangle u) A1 s1' A2 s2' /\ only_changes (inview A1) s1 s1' /\ only_changes (inview A2) s2 s2').
Proof.
  intros. eapply (two_runs _ [(x1, x2, anywhere : nat -> nat -> Prop); (y1, y2, anywhere : nat -> nat -> Prop)]); [ins3 tt|eassumption|ap3|assumption|assumption|].
  intros R HR RC WC. assert (Rx : reads R x1 x2 everywhere) by (apply HR; cbn; auto). assert (Ry : reads R y1 y2 everywhere) by (apply HR; cbn; auto).
  vdest. clear HR. opts.
  all: repeat sdo; vdest; eapply her2_rr; fin.
Qed.

Theorem syr2_two_runs u alpha x1 x2 y1 y2 A1 A2 s1 s2 n : u = Upper \/ u = Lower ->
  isvec x1 n -> isvec y1 n -> shape A1 n n ->
  vinj A1 -> vinj A2 -> disj x1 A1 -> disj x2 A2 -> disj y1 A1 -> disj y2 A2 ->
  agree anywhere x1 s1 x2 s2 -> agree anywhere y1 s1 y2 s2 -> agree (in_triangle u) A1 s1 A2 s2 ->
  both_return (syr2 u alpha x1 y1 A1) (syr2 u alpha x2 y2 A2) s1 s2 (fun _ s1' s2' =>
    agree (in_triangle u) A1 s1' A2 s2' /\ only_changes (inview A1) s1 s1' /\ only_changes (inview A2) s2 s2').
Proof.
  intros. eapply (two_runs _ [(x1, x2, anywhere : nat -> nat -> Prop); (y1, y2, anywhere : nat -> nat -> Prop)]); [ins3 tt|eassumption|ap3|assumption|assumption|].
  intros R HR RC WC. assert (Rx : reads R x1 x2 everywhere) by (apply HR; cbn; auto). assert (Ry : reads R y1 y2 everywhere) by (apply HR; cbn; auto).
  vdest. clear HR. opts.
  all: repeat sdo; vdest; eapply syr2_rr; fin.
Qed.

Theorem hemv_two_runs u alpha (beta : coef) A1 A2 x1 x2 y1 y2 s1 s2 n : u = Upper \/ u = Lower ->
  shape A1 n n -> isvec x1 n -> isvec y1 n ->
  vinj y1 -> vinj y2 -> disj A1 y1 -> disj A2 y2 -> disj x1 y1 -> disj x2 y2 ->
  agree (in_triangle u) A1 s1 A2 s2 -> agree anywhere x1 s1 x2 s2 -> agree anywhere y1 s1 y2 s2 ->
  both_return (hemv u alpha A1 x1 beta y1) (hemv u alpha A2 x2 beta y2) s1 s2 (fun _ s1' s2' =>
    agree anywhere y1 s1' y2 s2' /\ only_changes (inview y1) s1 s1' /\ only_changes (inview y2) s2 s2').
Proof.
  intros. eapply (two_runs _ [(A1, A2, in_triangle u : nat -> nat -> Prop); (x1, x2, anywhere : nat -> nat -> Prop)]); [ins3 tt|eassumption|ap3|assumption|assumption|].
  intros R HR RC WC. assert (RA : reads R A1 A2 (vtri u)) by (apply HR; cbn; auto). assert (Rx : reads R x1 x2 everywhere) by (apply HR; cbn; auto).
  vdest. clear HR. opts.
  all: repeat sdo; vdest; eapply hemv_rr with (n := n); fin.
Qed.

Theorem symv_two_runs u alpha (beta : coef) A1 A2 x1 x2 y1 y2 s1 s2 n : u = Upper \/ u = Lower ->
  shape A1 n n -> isvec x1 n -> isvec y1 n ->
  vinj y1 -> vinj y2 -> disj A1 y1 -> disj A2 y2 -> disj x1 y1 -> disj x2 y2 ->
  agree (in_triangle u) A1 s1 A2 s2 -> agree anywhere x1 s1 x2 s2 -> agree anywhere y1 s1 y2 s2 ->
  both_return (symv u alpha A1 x1 beta y1) (symv u alpha A2 x2 beta y2) s1 s2 (fun _ s1' s2' =>
    agree anywhere y1 s1' y2 s2' /\ only_changes (inview y1) s1 s1' /\ only_changes (inview y2) s2 s2').
Proof.
  intros. eapply (two_runs _ [(A1, A2, in_triangle u : nat -> nat -> Prop); (x1, x2, anywhere : nat -> nat -> Prop)]); [ins3 tt|eassumption|ap3|assumption|assumption|].
  intros R HR RC WC. assert (RA : reads R A1 A2 (vtri u)) by (apply HR; cbn; auto). assert (Rx : reads R x1 x2 everywhere) by (apply HR; cbn; auto).
  vdest. clear HR. opts.
  all: repeat sdo; vdest; eapply symv_rr with (n := n); fin.
Qed.

Theorem trmv_two_runs u o d A1 A2 x1 x2 s1 s2 n : u = Upper \/ u = Lower ->
  shape A1 n n -> isvec x1 n ->
  vinj x1 -> vinj x2 -> disj A1 x1 -> disj A2 x2 ->
  agree (referenced u d) A1 s1 A2 s2 -> agree anywhere x1 s1 x2 s2 ->
  both_return (trmv u o d A1 x1) (trmv u o d A2 x2) s1 s2 (fun _ s1' s2' =>
    agree anywhere x1 s1' x2 s2' /\ only_changes (inview x1) s1 s1' /\ only_changes (inview x2) s2 s2').
Proof.
  intros. eapply (two_runs _ [(A1, A2, referenced u d : nat -> nat -> Prop)]); [ins3 tt|eassumption|ap3|assumption|assumption|].
  intros R HR RC WC. assert (RA : reads R A1 A2 (vtrid u d)) by (apply HR; cbn; auto).
  vdest. clear HR. opts.
  all: repeat sdo; vdest; eapply trmv_rr with (n := n); fin.
Qed.

Theorem trsv_two_runs u o d A1 A2 x1 x2 s1 s2 n : u = Upper \/ u = Lower ->
  shape A1 n n -> isvec x1 n ->
  vinj x1 -> vinj x2 -> disj A1 x1 -> disj A2 x2 ->
  agree (referenced u d) A1 s1 A2 s2 -> agree anywhere x1 s1 x2 s2 ->
  both_return (trsv u o d A1 x1) (trsv u o d A2 x2) s1 s2 (fun _ s1' s2' =>
    agree anywhere x1 s1' x2 s2' /\ only_changes (inview x1) s1 s1' /\ only_changes (inview x2) s2 s2').
Proof.
  intros. eapply (two_runs _ [(A1, A2, referenced u d : nat -> nat -> Prop)]); [ins3 tt|eassumption|ap3|assumption|assumption|].
  intros R HR RC WC. assert (RA : reads R A1 A2 (vtrid u d)) by (apply HR; cbn; auto).
  vdest. clear HR. opts.
  all: repeat sdo; vdest; eapply trsv_rr with (n := n); fin.
Qed.

Theorem trsm_two_runs sd u o d alpha A1 A2 B1 B2 s1 s2 m n : (u = Upper \/ u = Lower) /\ o <> Conj ->
  (match sd with Left => shape A1 m m | Right => shape A1 n n end) -> shape B1 m n ->
  vinj B1 -> vinj B2 -> disj A1 B1 -> disj A2 B2 ->
  agree (referenced u d) A1 s1 A2 s2 -> agree anywhere B1 s1 B2 s2 ->
  both_return (trsm sd u o d alpha A1 B1) (trsm sd u o d alpha A2 B2) s1 s2 (fun _ s1' s2' =>
    agree anywhere B1 s1' B2 s2' /\ only_changes (inview B1) s1 s1' /\ only_changes (inview B2) s2 s2').
Proof.
  intros. eapply (two_runs _ [(A1, A2, referenced u d : nat -> nat -> Prop)]); [ins3 tt|eassumption|ap3|assumption|assumption|].
  intros R HR RC WC. assert (RA : reads R A1 A2 (vtrid u d)) by (apply HR; cbn; auto).
  vdest. clear HR. opts.
  all: repeat sdo; vdest; eapply trsm_rr with (m := m) (n := n); fin.
Qed.

Theorem trmm_two_runs sd u o d alpha A1 A2 B1 B2 s1 s2 m n : (u = Upper \/ u = Lower) /\ o <> Conj ->
  (match sd with Left => shape A1 m m | Right => shape A1 n n end) -> shape B1 m n ->
  vinj B1 -> vinj B2 -> disj A1 B1 -> disj A2 B2 ->
  agree (referenced u d) A1 s1 A2 s2 -> agree anywhere B1 s1 B2 s2 ->
  both_return (trmm sd u o d alpha A1 B1) (trmm sd u o d alpha A2 B2) s1 s2 (fun _ s1' s2' =>
    agree anywhere B1 s1' B2 s2' /\ only_changes (inview B1) s1 s1' /\ only_changes (inview B2) s2 s2').
Proof.
  intros. eapply (two_runs _ [(A1, A2, referenced u d : nat -> nat -> Prop)]); [ins3 tt|eassumption|ap3|assumption|assumption|].
  intros R HR RC WC. assert (RA : reads R A1 A2 (vtrid u d)) by (apply HR; cbn; auto).
  vdest. clear HR. opts.
  all: repeat sdo; vdest; eapply trmm_rr with (m := m) (n := n); fin.
Qed.

Theorem hemm_two_runs sd u alpha (beta : coef) A1 A2 B1 B2 C1 C2 s1 s2 m n : u = Upper \/ u = Lower \/ u = General ->
  (match sd with Left => shape A1 m m | Right => shape A1 n n end) -> shape B1 m n -> shape C1 m n ->
  vinj C1 -> vinj C2 -> disj A1 C1 -> disj A2 C2 -> disj B1 C1 -> disj B2 C2 ->
  agree (stored_half u) A1 s1 A2 s2 -> agree anywhere B1 s1 B2 s2 -> agree anywhere C1 s1 C2 s2 ->
  both_return (hemm sd u alpha A1 B1 beta C1) (hemm sd u alpha A2 B2 beta C2) s1 s2 (fun _ s1' s2' =>
    agree anywhere C1 s1' C2 s2' /\ only_changes (inview C1) s1 s1' /\ only_changes (inview C2) s2 s2').
Proof.
  intros. eapply (two_runs _ [(A1, A2, stored_half u : nat -> nat -> Prop); (B1, B2, anywhere : nat -> nat -> Prop)]); [ins3 tt|eassumption|ap3|assumption|assumption|].
  intros R HR RC WC. assert (RA : reads R A1 A2 (vtriU u)) by (apply HR; cbn; auto). assert (RB : reads R B1 B2 everywhere) by (apply HR; cbn; auto).
  vdest. clear HR. opts.
  all: repeat sdo; vdest; eapply hemm_rr with (m := m) (n := n); fin.
Qed.

Theorem symm_two_runs sd u alpha (beta : coef) A1 A2 B1 B2 C1 C2 s1 s2 m n : u = Upper \/ u = Lower \/ u = General ->
  (match sd with Left => shape A1 m m | Right => shape A1 n n end) -> shape B1 m n -> shape C1 m n ->
  vinj C1 -> vinj C2 -> disj A1 C1 -> disj A2 C2 -> disj B1 C1 -> disj B2 C2 ->
  agree (stored_half u) A1 s1 A2 s2 -> agree anywhere B1 s1 B2 s2 -> agree anywhere C1 s1 C2 s2 ->
  both_return (symm sd u alpha A1 B1 beta C1) (symm sd u alpha A2 B2 beta C2) s1 s2 (fun _ s1' s2' =>
    agree anywhere C1 s1' C2 s2' /\ only_changes (inview C1) s1 s1' /\ only_changes (inview C2) s2 s2').
Proof.
  intros. eapply (two_runs _ [(A1, A2, stored_half u : nat -> nat -> Prop); (B1, B2, anywhere : nat -> nat -> Prop)]); [ins3 tt|eassumption|ap3|assumption|assumption|].
  intros R HR RC WC. assert (RA : reads R A1 A2 (vtriU u)) by (apply HR; cbn; auto). assert (RB : reads R B1 B2 everywhere) by (apply HR; cbn; auto).
  vdest. clear HR. opts.
  all: repeat sdo; vdest; eapply symm_rr with (m := m) (n := n); fin.
Qed.

Theorem herk_two_runs u o alpha (beta : coef) A1 A2 C1 C2 s1 s2 n k : (u = Upper \/ u = Lower \/ u = General) /\ (o = NoTrans \/ o = ConjTrans) ->
  (match o with NoTrans => shape A1 n k | _ => shape A1 k n end) -> shape C1 n n ->
  vinj C1 -> vinj C2 -> disj A1 C1 -> disj A2 C2 ->
  agree anywhere A1 s1 A2 s2 -> agree (in_triangle u) C1 s1 C2 s2 ->
  both_return (herk u o alpha A1 beta C1) (herk u o alpha A2 beta C2) s1 s2 (fun _ s1' s2' =>
    agree (in_triangle u) C1 s1' C2 s2' /\ only_changes (inview C1) s1 s1' /\ only_changes (inview C2) s2 s2').
Proof.
  intros. eapply (two_runs _ [(A1, A2, anywhere : nat -> nat -> Prop)]); [ins3 tt|eassumption|ap3|assumption|assumption|].
  intros R HR RC WC. assert (RA : reads R A1 A2 everywhere) by (apply HR; cbn; auto).
  vdest. clear HR. opts.
  all: repeat sdo; vdest; eapply herk_rr with (n := n) (k := k); fin.
Qed.

Theorem syrk_two_runs u o alpha (beta : coef) A1 A2 C1 C2 s1 s2 n k : (u = Upper \/ u = Lower \/ u = General) /\ (o = NoTrans \/ o = Trans) ->
  (match o with NoTrans => shape A1 n k | _ => shape A1 k n end) -> shape C1 n n ->
  vinj C1 -> vinj C2 -> disj A1 C1 -> disj A2 C2 ->
  agree anywhere A1 s1 A2 s2 -> agree (in_triangle u) C1 s1 C2 s2 ->
  both_return (syrk u o alpha A1 beta C1) (syrk u o alpha A2 beta C2) s1 s2 (fun _ s1' s2' =>
    agree (in_triangle u) C1 s1' C2 s2' /\ only_changes (inview C1) s1 s1' /\ only_changes (inview C2) s2 s2').
Proof.
  intros. eapply (two_runs _ [(A1, A2, anywhere : nat -> nat -> Prop)]); [ins3 tt|eassumption|ap3|assumption|assumption|].
  intros R HR RC WC. assert (RA : reads R A1 A2 everywhere) by (apply HR; cbn; auto).
  vdest. clear HR. opts.
  all: repeat sdo; vdest; eapply syrk_rr with (n := n) (k := k); fin.
Qed.

Theorem her2k_two_runs u o alpha (beta : coef) A1 A2 B1 B2 C1 C2 s1 s2 n k : (u = Upper \/ u = Lower \/ u = General) /\ (o = NoTrans \/ o = ConjTrans) ->
  (match o with NoTrans => shape A1 n k | _ => shape A1 k n end) -> (match o with NoTrans => shape B1 n k | _ => shape B1 k n end) -> shape C1 n n ->
  vinj C1 -> vinj C2 -> disj A1 C1 -> disj A2 C2 -> disj B1 C1 -> disj B2 C2 ->
  agree anywhere A1 s1 A2 s2 -> agree anywhere B1 s1 B2 s2 -> agree (in_triangle u) C1 s1 C2 s2 ->
  both_return (her2k u o alpha A1 B1 beta C1) (her2k u o alpha A2 B2 beta C2) s1 s2 (fun _ s1' s2' =>
    agree (in_triangle u) C1 s1' C2 s2' /\ only_changes (inview C1) s1 s1' /\ only_changes (inview C2) s2 s2').
Proof.
  intros. eapply (two_runs _ [(A1, A2, anywhere : nat -> nat -> Prop); (B1, B2, anywhere : nat -> nat -> Prop)]); [ins3 tt|eassumption|ap3|assumption|assumption|].
  intros R HR RC WC. assert (RA : reads R A1 A2 everywhere) by (apply HR; cbn; auto). assert (RB : reads R B1 B2 everywhere) by (apply HR; cbn; auto).
  vdest. clear HR. opts.
  all: repeat sdo; vdest; eapply her2k_rr with (n := n) (k := k); fin.
Qed.

Theorem syr2k_two_runs u o alpha (beta : coef) A1 A2 B1 B2 C1 C2 s1 s2 n k : (u = Upper \/ u = Lower \/ u = General) /\ (o = NoTrans \/ o = Trans) ->
  (match o with NoTrans => shape A1 n k | _ => shape A1 k n end) -> (match o with NoTrans => shape B1 n k | _ => shape B1 k n end) -> shape C1 n n ->
  vinj C1 -> vinj C2 -> disj A1 C1 -> disj A2 C2 -> disj B1 C1 -> disj B2 C2 ->
  agree anywhere A1 s1 A2 s2 -> agree anywhere B1 s1 B2 s2 -> agree (in_triangle u) C1 s1 C2 s2 ->
  both_return (syr2k u o alpha A1 B1 beta C1) (syr2k u o alpha A2 B2 beta C2) s1 s2 (fun _ s1' s2' =>
    agree (in_triangle u) C1 s1' C2 s2' /\ only_changes (inview C1) s1 s1' /\ only_changes (inview C2) s2 s2').
Proof.
  intros. eapply (two_runs _ [(A1, A2, anywhere : nat -> nat -> Prop); (B1, B2, anywhere : nat -> nat -> Prop)]); [ins3 tt|eassumption|ap3|assumption|assumption|].
  intros R HR RC WC. assert (RA : reads R A1 A2 everywhere) by (apply HR; cbn; auto). assert (RB : reads R B1 B2 everywhere) by (apply HR; cbn; auto).
  vdest. clear HR. opts.
  all: repeat sdo; vdest; eapply syr2k_rr with (n := n) (k := k); fin.
Qed.
End S.
