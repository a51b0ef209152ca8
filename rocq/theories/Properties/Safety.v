(** * C02: argument checks.  Any scalar arithmetic; no assumption about overlap between arguments. *)
From Coq Require Import Bool Arith ZArith Lia List.
From Verif.Core Require Import Scalar Prog View Rel Instances.
From Verif.Spec Require Import LinAlg Outcome.
From Verif.Model Require Import Gemm Blas1 Blas2 Blas3.
From Verif.Proof Require Import RelTac BlasRel HRel NoBetaProof TwoRuns.
From Verif.Properties Require Import ExTac Blas2.
Import ListNotations.

Ltac vdest := unfold opshape, shape, isvec in *;
  repeat match goal with H : _ /\ _ |- _ => destruct H end.
(** enumerate the option arguments that occur *)
Ltac opts :=
  repeat match goal with
  | H : ?u = Upper \/ _ |- _ => destruct H as [->|H]
  | H : ?u = Lower \/ _ |- _ => destruct H as [->|H]
  | H : ?o = NoTrans \/ _ |- _ => destruct H as [->|H]
  | H : ?u = General |- _ => rewrite H in *; clear H
  | H : ?u = Lower |- _ => rewrite H in *; clear H
  | H : ?u = Trans |- _ => rewrite H in *; clear H
  | H : ?u = ConjTrans |- _ => rewrite H in *; clear H
  end.
Ltac sdo := match goal with
  | sd : side_t |- _ => destruct sd
  | o : op_t |- _ => destruct o; try congruence
  end.
Ltac fin := cbn [is_nt op_eqb notransb sel]; try eassumption; try reflexivity; try congruence;
  try (split; congruence); auto.


Ltac rejfin H := exfalso; apply H; clear H; unfold opshape, shape, isvec;
  rewrite ?Nat.eqb_eq, ?andb_true_iff in *; rewrite ?Nat.eqb_eq in *.
Ltac rejs := let H := fresh "Hbad" in intros; match goal with K : ~ _ |- _ => rename K into H end;
  match goal with |- rejects ?p _ => let f := (match p with ?f _ => f end) in idtac end;
  cbv beta delta [gemm gemv ger geru her syr her2 syr2 hemv symv trmv trsv trsm trmm hemm symm herk syrk her2k syr2k]; cbv zeta;
  repeat (apply rej_check; [assumption|intros ?]); exfalso; apply H; clear H; unfold opshape, shape, isvec;
  repeat match goal with
  | K : (_ && _) = true |- _ => apply andb_prop in K; destruct K
  | K : (_ =? _) = true |- _ => apply Nat.eqb_eq in K
  end;
  repeat match goal with
  | o : op_t |- _ => destruct o; try discriminate
  | u : uplo_t |- _ => destruct u; try discriminate
  | sd : side_t |- _ => destruct sd
  end; cbn [is_nt op_eqb notransb sel] in *;
  repeat split; try tauto; try discriminate; repeat eexists; try eassumption; try reflexivity; try congruence.

Section S.
Context {E : Env}.
Implicit Types (A B C x y : view) (s : state).

Theorem gemm_safe ta tb alpha (beta : coef) A B C s m n k : ta <> Conj /\ tb <> Conj ->
  opshape ta A m k -> opshape tb B k n -> shape C m n ->
  returns (gemm ta tb alpha A B beta C) s (fun _ s' => only_changes (cells C anywhere) s s').
Proof.
  intros. apply safe_run. intros R HR WC.
  pose proof (HR A everywhere) as RA. pose proof (HR B everywhere) as RB. pose proof (HR C everywhere) as RC.
  clear HR. vdest. opts.
  all: repeat sdo; vdest; eapply gemm_rr with (m := m) (n := n) (k := k); fin.
Qed.
Theorem gemm_rejects ta tb alpha (beta : coef) A B C s : check_input = true -> 
  ~ ((ta <> Conj /\ tb <> Conj) /\ exists m n k, opshape ta A m k /\ opshape tb B k n /\ shape C m n) -> rejects (gemm ta tb alpha A B beta C) s.
Proof. rejs. Qed.

Theorem gemv_safe o alpha (beta : coef) A x y s m n : opshape o A m n -> isvec x n -> isvec y m ->
  returns (gemv o alpha A x beta y) s (fun _ s' => only_changes (cells y anywhere) s s').
Proof.
  intros. apply safe_run. intros R HR WC.
  pose proof (HR A everywhere) as RA. pose proof (HR x everywhere) as Rx. pose proof (HR y everywhere) as Ry.
  clear HR. vdest. opts.
  all: repeat sdo; vdest; eapply gemv_rr with (m := m) (n := n); fin.
Qed.
Theorem gemv_rejects o alpha (beta : coef) A x y s : check_input = true -> nc x = 1 -> nc y = 1 -> 
  ~ (exists m n, opshape o A m n /\ isvec x n /\ isvec y m) -> rejects (gemv o alpha A x beta y) s.
Proof. rejs. Qed.

Theorem ger_safe alpha x y A s m n : isvec x m -> isvec y n -> shape A m n ->
  returns (ger alpha x y A) s (fun _ s' => only_changes (cells A anywhere) s s').
Proof.
  intros. apply safe_run. intros R HR WC.
  pose proof (HR x everywhere) as Rx. pose proof (HR y everywhere) as Ry. pose proof (HR A everywhere) as RA.
  clear HR. vdest. opts.
  all: repeat sdo; vdest; eapply ger_rr; fin.
Qed.
Theorem ger_rejects alpha x y A s : check_input = true -> nc x = 1 -> nc y = 1 -> 
  ~ (exists m n, isvec x m /\ isvec y n /\ shape A m n) -> rejects (ger alpha x y A) s.
Proof. rejs. Qed.

Theorem geru_safe alpha x y A s m n : isvec x m -> isvec y n -> shape A m n ->
  returns (geru alpha x y A) s (fun _ s' => only_changes (cells A anywhere) s s').
Proof.
  intros. apply safe_run. intros R HR WC.
  pose proof (HR x everywhere) as Rx. pose proof (HR y everywhere) as Ry. pose proof (HR A everywhere) as RA.
  clear HR. vdest. opts.
  all: repeat sdo; vdest; eapply geru_rr; fin.
Qed.
Theorem geru_rejects alpha x y A s : check_input = true -> nc x = 1 -> nc y = 1 -> 
  ~ (exists m n, isvec x m /\ isvec y n /\ shape A m n) -> rejects (geru alpha x y A) s.
Proof. rejs. Qed.

Theorem her_safe u alpha x A s n : u = Upper \/ u = Lower ->
  isvec x n -> shape A n n ->
  returns (her u alpha x A) s (fun _ s' => only_changes (cells A (in_triangle u)) s s').
Proof.
  intros. apply safe_run. intros R HR WC.
  pose proof (HR x everywhere) as Rx. pose proof (HR A (vtri u)) as RA.
  clear HR. vdest. opts.
  all: repeat sdo; vdest; eapply her_rr; fin.
Qed.
Theorem her_rejects u alpha x A s : check_input = true -> nc x = 1 -> 
  ~ ((u = Upper \/ u = Lower) /\ exists n, isvec x n /\ shape A n n) -> rejects (her u alpha x A) s.
Proof. rejs. Qed.

Theorem syr_safe u alpha x A s n : u = Upper \/ u = Lower ->
  isvec x n -> shape A n n ->
  returns (syr u alpha x A) s (fun _ s' => only_changes (cells A (in_triangle u)) s s').
Proof.
  intros. apply safe_run. intros R HR WC.
  pose proof (HR x everywhere) as Rx. pose proof (HR A (vtri u)) as RA.
  clear HR. vdest. opts.
  all: repeat sdo; vdest; eapply syr_rr; fin.
Qed.
Theorem syr_rejects u alpha x A s : check_input = true -> nc x = 1 -> 
  ~ ((u = Upper \/ u = Lower) /\ exists n, isvec x n /\ shape A n n) -> rejects (syr u alpha x A) s.
Proof. rejs. Qed.

Theorem her2_safe u alpha x y A s n : u = Upper \/ u = Lower ->
  isvec x n -> isvec y n -> shape A n n ->
  returns (her2 u alpha x y A) s (fun _ s' => only_changes (cells A (in_triangle u)) s s').
Proof.
  intros. apply safe_run. intros R HR WC.
  pose proof (HR x everywhere) as Rx. pose proof (HR y everywhere) as Ry. pose proof (HR A (vtri u)) as RA.
  clear HR. vdest. opts.
  all: repeat sdo; vdest; eapply her2_rr; fin.
Qed.
Theorem her2_rejects u alpha x y A s : check_input = true -> nc x = 1 -> nc y = 1 -> 
  ~ ((u = Upper \/ u = Lower) /\ exists n, isvec x n /\ isvec y n /\ shape A n n) -> rejects (her2 u alpha x y A) s.
Proof. rejs. Qed.

Theorem syr2_safe u alpha x y A s n : u = Upper \/ u = Lower ->
  isvec x n -> isvec y n -> shape A n n ->
  returns (syr2 u alpha x y A) s (fun _ s' => only_changes (cells A (in_triangle u)) s s').
Proof.
  intros. apply safe_run. intros R HR WC.
  pose proof (HR x everywhere) as Rx. pose proof (HR y everywhere) as Ry. pose proof (HR A (vtri u)) as RA.
  clear HR. vdest. opts.
  all: repeat sdo; vdest; eapply syr2_rr; fin.
Qed.
Theorem syr2_rejects u alpha x y A s : check_input = true -> nc x = 1 -> nc y = 1 -> 
  ~ ((u = Upper \/ u = Lower) /\ exists n, isvec x n /\ isvec y n /\ shape A n n) -> rejects (syr2 u alpha x y A) s.
Proof. rejs. Qed.

Theorem hemv_safe u alpha (beta : coef) A x y s n : u = Upper \/ u = Lower ->
  shape A n n -> isvec x n -> isvec y n ->
  returns (hemv u alpha A x beta y) s (fun _ s' => only_changes (cells y anywhere) s s').
Proof.
  intros. apply safe_run. intros R HR WC.
  pose proof (HR A (vtri u)) as RA. pose proof (HR x everywhere) as Rx. pose proof (HR y everywhere) as Ry.
  clear HR. vdest. opts.
  all: repeat sdo; vdest; eapply hemv_rr with (n := n); fin.
Qed.
Theorem hemv_rejects u alpha (beta : coef) A x y s : check_input = true -> nc x = 1 -> nc y = 1 -> 
  ~ ((u = Upper \/ u = Lower) /\ exists n, shape A n n /\ isvec x n /\ isvec y n) -> rejects (hemv u alpha A x beta y) s.
Proof. rejs. Qed.

Theorem symv_safe u alpha (beta : coef) A x y s n : u = Upper \/ u = Lower ->
  shape A n n -> isvec x n -> isvec y n ->
  returns (symv u alpha A x beta y) s (fun _ s' => only_changes (cells y anywhere) s s').
Proof.
  intros. apply safe_run. intros R HR WC.
  pose proof (HR A (vtri u)) as RA. pose proof (HR x everywhere) as Rx. pose proof (HR y everywhere) as Ry.
  clear HR. vdest. opts.
  all: repeat sdo; vdest; eapply symv_rr with (n := n); fin.
Qed.
Theorem symv_rejects u alpha (beta : coef) A x y s : check_input = true -> nc x = 1 -> nc y = 1 -> 
  ~ ((u = Upper \/ u = Lower) /\ exists n, shape A n n /\ isvec x n /\ isvec y n) -> rejects (symv u alpha A x beta y) s.
Proof. rejs. Qed.

Theorem trmv_safe u o d A x s n : u = Upper \/ u = Lower ->
  shape A n n -> isvec x n ->
  returns (trmv u o d A x) s (fun _ s' => only_changes (cells x anywhere) s s').
Proof.
  intros. apply safe_run. intros R HR WC.
  pose proof (HR A (vtrid u d)) as RA. pose proof (HR x everywhere) as Rx.
  clear HR. vdest. opts.
  all: repeat sdo; vdest; eapply trmv_rr with (n := n); fin.
Qed.
Theorem trmv_rejects u o d A x s : check_input = true -> nc x = 1 -> 
  ~ ((u = Upper \/ u = Lower) /\ exists n, shape A n n /\ isvec x n) -> rejects (trmv u o d A x) s.
Proof. rejs. Qed.

Theorem trsv_safe u o d A x s n : u = Upper \/ u = Lower ->
  shape A n n -> isvec x n ->
  returns (trsv u o d A x) s (fun _ s' => only_changes (cells x anywhere) s s').
Proof.
  intros. apply safe_run. intros R HR WC.
  pose proof (HR A (vtrid u d)) as RA. pose proof (HR x everywhere) as Rx.
  clear HR. vdest. opts.
  all: repeat sdo; vdest; eapply trsv_rr with (n := n); fin.
Qed.
Theorem trsv_rejects u o d A x s : check_input = true -> nc x = 1 -> 
  ~ ((u = Upper \/ u = Lower) /\ exists n, shape A n n /\ isvec x n) -> rejects (trsv u o d A x) s.
Proof. rejs. Qed.

Theorem trsm_safe sd u o d alpha A B s m n : (u = Upper \/ u = Lower) /\ o <> Conj ->
  (match sd with Left => shape A m m | Right => shape A n n end) -> shape B m n ->
  returns (trsm sd u o d alpha A B) s (fun _ s' => only_changes (cells B anywhere) s s').
Proof.
  intros. apply safe_run. intros R HR WC.
  pose proof (HR A (vtrid u d)) as RA. pose proof (HR B everywhere) as RB.
  clear HR. vdest. opts.
  all: repeat sdo; vdest; eapply trsm_rr with (m := m) (n := n); fin.
Qed.
Theorem trsm_rejects sd u o d alpha A B s : check_input = true -> 
  ~ (((u = Upper \/ u = Lower) /\ o <> Conj) /\ exists m n, (match sd with Left => shape A m m | Right => shape A n n end) /\ shape B m n) -> rejects (trsm sd u o d alpha A B) s.
Proof. rejs. Qed.

Theorem trmm_safe sd u o d alpha A B s m n : (u = Upper \/ u = Lower) /\ o <> Conj ->
  (match sd with Left => shape A m m | Right => shape A n n end) -> shape B m n ->
  returns (trmm sd u o d alpha A B) s (fun _ s' => only_changes (cells B anywhere) s s').
Proof.
  intros. apply safe_run. intros R HR WC.
  pose proof (HR A (vtrid u d)) as RA. pose proof (HR B everywhere) as RB.
  clear HR. vdest. opts.
  all: repeat sdo; vdest; eapply trmm_rr with (m := m) (n := n); fin.
Qed.
Theorem trmm_rejects sd u o d alpha A B s : check_input = true -> 
  ~ (((u = Upper \/ u = Lower) /\ o <> Conj) /\ exists m n, (match sd with Left => shape A m m | Right => shape A n n end) /\ shape B m n) -> rejects (trmm sd u o d alpha A B) s.
Proof. rejs. Qed.

Theorem hemm_safe sd u alpha (beta : coef) A B C s m n : u = Upper \/ u = Lower \/ u = General ->
  (match sd with Left => shape A m m | Right => shape A n n end) -> shape B m n -> shape C m n ->
  returns (hemm sd u alpha A B beta C) s (fun _ s' => only_changes (cells C anywhere) s s').
Proof.
  intros. apply safe_run. intros R HR WC.
  pose proof (HR A (vtriU u)) as RA. pose proof (HR B everywhere) as RB. pose proof (HR C everywhere) as RC.
  clear HR. vdest. opts.
  all: repeat sdo; vdest; eapply hemm_rr with (m := m) (n := n); fin.
Qed.
Theorem hemm_rejects sd u alpha (beta : coef) A B C s : check_input = true -> 
  ~ ((u = Upper \/ u = Lower \/ u = General) /\ exists m n, (match sd with Left => shape A m m | Right => shape A n n end) /\ shape B m n /\ shape C m n) -> rejects (hemm sd u alpha A B beta C) s.
Proof. rejs. Qed.

Theorem symm_safe sd u alpha (beta : coef) A B C s m n : u = Upper \/ u = Lower \/ u = General ->
  (match sd with Left => shape A m m | Right => shape A n n end) -> shape B m n -> shape C m n ->
  returns (symm sd u alpha A B beta C) s (fun _ s' => only_changes (cells C anywhere) s s').
Proof.
  intros. apply safe_run. intros R HR WC.
  pose proof (HR A (vtriU u)) as RA. pose proof (HR B everywhere) as RB. pose proof (HR C everywhere) as RC.
  clear HR. vdest. opts.
  all: repeat sdo; vdest; eapply symm_rr with (m := m) (n := n); fin.
Qed.
Theorem symm_rejects sd u alpha (beta : coef) A B C s : check_input = true -> 
  ~ ((u = Upper \/ u = Lower \/ u = General) /\ exists m n, (match sd with Left => shape A m m | Right => shape A n n end) /\ shape B m n /\ shape C m n) -> rejects (symm sd u alpha A B beta C) s.
Proof. rejs. Qed.

Theorem herk_safe u o alpha (beta : coef) A C s n k : (u = Upper \/ u = Lower \/ u = General) /\ (o = NoTrans \/ o = ConjTrans) ->
  (match o with NoTrans => shape A n k | _ => shape A k n end) -> shape C n n ->
  returns (herk u o alpha A beta C) s (fun _ s' => only_changes (cells C (in_triangle u)) s s').
Proof.
  intros. apply safe_run. intros R HR WC.
  pose proof (HR A everywhere) as RA. pose proof (HR C (vtri u)) as RC.
  clear HR. vdest. opts.
  all: repeat sdo; vdest; eapply herk_rr with (n := n) (k := k); fin.
Qed.
Theorem herk_rejects u o alpha (beta : coef) A C s : check_input = true -> 
  ~ (((u = Upper \/ u = Lower \/ u = General) /\ (o = NoTrans \/ o = ConjTrans)) /\ exists n k, (match o with NoTrans => shape A n k | _ => shape A k n end) /\ shape C n n) -> rejects (herk u o alpha A beta C) s.
Proof. rejs. Qed.

Theorem syrk_safe u o alpha (beta : coef) A C s n k : (u = Upper \/ u = Lower \/ u = General) /\ (o = NoTrans \/ o = Trans) ->
  (match o with NoTrans => shape A n k | _ => shape A k n end) -> shape C n n ->
  returns (syrk u o alpha A beta C) s (fun _ s' => only_changes (cells C (in_triangle u)) s s').
Proof.
  intros. apply safe_run. intros R HR WC.
  pose proof (HR A everywhere) as RA. pose proof (HR C (vtri u)) as RC.
  clear HR. vdest. opts.
  all: repeat sdo; vdest; eapply syrk_rr with (n := n) (k := k); fin.
Qed.
Theorem syrk_rejects u o alpha (beta : coef) A C s : check_input = true -> 
  ~ (((u = Upper \/ u = Lower \/ u = General) /\ (o = NoTrans \/ o = Trans)) /\ exists n k, (match o with NoTrans => shape A n k | _ => shape A k n end) /\ shape C n n) -> rejects (syrk u o alpha A beta C) s.
Proof. rejs. Qed.

Theorem her2k_safe u o alpha (beta : coef) A B C s n k : (u = Upper \/ u = Lower \/ u = General) /\ (o = NoTrans \/ o = ConjTrans) ->
  (match o with NoTrans => shape A n k | _ => shape A k n end) -> (match o with NoTrans => shape B n k | _ => shape B k n end) -> shape C n n ->
  returns (her2k u o alpha A B beta C) s (fun _ s' => only_changes (cells C (in_triangle u)) s s').
Proof.
  intros. apply safe_run. intros R HR WC.
  pose proof (HR A everywhere) as RA. pose proof (HR B everywhere) as RB. pose proof (HR C (vtri u)) as RC.
  clear HR. vdest. opts.
  all: repeat sdo; vdest; eapply her2k_rr with (n := n) (k := k); fin.
Qed.
Theorem her2k_rejects u o alpha (beta : coef) A B C s : check_input = true -> 
  ~ (((u = Upper \/ u = Lower \/ u = General) /\ (o = NoTrans \/ o = ConjTrans)) /\ exists n k, (match o with NoTrans => shape A n k | _ => shape A k n end) /\ (match o with NoTrans => shape B n k | _ => shape B k n end) /\ shape C n n) -> rejects (her2k u o alpha A B beta C) s.
Proof. rejs. Qed.

Theorem syr2k_safe u o alpha (beta : coef) A B C s n k : (u = Upper \/ u = Lower \/ u = General) /\ (o = NoTrans \/ o = Trans) ->
  (match o with NoTrans => shape A n k | _ => shape A k n end) -> (match o with NoTrans => shape B n k | _ => shape B k n end) -> shape C n n ->
  returns (syr2k u o alpha A B beta C) s (fun _ s' => only_changes (cells C (in_triangle u)) s s').
Proof.
  intros. apply safe_run. intros R HR WC.
  pose proof (HR A everywhere) as RA. pose proof (HR B everywhere) as RB. pose proof (HR C (vtri u)) as RC.
  clear HR. vdest. opts.
  all: repeat sdo; vdest; eapply syr2k_rr with (n := n) (k := k); fin.
Qed.
Theorem syr2k_rejects u o alpha (beta : coef) A B C s : check_input = true -> 
  ~ (((u = Upper \/ u = Lower \/ u = General) /\ (o = NoTrans \/ o = Trans)) /\ exists n k, (match o with NoTrans => shape A n k | _ => shape A k n end) /\ (match o with NoTrans => shape B n k | _ => shape B k n end) /\ shape C n n) -> rejects (syr2k u o alpha A B beta C) s.
Proof. rejs. Qed.
End S.
