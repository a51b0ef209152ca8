(** From relational proofs to statements about runs that may report failures *)
From Coq Require Import Bool Arith ZArith Lia List.
From Verif.Core Require Import Scalar Prog View Rel Slice.
From Verif.Spec Require Import Outcome.
From Verif.Proof Require Import RelTac TwoRuns.
Import ListNotations.

Definition isrt (e : exn) : Prop := match e with RuntimeError _ => True | _ => False end.
Section S.
Context {E : Env}.
Implicit Types (A B C : view) (s : state) (w v : nat -> nat -> Prop).

Lemma two_runs_x R0 ins C1 C2 w (p1 p2 : M R0) s1 s2 :
  agrees ins s1 s2 -> agree w C1 s1 C2 s2 -> apart ins C1 C2 -> vinj C1 -> vinj C2 ->
  (forall R, (forall A1 A2 v, In (A1, A2, v) ins -> reads R A1 A2 v) -> reads R C1 C2 w -> writes R C1 C2 w -> rr R isrt p1 p2) ->
  both_complete p1 p2 s1 s2 (fun s1' s2' =>
    agree w C1 s1' C2 s2' /\ only_changes (inview C1) s1 s1' /\ only_changes (inview C2) s2 s2').
Proof.
  intros Hag HagC Hap I1 I2 Hrr.
  set (outs := [(C1, C2, w)] : params).
  assert (Hall : forall A1 A2 v, In (A1, A2, v) (ins ++ outs) -> agree v A1 s1 A2 s2).
  { intros A1 A2 v HA. apply in_app_or in HA. destruct HA as [HA|[e|[]]]; [auto|inversion e; subst; auto]. }
  assert (Hsh : same_shape (ins ++ outs)).
  { intros A1 A2 v HA. destruct (Hall _ _ _ HA) as (H1 & H2 & _). auto. }
  assert (Hsep : separated ins outs).
  { split.
    - intros ? ? ? [e|[]]. inversion e; subst; auto.
    - intros A1 A2 v D1 D2 w' HA [e|[]]. inversion e; subst. apply in_app_or in HA. destruct HA as [HA|[e'|[]]].
      + right. eapply Hap; eauto.
      + inversion e'; subst. auto. }
  assert (Hsd : same_data (ins ++ outs) s1 s2).
  { intros A1 A2 v HA. destruct (Hall _ _ _ HA) as (H1 & H2 & H3). auto. }
  assert (HCo : In (C1, C2, w) outs) by (left; auto).
  assert (Hrun : rr (lrel ins outs s1 s2) isrt p1 p2).
  { apply Hrr.
    - intros. apply lrel_reads; auto. apply in_or_app; auto.
    - apply lrel_reads; auto. apply in_or_app; auto.
    - apply lrel_writes; auto. }
  assert (Hfin : forall s1' s2', lrel ins outs s1 s2 s1' s2' ->
    agree w C1 s1' C2 s2' /\ only_changes (inview C1) s1 s1' /\ only_changes (inview C2) s2 s2').
  { intros s1' s2' (H3 & H4 & H5). split; [|split].
    - destruct HagC as (K1 & K2 & _). split; auto. split; auto. apply (H3 C1 C2 w). apply in_or_app; auto.
    - destruct H4 as [F1 F2]. split; auto. intros l Hl. apply F1. intros (? & ? & ? & [e|[]] & Hi). inversion e; subst; auto.
    - destruct H5 as [F1 F2]. split; auto. intros l Hl. apply F1. intros (? & ? & ? & [e|[]] & Hi). inversion e; subst; auto. }
  assert (K := Hrun s1 s2 (lrel_refl ins outs s1 s2 Hsd)).
  destruct (p1 s1) as [a1 u1|e1 u1| |] eqn:e1', (p2 s2) as [a2 u2|e2 u2| |] eqn:e2'; try tauto.
  - destruct K as [<- K]. left. exists a1, u1, u2. auto.
  - destruct K as (<- & Hx & K). right. destruct e1; cbn in Hx; [tauto|]. exists info, u1, u2. auto.
Qed.
Lemma safe_run_x R0 C w (p : M R0) s :
  (forall R, (forall A v, reads R A A v) -> writes R C C w -> rr R isrt p p) ->
  completes p s (fun s' => only_changes (cells C w) s s').
Proof.
  intros Hrr.
  assert (Hrun : rr (fun u1 u2 => u1 = u2 /\ only_changes (cells C w) s u1) isrt p p).
  { apply Hrr.
    - intros A v. split; auto. split; auto. intros u1 u2 [-> _]; auto.
    - split; auto. split; auto. intros u1 u2 [-> [H1 H2]] i j x Hi Hj Hw. split; auto. split; auto.
      intros l Hl. unfold setm; cbn [mem]. destruct (Z.eqb_spec l (ad C i j)) as [->|]; auto.
      exfalso. apply Hl. exists i, j. auto. }
  specialize (Hrun s s (Logic.conj eq_refl (Logic.conj (fun _ _ => eq_refl) eq_refl))).
  destruct (p s) as [a u1|e u1| |] eqn:Ep; try tauto.
  - destruct Hrun as [_ [_ H]]. left. exists a, u1. auto.
  - destruct Hrun as (_ & Hx & _ & H). right. destruct e; cbn in Hx; [tauto|]. exists info, u1. auto.
Qed.
(** several outputs *)
Definition cells_l (outs : list (view * (nat -> nat -> Prop))) (l : Z) : Prop := exists C w, In (C, w) outs /\ cells C w l.
Lemma safe_run_l R0 outs (p : M R0) s :
  (forall R, (forall A v, reads R A A v) -> (forall C w, In (C, w) outs -> writes R C C w) ->
     (forall u1 u2, R u1 u2 -> imem u1 = imem s /\ imem u2 = imem s) -> rr R isrt p p) ->
  completes p s (fun s' => only_changes (cells_l outs) s s').
Proof.
  intros Hrr.
  assert (Hrun : rr (fun u1 u2 => u1 = u2 /\ only_changes (cells_l outs) s u1) isrt p p).
  { apply Hrr.
    - intros A v. split; auto. split; auto. intros u1 u2 [-> _]; auto.
    - intros C w HC. split; auto. split; auto. intros u1 u2 [-> [H1 H2]] i j x Hi Hj Hw. split; auto. split; auto.
      intros l Hl. unfold setm; cbn [mem]. destruct (Z.eqb_spec l (ad C i j)) as [->|]; auto.
      exfalso. apply Hl. exists C, w. split; auto. exists i, j. auto.
    - intros u1 u2 [-> [_ H]]. auto. }
  specialize (Hrun s s (Logic.conj eq_refl (Logic.conj (fun _ _ => eq_refl) eq_refl))).
  destruct (p s) as [a u1|e u1| |] eqn:Ep; try tauto.
  - destruct Hrun as [_ [_ H]]. left. exists a, u1. auto.
  - destruct Hrun as (_ & Hx & _ & H). right. destruct e; cbn in Hx; [tauto|]. exists info, u1. auto.
Qed.
(** two outputs *)
Lemma two_runs_x2 R0 ins C1 C2 w D1 D2 v (p1 p2 : M R0) s1 s2 :
  agrees ins s1 s2 -> agree w C1 s1 C2 s2 -> agree v D1 s1 D2 s2 -> apart ins C1 C2 -> apart ins D1 D2 ->
  disj C1 D1 -> disj C2 D2 -> vinj C1 -> vinj C2 -> vinj D1 -> vinj D2 ->
  (forall R, (forall A1 A2 v, In (A1, A2, v) ins -> reads R A1 A2 v) -> reads R C1 C2 w -> writes R C1 C2 w -> reads R D1 D2 v -> writes R D1 D2 v ->
     (forall u1 u2, R u1 u2 -> imem u1 = imem s1 /\ imem u2 = imem s2) -> rr R isrt p1 p2) ->
  both_complete p1 p2 s1 s2 (fun s1' s2' =>
    agree w C1 s1' C2 s2' /\ agree v D1 s1' D2 s2' /\ only_changes (fun l => inview C1 l \/ inview D1 l) s1 s1' /\ only_changes (fun l => inview C2 l \/ inview D2 l) s2 s2').
Proof.
  intros Hag HagC HagD Hap HapD DC1 DC2 I1 I2 J1 J2 Hrr.
  set (outs := [(C1, C2, w); (D1, D2, v)] : params).
  assert (Hall : forall A1 A2 v, In (A1, A2, v) (ins ++ outs) -> agree v A1 s1 A2 s2).
  { intros A1 A2 v' HA. apply in_app_or in HA. destruct HA as [HA|[e|[e|[]]]]; [auto|inversion e; subst; auto|inversion e; subst; auto]. }
  assert (Hsh : same_shape (ins ++ outs)).
  { intros A1 A2 v' HA. destruct (Hall _ _ _ HA) as (H1 & H2 & _). auto. }
  assert (Hsym : forall A B, disj A B -> disj B A) by (intros A B HD i j i' j' Hi Hj Hi' Hj' e; eapply HD; eauto).
  assert (Hsep : separated ins outs).
  { split.
    - intros ? ? ? [e|[e|[]]]; inversion e; subst; auto.
    - intros A1 A2 v' G1 G2 w' HA [e|[e|[]]]; inversion e; subst; apply in_app_or in HA; destruct HA as [HA|[e'|[e'|[]]]].
      1: right; eapply Hap; eauto. 3: right; eapply HapD; eauto. all: inversion e'; subst; auto. }
  assert (Hsd : same_data (ins ++ outs) s1 s2).
  { intros A1 A2 v' HA. destruct (Hall _ _ _ HA) as (H1 & H2 & H3). auto. }
  assert (HCo : In (C1, C2, w) outs) by (left; auto).
  assert (HDo : In (D1, D2, v) outs) by (right; left; auto).
  assert (Hrun : rr (lrel ins outs s1 s2) isrt p1 p2).
  { apply Hrr.
    - intros. apply lrel_reads; auto. apply in_or_app; auto.
    - apply lrel_reads; auto. apply in_or_app; auto.
    - apply lrel_writes; auto.
    - apply lrel_reads; auto. apply in_or_app; auto.
    - apply lrel_writes; auto.
    - intros u1 u2 (_ & [_ F1] & [_ F2]). auto. }
  assert (Hfin : forall s1' s2', lrel ins outs s1 s2 s1' s2' ->
    agree w C1 s1' C2 s2' /\ agree v D1 s1' D2 s2' /\ only_changes (fun l => inview C1 l \/ inview D1 l) s1 s1' /\ only_changes (fun l => inview C2 l \/ inview D2 l) s2 s2').
  { intros s1' s2' (H3 & H4 & H5). split; [|split; [|split]].
    - destruct HagC as (K1 & K2 & _). split; auto. split; auto. apply (H3 C1 C2 w). apply in_or_app; auto.
    - destruct HagD as (K1 & K2 & _). split; auto. split; auto. apply (H3 D1 D2 v). apply in_or_app; auto.
    - destruct H4 as [F1 F2]. split; auto. intros l Hl. apply F1. intros (? & ? & ? & [e|[e|[]]] & Hi); inversion e; subst; auto.
    - destruct H5 as [F1 F2]. split; auto. intros l Hl. apply F1. intros (? & ? & ? & [e|[e|[]]] & Hi); inversion e; subst; auto. }
  assert (K := Hrun s1 s2 (lrel_refl ins outs s1 s2 Hsd)).
  destruct (p1 s1) as [a1 u1|e1 u1| |] eqn:e1', (p2 s2) as [a2 u2|e2 u2| |] eqn:e2'; try tauto.
  - destruct K as [<- K]. left. exists a1, u1, u2. auto.
  - destruct K as (<- & Hx & K). right. destruct e1; cbn in Hx; [tauto|]. exists info, u1, u2. auto.
Qed.
End S.

(** parts of arguments *)
Ltac rpart :=
  lazymatch goal with
  | |- reads _ (subv _ _ _ _ _) (subv _ _ _ _ _) _ => eapply reads_sub; [rpart|cbn [nr nc subv vcol vrow]; lia|cbn [nr nc subv]; lia|intros ? ? ? ?; rvis]
  | |- writes _ (subv _ _ _ _ _) (subv _ _ _ _ _) _ => eapply writes_sub; [rpart|cbn [nr nc subv]; lia|cbn [nr nc subv]; lia|intros ? ? ? ?; rvis]
  | |- reads _ (vcol _ _ _ _) (vcol _ _ _ _) _ => eapply reads_vcol; [rpart|cbn [nr nc subv]; lia|cbn [nr nc subv]; lia|intros ? ?; rvis]
  | |- writes _ (vcol _ _ _ _) (vcol _ _ _ _) _ => eapply writes_vcol; [rpart|cbn [nr nc subv]; lia|cbn [nr nc subv]; lia|intros ? ?; rvis]
  | |- reads _ (vrow _ _ _ _) (vrow _ _ _ _) _ => eapply reads_vrow; [rpart|cbn [nr nc subv]; lia|cbn [nr nc subv]; lia|intros ? ?; rvis]
  | |- writes _ (vrow _ _ _ _) (vrow _ _ _ _) _ => eapply writes_vrow; [rpart|cbn [nr nc subv]; lia|cbn [nr nc subv]; lia|intros ? ?; rvis]
  | |- reads _ (vsub _ _ _) (vsub _ _ _) _ => eapply reads_vsub; [rpart|cbn [nr nc subv]; lia|cbn [nr nc subv]; lia|intros ? ?; rvis]
  | |- writes _ (vsub _ _ _) (vsub _ _ _) _ => eapply writes_vsub; [rpart|cbn [nr nc subv]; lia|cbn [nr nc subv]; lia|intros ? ?; rvis]
  | |- _ => eassumption
  end.
Ltac rsl :=
  lazymatch goal with
  | |- rr _ _ (bind (slc _ _ _ _ _) _) _ => apply rr_slc; [cbn [nr nc subv]; lia..|]
  | |- rr _ _ (bind (slcol _ _ _ _) _) _ => apply rr_slcol; [cbn [nr nc subv]; lia..|]
  | |- rr _ _ (bind (slrow _ _ _ _) _) _ => apply rr_slrow; [cbn [nr nc subv]; lia..|]
  | |- rr _ _ (bind (slvec _ _ _) _) _ => apply rr_slvec; [cbn [nr nc subv]; lia..|]
  end; cbv beta.
