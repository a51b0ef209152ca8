(** From relational proofs to statements about runs *)
From Coq Require Import Bool Arith ZArith Lia List.
From Verif.Core Require Import Scalar Prog View Rel.
From Verif.Spec Require Import Outcome.
From Verif.Proof Require Import RelTac HRel NoBetaProof.
Import ListNotations.

Section S.
Context {E : Env}.
Implicit Types (A B C : view) (s : state) (w v : nat -> nat -> Prop).

Definition agrees (ins : params) s1 s2 : Prop := forall A1 A2 v, In (A1, A2, v) ins -> agree v A1 s1 A2 s2.
Lemma agrees_nil s1 s2 : agrees [] s1 s2. Proof. intros ? ? ? []. Qed.
Lemma agrees_cons A1 A2 v ins s1 s2 : agree v A1 s1 A2 s2 -> agrees ins s1 s2 -> agrees ((A1, A2, v) :: ins) s1 s2.
Proof. intros H H' ? ? ? [e|HI]; [inversion e; subst; auto|auto]. Qed.
Definition apart (ins : params) C1 C2 : Prop := forall A1 A2 v, In (A1, A2, v) ins -> disj A1 C1 /\ disj A2 C2.
Lemma apart_nil C1 C2 : apart [] C1 C2. Proof. intros ? ? ? []. Qed.
Lemma apart_cons A1 A2 v ins C1 C2 : disj A1 C1 -> disj A2 C2 -> apart ins C1 C2 -> apart ((A1, A2, v) :: ins) C1 C2.
Proof. intros H H' HA ? ? ? [e|HI]; [inversion e; subst; auto|eauto]. Qed.

Lemma two_runs R0 ins C1 C2 w (p1 p2 : M R0) s1 s2 :
  agrees ins s1 s2 -> agree w C1 s1 C2 s2 -> apart ins C1 C2 -> vinj C1 -> vinj C2 ->
  (forall R, (forall A1 A2 v, In (A1, A2, v) ins -> reads R A1 A2 v) -> reads R C1 C2 w -> writes R C1 C2 w -> rr R noExn p1 p2) ->
  both_return p1 p2 s1 s2 (fun _ s1' s2' =>
    agree w C1 s1' C2 s2' /\ only_changes (inview C1) s1 s1' /\ only_changes (inview C2) s2 s2').
Proof.
  intros Hag HagC Hap I1 I2 Hrr.
  set (outs := [(C1, C2, w)] : params).
  assert (Hall : forall A1 A2 v, In (A1, A2, v) (ins ++ outs) -> agree v A1 s1 A2 s2).
  { intros A1 A2 v HA. apply in_app_or in HA. destruct HA as [HA|[e|[]]]; [auto|inversion e; subst; auto]. }
  assert (Hsh : same_shape (ins ++ outs)).
  { intros A1 A2 v HA. destruct (Hall _ _ _ HA) as (H1 & H2 & _). auto. }
  assert (Hsep : separated ins outs).
  { split.
    - intros ? ? ? [e|[]]. inversion e; subst; auto.
    - intros A1 A2 v D1 D2 w' HA [e|[]]. inversion e; subst. apply in_app_or in HA. destruct HA as [HA|[e'|[]]].
      + right. eapply Hap; eauto.
      + inversion e'; subst. auto. }
  assert (Hsd : same_data (ins ++ outs) s1 s2).
  { intros A1 A2 v HA. destruct (Hall _ _ _ HA) as (H1 & H2 & H3). auto. }
  assert (HCo : In (C1, C2, w) outs) by (left; auto).
  assert (Hrun : rr (lrel ins outs s1 s2) noExn p1 p2).
  { apply Hrr.
    - intros. apply lrel_reads; auto. apply in_or_app; auto.
    - apply lrel_reads; auto. apply in_or_app; auto.
    - apply lrel_writes; auto. }
  destruct (rr_same_run _ _ _ _ _ _ _ _ Hsd Hrun) as [(a & s1' & s2' & H1 & H2 & H3 & H4 & H5)|(e & ? & ? & [] & _)].
  exists a, s1', s2'. split; auto. split; auto. split; [|split].
  - destruct HagC as (K1 & K2 & _). split; auto. split; auto. apply (H3 C1 C2 w HCo).
  - destruct H4 as [F1 F2]. split; auto. intros l Hl. apply F1. intros (? & ? & ? & [e|[]] & Hi). inversion e; subst; auto.
  - destruct H5 as [F1 F2]. split; auto. intros l Hl. apply F1. intros (? & ? & ? & [e|[]] & Hi). inversion e; subst; auto.
Qed.
(** two output arguments *)
Lemma two_runs2 R0 C1 C2 D1 D2 (p1 p2 : M R0) s1 s2 :
  agree anywhere C1 s1 C2 s2 -> agree anywhere D1 s1 D2 s2 -> disj C1 D1 -> disj C2 D2 ->
  vinj C1 -> vinj C2 -> vinj D1 -> vinj D2 ->
  (forall R, reads R C1 C2 anywhere -> writes R C1 C2 anywhere -> reads R D1 D2 anywhere -> writes R D1 D2 anywhere -> rr R noExn p1 p2) ->
  both_return p1 p2 s1 s2 (fun _ s1' s2' =>
    agree anywhere C1 s1' C2 s2' /\ agree anywhere D1 s1' D2 s2' /\
    only_changes (fun l => inview C1 l \/ inview D1 l) s1 s1' /\ only_changes (fun l => inview C2 l \/ inview D2 l) s2 s2').
Proof.
  intros HaC HaD X1 X2 I1 I2 J1 J2 Hrr.
  set (outs := [(C1, C2, anywhere); (D1, D2, anywhere)] : params).
  assert (Hall : forall A1 A2 v, In (A1, A2, v) ([] ++ outs) -> agree v A1 s1 A2 s2).
  { intros A1 A2 v [e|[e|[]]]; inversion e; subst; auto. }
  assert (Hsh : same_shape ([] ++ outs)).
  { intros A1 A2 v HA. destruct (Hall _ _ _ HA) as (H1 & H2 & _). auto. }
  assert (Hsep : separated [] outs).
  { split.
    - intros ? ? ? [e|[e|[]]]; inversion e; subst; auto.
    - intros A1 A2 v ? ? ? [e|[e|[]]] [e'|[e'|[]]]; inversion e; subst; inversion e'; subst; auto 10 using disj_sym. }
  assert (Hsd : same_data ([] ++ outs) s1 s2).
  { intros A1 A2 v HA. destruct (Hall _ _ _ HA) as (H1 & H2 & H3). auto. }
  assert (HCo : In (C1, C2, anywhere) outs) by (left; auto).
  assert (HDo : In (D1, D2, anywhere) outs) by (right; left; auto).
  assert (Hrun : rr (lrel [] outs s1 s2) noExn p1 p2).
  { apply Hrr; first [apply lrel_reads|apply lrel_writes]; auto. }
  destruct (rr_same_run _ _ _ _ _ _ _ _ Hsd Hrun) as [(a & s1' & s2' & H1 & H2 & H3 & H4 & H5)|(e & ? & ? & [] & _)].
  exists a, s1', s2'. split; auto. split; auto. split; [|split; [|split]].
  - destruct HaC as (K1 & K2 & _). split; auto. split; auto. apply (H3 C1 C2 _ HCo).
  - destruct HaD as (K1 & K2 & _). split; auto. split; auto. apply (H3 D1 D2 _ HDo).
  - destruct H4 as [F1 F2]. split; auto. intros l Hl. apply F1. intros (? & ? & ? & [e|[e|[]]] & Hi); inversion e; subst; auto.
  - destruct H5 as [F1 F2]. split; auto. intros l Hl. apply F1. intros (? & ? & ? & [e|[e|[]]] & Hi); inversion e; subst; auto.
Qed.
(** no output argument: a value is returned and nothing changes *)
Lemma two_runs0 R0 ins (p1 p2 : M R0) s1 s2 :
  agrees ins s1 s2 ->
  (forall R, (forall A1 A2 v, In (A1, A2, v) ins -> reads R A1 A2 v) -> rr R noExn p1 p2) ->
  both_return p1 p2 s1 s2 (fun _ s1' s2' => s1' = s1 /\ s2' = s2).
Proof.
  intros Hag Hrr.
  assert (Hrun : rr (fun u1 u2 => u1 = s1 /\ u2 = s2) noExn p1 p2).
  { apply Hrr. intros A1 A2 v HA. destruct (Hag _ _ _ HA) as (H1 & H2 & H3). split; auto. split; auto.
    intros u1 u2 [-> ->]. auto. }
  specialize (Hrun s1 s2 (Logic.conj eq_refl eq_refl)). unfold both_return.
  destruct (p1 s1) as [a u1| | |], (p2 s2) as [b u2| | |]; unfold noExn in *; try tauto.
  destruct Hrun as [<- [-> ->]]. exists a, s1, s2. auto.
Qed.

(** one run: safety and frame without any assumption on overlap *)
Lemma safe_run R0 C w (p : M R0) s :
  (forall R, (forall A v, reads R A A v) -> writes R C C w -> rr R noExn p p) ->
  returns p s (fun _ s' => only_changes (cells C w) s s').
Proof.
  intros Hrr.
  assert (Hrun : rr (fun u1 u2 => u1 = u2 /\ only_changes (cells C w) s u1) noExn p p).
  { apply Hrr.
    - intros A v. split; auto. split; auto. intros u1 u2 [-> _]; auto.
    - split; auto. split; auto. intros u1 u2 [-> [H1 H2]] i j x Hi Hj Hw. split; auto. split; auto.
      intros l Hl. unfold setm; cbn [mem]. destruct (Z.eqb_spec l (ad C i j)) as [->|]; auto.
      exfalso. apply Hl. exists i, j. auto. }
  specialize (Hrun s s (Logic.conj eq_refl (Logic.conj (fun _ _ => eq_refl) eq_refl))).
  destruct (p s) as [a u1|e u1| |] eqn:Ep; unfold noExn in *; try tauto. destruct Hrun as [_ [_ H]]. exists a, u1. auto.
Qed.

(** rejection *)
Lemma rej_check R0 b (p : M R0) s : check_input = true -> (b = true -> rejects p s) -> rejects (bind (check b) (fun _ => p)) s.
Proof.
  intros Hc Hp. unfold rejects, bind, check. rewrite Hc. destruct b; cbn; [apply Hp|]; reflexivity.
Qed.

(** no-beta *)
Lemma hr_two_runs R0 ins C1 C2 w (p1 p2 : M R0) s1 s2 :
  agrees ins s1 s2 -> nr C2 = nr C1 -> nc C2 = nc C1 ->
  (same_shape ins -> (forall v A1 A2 w', In (A1, A2, w') ins -> reads (hl ins C1 C2 s1 s2 v) A1 A2 w') ->
   hr ins C1 C2 s1 s2 vnone w p1 p2) ->
  both_return p1 p2 s1 s2 (fun _ s1' s2' =>
    agree w C1 s1' C2 s2' /\ only_changes (inview C1) s1 s1' /\ only_changes (inview C2) s2 s2').
Proof.
  intros Hag H1 H2 Hh.
  assert (Hsh : same_shape ins). { intros A1 A2 v HA. destruct (Hag _ _ _ HA) as (K1 & K2 & _). auto. }
  specialize (Hh Hsh (fun v A1 A2 w' HA => hreads_in ins C1 C2 s1 s2 Hsh v A1 A2 w' HA)).
  assert (Hl : hl ins C1 C2 s1 s2 vnone s1 s2).
  { repeat split; auto. - intros A1 A2 v HA. destruct (Hag _ _ _ HA) as (K1 & K2 & K3). auto. - intros ? ? ? ? []. }
  specialize (Hh s1 s2 Hl). unfold both_return.
  destruct (p1 s1) as [a u1| | |], (p2 s2) as [b u2| | |]; try tauto. destruct Hh as [<- (K1 & K2 & K3 & K4)].
  exists a, u1, u2. repeat split; auto; try apply K3; try apply K4.
Qed.
End S.
