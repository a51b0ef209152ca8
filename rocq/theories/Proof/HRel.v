(** Relational logic with a growing set of agreeing output positions: used for "the result does not
    depend on the old contents of the output" *)
From Coq Require Import Bool Arith ZArith Lia List.
From Verif.Core Require Import Scalar Prog View Rel.
From Verif.Proof Require Import RelTac.
Import ListNotations.

Section HRel.
Context {E : Env}.
Variables (ins : params) (C1 C2 : view) (t1 t2 : state).
Hypothesis (Hsh : same_shape ins) (Hin : forall A1 A2 v, In (A1, A2, v) ins -> disj A1 C1 /\ disj A2 C2).
Hypothesis (HC : nr C2 = nr C1 /\ nc C2 = nc C1) (HI1 : vinj C1) (HI2 : vinj C2).
Implicit Types v : nat -> nat -> Prop.
Definition onlyC (C : view) (t s : state) : Prop := (forall l, ~ inview C l -> mem s l = mem t l) /\ imem s = imem t.
Definition hl v s1 s2 : Prop :=
  same_data ins s1 s2 /\
  (forall i j, i < nr C1 -> j < nc C1 -> v i j -> val C1 s1 i j = val C2 s2 i j) /\
  onlyC C1 t1 s1 /\ onlyC C2 t2 s2.
Definition hr v v' {A} (p1 p2 : M A) : Prop := forall s1 s2, hl v s1 s2 ->
  match p1 s1, p2 s2 with
  | Ok a1 s1', Ok a2 s2' => a1 = a2 /\ hl v' s1' s2'
  | _, _ => False
  end.

Lemma hl_weak v v' s1 s2 : hl v s1 s2 -> (forall i j, i < nr C1 -> j < nc C1 -> v' i j -> v i j) -> hl v' s1 s2.
Proof using Type. clear Hsh Hin HC HI1 HI2. intros (H1 & H2 & H3) Hv. split; [|split]; auto. Qed.
Lemma hr_ret v A (a : A) : hr v v (ret a) (ret a).
Proof using Type. clear Hsh Hin HC HI1 HI2. intros s1 s2 H; cbn; auto. Qed.
Lemma hr_weak v v' A (p1 p2 : M A) : hr v v p1 p2 -> (forall i j, i < nr C1 -> j < nc C1 -> v' i j -> v i j) -> hr v v' p1 p2.
Proof using Type. clear Hsh Hin HC HI1 HI2.
  intros Hp Hv s1 s2 H. specialize (Hp s1 s2 H).
  destruct (p1 s1), (p2 s2); try tauto. destruct Hp as [-> H']. split; auto. eapply hl_weak; eauto.
Qed.
Lemma hr_pre v v' (w : nat -> nat -> Prop) A (p1 p2 : M A) : hr v v' p1 p2 -> (forall i j, i < nr C1 -> j < nc C1 -> v i j -> w i j) -> hr w v' p1 p2.
Proof using Type. clear Hsh Hin HC HI1 HI2. intros Hp Hv s1 s2 H. apply Hp. eapply hl_weak; eauto. Qed.
Lemma hr_bind v v1 v2 A B (p1 p2 : M A) (f1 f2 : A -> M B) :
  hr v v1 p1 p2 -> (forall a, hr v1 v2 (f1 a) (f2 a)) -> hr v v2 (bind p1 f1) (bind p2 f2).
Proof using Type. clear Hsh Hin HC HI1 HI2.
  intros Hp Hf s1 s2 H. specialize (Hp s1 s2 H). unfold bind.
  destruct (p1 s1), (p2 s2); try tauto. destruct Hp as [<- H']. apply Hf; auto.
Qed.
(** reads, checks, pure accumulations leave the set alone *)
Lemma hr_rr v A (p1 p2 : M A) : rr (hl v) noExn p1 p2 -> hr v v p1 p2.
Proof using Type. clear Hsh Hin HC HI1 HI2. intros Hp s1 s2 H. specialize (Hp s1 s2 H). destruct (p1 s1), (p2 s2); unfold noExn in *; tauto. Qed.
Lemma hreads_in v A1 A2 w : In (A1, A2, w) ins -> reads (hl v) A1 A2 w.
Proof using Hsh. intros H. destruct (Hsh _ _ _ H). split; auto. split; auto. intros s1 s2 (K1 & _) i j Hi Hj Hv. apply (K1 A1 A2 w); auto. Qed.
Lemma hreads_C v : reads (hl v) C1 C2 v.
Proof using HC. destruct HC. split; auto. split; auto. intros s1 s2 (_ & K1 & _) i j Hi Hj Hv. auto. Qed.
Lemma hr_skip v v' B i j (p1 p2 : M B) : i < nr C1 -> j < nc C1 -> hr v v' p1 p2 ->
  hr v v' (bind (rd C1 i j) (fun _ => p1)) (bind (rd C2 i j) (fun _ => p2)).
Proof using HC.
  intros Hi Hj Hp s1 s2 H. unfold bind, rd. rewrite !inb_true by lia. apply Hp; auto.
Qed.
Lemma hr_wr v v' i j (x : T) : i < nr C1 -> j < nc C1 ->
  (forall i' j', i' < nr C1 -> j' < nc C1 -> v' i' j' -> v i' j' \/ (i' = i /\ j' = j)) ->
  hr v v' (wr C1 i j x) (wr C2 i j x).
Proof using Hsh Hin HC HI1 HI2.
  intros Hi Hj Hv. unfold hr, wr. intros s1 s2 H. destruct HC as [HC1 HC2]. rewrite !inb_true by lia. split; auto.
  apply (hl_weak (fun i' j' => v i' j' \/ (i' = i /\ j' = j))); auto.
  destruct H as (K1 & K2 & (K3 & K3') & (K4 & K4')). repeat split; auto.
  - intros A1 A2 w HA i' j' Hi' Hj' Hw. destruct (Hin _ _ _ HA). destruct (Hsh _ _ _ HA).
    rewrite !val_set_other by (auto; lia). apply (K1 A1 A2 w); auto.
  - intros i' j' Hi' Hj' Hw. rewrite !val_set_same by (auto; lia).
    destruct (Nat.eqb_spec i' i), (Nat.eqb_spec j' j); cbn [andb]; auto; apply K2; auto; destruct Hw as [|[]]; auto; congruence.
  - intros l Hl. unfold setm; cbn [mem]. destruct (Z.eqb_spec l (ad C1 i j)) as [->|]; auto.
    exfalso. apply Hl. exists i, j. auto.
  - intros l Hl. unfold setm; cbn [mem]. destruct (Z.eqb_spec l (ad C2 i j)) as [->|]; auto.
    exfalso. apply Hl. exists i, j. repeat split; auto; lia.
Qed.
Lemma hwrites_C v : writes (hl v) C1 C2 v.
Proof using Hsh Hin HC HI1 HI2.
  destruct HC as [HC1 HC2]. split; auto. split; auto. intros s1 s2 H i j x Hi Hj Hv.
  pose proof (hr_wr v v i j x Hi Hj) as HW. assert (H' : hr v v (wr C1 i j x) (wr C2 i j x)) by (apply HW; auto).
  specialize (H' s1 s2 H). unfold wr in H'. rewrite !inb_true in H' by lia. tauto.
Qed.
Lemma hr_forn (I : nat -> nat -> nat -> Prop) A n lo (a : A) f1 f2 :
  (forall i a', lo <= i < lo + n -> hr (I i) (I (S i)) (f1 i a') (f2 i a')) ->
  hr (I lo) (I (lo + n)) (forn n lo a f1) (forn n lo a f2).
Proof using Type. clear Hsh Hin HC HI1 HI2.
  revert lo a. induction n as [|n IH]; intros lo a Hs; cbn [forn].
  - rewrite Nat.add_0_r. apply hr_ret.
  - eapply hr_bind; [apply Hs; lia|]. intros a'.
    replace (lo + S n) with (S lo + n) by lia. apply IH. intros i a'' Hi. apply Hs; lia.
Qed.
Lemma hr_forup (I : nat -> nat -> nat -> Prop) v v' lo hi f1 f2 : lo <= hi ->
  (forall i j, i < nr C1 -> j < nc C1 -> I lo i j -> v i j) ->
  (forall i, lo <= i < hi -> hr (I i) (I (S i)) (f1 i) (f2 i)) ->
  (forall i j, i < nr C1 -> j < nc C1 -> v' i j -> I hi i j) ->
  hr v v' (forup lo hi f1) (forup lo hi f2).
Proof using Type. clear Hsh Hin HC HI1 HI2.
  intros Hl H0 Hs H1. apply (hr_pre (I lo)); auto. intros s1 s2 H.
  assert (Hh : hr (I lo) (I hi) (forup lo hi f1) (forup lo hi f2)).
  { pose proof (hr_forn I unit (hi - lo) lo tt (fun i _ => f1 i) (fun i _ => f2 i)) as K.
    replace (lo + (hi - lo)) with hi in K by lia. apply K. intros i a' Hi. apply Hs. lia. }
  specialize (Hh s1 s2 H). destruct (forup lo hi f1 s1), (forup lo hi f2 s2); try tauto.
  destruct Hh; split; auto. eapply hl_weak; eauto.
Qed.
Lemma hr_fornd (I : nat -> nat -> nat -> Prop) A n lo (a : A) f1 f2 :
  (forall i a', lo <= i < lo + n -> hr (I (S i)) (I i) (f1 i a') (f2 i a')) ->
  hr (I (lo + n)) (I lo) (fornd n lo a f1) (fornd n lo a f2).
Proof using Type. clear Hsh Hin HC HI1 HI2.
  revert a. induction n as [|n IH]; intros a Hs; cbn [fornd].
  - rewrite Nat.add_0_r. apply hr_ret.
  - eapply hr_bind; [replace (lo + S n) with (S (lo + n)) by lia; apply Hs; lia|]. intros a'.
    apply IH. intros i a'' Hi. apply Hs; lia.
Qed.
Lemma hr_fordown (I : nat -> nat -> nat -> Prop) v v' lo hi f1 f2 : lo <= hi ->
  (forall i j, i < nr C1 -> j < nc C1 -> I hi i j -> v i j) ->
  (forall i, lo <= i < hi -> hr (I (S i)) (I i) (f1 i) (f2 i)) ->
  (forall i j, i < nr C1 -> j < nc C1 -> v' i j -> I lo i j) ->
  hr v v' (fordown lo hi f1) (fordown lo hi f2).
Proof using Type. clear Hsh Hin HC HI1 HI2.
  intros Hl H0 Hs H1. apply (hr_pre (I hi)); auto. intros s1 s2 H.
  assert (Hh : hr (I hi) (I lo) (fordown lo hi f1) (fordown lo hi f2)).
  { pose proof (hr_fornd I unit (hi - lo) lo tt (fun i _ => f1 i) (fun i _ => f2 i)) as K.
    replace (lo + (hi - lo)) with hi in K by lia. apply K. intros i a' Hi. apply Hs. lia. }
  specialize (Hh s1 s2 H). destruct (fordown lo hi f1 s1), (fordown lo hi f2 s2); try tauto.
  destruct Hh; split; auto. eapply hl_weak; eauto.
Qed.
End HRel.
