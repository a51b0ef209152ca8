(** Proofs for the auxiliary LAPACK routines *)
From Coq Require Import Bool Arith ZArith Lia Ring Field.
From Verif.Core Require Import Scalar Prog View Slice Loops.
From Verif.Spec Require Import LinAlg Outcome Parts.
From Verif.Model Require Import Blas1 LaAux.
From Verif.Proof Require Import SumLemmas Tactics Blas1Proof.
Local Open Scope T_scope.

Section S.
Context {E : Env}.
Implicit Types (A B C : view).

Lemma eff_sets C (b : nat -> nat -> bool) (P : nat -> nat -> Prop) F s s' :
  (forall i j, (i < nr C)%nat -> (j < nc C)%nat -> (b i j = true <-> P i j)) ->
  eff C (fun i j => if b i j then F i j else val C s i j) s s' -> sets C P F s s'.
Proof.
  intros Hb (H1 & H2 & H3). split; [|split; auto].
  - intros i j Hi Hj HP. rewrite H1 by auto. apply Hb in HP; auto. rewrite HP. reflexivity.
  - intros l Hl. destruct (inview_dec C l) as [(i & j & Hi & Hj & ->)|Hn]; [|auto].
    change (mem s' (ad C i j)) with (val C s' i j). rewrite H1 by auto. destruct (b i j) eqn:Eb; auto.
    exfalso. apply Hl. exists i, j. repeat split; auto. apply Hb; auto.
Qed.
(** nested loop over a part, any body that updates element (i,j) *)
Lemma part_loop C (lo hi : nat -> nat) (body : nat -> nat -> M unit) (g : nat -> nat -> T -> T) n s0 :
  (n <= nc C)%nat -> (forall j, (j < n)%nat -> (hi j <= nr C)%nat) ->
  (forall i j s F, (j < n)%nat -> (lo j <= i < hi j)%nat -> eff C F s0 s ->
     wp (body i j) (fun _ s' => eff C (fupd F i j (g i j (F i j))) s0 s') noX s) ->
  forall F s, eff C F s0 s ->
  wp (for_ j in 0 upto n do for_ i in lo j upto hi j do body i j)
    (fun _ s' => eff C (fun i j => if (j <? n)%nat && ((lo j <=? i)%nat && (i <? hi j)%nat) then g i j (F i j) else F i j) s0 s') noX s.
Proof.
  intros Hn Hh Hb F s Hs.
  loop (fun k s => eff C (fun i j => if (j <? k)%nat && ((lo j <=? i)%nat && (i <? hi j)%nat) then g i j (F i j) else F i j) s0 s) as j s1.
  { apply (eff_ext _ _ _ _ _ Hs). intros. reflexivity. }
  { specialize (Hh j ltac:(lia)). destruct (Nat.le_gt_cases (hi j) (lo j)) as [Hlt|Hlt].
    { unfold forup, foldup. replace (hi j - lo j)%nat with 0%nat by lia. apply wp_ret.
      apply (eff_ext _ _ _ _ _ He). intros i' j' Hi' Hj'. destruct (Nat.eq_dec j' j) as [->|].
      - rewrite Nat.ltb_irrefl. destruct (Nat.leb_spec (lo j) i'), (Nat.ltb_spec i' (hi j)); rewrite ?andb_false_r; try lia; auto.
      - replace (j' <? S j)%nat with (j' <? j)%nat; auto. destruct (Nat.ltb_spec j' j), (Nat.ltb_spec j' (S j)); lia || auto. }
    apply (wp_forup (fun k s => eff C (fun i j' => if (j' <? j)%nat && ((lo j' <=? i)%nat && (i <? hi j')%nat) || (j' =? j)%nat && ((lo j <=? i)%nat && (i <? k)%nat) then g i j' (F i j') else F i j') s0 s));
      [lia| | |].
    { apply (eff_ext _ _ _ _ _ He). intros i' j' Hi' Hj'.
      replace ((lo j <=? i')%nat && (i' <? lo j)%nat) with false by (destruct (Nat.leb_spec (lo j) i'), (Nat.ltb_spec i' (lo j)); auto; lia).
      rewrite andb_false_r, orb_false_r. reflexivity. }
    { intros i s2 Hi He2. cbv beta in He2. eapply wp_conseq; [apply Hb; [lia|lia|exact He2]| |auto].
      intros x s3 He3. cbv beta in He3. clear x. apply (eff_ext _ _ _ _ _ He3). intros i' j' Hi' Hj'. unfold fupd.
      destruct (Nat.eqb_spec i' i) as [->|]; destruct (Nat.eqb_spec j' j) as [->|]; cbn [andb].
      - rewrite Nat.ltb_irrefl, Nat.eqb_refl. cbn [andb orb].
        replace (lo j <=? i)%nat with true by (symmetry; apply Nat.leb_le; lia).
        replace (i <? S i)%nat with true by (symmetry; apply Nat.ltb_lt; lia). cbn [andb].
        rewrite Nat.ltb_irrefl. reflexivity.
      - reflexivity.
      - replace (i' <? S i)%nat with (i' <? i)%nat by (destruct (Nat.ltb_spec i' i), (Nat.ltb_spec i' (S i)); auto; lia). reflexivity.
      - reflexivity. }
    { intros s2 He2. cbv beta in He2. apply (eff_ext _ _ _ _ _ He2). intros i' j' Hi' Hj'.
      destruct (Nat.eqb_spec j' j) as [->|].
      - rewrite Nat.ltb_irrefl. replace (j <? S j)%nat with true by (symmetry; apply Nat.ltb_lt; lia). reflexivity.
      - rewrite orb_false_r. replace (j' <? S j)%nat with (j' <? j)%nat; auto.
        destruct (Nat.ltb_spec j' j), (Nat.ltb_spec j' (S j)); lia || auto. } }
  { exact He. }
Qed.

(** ** lacpy *)
Ltac bools := repeat match goal with
  | |- context [(?a <? ?b)%nat] => destruct (Nat.ltb_spec a b)
  | |- context [(?a <=? ?b)%nat] => destruct (Nat.leb_spec a b)
  | |- context [(?a =? ?b)%nat] => destruct (Nat.eqb_spec a b)
  end; cbn [andb orb negb].
Lemma lacpy_run u A B s0 : uplo3g u = true -> (nr A <= nr B)%nat -> (nc A <= nc B)%nat -> vinj B -> disj A B ->
  runs (lacpy u A B) s0 (fun _ s' => sets B (fun i j => (i < nr A)%nat /\ (j < nc A)%nat /\ selected u i j) (val A s0) s0 s').
Proof.
  intros Hu Hr Hc HI HD. unfold runs, lacpy. cbv zeta. checks.
  destruct u; try discriminate.
  - eapply wp_conseq; [apply (part_loop B (fun _ => 0%nat) (fun j => Nat.min (nr A) (j + 1)) _ (fun i j _ => val A s0 i j) (nc A) s0)| |auto]; auto.
    + intros. lia.
    + intros i j s F Hj Hi He. steps. assumption.
    + apply eff_refl.
    + intros x s' He. cbv beta in He. revert He. apply eff_sets.
      intros i j Hi Hj. cbn [selected]. bools; split; intros; try discriminate; lia || auto.
  - eapply wp_conseq; [apply (part_loop B (fun j => j) (fun j => nr A) _ (fun i j _ => val A s0 i j) (Nat.min (nr A) (nc A)) s0)| |auto]; auto.
    + lia.
    + intros i j s F Hj Hi He. steps. assumption.
    + apply eff_refl.
    + intros x s' He. cbv beta in He. revert He. apply eff_sets.
      intros i j Hi Hj. cbn [selected]. bools; split; intros; try discriminate; lia || auto.
  - eapply wp_conseq; [apply (part_loop B (fun j => 0%nat) (fun j => nr A) _ (fun i j _ => val A s0 i j) (nc A) s0)| |auto]; auto.
    + intros i j s F Hj Hi He. steps. assumption.
    + apply eff_refl.
    + intros x s' He. cbv beta in He. revert He. apply eff_sets.
      intros i j Hi Hj. cbn [selected]. bools; split; intros; try discriminate; try lia; auto.
Qed.

(** ** laset *)
Lemma laset_run u alpha beta A s0 : uplo3g u = true -> vinj A ->
  runs (laset u alpha beta A) s0 (fun _ s' => sets A (selected u) (fun i j => if (i =? j)%nat then beta else alpha) s0 s').
Proof.
  intros Hu HI. unfold runs, laset. cbv zeta. checks. apply wp_bind.
  set (strict := fun i j => match u with Upper => (i <? j)%nat | Lower => (j <? i)%nat | _ => true end).
  eapply wp_conseq with (Q := fun _ s => eff A (fun i j => if strict i j then alpha else val A s0 i j) s0 s) (X := noX); [| |auto].
  - destruct u; try discriminate.
    +
      destruct (Nat.le_gt_cases (nc A) 1) as [Hc|Hc].
      { unfold forup, foldup. replace (nc A - 1)%nat with 0%nat by lia. apply wp_ret. apply (eff_ext _ _ _ _ _ (eff_refl A s0)).
        intros i j Hi Hj. unfold strict. destruct (Nat.ltb_spec i j); auto; lia. }
      loop (fun k s => eff A (fun i j => if (j <? k)%nat && (i <? j)%nat then alpha else val A s0 i j) s0 s) as j s.
      { apply (eff_ext _ _ _ _ _ (eff_refl A s0)). intros i j Hi Hj. bools; auto; lia. }
      { apply (wp_forup (fun k s => eff A (fun i j' => if ((j' <? j)%nat && (i <? j')%nat) || ((j' =? j)%nat && (i <? k)%nat) then alpha else val A s0 i j') s0 s)); [lia| | |].
        - apply (eff_ext _ _ _ _ _ He). intros i' j' Hi' Hj'. bools; auto; lia.
        - intros i s1 Hi He1. steps. apply (eff_ext _ _ _ _ _ He0). intros i' j' Hi' Hj'. unfold fupd. bools; auto; lia.
        - intros s1 He1. apply (eff_ext _ _ _ _ _ He1). intros i' j' Hi' Hj'. bools; auto; lia. }
      { apply (eff_ext _ _ _ _ _ He). intros i' j' Hi' Hj'. unfold strict. bools; auto; lia. }
    + eapply wp_conseq; [apply (part_loop A (fun j => j + 1)%nat (fun j => nr A) _ (fun i j _ => alpha) (Nat.min (nr A) (nc A)) s0)| |auto]; auto.
      * lia.
      * intros i j s F Hj Hi He. steps. assumption.
      * apply eff_refl.
      * intros x s' He. cbv beta in He. apply (eff_ext _ _ _ _ _ He). intros i' j' Hi' Hj'. unfold strict. bools; auto; lia.
    + eapply wp_conseq; [apply (part_loop A (fun j => 0)%nat (fun j => nr A) _ (fun i j _ => alpha) (nc A) s0)| |auto]; auto.
      * intros i j s F Hj Hi He. steps. assumption.
      * apply eff_refl.
      * intros x s' He. cbv beta in He. apply (eff_ext _ _ _ _ _ He). intros i' j' Hi' Hj'. unfold strict. bools; auto; lia.
  - intros x s He. cbv beta in He. clear x.
    loop (fun k s => eff A (fun i j => if (i =? j)%nat && (i <? k)%nat then beta else if strict i j then alpha else val A s0 i j) s0 s) as i s1.
    + apply (eff_ext _ _ _ _ _ He). intros i' j' Hi' Hj'. rewrite andb_false_r. reflexivity.
    + steps. apply (eff_ext _ _ _ _ _ He1). intros i' j' Hi' Hj'. unfold fupd. bools; auto; lia.
    + apply (eff_sets A (fun i j => (i =? j)%nat || strict i j)).
      * intros i j Hi Hj. unfold strict. destruct u; try discriminate; cbn [selected]; bools; rewrite ?orb_true_r; split; intros; try discriminate; lia || auto.
      * apply (eff_ext _ _ _ _ _ He0). intros i' j' Hi' Hj'. destruct (Nat.eqb_spec i' j'), (Nat.ltb_spec i' (Nat.min (nr A) (nc A))); cbn [andb orb]; auto; lia.
Qed.

(** ** conjugate *)
Lemma conjugate_run x s0 : nc x = 1%nat -> vinj x -> runs (conjugate x) s0 (fun _ s' => veff x (fun i => conj (vval x s0 i)) s0 s').
Proof.
  intros Hx HI. unfold runs, conjugate.
  loop (fun k s => eff x (fun i j => if (i <? k)%nat then conj (vval x s0 i) else vval x s0 i) s0 s) as i s.
  { apply (eff_ext _ _ _ _ _ (eff_refl x s0)). intros i j Hi Hj. replace j with 0%nat by lia. reflexivity. }
  { steps. effext. }
  { apply veff_eff; auto. effext. }
Qed.
End S.
