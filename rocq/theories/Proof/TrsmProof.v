(** trsm *)
From Coq Require Import Bool Arith ZArith Lia Ring Field.
From Verif.Core Require Import Scalar Prog View.
From Verif.Spec Require Import LinAlg.
From Verif.Model Require Import Gemm Blas2 Blas3.
From Verif.Proof Require Import SumLemmas Tactics Blas2Proof TrmvProof.
Local Open Scope T_scope.

Section Trsm.
Context {E : Env} {FL : FieldLaws E}.
Add Field Tf : fth.

(** scaling loop on column [j] *)
Lemma colscale B F s0 s j alpha (Q : unit -> state -> Prop) X :
  vinj B -> (j < nc B)%nat -> eff B F s0 s ->
  (forall s', eff B (fun i' j' => if (j' =? j)%nat then F i' j' * alpha else F i' j') s0 s' -> Q tt s') ->
  wp (for_ i in 0 upto (nr B) do (b <- rd B i j;; wr B i j (b * alpha))) Q X s.
Proof.
  intros HI Hj He HQ.
  loop (fun i s => eff B (fun i' j' => if ((j' =? j) && (i' <? i))%nat then F i' j' * alpha else F i' j') s0 s) as i s9.
  - effext.
  - steps. effext.
  - apply HQ. effext.
Qed.

Section Gen.
Variables (g : T -> T) (d : diag_t) (alpha : T) (A B : view) (s0 : state) (m n : nat).
Hypotheses (HB1 : nr B = m) (HB2 : nc B = n) (HI : vinj B) (HD : disj A B).
Let B0 := val B s0.
Variable t : nat -> nat -> T.
Let dg (j : nat) := match d with NonUnit => g (val A s0 j j) | Unit => one end.
Ltac dsplit := let H := fresh in destruct d eqn:H; cbn [nonunit].

Section L.
Hypotheses (HA1 : nr A = m) (HA2 : nc A = m).
Definition solvesL (X : mat) : Prop :=
  forall i j, (i < m)%nat -> (j < n)%nat -> sum m (fun l => t i l * X l j) = alpha * B0 i j.
Hypothesis Hnz : forall j, (j < m)%nat -> d = NonUnit -> g (val A s0 j j) <> zero.
Hypothesis (Hd : forall j, (j < m)%nat -> t j j = dg j).

Lemma dgnz j : (j < m)%nat -> dg j <> zero.
Proof. intros Hj. unfold dg. destruct d eqn:Hdd; [apply Hnz; auto; lia | apply (F_1_neq_0 fth)]. Qed.

(** column loop: solve each column in turn *)
Lemma cols (body : nat -> M unit) :
  (forall j F s, (j < n)%nat -> eff B F s0 s -> (forall i, (i < m)%nat -> F i j = B0 i j) ->
     wp (body j) (fun _ s' => exists x, eff B (fun i' j' => if (j' =? j)%nat then x i' else F i' j') s0 s' /\
        forall i, (i < m)%nat -> sum m (fun l => t i l * x l) = alpha * B0 i j) noX s) ->
  wp (forup 0 n body) (fun _ s' => exists X, eff B X s0 s' /\ solvesL X) noX s0.
Proof.
  intros Hb.
  loop (fun j s => exists X, eff B X s0 s /\
    (forall i j', (i < m)%nat -> (j' < j)%nat -> sum m (fun l => t i l * X l j') = alpha * B0 i j') /\
    (forall i j', (i < m)%nat -> (j <= j' < n)%nat -> X i j' = B0 i j')) as j s.
  - exists B0. split; [apply eff_refl|]. split; intros; [lia|auto].
  - destruct He as (X & He & H1 & H2). eapply wp_conseq; [apply (Hb j X); auto; try lia; intros; apply H2; lia| |auto].
    intros ? s' (x & He' & Hx). exists (fun i' j' => if (j' =? j)%nat then x i' else X i' j').
    split; auto. split; intros; cases; auto; apply H1 || apply H2; lia.
  - destruct He as (X & He & H1 & H2). exists X; split; auto.
Qed.

Lemma trsm_l_up :
  (forall i j, (i < j < m)%nat -> t i j = g (val A s0 i j)) ->
  (forall i j, (j < i < m)%nat -> t i j = zero) ->
  wp (for_ j in 0 upto n do (
          (for_ i in 0 upto m do (b <- rd B i j;; wr B i j (b * alpha)));;
          ford_ k in 0 upto m do (
            (if nonunit d then b <- rd B k j;; a <- rd A k k;; wr B k j (b / g a) else ret tt);;
            for_ i in 0 upto k do (
              b <- rd B i j;; a <- rd A i k;; bk <- rd B k j;; wr B i j (b - g a * bk)))))
   (fun _ s' => exists X, eff B X s0 s' /\ solvesL X) noX s0.
Proof.
  intros Ht Hz. apply cols. intros j F0 s Hj He HF0. apply wp_bind.
  rewrite <- HB1 at 1. eapply colscale; [auto|lia|exact He|]. intros s1 He1.
  loopd (fun k s => exists x, eff B (fun i' j' => if (j' =? j)%nat then x i' else F0 i' j') s0 s /\
     (forall i, (k <= i < m)%nat -> sumr i m (fun l => t i l * x l) = alpha * B0 i j) /\
     (forall i, (i < k)%nat -> x i = alpha * B0 i j - sumr k m (fun l => t i l * x l))) as k s2.
  { exists (fun i => F0 i j * alpha). split; [effext|]. split; [intros; lia|]. intros i Hi. rewrite sumr_nil, HF0 by lia. ring. }
  2: { destruct He0 as (x & He' & H1 & _). exists x. split; auto. intros i Hi.
       rewrite <- sum_sumr, (sumr_split 0 i m) by lia. rewrite H1 by lia. rewrite sumr_0; [ring|].
       intros l Hl. rewrite Hz by lia. ring. }
  destruct He0 as (x & He' & H1 & H2). apply wp_bind.
  pose (x1 := fun i => if (i =? k)%nat then x k / dg k else x i).
  apply (wp_conseq _ _ (fun _ s' => eff B (fun i' j' => if (j' =? j)%nat then x1 i' else F0 i' j') s0 s') _ noX); [|intros ? s4 He2|intros ? ? []].
  { unfold x1, dg. dsplit; steps; effext; rewrite ?H; field; apply (F_1_neq_0 fth). }
  loop (fun i s => eff B (fun i' j' => if (j' =? j)%nat then (if (i' <? i)%nat then x1 i' - g (val A s0 i' k) * x1 k else x1 i') else F0 i' j') s0 s) as i s3.
  - effext.
  - steps. effext.
  - exists (fun i' => if (i' <? k)%nat then x1 i' - g (val A s0 i' k) * x1 k else x1 i'). split; [effext|].
    assert (Hdg := dgnz k ltac:(lia)).
    assert (Hx1k : x1 k = x k / dg k) by (unfold x1; rewrite Nat.eqb_refl; auto).
    assert (Hx1 : forall l, l <> k -> x1 l = x l) by (intros l Hl; unfold x1; destruct (Nat.eqb_spec l k); congruence).
    split.
    + intros i Hi. assert (Hs : forall lo, (S k <= lo)%nat -> sumr lo m (fun l => t i l * (if (l <? k)%nat then x1 l - g (val A s0 l k) * x1 k else x1 l)) = sumr lo m (fun l => t i l * x l)).
      { intros lo Hlo. apply sumr_ext. intros l Hl. destruct (Nat.ltb_spec l k); [lia|]. rewrite Hx1 by lia. reflexivity. }
      destruct (Nat.eq_dec i k) as [->|Hij].
      * rewrite sumr_l by lia. rewrite Hs by lia. rewrite Nat.ltb_irrefl. rewrite Hx1k.
        rewrite (H2 k) by lia. rewrite Hd by lia. field. auto.
      * rewrite Hs by lia. apply H1; lia.
    + intros i Hi. destruct (Nat.ltb_spec i k); [|lia]. rewrite sumr_l by lia. rewrite Nat.ltb_irrefl.
      rewrite (sumr_ext (S k) m _ (fun l => t i l * x l)).
      2: { intros l Hl. destruct (Nat.ltb_spec l k); [lia|]. rewrite Hx1 by lia. reflexivity. }
      rewrite Hx1 by lia. rewrite H2 by lia. rewrite Ht by lia. ring.
Qed.

Lemma trsm_l_lo :
  (forall i j, (j < i < m)%nat -> t i j = g (val A s0 i j)) ->
  (forall i j, (i < j < m)%nat -> t i j = zero) ->
  wp (for_ j in 0 upto n do (
          (for_ i in 0 upto m do (b <- rd B i j;; wr B i j (b * alpha)));;
          for_ k in 0 upto m do (
            (if nonunit d then b <- rd B k j;; a <- rd A k k;; wr B k j (b / g a) else ret tt);;
            for_ i in (S k) upto m do (
              b <- rd B i j;; a <- rd A i k;; bk <- rd B k j;; wr B i j (b - g a * bk)))))
   (fun _ s' => exists X, eff B X s0 s' /\ solvesL X) noX s0.
Proof.
  intros Ht Hz. apply cols. intros j F0 s Hj He HF0. apply wp_bind.
  rewrite <- HB1 at 1. eapply colscale; [auto|lia|exact He|]. intros s1 He1.
  loop (fun k s => exists x, eff B (fun i' j' => if (j' =? j)%nat then x i' else F0 i' j') s0 s /\
     (forall i, (i < k)%nat -> sum (S i) (fun l => t i l * x l) = alpha * B0 i j) /\
     (forall i, (k <= i < m)%nat -> x i = alpha * B0 i j - sum k (fun l => t i l * x l))) as k s2.
  { exists (fun i => F0 i j * alpha). split; [effext|]. split; [intros; lia|]. intros i Hi. rewrite HF0 by lia. cbn [sum]. ring. }
  2: { destruct He0 as (x & He' & H1 & _). exists x. split; auto. intros i Hi.
       rewrite (sum_trunc (S i)); [apply H1; lia|lia|]. intros l Hl. rewrite Hz by lia. ring. }
  destruct He0 as (x & He' & H1 & H2). apply wp_bind.
  pose (x1 := fun i => if (i =? k)%nat then x k / dg k else x i).
  apply (wp_conseq _ _ (fun _ s' => eff B (fun i' j' => if (j' =? j)%nat then x1 i' else F0 i' j') s0 s') _ noX); [|intros ? s4 He2|intros ? ? []].
  { unfold x1, dg. dsplit; steps; effext; rewrite ?H; field; apply (F_1_neq_0 fth). }
  loop (fun i s => eff B (fun i' j' => if (j' =? j)%nat then (if ((S k <=? i') && (i' <? i))%nat then x1 i' - g (val A s0 i' k) * x1 k else x1 i') else F0 i' j') s0 s) as i s3.
  - effext.
  - steps. effext.
  - exists (fun i' => if (S k <=? i')%nat then x1 i' - g (val A s0 i' k) * x1 k else x1 i'). split; [effext|].
    assert (Hdg := dgnz k ltac:(lia)).
    assert (Hx1k : x1 k = x k / dg k) by (unfold x1; rewrite Nat.eqb_refl; auto).
    assert (Hx1 : forall l, l <> k -> x1 l = x l) by (intros l Hl; unfold x1; destruct (Nat.eqb_spec l k); congruence).
    assert (Hs : forall i hi, (hi <= k)%nat -> sum hi (fun l => t i l * (if (S k <=? l)%nat then x1 l - g (val A s0 l k) * x1 k else x1 l)) = sum hi (fun l => t i l * x l)).
    { intros i hi Hhi. apply sum_ext. intros l Hl. destruct (Nat.leb_spec (S k) l); [lia|]. rewrite Hx1 by lia. reflexivity. }
    split.
    + intros i Hi. destruct (Nat.eq_dec i k) as [->|Hij].
      * cbn [sum]. rewrite Hs by lia. destruct (Nat.leb_spec (S k) k); [lia|]. rewrite Hx1k.
        rewrite (H2 k) by lia. rewrite Hd by lia. field. auto.
      * rewrite Hs by lia. apply H1; lia.
    + intros i Hi. destruct (Nat.leb_spec (S k) i); [|lia]. cbn [sum]. rewrite Hs by lia.
      destruct (Nat.leb_spec (S k) k); [lia|]. 
      rewrite Hx1 by lia. rewrite H2 by lia. rewrite Ht by lia. ring.
Qed.

Lemma trsm_lt_up :
  (forall i j, (i < j < m)%nat -> t j i = g (val A s0 i j)) ->
  (forall i j, (j < i < m)%nat -> t j i = zero) ->
  wp (for_ j in 0 upto n do for_ i in 0 upto m do (
          b <- rd B i j;;
          sum <- foldup 0 i (alpha * b) (fun k sum => a <- rd A k i;; bk <- rd B k j;; ret (sum - g a * bk));;
          r <- (if nonunit d then a <- rd A i i;; ret (sum / g a) else ret sum);;
          wr B i j r))
   (fun _ s' => exists X, eff B X s0 s' /\ solvesL X) noX s0.
Proof.
  intros Ht Hz. apply cols. intros j F0 s Hj He HF0.
  loop (fun i s => exists x, eff B (fun i' j' => if (j' =? j)%nat then x i' else F0 i' j') s0 s /\
     (forall k, (k < i)%nat -> sum (S k) (fun l => t k l * x l) = alpha * B0 k j) /\
     (forall k, (i <= k < m)%nat -> x k = B0 k j)) as i s2.
  { exists (fun i => F0 i j). split; [effext|]. split; [intros; lia|]. intros k Hk; rewrite HF0; auto; lia. }
  2: { destruct He0 as (x & He' & H1 & _). exists x. split; auto. intros i Hi.
       rewrite (sum_trunc (S i)); [apply H1; lia|lia|]. intros l Hl. rewrite Hz by lia. ring. }
  destruct He0 as (x & He' & H1 & H2). steps. rewrite Nat.eqb_refl.
  fold (fun k a s' => a = alpha * B0 i j - sum k (fun l => t i l * x l) /\ s' = s2) as k a s3.
  - split; auto. cbn [sum]. rewrite H2 by lia. ring.
  - destruct He0 as [-> ->]. steps. split; auto. rewrite Nat.eqb_refl. cbn [sum]. rewrite Ht by lia. ring.
  - destruct He0 as [-> ->]. apply wp_bind.
    assert (Hdg := dgnz i ltac:(lia)).
    apply (wp_conseq _ _ (fun r s' => r = (alpha * B0 i j - sum i (fun l => t i l * x l)) / dg i /\ s' = s2) _ noX); [|intros r s' [-> ->]|intros ? ? []].
    { unfold dg. dsplit; steps; (split; [try reflexivity; field; apply (F_1_neq_0 fth)|reflexivity]). }
    steps. 
    set (v := (alpha * B0 i j - sum i (fun l => t i l * x l)) / dg i) in *.
    exists (fun k => if (k =? i)%nat then v else x k). split; [effext|].
    assert (Hs : forall k hi, (hi <= i)%nat -> sum hi (fun l => t k l * (if (l =? i)%nat then v else x l)) = sum hi (fun l => t k l * x l)).
    { intros k hi Hhi. apply sum_ext. intros l Hl. destruct (Nat.eqb_spec l i); [lia|]. reflexivity. }
    split.
    + intros k Hk. destruct (Nat.eq_dec k i) as [->|Hij].
      * cbn [sum]. rewrite Hs by lia. rewrite Nat.eqb_refl. unfold v. rewrite Hd by lia. field. auto.
      * rewrite Hs by lia. apply H1; lia.
    + intros k Hk. destruct (Nat.eqb_spec k i); [lia|]. apply H2; lia.
Qed.

Lemma trsm_lt_lo :
  (forall i j, (j < i < m)%nat -> t j i = g (val A s0 i j)) ->
  (forall i j, (i < j < m)%nat -> t j i = zero) ->
  wp (for_ j in 0 upto n do ford_ i in 0 upto m do (
          b <- rd B i j;;
          sum <- foldup (S i) m (alpha * b) (fun k sum => a <- rd A k i;; bk <- rd B k j;; ret (sum - g a * bk));;
          r <- (if nonunit d then a <- rd A i i;; ret (sum / g a) else ret sum);;
          wr B i j r))
   (fun _ s' => exists X, eff B X s0 s' /\ solvesL X) noX s0.
Proof.
  intros Ht Hz. apply cols. intros j F0 s Hj He HF0.
  loopd (fun i s => exists x, eff B (fun i' j' => if (j' =? j)%nat then x i' else F0 i' j') s0 s /\
     (forall k, (i <= k < m)%nat -> sumr k m (fun l => t k l * x l) = alpha * B0 k j) /\
     (forall k, (k < i)%nat -> x k = B0 k j)) as i s2.
  { exists (fun i => F0 i j). split; [effext|]. split; [intros; lia|]. intros k Hk; rewrite HF0; auto; lia. }
  2: { destruct He0 as (x & He' & H1 & _). exists x. split; auto. intros i Hi.
       rewrite <- sum_sumr, (sumr_split 0 i m) by lia. rewrite H1 by lia. rewrite sumr_0; [ring|].
       intros l Hl. rewrite Hz by lia. ring. }
  destruct He0 as (x & He' & H1 & H2). steps. rewrite Nat.eqb_refl.
  fold (fun k a s' => a = alpha * B0 i j - sumr (S i) k (fun l => t i l * x l) /\ s' = s2) as k a s3.
  - split; auto. rewrite sumr_nil. rewrite H2 by lia. ring.
  - destruct He0 as [-> ->]. steps. split; auto. rewrite Nat.eqb_refl. rewrite sumr_S by lia. rewrite Ht by lia. ring.
  - destruct He0 as [-> ->]. apply wp_bind.
    assert (Hdg := dgnz i ltac:(lia)).
    apply (wp_conseq _ _ (fun r s' => r = (alpha * B0 i j - sumr (S i) m (fun l => t i l * x l)) / dg i /\ s' = s2) _ noX); [|intros r s' [-> ->]|intros ? ? []].
    { unfold dg. dsplit; steps; (split; [try reflexivity; field; apply (F_1_neq_0 fth)|reflexivity]). }
    steps. 
    set (v := (alpha * B0 i j - sumr (S i) m (fun l => t i l * x l)) / dg i) in *.
    exists (fun k => if (k =? i)%nat then v else x k). split; [effext|].
    assert (Hs : forall k lo, (i < lo)%nat -> sumr lo m (fun l => t k l * (if (l =? i)%nat then v else x l)) = sumr lo m (fun l => t k l * x l)).
    { intros k lo Hhi. apply sumr_ext. intros l Hl. destruct (Nat.eqb_spec l i); [lia|]. reflexivity. }
    split.
    + intros k Hk. destruct (Nat.eq_dec k i) as [->|Hij].
      * rewrite sumr_l by lia. rewrite Hs by lia. rewrite Nat.eqb_refl. unfold v. rewrite Hd by lia. field. auto.
      * rewrite Hs by lia. apply H1; lia.
    + intros k Hk. destruct (Nat.eqb_spec k i); [lia|]. apply H2; lia.
Qed.
End L.

Section R.
Hypotheses (HA1 : nr A = n) (HA2 : nc A = n).
Definition solvesR (X : mat) : Prop :=
  forall i j, (i < m)%nat -> (j < n)%nat -> sum n (fun l => X i l * t l j) = alpha * B0 i j.
Hypothesis Hnz : forall j, (j < n)%nat -> d = NonUnit -> g (val A s0 j j) <> zero.
Hypothesis (Hd : forall j, (j < n)%nat -> t j j = dg j).
Lemma dgnz' j : (j < n)%nat -> dg j <> zero.
Proof. intros Hj. unfold dg. destruct d eqn:Hdd; [apply Hnz; auto; lia | apply (F_1_neq_0 fth)]. Qed.

(** division of column [j] by the diagonal element *)
Lemma coldiv j F s (Q : unit -> state -> Prop) X : (j < n)%nat -> eff B F s0 s ->
  (forall s', eff B (fun i' j' => if (j' =? j)%nat then F i' j' / dg j else F i' j') s0 s' -> Q tt s') ->
  wp (if nonunit d then
            for_ i in 0 upto m do (b <- rd B i j;; a <- rd A j j;; wr B i j (b / g a))
          else ret tt) Q X s.
Proof.
  intros Hj He HQ. unfold dg in HQ. dsplit.
  - loop (fun i s => eff B (fun i' j' => if ((j' =? j) && (i' <? i))%nat then F i' j' / g (val A s0 j j) else F i' j') s0 s) as i s9.
    + effext.
    + steps. effext.
    + apply HQ. effext.
  - steps. apply HQ. effext. field. apply (F_1_neq_0 fth).
Qed.

(** column j := column j - column k * c *)
Lemma colaxpy j k F s (Q : unit -> state -> Prop) X (rdA : M T) c : (j < n)%nat -> (k < n)%nat -> j <> k -> eff B F s0 s ->
  (forall (Q : T -> state -> Prop) X F s, eff B F s0 s -> Q c s -> wp rdA Q X s) ->
  (forall s', eff B (fun i' j' => if (j' =? j)%nat then F i' j' - F i' k * g c else F i' j') s0 s' -> Q tt s') ->
  wp (for_ i in 0 upto m do (
             b <- rd B i j;; bk <- rd B i k;; a <- rdA;; wr B i j (b - bk * g a))) Q X s.
Proof.
  intros Hj Hk Hjk He HA HQ.
  loop (fun i s => eff B (fun i' j' => if ((j' =? j) && (i' <? i))%nat then F i' j' - F i' k * g c else F i' j') s0 s) as i s9.
  - effext.
  - steps. eapply HA; [eassumption|]. steps. effext.
  - apply HQ. effext.
Qed.

Lemma trsm_r_up :
  (forall i j, (i < j < n)%nat -> t i j = g (val A s0 i j)) ->
  (forall i j, (j < i < n)%nat -> t i j = zero) ->
  wp (for_ j in 0 upto n do (
          (for_ i in 0 upto m do (b <- rd B i j;; wr B i j (b * alpha)));;
          (for_ k in 0 upto j do for_ i in 0 upto m do (
             b <- rd B i j;; bk <- rd B i k;; a <- rd A k j;; wr B i j (b - bk * g a)));;
          if nonunit d then
            for_ i in 0 upto m do (b <- rd B i j;; a <- rd A j j;; wr B i j (b / g a))
          else ret tt))
   (fun _ s' => exists X, eff B X s0 s' /\ solvesR X) noX s0.
Proof.
  intros Ht Hz.
  loop (fun j s => exists X, eff B X s0 s /\
    (forall i j', (i < m)%nat -> (j' < j)%nat -> sum (S j') (fun l => X i l * t l j') = alpha * B0 i j') /\
    (forall i j', (i < m)%nat -> (j <= j' < n)%nat -> X i j' = B0 i j')) as j s.
  { exists B0. split; [apply eff_refl|]. split; intros; [lia|auto]. }
  2: { destruct He as (X & He & H1 & _). exists X; split; auto. intros i j Hi Hj.
       rewrite (sum_trunc (S j)); [apply H1; lia|lia|]. intros l Hl. rewrite Hz by lia. ring. }
  destruct He as (X & He & H1 & H2).
  apply wp_bind. rewrite <- HB1 at 1. eapply colscale; [auto|lia|exact He|]. intros s1 He1. apply wp_bind.
  loop (fun k s => eff B (fun i' j' => if (j' =? j)%nat then alpha * B0 i' j - sum k (fun l => X i' l * t l j) else X i' j') s0 s) as k s2.
  - effext. rewrite H2 by lia. cbn [sum]. ring.
  - eapply (colaxpy j k _ _ _ _ _ (val A s0 k j)); [lia|lia|lia|exact He0| |].
    + intros Q X' F' s' He' HQ. steps. exact HQ.
    + intros s' He'. effext. rewrite <- Ht by lia. cbn [sum]. ring.
  - eapply coldiv; [lia|exact He0|]. intros s3 He3. 
    exists (fun i' j' => if (j' =? j)%nat then (alpha * B0 i' j - sum j (fun l => X i' l * t l j)) / dg j else X i' j').
    assert (Hdg := dgnz' j ltac:(lia)).
    split; [effext|]. split.
    + intros i j' Hi Hj'.
      assert (Hs : forall hi, (hi <= j)%nat -> sum hi (fun l => (if (l =? j)%nat then (alpha * B0 i j - sum j (fun l => X i l * t l j)) / dg j else X i l) * t l j') = sum hi (fun l => X i l * t l j')).
      { intros hi Hhi. apply sum_ext. intros l Hl. destruct (Nat.eqb_spec l j); [lia|]. reflexivity. }
      destruct (Nat.eq_dec j' j) as [->|Hne].
      * cbn [sum]. rewrite Hs by lia. rewrite Nat.eqb_refl, Hd by lia. field. auto.
      * rewrite Hs by lia. apply H1; lia.
    + intros i j' Hi Hj'. cases. apply H2; lia.
Qed.

Lemma trsm_r_lo :
  (forall i j, (j < i < n)%nat -> t i j = g (val A s0 i j)) ->
  (forall i j, (i < j < n)%nat -> t i j = zero) ->
  wp (ford_ j in 0 upto n do (
          (for_ i in 0 upto m do (b <- rd B i j;; wr B i j (b * alpha)));;
          (for_ k in (S j) upto n do for_ i in 0 upto m do (
             b <- rd B i j;; bk <- rd B i k;; a <- rd A k j;; wr B i j (b - bk * g a)));;
          if nonunit d then
            for_ i in 0 upto m do (b <- rd B i j;; a <- rd A j j;; wr B i j (b / g a))
          else ret tt))
   (fun _ s' => exists X, eff B X s0 s' /\ solvesR X) noX s0.
Proof.
  intros Ht Hz.
  loopd (fun j s => exists X, eff B X s0 s /\
    (forall i j', (i < m)%nat -> (j <= j' < n)%nat -> sumr j' n (fun l => X i l * t l j') = alpha * B0 i j') /\
    (forall i j', (i < m)%nat -> (j' < j)%nat -> X i j' = B0 i j')) as j s.
  { exists B0. split; [apply eff_refl|]. split; intros; [lia|auto]. }
  2: { destruct He as (X & He & H1 & _). exists X; split; auto. intros i j Hi Hj.
       rewrite <- sum_sumr, (sumr_split 0 j n) by lia. rewrite H1 by lia. rewrite sumr_0; [ring|].
       intros l Hl. rewrite Hz by lia. ring. }
  destruct He as (X & He & H1 & H2).
  apply wp_bind. rewrite <- HB1 at 1. eapply colscale; [auto|lia|exact He|]. intros s1 He1. apply wp_bind.
  loop (fun k s => eff B (fun i' j' => if (j' =? j)%nat then alpha * B0 i' j - sumr (S j) k (fun l => X i' l * t l j) else X i' j') s0 s) as k s2.
  - effext. rewrite H2 by lia. rewrite sumr_nil. ring.
  - eapply (colaxpy j k _ _ _ _ _ (val A s0 k j)); [lia|lia|lia|exact He0| |].
    + intros Q X' F' s' He' HQ. steps. exact HQ.
    + intros s' He'. effext. rewrite <- Ht by lia. rewrite sumr_S by lia. ring.
  - eapply coldiv; [lia|exact He0|]. intros s3 He3. 
    exists (fun i' j' => if (j' =? j)%nat then (alpha * B0 i' j - sumr (S j) n (fun l => X i' l * t l j)) / dg j else X i' j').
    assert (Hdg := dgnz' j ltac:(lia)).
    split; [effext|]. split.
    + intros i j' Hi Hj'.
      assert (Hs : forall lo, (j < lo)%nat -> sumr lo n (fun l => (if (l =? j)%nat then (alpha * B0 i j - sumr (S j) n (fun l => X i l * t l j)) / dg j else X i l) * t l j') = sumr lo n (fun l => X i l * t l j')).
      { intros hi Hhi. apply sumr_ext. intros l Hl. destruct (Nat.eqb_spec l j); [lia|]. reflexivity. }
      destruct (Nat.eq_dec j' j) as [->|Hne].
      * rewrite sumr_l by lia. rewrite Hs by lia. rewrite Nat.eqb_refl, Hd by lia. field. auto.
      * rewrite Hs by lia. apply H1; lia.
    + intros i j' Hi Hj'. cases. apply H2; lia.
Qed.

Lemma trsm_rt_up :
  (forall i j, (i < j < n)%nat -> t j i = g (val A s0 i j)) ->
  (forall i j, (j < i < n)%nat -> t j i = zero) ->
  wp (ford_ k in 0 upto n do (
          (if nonunit d then
             for_ i in 0 upto m do (b <- rd B i k;; a <- rd A k k;; wr B i k (b / g a))
           else ret tt);;
          (for_ j in 0 upto k do for_ i in 0 upto m do (
             b <- rd B i j;; bk <- rd B i k;; a <- rd A j k;; wr B i j (b - bk * g a)));;
          for_ i in 0 upto m do (b <- rd B i k;; wr B i k (b * alpha))))
   (fun _ s' => exists X, eff B X s0 s' /\ solvesR X) noX s0.
Proof.
  intros Ht Hz.
  (* Y = the unscaled solution: columns >= k of the state hold Y*alpha *)
  loopd (fun k s => exists Y, eff B (fun i' j' => if (k <=? j')%nat then Y i' j' * alpha else Y i' j') s0 s /\
    (forall i j', (i < m)%nat -> (k <= j' < n)%nat -> sumr j' n (fun l => Y i l * t l j') = B0 i j') /\
    (forall i j', (i < m)%nat -> (j' < k)%nat -> Y i j' = B0 i j' - sumr k n (fun l => Y i l * t l j'))) as k s.
  { exists B0. split; [apply (eff_ext _ _ _ _ _ (eff_refl B s0)); intros; unfold B0; cases|]. split; intros; [lia|].
    rewrite sumr_nil. ring. }
  2: { destruct He as (Y & He & H1 & _). exists (fun i j => Y i j * alpha); split; [effext|]. intros i j Hi Hj.
       rewrite <- sum_sumr, (sumr_split 0 j n) by lia. rewrite (sumr_0 0 j).
       2: { intros l Hl. rewrite Hz by lia. ring. }
       rewrite <- (H1 i j) by lia. rewrite <- sumr_scal_l. 
       transitivity (sumr j n (fun l => alpha * (Y i l * t l j))); [|reflexivity].
       replace (sumr j n (fun l => Y i l * alpha * t l j)) with (sumr j n (fun l => alpha * (Y i l * t l j))); [ring|].
       apply sumr_ext. intros; ring. }
  destruct He as (Y & He & H1 & H2). apply wp_bind.
  eapply coldiv; [lia|exact He|]. intros s1 He1. apply wp_bind.
  pose (y := fun i => Y i k / dg k).
  loop (fun j s => eff B (fun i' j' => if (j' =? k)%nat then y i' else if (k <=? j')%nat then Y i' j' * alpha
       else if (j' <? j)%nat then Y i' j' - y i' * t k j' else Y i' j') s0 s) as j s2.
  - unfold y. effext. 
  - eapply (colaxpy j k _ _ _ _ _ (val A s0 j k)); [lia|lia|lia|exact He0| |].
    + intros Q X' F' s' He' HQ. steps. exact HQ.
    + intros s' He'. effext. rewrite <- Ht by lia. ring.
  - rewrite <- HB1 at 1. eapply colscale; [auto|lia|exact He0|]. intros s3 He3. 
    exists (fun i' j' => if (j' =? k)%nat then y i' else if (j' <? k)%nat then Y i' j' - y i' * t k j' else Y i' j').
    assert (Hdg := dgnz' k ltac:(lia)).
    assert (Hs : forall i j' lo, (k < lo)%nat -> sumr lo n (fun l => (if (l =? k)%nat then y i else if (l <? k)%nat then Y i l - y i * t k l else Y i l) * t l j') = sumr lo n (fun l => Y i l * t l j')).
    { intros i j' hi Hhi. apply sumr_ext. intros l Hl. cases. }
    split; [effext|]. split.
    + intros i j' Hi Hj'.
      destruct (Nat.eq_dec j' k) as [->|Hne].
      * rewrite sumr_l by lia. rewrite Hs by lia. rewrite Nat.eqb_refl, Hd by lia. unfold y.
        rewrite (H2 i k) by lia. field. auto.
      * rewrite Hs by lia. apply H1; lia.
    + intros i j' Hi Hj'. rewrite sumr_l by lia. rewrite Hs by lia. rewrite Nat.eqb_refl. cases.
      rewrite (H2 i j') by lia. ring.
Qed.

Lemma trsm_rt_lo :
  (forall i j, (j < i < n)%nat -> t j i = g (val A s0 i j)) ->
  (forall i j, (i < j < n)%nat -> t j i = zero) ->
  wp (for_ k in 0 upto n do (
          (if nonunit d then
             for_ i in 0 upto m do (b <- rd B i k;; a <- rd A k k;; wr B i k (b / g a))
           else ret tt);;
          (for_ j in (S k) upto n do for_ i in 0 upto m do (
             b <- rd B i j;; bk <- rd B i k;; a <- rd A j k;; wr B i j (b - bk * g a)));;
          for_ i in 0 upto m do (b <- rd B i k;; wr B i k (b * alpha))))
   (fun _ s' => exists X, eff B X s0 s' /\ solvesR X) noX s0.
Proof.
  intros Ht Hz.
  loop (fun k s => exists Y, eff B (fun i' j' => if (j' <? k)%nat then Y i' j' * alpha else Y i' j') s0 s /\
    (forall i j', (i < m)%nat -> (j' < k)%nat -> sum (S j') (fun l => Y i l * t l j') = B0 i j') /\
    (forall i j', (i < m)%nat -> (k <= j' < n)%nat -> Y i j' = B0 i j' - sum k (fun l => Y i l * t l j'))) as k s.
  { exists B0. split; [apply (eff_ext _ _ _ _ _ (eff_refl B s0)); intros; unfold B0; cases|]. split; intros; [lia|].
    cbn [sum]. ring. }
  2: { destruct He as (Y & He & H1 & _). exists (fun i j => Y i j * alpha); split; [effext|]. intros i j Hi Hj.
       rewrite (sum_trunc (S j)); [|lia|]. 2: { intros l Hl. rewrite Hz by lia. ring. }
       rewrite <- (H1 i j) by lia. rewrite <- sum_scal_l. apply sum_ext. intros; ring. }
  destruct He as (Y & He & H1 & H2). apply wp_bind.
  eapply coldiv; [lia|exact He|]. intros s1 He1. apply wp_bind.
  pose (y := fun i => Y i k / dg k).
  loop (fun j s => eff B (fun i' j' => if (j' =? k)%nat then y i' else if (j' <? k)%nat then Y i' j' * alpha
       else if (j' <? j)%nat then Y i' j' - y i' * t k j' else Y i' j') s0 s) as j s2.
  - unfold y. effext. 
  - eapply (colaxpy j k _ _ _ _ _ (val A s0 j k)); [lia|lia|lia|exact He0| |].
    + intros Q X' F' s' He' HQ. steps. exact HQ.
    + intros s' He'. effext. rewrite <- Ht by lia. ring.
  - rewrite <- HB1 at 1. eapply colscale; [auto|lia|exact He0|]. intros s3 He3. 
    exists (fun i' j' => if (j' =? k)%nat then y i' else if (k <? j')%nat then Y i' j' - y i' * t k j' else Y i' j').
    assert (Hdg := dgnz' k ltac:(lia)).
    assert (Hs : forall i j' hi, (hi <= k)%nat -> sum hi (fun l => (if (l =? k)%nat then y i else if (k <? l)%nat then Y i l - y i * t k l else Y i l) * t l j') = sum hi (fun l => Y i l * t l j')).
    { intros i j' hi Hhi. apply sum_ext. intros l Hl. cases. }
    split; [effext|]. split.
    + intros i j' Hi Hj'.
      destruct (Nat.eq_dec j' k) as [->|Hne].
      * cbn [sum]. rewrite Hs by lia. rewrite Nat.eqb_refl, Hd by lia. unfold y.
        rewrite (H2 i k) by lia. field. auto.
      * rewrite Hs by lia. apply H1; lia.
    + intros i j' Hi Hj'. cbn [sum]. rewrite Hs by lia. rewrite Nat.eqb_refl. cases.
      rewrite (H2 i j') by lia. ring.
Qed.
End R.
End Gen.

Ltac tricase :=
  intros; unfold opm, trim, intri; cases; rewrite ?conj_0, ?conj_1; auto;
  match goal with d : diag_t |- _ => destruct d; rewrite ?conj_1; auto end.

Lemma trsm_run `{CL : !ConjLaws E} sd u o d alpha A B s0 m n : uplo2 u = true -> op3 o = true ->
  nr B = m -> nc B = n -> nr A = sel sd m n -> nc A = sel sd m n -> vinj B -> disj A B ->
  (d = NonUnit -> forall j, (j < sel sd m n)%nat -> val A s0 j j <> zero) ->
  runs (trsm sd u o d alpha A B) s0
    (fun _ s' => exists X, eff B X s0 s' /\
       forall i j, (i < m)%nat -> (j < n)%nat ->
         match sd with
         | Left => mmul m (opm o (trim u d (val A s0))) X i j = alpha * val B s0 i j
         | Right => mmul n X (opm o (trim u d (val A s0))) i j = alpha * val B s0 i j
         end).
Proof.
  intros Hu Ho HB1 HB2 HA1 HA2 HI HD Hnz. unfold runs, trsm. rewrite HB1, HB2. cbv zeta.
  checks.
  destruct sd; cbn [sel] in *.
  - destruct o; destruct u; try discriminate Hu; try discriminate Ho.
    + apply (trsm_l_up (fun a => a) d alpha A); auto; tricase.
    + apply (trsm_l_lo (fun a => a) d alpha A); auto; tricase.
    + apply (trsm_lt_up (fun a => a) d alpha A); auto; tricase.
    + apply (trsm_lt_lo (fun a => a) d alpha A); auto; tricase.
    + apply (trsm_lt_up conj d alpha A); auto using conj_nz; tricase.
    + apply (trsm_lt_lo conj d alpha A); auto using conj_nz; tricase.
  - destruct o; destruct u; try discriminate Hu; try discriminate Ho.
    + apply (trsm_r_up (fun a => a) d alpha A); auto; tricase.
    + apply (trsm_r_lo (fun a => a) d alpha A); auto; tricase.
    + apply (trsm_rt_up (fun a => a) d alpha A); auto; tricase.
    + apply (trsm_rt_lo (fun a => a) d alpha A); auto; tricase.
    + apply (trsm_rt_up conj d alpha A); auto using conj_nz; tricase.
    + apply (trsm_rt_lo conj d alpha A); auto using conj_nz; tricase.
Qed.
End Trsm.
