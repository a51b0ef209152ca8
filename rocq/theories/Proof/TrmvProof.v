(** trmv and trsv *)
From Coq Require Import Bool Arith ZArith Lia Ring Field.
From Verif.Core Require Import Scalar Prog View.
From Verif.Spec Require Import LinAlg.
From Verif.Model Require Import Blas2.
From Verif.Proof Require Import SumLemmas Tactics Blas2Proof.
Local Open Scope T_scope.

Section Tri.
Context {E : Env} {FL : FieldLaws E}.
Add Field Tf : fth.

Section Gen.
(** [g] is the identity or [conj]; [t] the triangular matrix after applying [g] *)
Variables (g : T -> T) (d : diag_t) (A x : view) (s0 : state) (n : nat).
Hypotheses (Hx : nc x = 1%nat) (HA1 : nr A = n) (HA2 : nc A = n) (Hxn : nr x = n)
  (HI : vinj x) (HD : disj A x).
Let x0 := vval x s0.
Variable t : nat -> nat -> T.
Let dg (j : nat) := match d with NonUnit => g (val A s0 j j) | Unit => one end.

Ltac dsplit := let H := fresh in destruct d eqn:H; cbn [nonunit].

(** *** column-oriented products *)
Lemma trmv_col_up :
  (forall i j, (i < j < n)%nat -> t i j = g (val A s0 i j)) -> (forall j, (j < n)%nat -> t j j = dg j) ->
  (forall i j, (j < i < n)%nat -> t i j = zero) ->
  wp (for_ j in 0 upto n do (
            (for_ i in 0 upto j do (
               xi <- rdv x i;; xj <- rdv x j;; a <- rd A i j;; wrv x i (xi + xj * g a)));;
            if nonunit d then xj <- rdv x j;; a <- rd A j j;; wrv x j (xj * g a) else ret tt))
   (fun _ s' => eff x (fun i _ => sum n (fun l => t i l * x0 l)) s0 s') noX s0.
Proof.
  intros Ht Hd Hz.
  set (G := fun j i => sum j (fun l => t i l * x0 l)).
  loop (fun j s => eff x (fun i _ => if (i <? j)%nat then G j i else x0 i) s0 s) as j s.
  { apply eff_refl_vec; auto. } 2: { effext. }
  steps.
  loop (fun i s => eff x (fun i' _ => if (i' <? i)%nat then G (S j) i' else if (i' <? j)%nat then G j i' else x0 i') s0 s) as i s2.
  - effext.
  - steps. effext. unfold G; cbn [sum]. rewrite Ht by lia. ring.
  - assert (Hj0 : sum j (fun l => t j l * x0 l) = zero).
    { apply sum_0. intros l Hl. rewrite Hz by lia. ring. }
    dsplit.
    + steps. effext. unfold G; cbn [sum]. rewrite Hj0, Hd by lia. unfold dg; rewrite ?H; cbn iota; ring.
    + steps. effext. replace i' with j by lia. unfold G; cbn [sum]. rewrite Hj0, Hd by lia. unfold dg; rewrite ?H; cbn iota; ring.
Qed.

Lemma trmv_col_lo :
  (forall i j, (j < i < n)%nat -> t i j = g (val A s0 i j)) -> (forall j, (j < n)%nat -> t j j = dg j) ->
  (forall i j, (i < j < n)%nat -> t i j = zero) ->
  wp (ford_ j in 0 upto n do (
            (ford_ i in (S j) upto n do (
               xi <- rdv x i;; xj <- rdv x j;; a <- rd A i j;; wrv x i (xi + xj * g a)));;
            if nonunit d then xj <- rdv x j;; a <- rd A j j;; wrv x j (xj * g a) else ret tt))
   (fun _ s' => eff x (fun i _ => sum n (fun l => t i l * x0 l)) s0 s') noX s0.
Proof.
  intros Ht Hd Hz.
  set (G := fun j i => sumr j n (fun l => t i l * x0 l)).
  loopd (fun j s => eff x (fun i _ => if (i <? j)%nat then x0 i else G j i) s0 s) as j s.
  { apply (eff_ext _ _ _ _ _ (eff_refl_vec x s0 Hx)). intros; cases. } 2: { effext. unfold G. rewrite sum_sumr. reflexivity. }
  steps.
  loopd (fun i s => eff x (fun i' _ => if (i' <? S j)%nat then x0 i' else if (i' <? i)%nat then G (S j) i' else G j i') s0 s) as i s2.
  - effext.
  - steps. effext. unfold G. rewrite (sumr_l j n) by lia. rewrite Ht by lia. ring.
  - assert (Hj0 : sumr (S j) n (fun l => t j l * x0 l) = zero).
    { apply sumr_0. intros l Hl. rewrite Hz by lia. ring. }
    dsplit.
    + steps. effext. unfold G. rewrite (sumr_l j n), Hj0, Hd by lia. unfold dg; rewrite ?H; cbn iota; ring.
    + steps. effext. replace i' with j by lia. unfold G. rewrite (sumr_l j n), Hj0, Hd by lia. unfold dg; rewrite ?H; cbn iota; ring.
Qed.

(** *** dot-oriented products: row j of the operator is column j of A *)
Lemma trmv_dot_up :
  (forall i j, (i < j < n)%nat -> t j i = g (val A s0 i j)) -> (forall j, (j < n)%nat -> t j j = dg j) ->
  (forall i j, (j < i < n)%nat -> t j i = zero) ->
  wp (ford_ j in 0 upto n do (
            xj <- rdv x j;;
            tmp <- (if nonunit d then a <- rd A j j;; ret (xj * g a) else ret xj);;
            tmp <- folddown 0 j tmp (fun i tmp => a <- rd A i j;; xi <- rdv x i;; ret (tmp + g a * xi));;
            wrv x j tmp))
   (fun _ s' => eff x (fun i _ => sum n (fun l => t i l * x0 l)) s0 s') noX s0.
Proof.
  intros Ht Hd Hz.
  set (G := fun i => sum n (fun l => t i l * x0 l)).
  loopd (fun j s => eff x (fun i _ => if (i <? j)%nat then x0 i else G i) s0 s) as j s.
  { apply (eff_ext _ _ _ _ _ (eff_refl_vec x s0 Hx)). intros; cases. } 2: { effext. }
  apply wp_bind. steps. rewrite Nat.ltb_irrefl || (destruct (Nat.ltb_spec j (S j)); [|lia]).
  apply (wp_conseq _ _ (fun r s' => r = t j j * x0 j /\ s' = s) _ noX); [|intros r s' [-> ->]|intros ? ? []].
  { dsplit; steps; (split; [rewrite Hd by lia; unfold dg; rewrite ?H; cbn iota; ring | reflexivity]). }
  apply wp_bind.
  apply (wp_folddown _ (fun i a s' => a = sumr i (S j) (fun l => t j l * x0 l) /\ s' = s)); [lia| | |].
  - split; auto. rewrite sumr_S, sumr_nil by lia. ring.
  - intros i a s' Hi [-> ->]. steps. split; auto. destruct (Nat.ltb_spec i (S j)); [|lia].
    rewrite (sumr_l i (S j)) by lia. rewrite Ht by lia. ring.
  - intros a s' [-> ->]. steps. effext. unfold G. rewrite sum_sumr. 
    symmetry. apply sum_trunc; [lia|]. intros k Hk. rewrite Hz by lia. ring.
Qed.

Lemma trmv_dot_lo :
  (forall i j, (j < i < n)%nat -> t j i = g (val A s0 i j)) -> (forall j, (j < n)%nat -> t j j = dg j) ->
  (forall i j, (i < j < n)%nat -> t j i = zero) ->
  wp (for_ j in 0 upto n do (
            xj <- rdv x j;;
            tmp <- (if nonunit d then a <- rd A j j;; ret (xj * g a) else ret xj);;
            tmp <- foldup (S j) n tmp (fun i tmp => a <- rd A i j;; xi <- rdv x i;; ret (tmp + g a * xi));;
            wrv x j tmp))
   (fun _ s' => eff x (fun i _ => sum n (fun l => t i l * x0 l)) s0 s') noX s0.
Proof.
  intros Ht Hd Hz.
  set (G := fun i => sum n (fun l => t i l * x0 l)).
  loop (fun j s => eff x (fun i _ => if (i <? j)%nat then G i else x0 i) s0 s) as j s.
  { apply (eff_ext _ _ _ _ _ (eff_refl_vec x s0 Hx)). intros; cases. } 2: { effext. }
  apply wp_bind. steps. rewrite Nat.ltb_irrefl.
  apply (wp_conseq _ _ (fun r s' => r = t j j * x0 j /\ s' = s) _ noX); [|intros r s' [-> ->]|intros ? ? []].
  { dsplit; steps; (split; [rewrite Hd by lia; unfold dg; rewrite ?H; cbn iota; ring | reflexivity]). }
  apply wp_bind.
  fold (fun i a s' => a = sumr j i (fun l => t j l * x0 l) /\ s' = s) as i a s'.
  - split; auto. rewrite sumr_S, sumr_nil by lia. ring.
  - destruct He0 as [-> ->]. steps. split; auto. destruct (Nat.ltb_spec i j); [lia|].
    rewrite sumr_S by lia. rewrite Ht by lia. ring.
  - destruct He0 as [-> ->]. steps. effext. unfold G.
    rewrite <- sum_sumr, (sumr_split 0 j n) by lia. rewrite (sumr_0 0 j); [ring|].
    intros k Hk. rewrite Hz by lia. ring.
Qed.

(** *** substitution *)
(** [F] solves the system: used as postcondition *)
Definition solves (F : nat -> T) : Prop := forall i, (i < n)%nat -> sum n (fun l => t i l * F l) = x0 i.
Hypothesis Hnz : forall j, (j < n)%nat -> d = NonUnit -> g (val A s0 j j) <> zero.

Lemma trsv_col_up :
  (forall i j, (i < j < n)%nat -> t i j = g (val A s0 i j)) -> (forall j, (j < n)%nat -> t j j = dg j) ->
  (forall i j, (j < i < n)%nat -> t i j = zero) ->
  wp (ford_ j in 0 upto n do (
            (if nonunit d then xj <- rdv x j;; a <- rd A j j;; wrv x j (xj / g a) else ret tt);;
            ford_ i in 0 upto j do (
               xi <- rdv x i;; xj <- rdv x j;; a <- rd A i j;; wrv x i (xi - xj * g a))))
   (fun _ s' => exists F, eff x (fun i _ => F i) s0 s' /\ solves F) noX s0.
Proof.
  intros Ht Hd Hz.
  loopd (fun j s => exists F, eff x (fun i _ => F i) s0 s /\
     (forall i, (j <= i < n)%nat -> sumr i n (fun l => t i l * F l) = x0 i) /\
     (forall i, (i < j)%nat -> F i = x0 i - sumr j n (fun l => t i l * F l))) as j s.
  { exists x0. split; [apply eff_refl_vec; auto|]. split; [intros; lia|]. intros i Hi. rewrite sumr_nil. ring. }
  2: { destruct He as (F & He & H1 & _). exists F. split; auto. intros i Hi.
       rewrite <- sum_sumr, (sumr_split 0 i n) by lia. rewrite H1 by lia. rewrite sumr_0; [ring|].
       intros k Hk. rewrite Hz by lia. ring. }
  destruct He as (F & He & H1 & H2). apply wp_bind.
  pose (F1 := fun i => if (i =? j)%nat then F j / dg j else F i).
  apply (wp_conseq _ _ (fun _ s' => eff x (fun i _ => F1 i) s0 s') _ noX); [|intros ? s2 He2|intros ? ? []].
  { unfold F1, dg. dsplit; steps; effext; rewrite ?H; field; apply (F_1_neq_0 fth). }
  loopd (fun i s => eff x (fun i' _ => if ((i <=? i') && (i' <? j))%nat then F1 i' - F1 j * g (val A s0 i' j) else F1 i') s0 s) as i s3.
  - effext.
  - steps. effext.
  - exists (fun i' => if (i' <? j)%nat then F1 i' - F1 j * g (val A s0 i' j) else F1 i'). split; [effext|].
    assert (Hdg : dg j <> zero). { unfold dg. destruct d eqn:Hdd; [apply Hnz; auto; lia | apply (F_1_neq_0 fth)]. }
    assert (HF1j : F1 j = F j / dg j) by (unfold F1; rewrite Nat.eqb_refl; auto).
    assert (HF1 : forall k, k <> j -> F1 k = F k) by (intros k Hk; unfold F1; destruct (Nat.eqb_spec k j); congruence).
    split.
    + intros i Hi. assert (Hs : forall lo, (S j <= lo)%nat -> sumr lo n (fun l => t i l * (if (l <? j)%nat then F1 l - F1 j * g (val A s0 l j) else F1 l)) = sumr lo n (fun l => t i l * F l)).
      { intros lo Hlo. apply sumr_ext. intros k Hk. destruct (Nat.ltb_spec k j); [lia|]. rewrite HF1 by lia. reflexivity. }
      destruct (Nat.eq_dec i j) as [->|Hij].
      * rewrite sumr_l by lia. rewrite Hs by lia. rewrite Nat.ltb_irrefl. rewrite HF1j.
        rewrite (H2 j) by lia. rewrite Hd by lia. field. auto.
      * rewrite Hs by lia. apply H1; lia.
    + intros i Hi. destruct (Nat.ltb_spec i j); [|lia]. rewrite sumr_l by lia. rewrite Nat.ltb_irrefl.
      rewrite (sumr_ext (S j) n _ (fun l => t i l * F l)).
      2: { intros k Hk. destruct (Nat.ltb_spec k j); [lia|]. rewrite HF1 by lia. reflexivity. }
      rewrite HF1 by lia. rewrite H2 by lia. rewrite Ht by lia. ring.
Qed.

Lemma trsv_col_lo :
  (forall i j, (j < i < n)%nat -> t i j = g (val A s0 i j)) -> (forall j, (j < n)%nat -> t j j = dg j) ->
  (forall i j, (i < j < n)%nat -> t i j = zero) ->
  wp (for_ j in 0 upto n do (
            (if nonunit d then xj <- rdv x j;; a <- rd A j j;; wrv x j (xj / g a) else ret tt);;
            for_ i in (S j) upto n do (
               xi <- rdv x i;; xj <- rdv x j;; a <- rd A i j;; wrv x i (xi - xj * g a))))
   (fun _ s' => exists F, eff x (fun i _ => F i) s0 s' /\ solves F) noX s0.
Proof.
  intros Ht Hd Hz.
  loop (fun j s => exists F, eff x (fun i _ => F i) s0 s /\
     (forall i, (i < j)%nat -> sum (S i) (fun l => t i l * F l) = x0 i) /\
     (forall i, (j <= i < n)%nat -> F i = x0 i - sum j (fun l => t i l * F l))) as j s.
  { exists x0. split; [apply eff_refl_vec; auto|]. split; [intros; lia|]. intros i Hi. cbn [sum]. ring. }
  2: { destruct He as (F & He & H1 & _). exists F. split; auto. intros i Hi.
       rewrite (sum_trunc (S i)); [apply H1; lia|lia|]. intros k Hk. rewrite Hz by lia. ring. }
  destruct He as (F & He & H1 & H2). apply wp_bind.
  pose (F1 := fun i => if (i =? j)%nat then F j / dg j else F i).
  apply (wp_conseq _ _ (fun _ s' => eff x (fun i _ => F1 i) s0 s') _ noX); [|intros ? s2 He2|intros ? ? []].
  { unfold F1, dg. dsplit; steps; effext; rewrite ?H; field; apply (F_1_neq_0 fth). }
  loop (fun i s => eff x (fun i' _ => if ((S j <=? i') && (i' <? i))%nat then F1 i' - F1 j * g (val A s0 i' j) else F1 i') s0 s) as i s3.
  - effext.
  - steps. effext.
  - exists (fun i' => if (S j <=? i')%nat then F1 i' - F1 j * g (val A s0 i' j) else F1 i'). split; [effext|].
    assert (Hdg : dg j <> zero). { unfold dg. destruct d eqn:Hdd; [apply Hnz; auto; lia | apply (F_1_neq_0 fth)]. }
    assert (HF1j : F1 j = F j / dg j) by (unfold F1; rewrite Nat.eqb_refl; auto).
    assert (HF1 : forall k, k <> j -> F1 k = F k) by (intros k Hk; unfold F1; destruct (Nat.eqb_spec k j); congruence).
    assert (Hs : forall i hi, (hi <= j)%nat -> sum hi (fun l => t i l * (if (S j <=? l)%nat then F1 l - F1 j * g (val A s0 l j) else F1 l)) = sum hi (fun l => t i l * F l)).
    { intros i hi Hhi. apply sum_ext. intros k Hk. destruct (Nat.leb_spec (S j) k); [lia|]. rewrite HF1 by lia. reflexivity. }
    split.
    + intros i Hi. 
      destruct (Nat.eq_dec i j) as [->|Hij].
      * cbn [sum]. rewrite Hs by lia. destruct (Nat.leb_spec (S j) j); [lia|]. rewrite HF1j.
        rewrite (H2 j) by lia. rewrite Hd by lia. field. auto.
      * rewrite Hs by lia. apply H1; lia.
    + intros i Hi. destruct (Nat.leb_spec (S j) i); [|lia]. cbn [sum]. rewrite Hs by lia.
      destruct (Nat.leb_spec (S j) j); [lia|]. 
      rewrite HF1 by lia. rewrite H2 by lia. rewrite Ht by lia. ring.
Qed.

Lemma trsv_dot_up :
  (forall i j, (i < j < n)%nat -> t j i = g (val A s0 i j)) -> (forall j, (j < n)%nat -> t j j = dg j) ->
  (forall i j, (j < i < n)%nat -> t j i = zero) ->
  wp (for_ j in 0 upto n do (
            tmp <- rdv x j;;
            tmp <- foldup 0 j tmp (fun i tmp => a <- rd A i j;; xi <- rdv x i;; ret (tmp - g a * xi));;
            tmp <- (if nonunit d then a <- rd A j j;; ret (tmp / g a) else ret tmp);;
            wrv x j tmp))
   (fun _ s' => exists F, eff x (fun i _ => F i) s0 s' /\ solves F) noX s0.
Proof.
  intros Ht Hd Hz.
  loop (fun j s => exists F, eff x (fun i _ => F i) s0 s /\
     (forall i, (i < j)%nat -> sum (S i) (fun l => t i l * F l) = x0 i) /\
     (forall i, (j <= i < n)%nat -> F i = x0 i)) as j s.
  { exists x0. split; [apply eff_refl_vec; auto|]. split; [intros; lia|]. auto. }
  2: { destruct He as (F & He & H1 & _). exists F. split; auto. intros i Hi.
       rewrite (sum_trunc (S i)); [apply H1; lia|lia|]. intros k Hk. rewrite Hz by lia. ring. }
  destruct He as (F & He & H1 & H2). apply wp_bind. steps.
  fold (fun i a s' => a = x0 j - sum i (fun l => t j l * F l) /\ s' = s) as i a s'.
  - split; auto. cbn [sum]. rewrite H2 by lia. ring.
  - destruct He0 as [-> ->]. steps. split; auto. cbn [sum]. rewrite Ht by lia. ring.
  - destruct He0 as [-> ->]. apply wp_bind.
    assert (Hdg : dg j <> zero). { unfold dg. destruct d eqn:Hdd; [apply Hnz; auto; lia | apply (F_1_neq_0 fth)]. }
    apply (wp_conseq _ _ (fun r s' => r = (x0 j - sum j (fun l => t j l * F l)) / dg j /\ s' = s) _ noX); [|intros r s' [-> ->]|intros ? ? []].
    { unfold dg. dsplit; steps; (split; [try reflexivity; field; apply (F_1_neq_0 fth)|reflexivity]). }
    steps. 
    set (v := (x0 j - sum j (fun l => t j l * F l)) / dg j) in *.
    exists (fun i => if (i =? j)%nat then v else F i). split; [effext|].
    assert (Hs : forall i hi, (hi <= j)%nat -> sum hi (fun l => t i l * (if (l =? j)%nat then v else F l)) = sum hi (fun l => t i l * F l)).
    { intros i hi Hhi. apply sum_ext. intros k Hk. destruct (Nat.eqb_spec k j); [lia|]. reflexivity. }
    split.
    + intros i Hi. destruct (Nat.eq_dec i j) as [->|Hij].
      * cbn [sum]. rewrite Hs by lia. rewrite Nat.eqb_refl. unfold v. rewrite Hd by lia. field. auto.
      * rewrite Hs by lia. apply H1; lia.
    + intros i Hi. destruct (Nat.eqb_spec i j); [lia|]. apply H2; lia.
Qed.

Lemma trsv_dot_lo :
  (forall i j, (j < i < n)%nat -> t j i = g (val A s0 i j)) -> (forall j, (j < n)%nat -> t j j = dg j) ->
  (forall i j, (i < j < n)%nat -> t j i = zero) ->
  wp (ford_ j in 0 upto n do (
            tmp <- rdv x j;;
            tmp <- foldup (S j) n tmp (fun i tmp => a <- rd A i j;; xi <- rdv x i;; ret (tmp - g a * xi));;
            tmp <- (if nonunit d then a <- rd A j j;; ret (tmp / g a) else ret tmp);;
            wrv x j tmp))
   (fun _ s' => exists F, eff x (fun i _ => F i) s0 s' /\ solves F) noX s0.
Proof.
  intros Ht Hd Hz.
  loopd (fun j s => exists F, eff x (fun i _ => F i) s0 s /\
     (forall i, (j <= i < n)%nat -> sumr i n (fun l => t i l * F l) = x0 i) /\
     (forall i, (i < j)%nat -> F i = x0 i)) as j s.
  { exists x0. split; [apply eff_refl_vec; auto|]. split; [intros; lia|]. auto. }
  2: { destruct He as (F & He & H1 & _). exists F. split; auto. intros i Hi.
       rewrite <- sum_sumr, (sumr_split 0 i n) by lia. rewrite H1 by lia. rewrite sumr_0; [ring|].
       intros k Hk. rewrite Hz by lia. ring. }
  destruct He as (F & He & H1 & H2). apply wp_bind. steps.
  fold (fun i a s' => a = x0 j - sumr (S j) i (fun l => t j l * F l) /\ s' = s) as i a s'.
  - split; auto. rewrite sumr_nil. rewrite H2 by lia. ring.
  - destruct He0 as [-> ->]. steps. split; auto. rewrite sumr_S by lia. rewrite Ht by lia. ring.
  - destruct He0 as [-> ->]. apply wp_bind.
    assert (Hdg : dg j <> zero). { unfold dg. destruct d eqn:Hdd; [apply Hnz; auto; lia | apply (F_1_neq_0 fth)]. }
    apply (wp_conseq _ _ (fun r s' => r = (x0 j - sumr (S j) n (fun l => t j l * F l)) / dg j /\ s' = s) _ noX); [|intros r s' [-> ->]|intros ? ? []].
    { unfold dg. dsplit; steps; (split; [try reflexivity; field; apply (F_1_neq_0 fth)|reflexivity]). }
    steps. 
    set (v := (x0 j - sumr (S j) n (fun l => t j l * F l)) / dg j) in *.
    exists (fun i => if (i =? j)%nat then v else F i). split; [effext|].
    assert (Hs : forall i lo, (j < lo)%nat -> sumr lo n (fun l => t i l * (if (l =? j)%nat then v else F l)) = sumr lo n (fun l => t i l * F l)).
    { intros i lo Hlo. apply sumr_ext. intros k Hk. destruct (Nat.eqb_spec k j); [lia|]. reflexivity. }
    split.
    + intros i Hi. destruct (Nat.eq_dec i j) as [->|Hij].
      * rewrite sumr_l by lia. rewrite Hs by lia. rewrite Nat.eqb_refl. unfold v. rewrite Hd by lia. field. auto.
      * rewrite Hs by lia. apply H1; lia.
    + intros i Hi. destruct (Nat.eqb_spec i j); [lia|]. apply H2; lia.
Qed.
End Gen.

Ltac tricase :=
  intros; unfold opm, trim, intri; cases; rewrite ?conj_0, ?conj_1; auto;
  match goal with d : diag_t |- _ => destruct d; rewrite ?conj_1; auto end.

Lemma trmv_run `{CL : !ConjLaws E} u o d A x s0 n : uplo2 u = true ->
  nc x = 1%nat -> nr A = n -> nc A = n -> nr x = n -> vinj x -> disj A x ->
  runs (trmv u o d A x) s0
    (fun _ s' => veff x (mvmul n (opm o (trim u d (val A s0))) (vval x s0)) s0 s').
Proof.
  intros Hu Hx HA1 HA2 Hxn HI HD. unfold runs, trmv. rewrite HA1. cbv zeta. checks.
  apply (wp_conseq _ _ (fun _ s' => eff x (fun i _ => sum n (fun l => opm o (trim u d (val A s0)) i l * vval x s0 l)) s0 s') _ noX);
    [|intros ? s' H'; apply veff_eff; auto|intros ? ? []].
  destruct o; destruct u; try discriminate Hu.
  - apply (trmv_col_up (fun a => a) d A); auto; tricase.
  - apply (trmv_col_lo (fun a => a) d A); auto; tricase.
  - apply (trmv_dot_up (fun a => a) d A); auto; tricase.
  - apply (trmv_dot_lo (fun a => a) d A); auto; tricase.
  - apply (trmv_dot_up conj d A); auto; tricase.
  - apply (trmv_dot_lo conj d A); auto; tricase.
  - apply (trmv_col_up conj d A); auto; tricase.
  - apply (trmv_col_lo conj d A); auto; tricase.
Qed.

Lemma conj_nz `{CL : !ConjLaws E} a : a <> zero -> conj a <> zero.
Proof. intros H K. apply H. rewrite <- (conj_conj a), K. apply conj_0. Qed.

Lemma trsv_run `{CL : !ConjLaws E} u o d A x s0 n : uplo2 u = true ->
  nc x = 1%nat -> nr A = n -> nc A = n -> nr x = n -> vinj x -> disj A x ->
  (d = NonUnit -> forall j, (j < n)%nat -> val A s0 j j <> zero) ->
  runs (trsv u o d A x) s0
    (fun _ s' => exists F, veff x F s0 s' /\
       forall i, (i < n)%nat -> mvmul n (opm o (trim u d (val A s0))) F i = vval x s0 i).
Proof.
  intros Hu Hx HA1 HA2 Hxn HI HD Hnz. unfold runs, trsv. rewrite HA1. cbv zeta. checks.
  apply (wp_conseq _ _ (fun _ s' => exists F, eff x (fun i _ => F i) s0 s' /\
     solves x s0 n (opm o (trim u d (val A s0))) F) _ noX);
    [|intros ? s' (F & H' & K'); exists F; split; [apply veff_eff; auto|exact K']|intros ? ? []].
  destruct o; destruct u; try discriminate Hu.
  - apply (trsv_col_up (fun a => a) d A); auto; tricase.
  - apply (trsv_col_lo (fun a => a) d A); auto; tricase.
  - apply (trsv_dot_up (fun a => a) d A); auto; tricase.
  - apply (trsv_dot_lo (fun a => a) d A); auto; tricase.
  - apply (trsv_dot_up conj d A); auto using conj_nz; tricase.
  - apply (trsv_dot_lo conj d A); auto using conj_nz; tricase.
  - apply (trsv_col_up conj d A); auto using conj_nz; tricase.
  - apply (trsv_col_lo conj d A); auto using conj_nz; tricase.
Qed.
End Tri.
