From Coq Require Import Bool Arith ZArith Lia.
From Verif.Core Require Import Scalar Prog View.
From Verif.Model Require Import Blas1.
From Verif.Proof Require Import Tactics.
Local Open Scope T_scope.

Section Iamax.
Context {E : Env}.

Lemma first_nan_run x s0 cnt k : nc x = 1%nat -> (k + cnt = nr x)%nat ->
  runs (first_nan x cnt k) s0 (fun r s' => s' = s0 /\
    match r with
    | Some i => (k <= i < nr x)%nat /\ isnan (vval x s0 i) = true /\ (forall j, (k <= j < i)%nat -> isnan (vval x s0 j) = false)
    | None => forall j, (k <= j < nr x)%nat -> isnan (vval x s0 j) = false
    end).
Proof.
  intros Hx. revert k. induction cnt as [|cnt IH]; intros k Hk; cbn [first_nan]; unfold runs.
  - apply wp_ret. split; auto. intros j Hj; lia.
  - steps. change (val x s0 k 0) with (vval x s0 k). destruct (isnan (vval x s0 k)) eqn:Hn.
    + apply wp_ret. split; auto. split; [lia|]. split; auto. intros j Hj; lia.
    + eapply wp_conseq; [apply IH; lia| |intros ? ? []].
      intros [i|] s' [-> H]; split; auto.
      * destruct H as (H1 & H2 & H3). split; [lia|]. split; auto.
        intros j Hj. destruct (Nat.eq_dec j k) as [->|]; auto. apply H3; lia.
      * intros j Hj. destruct (Nat.eq_dec j k) as [->|]; auto. apply H; lia.
Qed.

(** [i] is the first position of a largest entry among the first [n] *)
Definition first_max (absf : T -> T) (f : nat -> T) (n i : nat) : Prop :=
  (i < n)%nat /\ (forall j, (j < n)%nat -> ltb (absf (f i)) (absf (f j)) = false) /\
  (forall j, (j < i)%nat -> ltb (absf (f j)) (absf (f i)) = true).

(** [<] is a strict weak order on the magnitudes *)
Definition ia_order (absf : T -> T) (f : nat -> T) (n : nat) : Prop :=
  (forall a, (a < n)%nat -> ltb (absf (f a)) (absf (f a)) = false) /\
  forall a b c, (a < n)%nat -> (b < n)%nat -> (c < n)%nat ->
   (ltb (absf (f a)) (absf (f b)) = true -> ltb (absf (f b)) (absf (f c)) = true -> ltb (absf (f a)) (absf (f c)) = true) /\
   (ltb (absf (f a)) (absf (f b)) = true -> ltb (absf (f a)) (absf (f c)) = true \/ ltb (absf (f c)) (absf (f b)) = true).
Lemma ia_order_laws `{OL : !OrdLaws E} absf f n : ia_order absf f n.
Proof. split; [intros; apply ltb_irr|]. intros. split; [intros; eapply ltb_trans; eassumption|intros; apply ltb_cotrans; auto]. Qed.
(** state of the scan after [i] finite entries *)
Definition ia_inv (absf : T -> T) (f : nat -> T) (i : nat) (st : iastate) : Prop :=
  ia_scaled st = false /\
  match ia_index st with
  | None => i = 0%nat /\ ia_smax st = (- one)
  | Some k => first_max absf f i k /\ ia_smax st = absf (f k)
  end.

Lemma ia_inv_update oneFourth absf f n i st : ia_order absf f n -> (i < n)%nat ->
  (cplx = true -> isinf (absf (f i)) = false) -> ltb (- one) (absf (f i)) = true ->
  ia_inv absf f i st -> ia_inv absf f (S i) (iamax_update oneFourth absf i (f i) st).
Proof.
  intros [OI OT] Hin Hinf Hpos [Hs Hst]. unfold iamax_update.
  assert (Hu : ia_inv absf f (S i)
     (if ltb (ia_smax st) (absf (f i)) then mkia (ia_scaled st) (absf (f i)) (Some i) else st)).
  { destruct (ltb (ia_smax st) (absf (f i))) eqn:Hlt; split; cbn [ia_scaled ia_index ia_smax]; auto.
    - split; auto. split; [lia|]. destruct (ia_index st) as [k|].
      + destruct Hst as [(Hk & Hmax & Hfst) Hsm]. rewrite Hsm in Hlt. split.
        * intros j Hj. destruct (Nat.eq_dec j i) as [->|]; [apply OI; lia|].
          destruct (ltb (absf (f i)) (absf (f j))) eqn:Hc; auto.
          assert (K : ltb (absf (f k)) (absf (f j)) = true) by (apply (proj1 (OT k i j ltac:(lia) ltac:(lia) ltac:(lia))); assumption).
          rewrite Hmax in K by lia. discriminate.
        * intros j Hj. destruct (proj2 (OT k i j ltac:(lia) ltac:(lia) ltac:(lia)) Hlt) as [K|K]; auto.
          rewrite Hmax in K by lia. discriminate.
      + destruct Hst as [-> Hsm]. split; intros j Hj; [|lia].
        replace j with 0%nat by lia. apply OI; lia.
    - destruct (ia_index st) as [k|].
      + destruct Hst as [(Hk & Hmax & Hfst) Hsm]. rewrite Hsm in Hlt. split; auto. split; [lia|]. split; auto.
        intros j Hj. destruct (Nat.eq_dec j i) as [->|]; auto. apply Hmax; lia.
      + destruct Hst as [-> Hsm]. rewrite Hsm in Hlt. congruence. }
  destruct cplx eqn:Hc; cbn [negb]; auto.
  rewrite Hs in *. cbn [negb]. rewrite Hinf by auto. exact Hu.
Qed.

Lemma iamax_ec_loop_run oneFourth absf x s0 cnt i st : nc x = 1%nat -> (i + cnt = nr x)%nat ->
  runs (iamax_ec_loop oneFourth absf x cnt i st) s0 (fun r s' => s' = s0 /\
   ((exists k, r = Some k /\ (i <= k < nr x)%nat /\ isnan (vval x s0 k) = true /\ (forall j, (i <= j < k)%nat -> isnan (vval x s0 j) = false)) \/
    ((forall j, (i <= j < nr x)%nat -> isnan (vval x s0 j) = false) /\
     exists k, r = Some k /\ (i <= k < nr x)%nat /\ isinf (vval x s0 k) = true /\ (forall j, (i <= j < k)%nat -> isinf (vval x s0 j) = false)) \/
    ((forall j, (i <= j < nr x)%nat -> isnan (vval x s0 j) = false /\ isinf (vval x s0 j) = false) /\
     forall (OL : ia_order absf (vval x s0) (nr x)) (H1 : forall j, (i <= j < nr x)%nat -> ltb (- one) (absf (vval x s0 j)) = true)
       (H2 : cplx = true -> forall j, (i <= j < nr x)%nat -> isinf (absf (vval x s0 j)) = false)
       (H3 : ia_inv absf (vval x s0) i st), exists st', r = ia_index st' /\ ia_inv absf (vval x s0) (nr x) st'))).
Proof.
  intros Hx. revert i st. induction cnt as [|cnt IH]; intros i st Hk; cbn [iamax_ec_loop]; unfold runs.
  - apply wp_ret. split; auto. right; right. split; [intros j Hj; lia|].
    intros. exists st. replace (nr x) with i by lia. auto.
  - steps. change (val x s0 i 0) with (vval x s0 i). destruct (isnan (vval x s0 i)) eqn:Hn.
    { apply wp_ret. split; auto. left. exists i. split; auto. split; [lia|]. split; auto. intros j Hj; lia. }
    destruct (isinf (vval x s0 i)) eqn:Hi.
    { steps. eapply wp_conseq; [apply first_nan_run; auto; lia| |intros ? ? []].
      intros [k|] s' [-> H]; apply wp_ret; split; auto.
      - left. exists k. destruct H as (A1 & A2 & A3). split; auto. split; [lia|]. split; auto.
        intros j Hj. destruct (Nat.eq_dec j i) as [->|]; auto. apply A3; lia.
      - right; left. split.
        + intros j Hj. destruct (Nat.eq_dec j i) as [->|]; auto. apply H; lia.
        + exists i. split; auto. split; [lia|]. split; auto. intros j Hj; lia. }
    eapply wp_conseq; [apply IH; lia| |intros ? ? []].
    intros r s' [-> [(k & -> & A1 & A2 & A3)|[(A0 & k & -> & A1 & A2 & A3)|(A0 & A1)]]]; split; auto.
    + left. exists k. split; auto. split; [lia|]. split; auto.
      intros j Hj. destruct (Nat.eq_dec j i) as [->|]; auto. apply A3; lia.
    + right; left. split.
      * intros j Hj. destruct (Nat.eq_dec j i) as [->|]; auto. apply A0; lia.
      * exists k. split; auto. split; [lia|]. split; auto.
        intros j Hj. destruct (Nat.eq_dec j i) as [->|]; auto. apply A3; lia.
    + right; right. split.
      * intros j Hj. destruct (Nat.eq_dec j i) as [->|]; auto. apply A0; lia.
      * intros. apply A1; auto.
        -- intros j Hj; apply H1; lia.
        -- intros Hc j Hj; apply H2; auto; lia.
        -- apply (ia_inv_update _ _ _ (nr x)); auto; [lia|intros Hc; apply H2; auto; lia|apply H1; lia].
Qed.

Lemma iamax_ec_run oneFourth absf x s0 : nc x = 1%nat -> (0 < nr x)%nat ->
  runs (iamax_ec oneFourth absf x) s0 (fun r s' => s' = s0 /\
   ((exists k, r = Some k /\ (k < nr x)%nat /\ isnan (vval x s0 k) = true /\ (forall j, (j < k)%nat -> isnan (vval x s0 j) = false)) \/
    ((forall j, (j < nr x)%nat -> isnan (vval x s0 j) = false) /\
     exists k, r = Some k /\ (k < nr x)%nat /\ isinf (vval x s0 k) = true /\ (forall j, (j < k)%nat -> isinf (vval x s0 j) = false)) \/
    ((forall j, (j < nr x)%nat -> isnan (vval x s0 j) = false /\ isinf (vval x s0 j) = false) /\
     (ia_order absf (vval x s0) (nr x) -> (forall j, (j < nr x)%nat -> ltb (- one) (absf (vval x s0 j)) = true) ->
       (cplx = true -> forall j, (j < nr x)%nat -> isinf (absf (vval x s0 j)) = false) ->
       exists k, r = Some k /\ first_max absf (vval x s0) (nr x) k)))).
Proof.
  intros Hx Hn. unfold runs, iamax_ec. cbv zeta. destruct (Nat.eqb_spec (nr x) 0); [lia|].
  eapply wp_conseq; [apply iamax_ec_loop_run; auto| |intros ? ? []].
  intros r s' [-> [(k & -> & A1 & A2 & A3)|[(A0 & k & -> & A1 & A2 & A3)|(A0 & A1)]]]; split; auto.
  - left. exists k. repeat split; auto; try lia. intros; apply A3; lia.
  - right; left. split; [intros; apply A0; lia|]. exists k. repeat split; auto; try lia. intros; apply A3; lia.
  - right; right. split; [intros; apply A0; lia|]. intros OL H1 H2.
    destruct (A1 OL) as (st' & -> & Hs & Hst).
    + intros; apply H1; lia.
    + intros; apply H2; auto; lia.
    + split; cbn; auto.
    + destruct (ia_index st') as [k|]; [|lia]. exists k. split; auto. apply Hst.
Qed.

Lemma iamax_nc_loop_run oneFourth absf x s0 cnt i st : nc x = 1%nat -> (i + cnt = nr x)%nat ->
  runs (iamax_nc_loop oneFourth absf x cnt i st) s0 (fun r s' => s' = s0 /\
   ((exists k, r = Some k /\ (i <= k < nr x)%nat /\ isinf (vval x s0 k) = true /\ (forall j, (i <= j < k)%nat -> isinf (vval x s0 j) = false)) \/
    ((forall j, (i <= j < nr x)%nat -> isinf (vval x s0 j) = false) /\
     forall (OL : ia_order absf (vval x s0) (nr x)) (H1 : forall j, (i <= j < nr x)%nat -> ltb (- one) (absf (vval x s0 j)) = true)
       (H2 : cplx = true -> forall j, (i <= j < nr x)%nat -> isinf (absf (vval x s0 j)) = false)
       (H3 : ia_inv absf (vval x s0) i st), exists st', r = ia_index st' /\ ia_inv absf (vval x s0) (nr x) st'))).
Proof.
  intros Hx. revert i st. induction cnt as [|cnt IH]; intros i st Hk; cbn [iamax_nc_loop]; unfold runs.
  - apply wp_ret. split; auto. right. split; [intros j Hj; lia|].
    intros. exists st. replace (nr x) with i by lia. auto.
  - steps. change (val x s0 i 0) with (vval x s0 i).
    destruct (isinf (vval x s0 i)) eqn:Hi.
    { apply wp_ret. split; auto. left. exists i. split; auto. split; [lia|]. split; auto. intros j Hj; lia. }
    eapply wp_conseq; [apply IH; lia| |intros ? ? []].
    intros r s' [-> [(k & -> & A1 & A2 & A3)|(A0 & A1)]]; split; auto.
    + left. exists k. split; auto. split; [lia|]. split; auto.
      intros j Hj. destruct (Nat.eq_dec j i) as [->|]; auto. apply A3; lia.
    + right. split.
      * intros j Hj. destruct (Nat.eq_dec j i) as [->|]; auto. apply A0; lia.
      * intros. apply A1; auto.
        -- intros j Hj; apply H1; lia.
        -- intros Hc j Hj; apply H2; auto; lia.
        -- apply (ia_inv_update _ _ _ (nr x)); auto; [lia|intros Hc; apply H2; auto; lia|apply H1; lia].
Qed.

Lemma iamax_nc_run oneFourth absf x s0 : nc x = 1%nat -> (0 < nr x)%nat ->
  runs (iamax_nc oneFourth absf x) s0 (fun r s' => s' = s0 /\
   ((exists k, r = Some k /\ (k < nr x)%nat /\ isinf (vval x s0 k) = true /\ (forall j, (j < k)%nat -> isinf (vval x s0 j) = false)) \/
    ((forall j, (j < nr x)%nat -> isinf (vval x s0 j) = false) /\
     (ia_order absf (vval x s0) (nr x) -> (forall j, (j < nr x)%nat -> ltb (- one) (absf (vval x s0 j)) = true) ->
       (cplx = true -> forall j, (j < nr x)%nat -> isinf (absf (vval x s0 j)) = false) ->
       exists k, r = Some k /\ first_max absf (vval x s0) (nr x) k)))).
Proof.
  intros Hx Hn. unfold runs, iamax_nc. cbv zeta. destruct (Nat.eqb_spec (nr x) 0); [lia|].
  steps.
  eapply wp_conseq; [apply iamax_nc_loop_run; auto| |intros ? ? []].
  intros r s' [-> [(k & -> & A1 & A2 & A3)|(A0 & A1)]]; apply wp_ret; split; auto.
  - left. exists k. repeat split; auto; try lia. intros; apply A3; lia.
  - right. split; [intros; apply A0; lia|]. intros OL H1 H2.
    destruct (A1 OL) as (st' & -> & Hs & Hst).
    + intros; apply H1; lia.
    + intros; apply H2; auto; lia.
    + split; cbn; auto.
    + destruct (ia_index st') as [k|]; [|lia]. exists k. split; auto. apply Hst.
Qed.
(** whatever the order: an index in range, if -1 is below every magnitude of a finite number (or it overflows to infinity) *)
Definition mag_found (absf : T -> T) : Prop :=
  forall a : T, isnan a = false -> isinf a = false -> ltb (- one) (absf a) = true \/ (cplx = true /\ isinf (absf a) = true).
Lemma iamax_update_some oneFourth absf i xi st : (exists k, ia_index st = Some k /\ (k <= i)%nat) -> exists k, ia_index (iamax_update oneFourth absf i xi st) = Some k /\ (k <= i)%nat.
Proof.
  intros (k & Hk & Hi). unfold iamax_update. destruct cplx, (ia_scaled st); cbn [negb]; repeat (destruct (ltb _ _)); try destruct (isinf _); cbn [ia_index]; eauto.
Qed.
Lemma iamax_ec_loop_range oneFourth absf x s0 cnt i st : mag_found absf -> nc x = 1%nat -> (i + cnt = nr x)%nat -> (0 < nr x)%nat ->
  (if (i =? 0)%nat then st = mkia false (- one) None else exists k, ia_index st = Some k /\ (k < i)%nat) ->
  runs (iamax_ec_loop oneFourth absf x cnt i st) s0 (fun r s' => s' = s0 /\ exists k, r = Some k /\ (k < nr x)%nat).
Proof.
  intros HM Hx Hk H0. revert i st Hk. induction cnt as [|cnt IH]; intros i st Hk Hst; cbn [iamax_ec_loop]; unfold runs.
  - apply wp_ret. split; auto. destruct (Nat.eqb_spec i 0); [lia|]. destruct Hst as (k & -> & Hki). exists k. split; auto. lia.
  - steps. change (val x s0 i 0) with (vval x s0 i). destruct (isnan (vval x s0 i)) eqn:Hn; [apply wp_ret; split; auto; exists i; split; auto; lia|].
    destruct (isinf (vval x s0 i)) eqn:Hi.
    { steps. eapply wp_conseq; [apply first_nan_run; auto; lia| |intros ? ? []].
      intros [k|] s' [-> H]; apply wp_ret; split; auto; [exists k|exists i]; split; auto; lia. }
    apply IH; [lia|]. cbn [Nat.eqb]. destruct (Nat.eqb_spec i 0) as [->|Hi0].
    + subst st. unfold iamax_update. cbn [ia_scaled ia_smax negb]. destruct (HM _ Hn Hi) as [L|[Hc L]].
      * rewrite L. destruct cplx; cbn [negb]; [destruct (isinf (absf _))|]; cbn [ia_index]; exists 0%nat; split; auto; lia.
      * rewrite Hc, L. cbn [negb ia_index]. exists 0%nat; split; auto; lia.
    + destruct Hst as (k & Hk1 & Hk2). destruct (iamax_update_some oneFourth absf i (vval x s0 i) st) as (k' & Hk' & Hki); [exists k; split; auto; lia|]. exists k'. split; auto. lia.
Qed.
Lemma iamax_nc_loop_range oneFourth absf x s0 cnt i st : nc x = 1%nat -> (i + cnt = nr x)%nat ->
  (forall k, ia_index st = Some k -> (k < i)%nat) ->
  runs (iamax_nc_loop oneFourth absf x cnt i st) s0 (fun r s' => s' = s0 /\ forall k, r = Some k -> (k < nr x)%nat).
Proof.
  intros Hx Hk. revert i st Hk. induction cnt as [|cnt IH]; intros i st Hk Hst; cbn [iamax_nc_loop]; unfold runs.
  - apply wp_ret. split; auto. intros k e. apply Hst in e. lia.
  - steps. change (val x s0 i 0) with (vval x s0 i). destruct (isinf (vval x s0 i)) eqn:Hi; [apply wp_ret; split; auto; intros k e; inversion e; lia|].
    apply IH; [lia|]. intros k. unfold iamax_update. repeat match goal with |- context [if ?b then _ else _] => destruct b end; cbn [ia_index]; intros e; first [apply Hst in e; lia | inversion e; subst; lia].
Qed.
Lemma iamax_range oneFourth nancheck absf x s0 : mag_found absf -> nc x = 1%nat -> (0 < nr x)%nat ->
  runs (iamax oneFourth nancheck absf x) s0 (fun r s' => s' = s0 /\ exists k, r = Some k /\ (k < nr x)%nat).
Proof.
  intros HM Hx H0. unfold iamax. destruct nancheck.
  - unfold iamax_ec. cbv zeta. destruct (Nat.eqb_spec (nr x) 0); [lia|]. apply iamax_ec_loop_range; auto. cbn [Nat.eqb]. reflexivity.
  - unfold iamax_nc, runs. cbv zeta. destruct (Nat.eqb_spec (nr x) 0); [lia|]. apply wp_bind. eapply wp_conseq; [apply iamax_nc_loop_range; auto; cbn; discriminate| |intros ? ? []].
    intros r s' [-> H]. apply wp_ret. split; auto. destruct r as [k|]; [exists k; split; auto|exists 0%nat; split; auto].
Qed.
End Iamax.
