(** * rot_sequence3: the wavefront order applies the same rotations *)
From Coq Require Import Bool Arith Lia List ZArith.
From Verif.Core Require Import Scalar Prog View Slice.
From Verif.Model Require Import Rot RotSeq3.
From Verif.Spec Require Import LinAlg.
From Verif.Proof Require Import SumLemmas Tactics RotSeqProof.
Import ListNotations.
Local Open Scope T_scope.

Section P.
Context {E : Env}.
Section W.
Context (side : side_t) (Cv Sv : nat -> nat -> T).
(** rotation g of sequence i *)
Definition rs (i g : nat) (x : nat -> T) : nat -> T := rstep side (fun g => Cv g i) (fun g => Sv g i) x g.
Lemma rs_ext i g x y : (forall r, x r = y r) -> forall r, rs i g x r = rs i g y r.
Proof. apply rstep_ext. Qed.
Lemma rs_comm i g i' g' x : (g + 1 < g' \/ g' + 1 < g)%nat -> forall r, rs i g (rs i' g' x) r = rs i' g' (rs i g x) r.
Proof.
  intros H r. unfold rs, rstep.
  repeat match goal with |- context [Nat.eqb ?a ?b] => destruct (Nat.eqb_spec a b); try lia end; auto.
Qed.
Context (gi : nat -> nat) (k : nat) (Hgi : forall a b, (a < k)%nat -> (b + 1 < a)%nat -> (gi a + 1 < gi b \/ gi b + 1 < gi a)%nat).
(** the first [p] rotations of sequence i *)
Definition wave (i p : nat) (x : nat -> T) : nat -> T := fold_left (fun x g2 => rs i (gi g2) x) (seq 0 p) x.
Lemma wave_S i p x : wave i (S p) x = rs i (gi p) (wave i p x).
Proof. unfold wave. rewrite seq_S, fold_left_app. auto. Qed.
Lemma wave_ext i p : forall x y, (forall r, x r = y r) -> forall r, wave i p x r = wave i p y r.
Proof. induction p as [|p IH]; intros x y H r; auto. rewrite !wave_S. apply rs_ext. auto. Qed.
Lemma wave_comm i q j p x : (q < k)%nat -> (p < q \/ p = 0)%nat -> forall r, rs i (gi q) (wave j p x) r = wave j p (rs i (gi q) x) r.
Proof.
  intros Hq Hp. induction p as [|p IH]; intros r; auto. rewrite !wave_S. rewrite rs_comm by (destruct (Hgi q p); lia).
  apply rs_ext. intros r'. apply IH. lia.
Qed.
(** the first [p i] rotations of each of the sequences i0, ..., i0+n-1 *)
Fixpoint waves (p : nat -> nat) (i0 n : nat) (x : nat -> T) : nat -> T :=
  match n with O => x | S n' => wave (i0 + n') (p (i0 + n')%nat) (waves p i0 n' x) end.
Lemma waves_ext p p' i0 n : forall x y, (forall i, (i0 <= i < i0 + n)%nat -> p i = p' i) -> (forall r, x r = y r) -> forall r, waves p i0 n x r = waves p' i0 n y r.
Proof.
  induction n as [|n IH]; intros x y H Hx r; cbn; auto. rewrite H by lia. apply wave_ext. apply IH; auto. intros; apply H; lia.
Qed.
Lemma waves_comm p i q i0 n x : (q < k)%nat -> (forall j, (i0 <= j < i0 + n)%nat -> (p j < q \/ p j = 0)%nat) ->
  forall r, rs i (gi q) (waves p i0 n x) r = waves p i0 n (rs i (gi q) x) r.
Proof.
  intros Hq. induction n as [|n IH]; intros Hp r; cbn; auto. rewrite wave_comm by (auto; apply Hp; lia). apply wave_ext. apply IH. intros; apply Hp; lia.
Qed.
(** one more rotation of sequence i *)
Lemma waves_step p l i x : (i < l)%nat -> (p i < k)%nat -> (forall j, (i < j < l)%nat -> (p j < p i \/ p j = 0)%nat) ->
  forall r, rs i (gi (p i)) (waves p 0 l x) r = waves (fun j => if (j =? i)%nat then S (p i) else p j) 0 l x r.
Proof.
  intros Hi Hk. induction l as [|l IH]; intros Hp r; [lia|]. cbn [waves Nat.add]. destruct (Nat.eqb_spec l i) as [->|N].
  - rewrite wave_S. apply rs_ext. apply wave_ext. apply waves_ext; auto. intros j Hj. destruct (Nat.eqb_spec j i); auto; lia.
  - rewrite wave_comm by (auto; apply Hp; lia). apply wave_ext. apply IH; try lia. intros; apply Hp; lia.
Qed.
End W.
Lemma gof_apart direction dim a b : (a < dim - 1)%nat -> (b + 1 < a)%nat -> (gof direction dim a + 1 < gof direction dim b \/ gof direction dim b + 1 < gof direction dim a)%nat.
Proof. intros. unfold gof. destruct direction; lia. Qed.

Section L.
Variables (side : side_t) (direction : direction_t) (C S A : view) (k l : nat).
Hypotheses (HI : vinj A) (DC : disj C A) (DS : disj S A).
Variable s0 : state.
Notation B := (sv side A).
Hypotheses (HB : nr B = (k + 1)%nat) (HC : nr C = k) (HC' : nc C = l) (HS : nr S = k) (HS' : nc S = l) (Hl : (2 <= l <= k)%nat).
Let HIB : vinj B := vinj_sv side A HI.
Let DcB : disj C B := disj_sv side C A DC.
Let DsB : disj S B := disj_sv side S A DS.
Notation Cv := (val C s0).
Notation Sv := (val S s0).
Notation RS := (rs side Cv Sv).
Notation gi := (gof direction (k + 1)).
Notation W p x := (waves side Cv Sv gi p 0 l x).

Ltac rdB He := rewrite ?rds_sv; apply wp_bind; apply (wp_rd_eff _ _ _ _ _ _ _ _ He); [lia|lia|].
Ltac rdC He := apply wp_bind; apply (wp_rd_frame _ _ _ _ _ _ _ _ _ He DcB); [lia|lia|].
Ltac rdS He := apply wp_bind; apply (wp_rd_frame _ _ _ _ _ _ _ _ _ He DsB); [lia|lia|].
Ltac wrB s He := rewrite ?wrs_sv; apply wp_bind; apply (wp_wr_eff _ _ _ _ _ _ _ _ _ He HIB); [lia|lia|]; clear s He; intros s He; cbv zeta.
Ltac wrBl s He := rewrite ?wrs_sv; apply (wp_wr_eff _ _ _ _ _ _ _ _ _ He HIB); [lia|lia|]; clear s He; intros s He.

Definition does (body : nat -> M unit) (phi : (nat -> T) -> nat -> T) (inl : nat -> bool) : Prop :=
  forall j s F, inl j = true -> eff B F s0 s ->
  wp (body j) (fun _ s' => eff B (fun r q => if (q =? j)%nat then phi (fun r => F r q) r else F r q) s0 s') noX s.

Lemma rot1_run g i j s F : (g < k)%nat -> (i < l)%nat -> (j < nc B)%nat -> eff B F s0 s ->
  wp (rot1 side C S A g i j) (fun _ s' => eff B (fun r q => if (q =? j)%nat then RS i g (fun r => F r q) r else F r q) s0 s') noX s.
Proof.
  intros H1 H2 H4 He. unfold rot1. rdC He. rdS He. rdB He. rdB He. cbv zeta. wrB s He. wrBl s He.
  apply (eff_ext _ _ _ _ _ He). intros r q Hr Hq. unfold fupd, rs, rstep. cases.
Qed.
Lemma rot4_fwd_run g i j s F : (0 < g)%nat -> (g + 1 < k)%nat -> (i + 1 < l)%nat -> (j < nc B)%nat -> eff B F s0 s ->
  wp (rot4_fwd side C S A g i j) (fun _ s' => eff B (fun r q => if (q =? j)%nat then RS (i + 1)%nat g (RS (i + 1)%nat (g + 1) (RS i (g - 1) (RS i g (fun r => F r q)))) r else F r q) s0 s') noX s.
Proof.
  intros H0 H1 H2 H4 He. unfold rot4_fwd. rdC He. rdS He. rdB He. rdB He. cbv zeta. rdC He. rdS He. rdB He. wrB s He. rdC He. rdS He. rdB He. wrB s He.
  rdC He. rdS He. wrB s He. wrBl s He.
  destruct g as [|g]; [lia|]. replace (Datatypes.S g - 1)%nat with g in * by lia. replace (Datatypes.S g + 1)%nat with (Datatypes.S (Datatypes.S g)) in * by lia. replace (Datatypes.S g + 2)%nat with (Datatypes.S (Datatypes.S (Datatypes.S g))) in * by lia.
  apply (eff_ext _ _ _ _ _ He). clear He. intros r q Hr Hq. unfold fupd, rs, rstep. rewrite ?Nat.eqb_refl, ?Nat.add_1_r. cases.
Qed.
Lemma rot4_bwd_run g i j s F : (0 < g)%nat -> (g + 1 < k)%nat -> (i + 1 < l)%nat -> (j < nc B)%nat -> eff B F s0 s ->
  wp (rot4_bwd side C S A g i j) (fun _ s' => eff B (fun r q => if (q =? j)%nat then RS (i + 1)%nat g (RS (i + 1)%nat (g - 1) (RS i (g + 1) (RS i g (fun r => F r q)))) r else F r q) s0 s') noX s.
Proof.
  intros H0 H1 H2 H4 He. unfold rot4_bwd. rdC He. rdS He. rdB He. rdB He. cbv zeta. rdC He. rdS He. rdB He. wrB s He. rdC He. rdS He. rdB He. wrB s He.
  rdC He. rdS He. wrB s He. wrBl s He.
  destruct g as [|g]; [lia|]. replace (Datatypes.S g - 1)%nat with g in * by lia. replace (Datatypes.S g + 1)%nat with (Datatypes.S (Datatypes.S g)) in * by lia. replace (Datatypes.S g + 2)%nat with (Datatypes.S (Datatypes.S (Datatypes.S g))) in * by lia.
  apply (eff_ext _ _ _ _ _ He). clear He. intros r q Hr Hq. unfold fupd, rs, rstep. rewrite ?Nat.eqb_refl, ?Nat.add_1_r. cases.
Qed.

(** ** running a body on the lines of a block *)
Definition fext (phi : (nat -> T) -> nat -> T) : Prop := forall x y, (forall r, x r = y r) -> forall r, phi x r = phi y r.
Definition runs_on (on : (nat -> M unit) -> M unit) (inl : nat -> bool) : Prop :=
  (forall q, inl q = true -> (q < nc B)%nat) /\
  forall body phi s F, fext phi -> does body phi inl -> eff B F s0 s ->
  wp (on body) (fun _ s' => eff B (fun r q => if inl q then phi (fun r => F r q) r else F r q) s0 s') noX s.
Lemma on_single i1 : (i1 < nc B)%nat -> runs_on (fun f => f i1) (fun q => (q =? i1)%nat).
Proof.
  intros H. split. { intros q Hq. apply Nat.eqb_eq in Hq. lia. }
  intros body phi s F He Hd HF. apply Hd; auto. apply Nat.eqb_refl.
Qed.
Lemma on_loop lo hi : (lo <= hi)%nat -> (hi <= nc B)%nat -> runs_on (fun f => for_ i1 in lo upto hi do f i1) (fun q => (lo <=? q)%nat && (q <? hi)%nat).
Proof.
  intros H1 H2. split. { intros q Hq. apply andb_prop in Hq. destruct Hq as [_ Hq]. apply Nat.ltb_lt in Hq. lia. }
  intros body phi s F Hx Hd HF.
  apply (wp_forup (fun i s' => eff B (fun r q => if (lo <=? q)%nat && (q <? i)%nat then phi (fun r => F r q) r else F r q) s0 s')); [lia| | |auto].
  - apply (eff_ext _ _ _ _ _ HF). intros r q Hr Hq. destruct (Nat.leb_spec lo q), (Nat.ltb_spec q lo); cbn; auto; lia.
  - intros i s1 Hi He. eapply wp_conseq; [apply Hd; [|exact He]| |intros e s' []].
    { apply andb_true_intro. split; [apply Nat.leb_le|apply Nat.ltb_lt]; lia. }
    intros [] s' HL. cbv beta in HL. apply (eff_ext _ _ _ _ _ HL). intros r q Hr Hq.
    destruct (Nat.eqb_spec q i) as [->|N].
    + destruct (Nat.leb_spec lo i); [|lia]. destruct (Nat.ltb_spec i (Datatypes.S i)); [|lia]. cbn [andb]. apply Hx. intros r'.
      destruct (Nat.ltb_spec i i); [lia|]. auto.
    + destruct (Nat.leb_spec lo q), (Nat.ltb_spec q i), (Nat.ltb_spec q (Datatypes.S i)); cbn [andb]; auto; lia.
Qed.

Section Ph.
Variables (on : (nat -> M unit) -> M unit) (inl : nat -> bool).
Hypothesis Hon : runs_on on inl.
Variables X Y : nat -> nat -> T.
Definition St (p : nat -> nat) (s : state) : Prop := eff B (fun r q => if inl q then W p (fun r => X r q) r else Y r q) s0 s.
Lemma St_ext p p' s : (forall i, (i < l)%nat -> p i = p' i) -> St p s -> St p' s.
Proof.
  intros H HS0. apply (eff_ext _ _ _ _ _ HS0). intros r q Hr Hq. cbn beta. destruct (inl q); auto. apply waves_ext; auto. intros; apply H; lia.
Qed.
Lemma gi_lt a : (a < k)%nat -> (gi a < k)%nat.
Proof. intros. unfold gof. destruct direction; lia. Qed.
Lemma gi_apart a b : (a < k)%nat -> (b + 1 < a)%nat -> (gi a + 1 < gi b \/ gi b + 1 < gi a)%nat.
Proof. intros. apply gof_apart; lia. Qed.
Definition up (p : nat -> nat) (i : nat) : nat -> nat := fun j => if (j =? i)%nat then Datatypes.S (p i) else p j.
Definition may (p : nat -> nat) (i : nat) : Prop := (i < l)%nat /\ (p i < k)%nat /\ forall j, (i < j < l)%nat -> (p j < p i \/ p j = 0)%nat.
Lemma W_step p i x : may p i -> forall r, RS i (gi (p i)) (W p x) r = W (up p i) x r.
Proof. intros (H1 & H2 & H3) r. apply (waves_step _ _ _ _ k); auto. intros; apply gi_apart; auto. Qed.
Lemma on_rot1 p i s : may p i -> St p s -> wp (on (rot1 side C S A (gi (p i)) i)) (fun _ s' => St (up p i) s') noX s.
Proof.
  intros Hm HS0. destruct Hon as [Hin Hr]. eapply wp_conseq; [apply (Hr _ (RS i (gi (p i)))); [| |exact HS0]| |intros e s' []].
  - intros x y H r. apply rs_ext; auto.
  - intros j s1 F Hj He. apply rot1_run; auto. apply gi_lt, Hm. apply Hm.
  - intros [] s' HL. cbv beta in HL. apply (eff_ext _ _ _ _ _ HL). intros r q _ _. destruct (inl q); auto. apply W_step; auto.
Qed.
Definition up2 (p : nat -> nat) (i : nat) : nat -> nat := fun j => if (j =? i)%nat then (p i + 2)%nat else p j.
Lemma W_step2 p i x : may p i -> (p i + 1 < k)%nat -> forall r, RS i (gi (p i + 1)%nat) (RS i (gi (p i)) (W p x)) r = W (up2 p i) x r.
Proof.
  intros H1 H2 r. transitivity (RS i (gi (p i + 1)%nat) (W (up p i) x) r). { apply rs_ext. intros; apply W_step; auto. }
  set (p' := up p i).
  assert (Hp : (p i + 1 = p' i)%nat) by (unfold p', up; rewrite Nat.eqb_refl; lia). rewrite Hp. rewrite W_step.
  - apply waves_ext; auto. intros j _. unfold up2, p', up. rewrite Nat.eqb_refl. destruct (Nat.eqb_spec j i); auto. lia.
  - destruct H1 as (Ha & Hb & Hc). split; [auto|]. rewrite <- Hp. split; [auto|]. intros j Hj. unfold p', up. destruct (Nat.eqb_spec j i); [lia|]. destruct (Hc j Hj); lia.
Qed.
Lemma on_rot11 p i s : may p i -> (p i + 1 < k)%nat -> St p s ->
  wp (on (fun i1 => rot1 side C S A (gi (p i)) i i1;; rot1 side C S A (match direction with Forward => gi (p i) - 1 | Backward => gi (p i) + 1 end)%nat i i1)) (fun _ s' => St (up2 p i) s') noX s.
Proof.
  intros Hm Hp HS0. destruct Hon as [Hin Hr].
  replace (match direction with Forward => gi (p i) - 1 | Backward => gi (p i) + 1 end)%nat with (gi (p i + 1)%nat) by (unfold gof; destruct direction; lia).
  eapply wp_conseq; [apply (Hr _ (fun x => RS i (gi (p i + 1)%nat) (RS i (gi (p i)) x))); [| |exact HS0]| |intros e s' []].
  - intros x y H r. apply rs_ext. intros. apply rs_ext; auto.
  - intros j s1 F Hj He. apply wp_bind. eapply wp_conseq; [apply rot1_run; [apply gi_lt, Hm|apply Hm|auto|exact He]| |intros e s' []].
    intros [] s2 He2. cbv beta in He2. eapply wp_conseq; [apply rot1_run; [apply gi_lt; auto|apply Hm|auto|exact He2]| |intros e s' []].
    intros [] s3 He3. cbv beta in He3. apply (eff_ext _ _ _ _ _ He3). intros r q _ _. destruct (Nat.eqb_spec q j); auto.
  - intros [] s' HL. cbv beta in HL. apply (eff_ext _ _ _ _ _ HL). intros r q _ _. destruct (inl q); auto. apply W_step2; auto.
Qed.
Lemma on_rot4 p i s : may p i -> (p i + 1 < k)%nat -> (i + 1 < l)%nat -> (p i = p (i + 1) + 1)%nat -> (forall j, (i + 1 < j < l)%nat -> (p j < p (i + 1) \/ p j = 0)%nat) -> St p s ->
  wp (on (match direction with
           | Forward => rot4_fwd side C S A (gi (p i)) i
           | Backward => rot4_bwd side C S A (gi (p i)) i
           end)) (fun _ s' => St (up2 (up2 p i) (i + 1)%nat) s') noX s.
Proof.
  intros Hm Hp Hi Hp1 Hj HS0. destruct Hon as [Hin Hr].
  eapply wp_conseq; [apply (Hr _ (fun x => RS (i + 1)%nat (gi (p (i + 1)%nat + 1)%nat) (RS (i + 1)%nat (gi (p (i + 1)%nat)) (RS i (gi (p i + 1)%nat) (RS i (gi (p i)) x))))); [| |exact HS0]| |intros e s' []].
  - intros x y H r. repeat (apply rs_ext; intros ?); auto.
  - intros j s1 F Hj' He. rewrite <- Hp1. pose proof (Hin j Hj') as Hjn. destruct direction.
    + eapply wp_conseq; [apply rot4_fwd_run; [| | |exact Hjn|exact He]| |intros e s' []]; cbn [gof]; try lia.
      intros [] s3 He3. cbv beta in He3. apply (eff_ext _ _ _ _ _ He3). intros r q _ _. destruct (Nat.eqb_spec q j); auto.
      replace (k + 1 - 2 - p (i + 1))%nat with (k + 1 - 2 - p i + 1)%nat by lia. replace (k + 1 - 2 - (p i + 1))%nat with (k + 1 - 2 - p i - 1)%nat by lia. auto.
    + eapply wp_conseq; [apply rot4_bwd_run; [| | |exact Hjn|exact He]| |intros e s' []]; cbn [gof]; try lia.
      intros [] s3 He3. cbv beta in He3. apply (eff_ext _ _ _ _ _ He3). intros r q _ _. destruct (Nat.eqb_spec q j); auto.
      replace (p (i + 1)%nat) with (p i - 1)%nat by lia. auto.
  - intros [] s' HL. cbv beta in HL. apply (eff_ext _ _ _ _ _ HL). intros r q _ _. destruct (inl q); auto.
    assert (Hq : up2 p i (i + 1)%nat = p (i + 1)%nat) by (unfold up2; destruct (Nat.eqb_spec (i + 1) i); [lia|auto]).
    symmetry. rewrite <- (W_step2 (up2 p i) (i + 1)%nat).
    + rewrite Hq. apply rs_ext. intros. apply rs_ext. intros. symmetry. apply W_step2; auto.
    + split; [auto|]. rewrite Hq. split; [lia|]. intros j' Hj'. unfold up2. destruct (Nat.eqb_spec j' i); [lia|]. auto.
    + rewrite Hq. lia.
Qed.
Lemma startup_run s : St (fun _ => 0%nat) s -> wp (startup on side direction (k + 1) l C S A) (fun _ s' => St (fun i => (l - 1 - i)%nat) s') noX s.
Proof.
  intros H. unfold startup. apply (wp_forup (fun j s => St (fun i => (j - i)%nat) s)); [lia| | |auto].
  - eapply St_ext; [|exact H]. intros; cbv beta; lia.
  - clear s H. intros j s Hj H. apply (wp_forup (fun i0 s => St (fun i => if (i <? i0)%nat then (j + 1 - i)%nat else (j - i)%nat) s)); [lia| | |].
    + eapply St_ext; [|exact H]. intros; cbv beta; auto.
    + clear s H. intros i s Hi H.
      set (p := fun i' => if (i' <? i)%nat then (j + 1 - i')%nat else (j - i')%nat) in *.
      assert (Pi : p i = (j - i)%nat) by (unfold p; rewrite Nat.ltb_irrefl; auto). rewrite <- Pi.
      eapply wp_conseq; [apply on_rot1; [|exact H]| |intros e s' []].
      * split; [lia|]. split; [lia|]. intros j' Hj'. rewrite Pi. unfold p. destruct (Nat.ltb_spec j' i); lia.
      * intros [] s' HL. eapply St_ext; [|exact HL]. intros i' Hi'. unfold up. cbv beta. rewrite Pi. unfold p.
        destruct (Nat.eqb_spec i' i), (Nat.ltb_spec i' i), (Nat.ltb_spec i' (Datatypes.S i)); lia.
    + intros s' HL. eapply St_ext; [|exact HL]. intros i' Hi'. cbv beta. destruct (Nat.ltb_spec i' (j + 1)); lia.
Qed.
Lemma pipeline_run s : St (fun i => (l - 1 - i)%nat) s ->
  wp (pipeline on side direction (k + 1) l C S A) (fun _ s' => St (fun i => (l - 1 + 2 * ((k - l + 1) / 2) - i)%nat) s') noX s.
Proof.
  intros H. unfold pipeline. replace (k + 1 - 1 - l + 1)%nat with (k - l + 1)%nat by lia.
  apply (wp_forup (fun t s => St (fun i => (l - 1 + 2 * t - i)%nat) s)); [lia| | |auto].
  - eapply St_ext; [|exact H]. intros; cbv beta; lia.
  - clear s H. intros t s Ht H. cbv zeta.
    assert (Hjk : (l + 2 * t + 1 <= k)%nat) by (pose proof (Nat.div_mod (k - l + 1) 2 ltac:(lia)); lia).
    set (j := (l - 1 + 2 * t)%nat) in *.
    set (pu := fun u i => if (i <? 2 * u)%nat then (j + 2 - i)%nat else (j - i)%nat).
    pose proof (Nat.div_mod l 2 ltac:(lia)) as Hl2. pose proof (Nat.mod_upper_bound l 2 ltac:(lia)) as Hl3.
    apply wp_bind. apply (wp_forup (fun u s => St (pu u) s)); [lia| | |].
    + eapply St_ext; [|exact H]. intros; cbv beta; auto.
    + clear s H. intros u s Hu H.
      assert (Pu : pu u (2 * u)%nat = (j - 2 * u)%nat) by (unfold pu; rewrite Nat.ltb_irrefl; auto).
      rewrite <- Pu.
      assert (Pv : pu u (2 * u + 1)%nat = (j - (2 * u + 1))%nat) by (unfold pu; destruct (Nat.ltb_spec (2 * u + 1) (2 * u)); [lia|auto]).
      assert (Pj : forall i, (2 * u < i)%nat -> pu u i = (j - i)%nat) by (intros i Hi; unfold pu; destruct (Nat.ltb_spec i (2 * u)); [lia|auto]).
      eapply wp_conseq; [apply on_rot4; [| | | | |exact H]| |intros e s' []].
      * split; [lia|]. split; [lia|]. intros i Hi. rewrite Pj by lia. lia.
      * lia.
      * lia.
      * lia.
      * intros i Hi. rewrite Pj by lia. lia.
      * intros [] s' HL. eapply St_ext; [|exact HL]. intros i Hi. unfold up2.
        destruct (Nat.eqb_spec i (2 * u + 1)) as [->|N1].
        { destruct (Nat.eqb_spec (2 * u + 1) (2 * u)); [lia|]. rewrite Pv. unfold pu. destruct (Nat.ltb_spec (2 * u + 1) (2 * Datatypes.S u)); lia. }
        destruct (Nat.eqb_spec i (2 * u)) as [->|N2].
        { rewrite Pu. unfold pu. destruct (Nat.ltb_spec (2 * u) (2 * Datatypes.S u)); lia. }
        unfold pu. destruct (Nat.ltb_spec i (2 * u)), (Nat.ltb_spec i (2 * Datatypes.S u)); lia.
    + clear s H. intros s H. destruct (Nat.eqb_spec (l mod 2) 1) as [H1|H1].
      * assert (Pu : pu (l / 2)%nat (l - 1)%nat = (j - (l - 1))%nat) by (unfold pu; destruct (Nat.ltb_spec (l - 1) (2 * (l / 2))); [lia|auto]).
        rewrite <- Pu. eapply wp_conseq; [apply on_rot11; [| |exact H]| |intros e s' []].
        -- split; [lia|]. split; [lia|]. intros; lia.
        -- lia.
        -- intros [] s' HL. eapply St_ext; [|exact HL]. intros i Hi. unfold up2.
           destruct (Nat.eqb_spec i (l - 1)) as [->|N1]. { cbv beta; lia. }
           unfold pu. destruct (Nat.ltb_spec i (2 * (l / 2))); lia.
      * apply wp_ret. eapply St_ext; [|exact H]. intros i Hi. unfold pu. destruct (Nat.ltb_spec i (2 * (l / 2))); lia.
Qed.
Lemma shutdown_run s : St (fun i => (l - 1 + 2 * ((k - l + 1) / 2) - i)%nat) s ->
  wp (shutdown on side direction (k + 1) l C S A) (fun _ s' => St (fun _ => k) s') noX s.
Proof.
  intros H. unfold shutdown. replace (k + 1 - l + 1)%nat with (k - l + 2)%nat by lia. 
  pose proof (Nat.div_mod (k - l + 1) 2 ltac:(lia)) as D1. pose proof (Nat.mod_upper_bound (k - l + 1) 2 ltac:(lia)) as D2.
  pose proof (Nat.div_mod (k - l + 2) 2 ltac:(lia)) as D3. pose proof (Nat.mod_upper_bound (k - l + 2) 2 ltac:(lia)) as D4.
  set (j0 := ((k - l + 2) mod 2)%nat) in *.
  apply (wp_forup (fun j s => St (fun i => Nat.min k (k - 1 + j - i)) s)); [lia| | |].
  - eapply St_ext; [|exact H]. intros; cbv beta; lia.
  - clear s H. intros j s Hj H. apply (wp_forup (fun i0 s => St (fun i => if (i <? i0)%nat then Nat.min k (k + j - i) else Nat.min k (k - 1 + j - i)) s)); [lia| | |].
    + eapply St_ext; [|exact H]. intros i Hi; cbv beta. destruct (Nat.ltb_spec i j); lia.
    + clear s H. intros i s Hi H.
      set (p := fun i' => if (i' <? i)%nat then Nat.min k (k + j - i') else Nat.min k (k - 1 + j - i')) in *.
      assert (Pi : p i = (k - 1 + j - i)%nat) by (unfold p; rewrite Nat.ltb_irrefl; lia).
      replace (k + 1 - 2 - (i - j))%nat with (p i) by lia.
      eapply wp_conseq; [apply on_rot1; [|exact H]| |intros e s' []].
      * split; [lia|]. split; [lia|]. intros j' Hj'. rewrite Pi. unfold p. destruct (Nat.ltb_spec j' i); lia.
      * intros [] s' HL. eapply St_ext; [|exact HL]. intros i' Hi'. unfold up. cbv beta. rewrite Pi. unfold p.
        destruct (Nat.eqb_spec i' i), (Nat.ltb_spec i' i), (Nat.ltb_spec i' (Datatypes.S i)); lia.
    + intros s' HL. eapply St_ext; [|exact HL]. intros i' Hi'. cbv beta. destruct (Nat.ltb_spec i' l); lia.
  - intros s' HL. eapply St_ext; [|exact HL]. intros i' Hi'. cbv beta. lia.
Qed.
End Ph.

(** ** the lines as the outermost or the innermost loop *)
Definition box (lo hi q : nat) : bool := (lo <=? q)%nat && (q <? hi)%nat.
Lemma lines_run (phase : ((nat -> M unit) -> M unit) -> M unit) p0 p1 :
  (forall on inl, runs_on on inl -> forall X Y s, St inl X Y p0 s -> wp (phase on) (fun _ s' => St inl X Y p1 s') noX s) ->
  forall outer lo hi X Y s, (lo <= hi)%nat -> (hi <= nc B)%nat -> St (box lo hi) X Y p0 s ->
  wp (lines outer lo hi phase) (fun _ s' => St (box lo hi) X Y p1 s') noX s.
Proof.
  intros Hph outer lo hi X Y s H1 H2 H. unfold lines. destruct outer.
  - apply (wp_forup (fun i s => eff B (fun r q => if box lo i q then W p1 (fun r => X r q) r else if box lo hi q then W p0 (fun r => X r q) r else Y r q) s0 s)); [lia| | |].
    + apply (eff_ext _ _ _ _ _ H). intros r q _ _. unfold box. destruct (Nat.leb_spec lo q), (Nat.ltb_spec q lo); cbn; auto; lia.
    + clear s H. intros i s Hi H.
      set (Y' := fun r q => if box lo i q then W p1 (fun r => X r q) r else if box lo hi q then W p0 (fun r => X r q) r else Y r q) in *.
      eapply wp_conseq; [apply (Hph _ (fun q => (q =? i)%nat) (on_single i ltac:(lia)) X Y')| |intros e s' []].
      * apply (eff_ext _ _ _ _ _ H). intros r q _ _. destruct (Nat.eqb_spec q i) as [->|N]; auto. unfold Y', box.
        destruct (Nat.leb_spec lo i), (Nat.ltb_spec i i), (Nat.ltb_spec i hi); cbn; auto; lia.
      * intros [] s' HL. unfold St in HL. apply (eff_ext _ _ _ _ _ HL). intros r q _ _. unfold Y', box.
        destruct (Nat.eqb_spec q i) as [->|N], (Nat.leb_spec lo i), (Nat.ltb_spec i (Datatypes.S i)); cbn [andb]; auto; try lia;
        destruct (Nat.leb_spec lo q), (Nat.ltb_spec q i), (Nat.ltb_spec q (Datatypes.S i)); cbn [andb]; auto; lia.
    + intros s' HL. apply (eff_ext _ _ _ _ _ HL). intros r q _ _. cbn beta. destruct (box lo hi q); auto.
  - apply Hph; auto. apply on_loop; auto.
Qed.
(** ** one block *)
Lemma block_run outer ib ib2 X s : (ib <= ib2)%nat -> (ib2 <= nc B)%nat ->
  (side = Left -> direction = Forward -> ib = 0%nat /\ ib2 = nc B) -> eff B X s0 s ->
  wp (rot3_block outer side direction (k + 1) l (nc B) ib ib2 C S A) (fun _ s' => eff B (fun r q => if box ib ib2 q then W (fun _ => k) (fun r => X r q) r else X r q) s0 s') noX s.
Proof.
  intros H1 H2 H3 H. unfold rot3_block. apply wp_bind.
  assert (HS0 : St (box ib ib2) X X (fun _ => 0%nat) s).
  { apply (eff_ext _ _ _ _ _ H). intros r q _ _. destruct (box ib ib2 q); auto. assert (G : forall n r, waves side Cv Sv gi (fun _ => 0%nat) 0 n (fun r => X r q) r = X r q) by (induction n as [|n IH]; intros r'; cbn; auto). rewrite G; auto. }
  assert (R : wp (lines outer ib ib2 (fun on => startup on side direction (k + 1) l C S A)) (fun _ s' => St (box ib ib2) X X (fun i => (l - 1 - i)%nat) s') noX s).
  { apply (lines_run _ (fun _ => 0%nat)); auto. intros on inl Ho X' Y' s'. apply startup_run; auto. }
  eapply (wp_conseq _ _ (fun _ s' => St (box ib ib2) X X (fun i => (l - 1 - i)%nat) s') _ noX noX).
  { destruct side, direction; auto. destruct H3 as [Ha Hb]; auto. rewrite Ha, Hb in R. rewrite Ha, Hb. auto. }
  2: intros e s' [].
  intros [] s1 HL. apply wp_bind. eapply wp_conseq; [apply (lines_run _ (fun i => (l - 1 - i)%nat) (fun i => (l - 1 + 2 * ((k - l + 1) / 2) - i)%nat)); [|auto|auto|exact HL]| |intros e s' []].
  { intros on inl Ho X' Y' s'. apply pipeline_run; auto. }
  intros [] s2 HL2. cbv beta in HL2. eapply wp_conseq; [apply (lines_run _ (fun i => (l - 1 + 2 * ((k - l + 1) / 2) - i)%nat) (fun _ => k)); [|auto|auto|exact HL2]| |intros e s' []].
  { intros on inl Ho X' Y' s'. apply shutdown_run; auto. }
  intros [] s3 HL3. exact HL3.
Qed.
End L.

(** ** the whole *)
Lemma rsteps_ext2 side (c c' sn sn' : nat -> T) m l : (forall i, In i l -> (i + 1 < m)%nat /\ c i = c' i /\ sn i = sn' i) -> forall x y, (forall r, (r < m)%nat -> x r = y r) ->
  forall r, (r < m)%nat -> rsteps side c sn l x r = rsteps side c' sn' l y r.
Proof.
  induction l as [|i l IH]; intros Hl x y H r Hr; cbn; auto. destruct (Hl i) as (H1 & H2 & H3); [cbn; auto|]. apply IH; auto.
  { intros j Hj. apply Hl. cbn. auto. }
  intros q Hq. unfold rstep. rewrite H2, H3. destruct (Nat.eqb_spec q i), (Nat.eqb_spec q (i + 1)); subst; rewrite ?H by lia; auto.
Qed.
(** the sequences 0, ..., n-1 one after the other *)
Fixpoint seqs (side : side_t) (Cv Sv : nat -> nat -> T) (order : list nat) (n : nat) (x : nat -> T) : nat -> T :=
  match n with O => x | S n' => rsteps side (fun g => Cv g n') (fun g => Sv g n') order (seqs side Cv Sv order n' x) end.
Lemma map_down k : map (fun g2 => (k + 1 - 2 - g2)%nat) (seq 0 k) = rev (seq 0 k).
Proof.
  assert (G : forall n, (n <= k)%nat -> map (fun g2 => (k + 1 - 2 - g2)%nat) (seq (k - n) n) = rev (seq 0 n)).
  { induction n as [|n IH]; intros Hn; auto. rewrite (seq_S n 0), rev_app_distr. cbn [seq map rev app]. rewrite <- IH by lia. f_equal; [lia|].
    do 2 f_equal. lia. }
  rewrite <- G by lia. f_equal. f_equal. lia.
Qed.
Lemma order_gof dir k : map (gof dir (k + 1)) (seq 0 k) = rorder dir k.
Proof. destruct dir; cbn [rorder]. - apply map_down. - apply map_id. Qed.
Lemma fold_map {B C D} (f : D -> C -> D) (g : B -> C) l : forall x, fold_left f (map g l) x = fold_left (fun x b => f x (g b)) l x.
Proof. induction l; cbn; auto. Qed.
Lemma waves_seqs side Cv Sv dir k x n : forall r, waves side Cv Sv (gof dir (k + 1)) (fun _ => k) 0 n x r = seqs side Cv Sv (rorder dir k) n x r.
Proof.
  induction n as [|n IH]; intros r; cbn [waves seqs Nat.add]; auto. unfold wave. rewrite <- order_gof. unfold rsteps. rewrite fold_map.
  assert (G : forall l x y, (forall r, x r = y r) -> forall r, fold_left (fun x g2 => rs side Cv Sv n (gof dir (k + 1) g2) x) l x r = fold_left (fun x b => rstep side (fun g => Cv g n) (fun g => Sv g n) x (gof dir (k + 1) b)) l y r).
  { clear. induction l as [|a l IH]; intros x y H r; cbn; auto. apply IH. intros q. apply rs_ext. auto. }
  apply G. intros q. rewrite IH, order_gof. auto.
Qed.
Lemma in_rorder dir k i : In i (rorder dir k) -> (i < k)%nat.
Proof. destruct dir; cbn [rorder]; [rewrite <- in_rev|]; rewrite in_seq; lia. Qed.
Lemma rot_sequence3_run nb cm side dir C S A s0 k l : vinj A -> disj C A -> disj S A -> (0 < nb)%nat ->
  nr (sv side A) = (k + 1)%nat -> nr C = k -> nr S = k -> nc C = l -> nc S = l ->
  (side = Left -> dir = Forward -> (nc (sv side A) <= nb \/ l <= 1 \/ k < l)%nat) ->
  runs (rot_sequence3_nb nb cm side dir C S A) s0
    (fun _ s' => eff (sv side A) (fun r q => seqs side (val C s0) (val S s0) (rorder dir k) l (fun r => val (sv side A) s0 r q) r) s0 s').
Proof.
  intros HI DC DS Hnb HB HC HS HC' HS' Hb. unfold runs, rot_sequence3_nb. cbv zeta.
  assert (Ed : match side with Left => nr A | Right => nc A end = (k + 1)%nat) by (destruct side; exact HB).
  assert (Eo : match side with Left => nc A | Right => nr A end = nc (sv side A)) by (destruct side; auto).
  rewrite Ed, Eo, HC, HS, HC', HS', Nat.eqb_refl. apply wp_bind, wp_check; [auto|]. destruct (Nat.eqb_spec (k + 1) 0) as [?|_]; [lia|].
  replace (k + 1 - 1)%nat with k by lia. rewrite Nat.eqb_refl. apply wp_bind, wp_check; [auto|]. apply wp_bind, wp_check; [auto|].
  destruct (Nat.ltb_spec k 1) as [Z|NZ]; cbn [orb].
  { apply wp_ret. assert (k = 0%nat) as -> by lia. apply (eff_ext _ _ _ _ _ (eff_refl _ _)). intros r q Hr Hq.
    assert (G : forall n, seqs side (val C s0) (val S s0) (rorder dir 0) n (fun r => val (sv side A) s0 r q) r = val (sv side A) s0 r q) by (induction n as [|n IH]; cbn [seqs]; auto; destruct dir; exact IH). rewrite G; auto. }
  destruct (Nat.ltb_spec l 1) as [Zl|NZl].
  { apply wp_ret. assert (l = 0%nat) as E0 by lia. rewrite E0. apply eff_refl. }
  destruct (Nat.eqb_spec l 1) as [e1|N1]; cbn [orb]; [|destruct (Nat.ltb_spec k l) as [Kl|Kl]].
  1,2: apply (wp_forup (fun j s => eff (sv side A) (fun r q => seqs side (val C s0) (val S s0) (rorder dir k) j (fun r => val (sv side A) s0 r q) r) s0 s)); [lia|apply eff_refl| |auto];
    intros j s Hj He; apply wp_bind, wp_slcol; [lia|lia|lia|]; apply wp_bind, wp_slcol; [lia|lia|lia|]; apply wp_bind;
    (eapply wp_use; [apply (rot_sequence_run cm side dir (vcol C 0 k j) (vcol S 0 k j) A s k); auto; cbn [nr nc vcol]; try lia|];
     [intros a b a' b' H1 H2 H3 H4; cbn [nr nc vcol ad] in *; apply DC; lia|intros a b a' b' H1 H2 H3 H4; cbn [nr nc vcol ad] in *; apply DS; lia|]);
    intros z s' [_ HL]; cbv beta in HL; apply wp_ret; apply (eff_ext _ _ _ _ _ (eff_trans _ _ _ _ _ _ He HL)); intros r q Hr Hq; cbn [seqs];
    apply (rsteps_ext2 _ _ _ _ _ (k + 1)); [|intros r' Hr'; apply (eff_val _ _ _ _ _ _ He); lia|lia];
    intros i Hi; apply in_rorder in Hi; (split; [lia|]); unfold vval, val; cbn [vcol ad]; destruct He as (_ & Hfr & _);
    (split; apply Hfr; intros (a & b & Ha & Hbb & e); [apply (disj_sv side C A DC (0 + i)%nat j a b)|apply (disj_sv side S A DS (0 + i)%nat j a b)]; auto; lia).
  set (other := nc (sv side A)) in *. set (outer := match side with Left => if cm then true else false | Right => if cm then false else true end).
  pose proof (Nat.div_mod (other + nb - 1) nb ltac:(lia)) as D1. pose proof (Nat.mod_upper_bound (other + nb - 1) nb ltac:(lia)) as D2.
  set (nbl := ((other + nb - 1) / nb)%nat) in *.
  apply (wp_forup (fun b s => eff (sv side A) (fun r q => if (q <? b * nb)%nat then seqs side (val C s0) (val S s0) (rorder dir k) l (fun r => val (sv side A) s0 r q) r else val (sv side A) s0 r q) s0 s)); [lia| | |].
  - apply eff_refl.
  - intros b s Hbb He. assert (Hlt : (b * nb < other)%nat) by nia.
    set (X := fun r q => if (q <? b * nb)%nat then seqs side (val C s0) (val S s0) (rorder dir k) l (fun r => val (sv side A) s0 r q) r else val (sv side A) s0 r q) in *.
    eapply wp_conseq; [apply (block_run side dir C S A k l HI DC DS s0 HB HC HC' HS HS' ltac:(lia) outer (b * nb) (Nat.min (b * nb + nb) other) X)| |intros e s' []]; auto; try (unfold other; lia).
    + intros e1 e2. change (nc (sv side A)) with other. destruct (Hb e1 e2) as [Hx|Hx]; [|lia]. assert (nbl <= 1)%nat by nia. assert (b = 0)%nat as -> by lia. lia.
    + intros [] s' HL. cbv beta in HL. apply (eff_ext _ _ _ _ _ HL). intros r q Hr Hq. change (nc (sv side A)) with other in Hq. rewrite waves_seqs. unfold X, box.
      destruct (Nat.leb_spec (b * nb) q), (Nat.ltb_spec q (Nat.min (b * nb + nb) other)), (Nat.ltb_spec q (Datatypes.S b * nb)), (Nat.ltb_spec q (b * nb)); cbn [andb]; auto; lia.
  - intros s' HL. apply (eff_ext _ _ _ _ _ HL). intros r q Hr Hq. change (nc (sv side A)) with other in Hq. destruct (Nat.ltb_spec q (nbl * nb)); auto. nia.
Qed.
End P.
