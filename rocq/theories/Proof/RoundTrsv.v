(** * Rounding errors of substitution *)
From Coq Require Import Bool Arith ZArith Reals Lra Lia Psatz.
From Verif.Core Require Import Scalar Prog View FpModel.
From Verif.Spec Require Import LinAlg Rounding.
From Verif.Model Require Import Gemm Blas1 Blas2.
From Verif.Proof Require Import RoundProof RoundBlas Tactics Blas2Proof.

Lemma rsum_shift n f : rsum (S n) f = (f O + rsum n (fun k => f (S k)))%R.
Proof. induction n; [cbn; ring|]. change (rsum (S (S n)) f) with (rsum (S n) f + f (S n))%R. rewrite IHn. cbn [rsum]. ring. Qed.
Definition rsumr (lo hi : nat) (f : nat -> R) : R := rsum (hi - lo) (fun k => f (lo + k)%nat).
Lemma rsumr_nil lo f : rsumr lo lo f = 0%R.
Proof. unfold rsumr. rewrite Nat.sub_diag. reflexivity. Qed.
Lemma rsumr_S lo hi f : (lo <= hi)%nat -> rsumr lo (S hi) f = (rsumr lo hi f + f hi)%R.
Proof. intros H. unfold rsumr. rewrite Nat.sub_succ_l by auto. cbn [rsum]. do 2 f_equal. lia. Qed.
Lemma rsumr_l lo hi f : (lo < hi)%nat -> rsumr lo hi f = (f lo + rsumr (S lo) hi f)%R.
Proof.
  intros H. unfold rsumr. replace (hi - lo)%nat with (S (hi - S lo)) by lia. rewrite rsum_shift. f_equal; [f_equal; lia|].
  apply rsum_ext. intros. f_equal. lia.
Qed.
Lemma rsumr_ext lo hi f g : (forall i, (lo <= i < hi)%nat -> f i = g i) -> rsumr lo hi f = rsumr lo hi g.
Proof. intros H. unfold rsumr. apply rsum_ext. intros. apply H. lia. Qed.
Lemma rsum_cut n i f : (i <= n)%nat -> rsum n f = (rsum i f + rsumr i n f)%R.
Proof.
  intros H. induction n; [replace i with 0%nat by lia; rewrite rsumr_nil; cbn [rsum]; ring|].
  destruct (Nat.eq_dec i (S n)) as [->|]; [rewrite rsumr_nil; ring|]. rewrite rsumr_S by lia. cbn [rsum]. rewrite IHn by lia. ring.
Qed.
Lemma rsumr_0 lo hi f : (forall i, (lo <= i < hi)%nat -> f i = 0%R) -> rsumr lo hi f = 0%R.
Proof. intros H. unfold rsumr. apply rsum_0. intros. apply H. lia. Qed.
Lemma rsumr_pos lo hi f : (forall i, (lo <= i < hi)%nat -> 0 <= f i)%R -> (0 <= rsumr lo hi f)%R.
Proof. intros H. unfold rsumr. apply rsum_pos. intros. apply H. lia. Qed.

Section Res.
Context {E : Env} {FP : FpModel E}.
Notation w := (1 + fu)%R.
Local Open Scope R_scope.
(** [v], if finite, is b minus the terms summing to [S], with a backward error relative to [v] and the moduli of the terms *)
Definition res (c : nat) (b : R) (v : T) (S Sa : R) : Prop :=
  0 <= Sa /\ (fin v -> Rabs (b - S - fR v) <= (w ^ c - 1) * (Sa + Rabs (fR v)) + INR c * w ^ c * feta).
Lemma res_start v : res 0 (fR v) v 0 0.
Proof. split; [lra|]. intros _. replace (fR v - 0 - fR v) with 0 by ring. rewrite Rabs_R0. cbn. lra. Qed.
Lemma res_wk c c' b v S Sa : res c b v S Sa -> (c <= c')%nat -> res c' b v S Sa.
Proof.
  intros (H0 & H) Hc. split; auto. intros F. eapply Rle_trans; [apply H; auto|]. pose proof (pow_mono fu c c' fu_pos Hc). pose proof (pow_ge1 fu c fu_pos).
  pose proof (Rabs_pos (fR v)). pose proof feta_pos. apply le_INR in Hc. pose proof (pos_INR c).
  apply Rplus_le_compat; [apply Rmult_le_compat_r; lra|]. apply Rmult_le_compat_r; [lra|]. apply Rmult_le_compat; lra.
Qed.
Lemma res_sub c b v S Sa m P : res c b v S Sa -> (fin m -> rounded fu feta P (fR m)) ->
  res (Datatypes.S c) b (sub v m) (S + P) (Sa + Rabs P).
Proof.
  intros (H0 & H) Hm. pose proof (Rabs_pos P) as HP. split; [lra|]. intros F. destruct (fp_sub v m F) as (Fv & Fm & [_ Hr]). specialize (H Fv). destruct (Hm Fm) as [Hp _].
  pose proof (pow_ge1 fu c fu_pos) as Hw. pose proof fu_pos as Hu. pose proof feta_pos as He. set (v' := fR (sub v m)) in *.
  replace (b - (S + P) - v') with ((b - S - fR v) + - (v' - (fR v - fR m)) + (fR m - P)) by ring.
  assert (T3 : forall x y z, Rabs (x + - y + z) <= Rabs x + Rabs y + Rabs z).
  { intros. eapply Rle_trans; [apply Rabs_triang|]. apply Rplus_le_compat_r. eapply Rle_trans; [apply Rabs_triang|]. rewrite Rabs_Ropp. lra. }
  eapply Rle_trans; [apply T3|].
  assert (Av : Rabs (fR v) <= w * Rabs P + feta + w * Rabs v').
  { replace (fR v) with (v' + - (v' - (fR v - fR m)) + (P + (fR m - P))) by ring. eapply Rle_trans; [apply T3|].
    assert (Rabs (P + (fR m - P)) <= Rabs P + Rabs (fR m - P)) by apply Rabs_triang. lra. }
  cbn [pow]. rewrite S_INR. set (W := w ^ c) in *. pose proof (pos_INR c) as Hc. pose proof (Rabs_pos v').
  assert (K : (W - 1) * (Sa + Rabs (fR v)) <= (W - 1) * (Sa + (w * Rabs P + feta + w * Rabs v'))) by (apply Rmult_le_compat_l; lra).
  assert (0 <= INR c * (fu * W) * feta) by (repeat apply Rmult_le_pos; lra).
  assert (0 <= fu * W * feta) by (repeat apply Rmult_le_pos; lra).
  assert (0 <= fu * W * Sa) by (repeat apply Rmult_le_pos; lra). nra.
Qed.
(** the last step: a quotient, or nothing *)
Definition resd (c : nat) (b d : R) (v : T) (S Sa : R) : Prop :=
  fin v -> Rabs (b - S - d * fR v) <= (w ^ c - 1) * (Sa + Rabs (d * fR v)) + w ^ c * feta * (INR c + Rabs d).
Lemma res_div c b v S Sa t : res c b v S Sa -> fin t -> fR t <> 0 -> resd (Datatypes.S c) b (fR t) (div v t) S Sa.
Proof.
  intros (H0 & H) Ft Ht F. destruct (fp_div v t F Ft Ht) as (Fv & [_ Hr]). specialize (H Fv). set (q := fR (div v t)) in *.
  pose proof (pow_ge1 fu c fu_pos) as Hw. pose proof fu_pos as Hu. pose proof feta_pos as He.
  assert (Hq : Rabs (fR v - fR t * q) <= fu * Rabs (fR t * q) + feta * Rabs (fR t)).
  { replace (fR v - fR t * q) with (- (fR t * (q - fR v / fR t))) by (field; auto). rewrite Rabs_Ropp, !Rabs_mult. pose proof (Rabs_pos (fR t)). nra. }
  replace (b - S - fR t * q) with ((b - S - fR v) + (fR v - fR t * q)) by ring. eapply Rle_trans; [apply Rabs_triang|].
  assert (Av : Rabs (fR v) <= w * Rabs (fR t * q) + feta * Rabs (fR t)).
  { replace (fR v) with (fR t * q + (fR v - fR t * q)) by ring. eapply Rle_trans; [apply Rabs_triang|]. lra. }
  cbn [pow]. rewrite S_INR. set (W := w ^ c) in *. pose proof (pos_INR c) as Hc. pose proof (Rabs_pos (fR t * q)). pose proof (Rabs_pos (fR t)) as Hat.
  assert (K : (W - 1) * (Sa + Rabs (fR v)) <= (W - 1) * (Sa + (w * Rabs (fR t * q) + feta * Rabs (fR t)))) by (apply Rmult_le_compat_l; lra).
  assert (0 <= W * feta * INR c * fu) by (repeat apply Rmult_le_pos; lra).
  assert (0 <= W * feta * Rabs (fR t) * fu) by (repeat apply Rmult_le_pos; lra).
  assert (0 <= fu * W * Sa) by (repeat apply Rmult_le_pos; lra).
  assert (0 <= (1 + fu) * W * feta) by (repeat apply Rmult_le_pos; lra). nra.
Qed.
Lemma res_unit c b v S Sa : res c b v S Sa -> resd (Datatypes.S c) b 1 v S Sa.
Proof.
  intros H. apply (res_wk c (Datatypes.S c)) in H; auto. destruct H as (H0 & H). intros F. rewrite Rmult_1_l, Rabs_R1. eapply Rle_trans; [apply H; auto|].
  pose proof (pow_ge1 fu (Datatypes.S c) fu_pos). pose proof feta_pos. nra.
Qed.
Lemma resd_wk c c' b d v S Sa : resd c b d v S Sa -> 0 <= Sa -> (c <= c')%nat -> resd c' b d v S Sa.
Proof.
  intros H H0 Hc F. eapply Rle_trans; [apply H; auto|]. pose proof (pow_mono fu c c' fu_pos Hc). pose proof (pow_ge1 fu c fu_pos).
  pose proof (Rabs_pos (d * fR v)). pose proof feta_pos. apply le_INR in Hc. pose proof (pos_INR c). pose proof (Rabs_pos d).
  apply Rplus_le_compat; [apply Rmult_le_compat_r; lra|]. apply Rmult_le_compat; try lra; [apply Rmult_le_pos; lra|]. apply Rmult_le_compat_r; lra.
Qed.
End Res.

Local Open Scope T_scope.
Section Loops.
Context {E : Env} {FP : FpModel E}.
Variables (g : T -> T) (d : diag_t) (A x : view) (s0 : state) (n : nat).
Hypotheses (Hx : nc x = 1%nat) (HA1 : nr A = n) (HA2 : nc A = n) (Hxn : nr x = n)
  (HI : vinj x) (HD : disj A x).
Let x0 := vval x s0.
Variable t : nat -> nat -> T.
Let dg (j : nat) := match d with NonUnit => g (val A s0 j j) | Unit => one end.
Hypothesis Hfd : forall j, (j < n)%nat -> d = NonUnit -> fin (g (val A s0 j j)) /\ fR (g (val A s0 j j)) <> 0%R.
Ltac dsplit := let H := fresh in destruct d eqn:H; cbn [nonunit].

Lemma sums_ext lo hi i F F' : (forall l, (lo <= l < hi)%nat -> F l = F' l) ->
  rsumr lo hi (fun l => fR (t i l) * fR (F l))%R = rsumr lo hi (fun l => fR (t i l) * fR (F' l))%R /\
  rsumr lo hi (fun l => Rabs (fR (t i l) * fR (F l))) = rsumr lo hi (fun l => Rabs (fR (t i l) * fR (F' l))).
Proof. intros H. split; apply rsumr_ext; intros l Hl; rewrite H; auto. Qed.
(** entry [i] of the computed solution satisfies equation [i] up to the residual of substitution *)
Definition eqn (lo hi : nat) (F : nat -> T) (i : nat) : Prop :=
  resd n (fR (x0 i)) (fR (t i i)) (F i) (rsumr lo hi (fun l => fR (t i l) * fR (F l))%R) (rsumr lo hi (fun l => Rabs (fR (t i l) * fR (F l)))).
(** entry [i] before its turn *)
Definition part (lo hi : nat) (F : nat -> T) (i : nat) : Prop :=
  res (hi - lo) (fR (x0 i)) (F i) (rsumr lo hi (fun l => fR (t i l) * fR (F l))%R) (rsumr lo hi (fun l => Rabs (fR (t i l) * fR (F l)))).
Lemma eqn_ext lo hi F F' i : eqn lo hi F i -> F i = F' i -> (forall l, (lo <= l < hi)%nat -> F l = F' l) -> eqn lo hi F' i.
Proof.
  intros H Hi Hl. unfold eqn. rewrite <- Hi. destruct (sums_ext lo hi i F F') as [<- <-]; [intros; apply Hl; lia|]. exact H.
Qed.
Lemma part_ext lo hi F F' i : part lo hi F i -> F i = F' i -> (forall l, (lo <= l < hi)%nat -> F l = F' l) -> part lo hi F' i.
Proof.
  intros H Hi Hl. unfold part. rewrite <- Hi. destruct (sums_ext lo hi i F F') as [<- <-]; [intros; apply Hl; lia|]. exact H.
Qed.
Lemma part_start i lo F : F i = x0 i -> part lo lo F i.
Proof. intros H. unfold part. rewrite !rsumr_nil, Nat.sub_diag, <- H. apply res_start. Qed.
Lemma prod1 a b : fin (a * b) -> rounded fu feta (fR b * fR a) (fR (a * b)).
Proof. intros F. rewrite Rmult_comm. apply fp_mul. auto. Qed.
Lemma prod2 a b : fin (a * b) -> rounded fu feta (fR a * fR b) (fR (a * b)).
Proof. intros F. apply fp_mul. auto. Qed.
(** one more term at the lower or the upper end *)
Lemma part_lo lo hi F F' m i : part (S lo) hi F i -> (lo < hi)%nat -> F' i = F i - m -> (fin m -> rounded fu feta (fR (t i lo) * fR (F' lo)) (fR m)) ->
  (forall l, (lo < l < hi)%nat -> F l = F' l) -> part lo hi F' i.
Proof.
  intros H Hlh Hv Hm Hl. unfold part in *. rewrite Hv. replace (hi - lo)%nat with (S (hi - S lo)) by lia.
  rewrite !(rsumr_l lo) by auto. rewrite (Rplus_comm (fR (t i lo) * fR (F' lo))%R), (Rplus_comm (Rabs (fR (t i lo) * fR (F' lo)))).
  destruct (sums_ext (S lo) hi i F F') as [<- <-]; [intros; apply Hl; lia|]. apply res_sub; auto.
Qed.
Lemma part_hi lo hi F F' m i : part lo hi F i -> (lo <= hi)%nat -> F' i = F i - m -> (fin m -> rounded fu feta (fR (t i hi) * fR (F' hi)) (fR m)) ->
  (forall l, (lo <= l < hi)%nat -> F l = F' l) -> part lo (S hi) F' i.
Proof.
  intros H Hlh Hv Hm Hl. unfold part in *. rewrite Hv. replace (S hi - lo)%nat with (S (hi - lo)) by lia.
  rewrite !rsumr_S by auto.
  destruct (sums_ext lo hi i F F') as [<- <-]; [intros; apply Hl; lia|]. apply res_sub; auto.
Qed.
Lemma part_eqn lo hi F F' i : part lo hi F i -> (i < n)%nat -> (hi - lo < n)%nat -> t i i = dg i ->
  F' i = match d with NonUnit => F i / dg i | Unit => F i end ->
  (forall l, (lo <= l < hi)%nat -> F l = F' l) -> eqn lo hi F' i.
Proof.
  intros H Hi Hc Hd Hv Hl. unfold part, eqn in *. rewrite Hv, Hd.
  destruct (sums_ext lo hi i F F') as [<- <-]; [intros; apply Hl; lia|].
  assert (P := proj1 H). eapply resd_wk; [|exact P|exact Hc]. unfold dg in *. destruct d eqn:Hdd.
  - destruct (Hfd i Hi eq_refl). apply res_div; auto.
  - rewrite fR_1. apply res_unit. auto.
Qed.

Definition close (lo hi : nat -> nat) (F : nat -> T) : Prop := forall i, (i < n)%nat -> eqn (lo i) (hi i) F i.

Lemma trsv_col_up_err :
  (forall i j, (i < j < n)%nat -> t i j = g (val A s0 i j)) -> (forall j, (j < n)%nat -> t j j = dg j) ->
  wp (ford_ j in 0 upto n do (
            (if nonunit d then xj <- rdv x j;; a <- rd A j j;; wrv x j (xj / g a) else ret tt);;
            ford_ i in 0 upto j do (
               xi <- rdv x i;; xj <- rdv x j;; a <- rd A i j;; wrv x i (xi - xj * g a))))
   (fun _ s' => exists F, eff x (fun i _ => F i) s0 s' /\ close S (fun _ => n) F) noX s0.
Proof.
  intros Ht Hd.
  loopd (fun j s => exists F, eff x (fun i _ => F i) s0 s /\
     (forall i, (j <= i < n)%nat -> eqn (S i) n F i) /\
     (forall i, (i < j)%nat -> part j n F i)) as j s.
  { exists x0. split; [apply eff_refl_vec; auto|]. split; [intros; lia|]. intros i Hi. apply part_start; auto. }
  2: { destruct He as (F & He & H1 & _). exists F. split; auto. intros i Hi. apply H1. lia. }
  destruct He as (F & He & H1 & H2). apply wp_bind.
  pose (F1 := fun i => if (i =? j)%nat then match d with NonUnit => F j / dg j | Unit => F j end else F i).
  apply (wp_conseq _ _ (fun _ s' => eff x (fun i _ => F1 i) s0 s') _ noX); [|intros ? s2 He2|intros ? ? []].
  { unfold F1, dg. dsplit; steps; effext. }
  assert (HF1j : F1 j = match d with NonUnit => F j / dg j | Unit => F j end) by (unfold F1; rewrite Nat.eqb_refl; auto).
  assert (HF1 : forall k, k <> j -> F1 k = F k) by (intros k Hk; unfold F1; destruct (Nat.eqb_spec k j); congruence).
  loopd (fun i s => eff x (fun i' _ => if ((i <=? i') && (i' <? j))%nat then F1 i' - F1 j * g (val A s0 i' j) else F1 i') s0 s) as i s3.
  - effext.
  - steps. effext.
  - set (F2 := fun i' => if (i' <? j)%nat then F1 i' - F1 j * g (val A s0 i' j) else F1 i').
    exists F2. split; [unfold F2; effext|].
    assert (HF2 : forall k, (j <= k)%nat -> F2 k = F1 k) by (intros k Hk; unfold F2; destruct (Nat.ltb_spec k j); [lia|auto]).
    split.
    + intros i Hi. destruct (Nat.eq_dec i j) as [->|Hij].
      * apply (part_eqn (S j) n F); [apply H2; lia|lia|lia|apply Hd; lia|rewrite HF2, HF1j by lia; auto|]. intros l Hl. rewrite HF2, HF1 by lia. auto.
      * apply (eqn_ext (S i) n F); [apply H1; lia|rewrite HF2, HF1 by lia; auto|]. intros l Hl. rewrite HF2, HF1 by lia. auto.
    + intros i Hi. apply (part_lo j n F F2 (F1 j * g (val A s0 i j))); [apply H2; lia|lia| | |].
      * unfold F2. destruct (Nat.ltb_spec i j); [|lia]. rewrite HF1 by lia. auto.
      * rewrite Ht by lia. rewrite (HF2 j) by lia. apply prod1.
      * intros l Hl. rewrite HF2, HF1 by lia. auto.
Qed.
Lemma trsv_col_lo_err :
  (forall i j, (j < i < n)%nat -> t i j = g (val A s0 i j)) -> (forall j, (j < n)%nat -> t j j = dg j) ->
  wp (for_ j in 0 upto n do (
            (if nonunit d then xj <- rdv x j;; a <- rd A j j;; wrv x j (xj / g a) else ret tt);;
            for_ i in (S j) upto n do (
               xi <- rdv x i;; xj <- rdv x j;; a <- rd A i j;; wrv x i (xi - xj * g a))))
   (fun _ s' => exists F, eff x (fun i _ => F i) s0 s' /\ close (fun _ => 0%nat) (fun i => i) F) noX s0.
Proof.
  intros Ht Hd.
  loop (fun j s => exists F, eff x (fun i _ => F i) s0 s /\
     (forall i, (i < j)%nat -> eqn 0 i F i) /\
     (forall i, (j <= i < n)%nat -> part 0 j F i)) as j s.
  { exists x0. split; [apply eff_refl_vec; auto|]. split; [intros; lia|]. intros i Hi. apply part_start; auto. }
  2: { destruct He as (F & He & H1 & _). exists F. split; [exact He|]. intros i Hi. apply H1; lia. }
  destruct He as (F & He & H1 & H2). apply wp_bind.
  pose (F1 := fun i => if (i =? j)%nat then match d with NonUnit => F j / dg j | Unit => F j end else F i).
  apply (wp_conseq _ _ (fun _ s' => eff x (fun i _ => F1 i) s0 s') _ noX); [|intros ? s2 He2|intros ? ? []].
  { unfold F1, dg. dsplit; steps; effext. }
  assert (HF1j : F1 j = match d with NonUnit => F j / dg j | Unit => F j end) by (unfold F1; rewrite Nat.eqb_refl; auto).
  assert (HF1 : forall k, k <> j -> F1 k = F k) by (intros k Hk; unfold F1; destruct (Nat.eqb_spec k j); congruence).
  loop (fun i s => eff x (fun i' _ => if ((S j <=? i') && (i' <? i))%nat then F1 i' - F1 j * g (val A s0 i' j) else F1 i') s0 s) as i s3.
  - effext.
  - steps. effext.
  - set (F2 := fun i' => if (S j <=? i')%nat then F1 i' - F1 j * g (val A s0 i' j) else F1 i').
    exists F2. split; [unfold F2; effext|].
    assert (HF2 : forall k, (k <= j)%nat -> F2 k = F1 k) by (intros k Hk; unfold F2; destruct (Nat.leb_spec (S j) k); [lia|auto]).
    split.
    + intros i Hi. destruct (Nat.eq_dec i j) as [->|Hij].
      * apply (part_eqn 0 j F); [apply H2; lia|lia|lia|apply Hd; lia|rewrite HF2, HF1j by lia; auto|]. intros l Hl. rewrite HF2, HF1 by lia. auto.
      * apply (eqn_ext 0 i F); [apply H1; lia|rewrite HF2, HF1 by lia; auto|]. intros l Hl. rewrite HF2, HF1 by lia. auto.
    + intros i Hi. apply (part_hi 0 j F F2 (F1 j * g (val A s0 i j))); [apply H2; lia|lia| | |].
      * unfold F2. destruct (Nat.leb_spec (S j) i); [|lia]. rewrite HF1 by lia. auto.
      * rewrite Ht by lia. rewrite (HF2 j) by lia. apply prod1.
      * intros l Hl. rewrite HF2, HF1 by lia. auto.
Qed.

Definition partv (lo hi : nat) (F : nat -> T) (i : nat) (v : T) : Prop :=
  res (hi - lo) (fR (x0 i)) v (rsumr lo hi (fun l => fR (t i l) * fR (F l))%R) (rsumr lo hi (fun l => Rabs (fR (t i l) * fR (F l)))).
Lemma partv_hi lo hi F m i v : partv lo hi F i v -> (lo <= hi)%nat -> (fin m -> rounded fu feta (fR (t i hi) * fR (F hi)) (fR m)) -> partv lo (S hi) F i (v - m).
Proof.
  intros H Hlh Hm. unfold partv in *. replace (S hi - lo)%nat with (S (hi - lo)) by lia. rewrite !rsumr_S by auto. apply res_sub; auto.
Qed.
Lemma partv_eqn lo hi F v v' j : partv lo hi F j v -> (j < n)%nat -> (hi - lo < n)%nat -> (j < lo \/ hi <= j)%nat -> t j j = dg j ->
  v' = match d with NonUnit => v / dg j | Unit => v end -> eqn lo hi (fun i => if (i =? j)%nat then v' else F i) j.
Proof.
  intros H Hj Hc Hout Hd Hv. apply (part_eqn lo hi (fun i => if (i =? j)%nat then v else F i)); auto.
  - unfold part. rewrite Nat.eqb_refl. unfold partv in H.
    destruct (sums_ext lo hi j F (fun i => if (i =? j)%nat then v else F i)) as [<- <-]; [intros l Hl; destruct (Nat.eqb_spec l j); auto; lia|]. auto.
  - rewrite Nat.eqb_refl. auto.
  - intros l Hl. destruct (Nat.eqb_spec l j); auto. lia.
Qed.
Lemma trsv_dot_up_err :
  (forall i j, (i < j < n)%nat -> t j i = g (val A s0 i j)) -> (forall j, (j < n)%nat -> t j j = dg j) ->
  wp (for_ j in 0 upto n do (
            tmp <- rdv x j;;
            tmp <- foldup 0 j tmp (fun i tmp => a <- rd A i j;; xi <- rdv x i;; ret (tmp - g a * xi));;
            tmp <- (if nonunit d then a <- rd A j j;; ret (tmp / g a) else ret tmp);;
            wrv x j tmp))
   (fun _ s' => exists F, eff x (fun i _ => F i) s0 s' /\ close (fun _ => 0%nat) (fun i => i) F) noX s0.
Proof.
  intros Ht Hd.
  loop (fun j s => exists F, eff x (fun i _ => F i) s0 s /\
     (forall i, (i < j)%nat -> eqn 0 i F i) /\
     (forall i, (j <= i < n)%nat -> F i = x0 i)) as j s.
  { exists x0. split; [apply eff_refl_vec; auto|]. split; [intros; lia|]. auto. }
  2: { destruct He as (F & He & H1 & _). exists F. split; [exact He|]. intros i Hi. apply H1; lia. }
  destruct He as (F & He & H1 & H2). apply wp_bind. steps.
  fold (fun i a s' => partv 0 i F j a /\ s' = s) as i a s'.
  - split; auto. unfold partv. rewrite !rsumr_nil, <- H2 by lia. apply res_start.
  - destruct He0 as [Hp ->]. steps. split; auto. apply partv_hi; auto; [lia|]. rewrite Ht by lia. apply prod2.
  - destruct He0 as [Hp ->]. apply wp_bind.
    apply (wp_conseq _ _ (fun r s' => r = match d with NonUnit => a / dg j | Unit => a end /\ s' = s) _ noX); [|intros r s' [-> ->]|intros ? ? []].
    { unfold dg. dsplit; steps; auto. }
    steps. set (v := match d with NonUnit => a / dg j | Unit => a end) in *.
    exists (fun i => if (i =? j)%nat then v else F i). split; [effext|]. split.
    + intros i Hi. destruct (Nat.eq_dec i j) as [->|Hij].
      * apply (partv_eqn 0 j F a); [exact Hp|lia|lia|lia|apply Hd; lia|reflexivity].
      * apply (eqn_ext 0 i F); [apply H1; lia|destruct (Nat.eqb_spec i j); auto; lia|]. intros l Hl. destruct (Nat.eqb_spec l j); auto; lia.
    + intros i Hi. destruct (Nat.eqb_spec i j); [lia|]. apply H2; lia.
Qed.
Lemma trsv_dot_lo_err :
  (forall i j, (j < i < n)%nat -> t j i = g (val A s0 i j)) -> (forall j, (j < n)%nat -> t j j = dg j) ->
  wp (ford_ j in 0 upto n do (
            tmp <- rdv x j;;
            tmp <- foldup (S j) n tmp (fun i tmp => a <- rd A i j;; xi <- rdv x i;; ret (tmp - g a * xi));;
            tmp <- (if nonunit d then a <- rd A j j;; ret (tmp / g a) else ret tmp);;
            wrv x j tmp))
   (fun _ s' => exists F, eff x (fun i _ => F i) s0 s' /\ close S (fun _ => n) F) noX s0.
Proof.
  intros Ht Hd.
  loopd (fun j s => exists F, eff x (fun i _ => F i) s0 s /\
     (forall i, (j <= i < n)%nat -> eqn (S i) n F i) /\
     (forall i, (i < j)%nat -> F i = x0 i)) as j s.
  { exists x0. split; [apply eff_refl_vec; auto|]. split; [intros; lia|]. auto. }
  2: { destruct He as (F & He & H1 & _). exists F. split; [exact He|]. intros i Hi. apply H1; lia. }
  destruct He as (F & He & H1 & H2). apply wp_bind. steps.
  fold (fun i a s' => partv (S j) i F j a /\ s' = s) as i a s'.
  - split; auto. unfold partv. rewrite !rsumr_nil, <- H2, Nat.sub_diag by lia. apply res_start.
  - destruct He0 as [Hp ->]. steps. split; auto. apply partv_hi; auto; [lia|]. rewrite Ht by lia. apply prod2.
  - destruct He0 as [Hp ->]. apply wp_bind.
    apply (wp_conseq _ _ (fun r s' => r = match d with NonUnit => a / dg j | Unit => a end /\ s' = s) _ noX); [|intros r s' [-> ->]|intros ? ? []].
    { unfold dg. dsplit; steps; auto. }
    steps. set (v := match d with NonUnit => a / dg j | Unit => a end) in *.
    exists (fun i => if (i =? j)%nat then v else F i). split; [effext|]. split.
    + intros i Hi. destruct (Nat.eq_dec i j) as [->|Hij].
      * apply (partv_eqn (S j) n F a); [exact Hp|lia|lia|lia|apply Hd; lia|reflexivity].
      * apply (eqn_ext (S i) n F); [apply H1; lia|destruct (Nat.eqb_spec i j); auto; lia|]. intros l Hl. destruct (Nat.eqb_spec l j); auto; lia.
    + intros i Hi. destruct (Nat.eqb_spec i j); [lia|]. apply H2; lia.
Qed.
End Loops.

Section Final.
Context {E : Env} {FP : FpModel E}.
Local Open Scope R_scope.
(** the residual bound as a perturbation of the matrix *)
Lemma eqn_back x s0 n (t : nat -> nat -> T) lo hi F i : (0 < n)%nat -> INR n * fu < 1 -> (i < n)%nat ->
  (lo = S i /\ hi = n \/ lo = O /\ hi = i) -> (forall l, (l < n)%nat -> l <> i -> (lo <= l < hi)%nat \/ fR (t i l) = 0) ->
  eqn x s0 n t lo hi F i -> fin (F i) ->
  exists (D : nat -> R) e, (forall l, (l < n)%nat -> Rabs (D l) <= gam n fu * Rabs (fR (t i l))) /\
    Rabs e <= (1 + gam n fu) * feta * (INR n + Rabs (fR (t i i))) /\
    rsum n (fun l => (fR (t i l) + D l) * fR (F l)) = fR (vval x s0 i) + e.
Proof.
  intros Hn Hu Hi Hlh Hz H Fi. specialize (H Fi).
  assert (G := gam_pos n fu fu_pos Hu).
  assert (Full : forall f : nat -> R, (forall l, (l < n)%nat -> l <> i -> (lo <= l < hi)%nat \/ f l = 0) -> rsum n f = rsumr lo hi f + f i).
  { intros f Hf. rewrite (rsum_cut n i) by lia. rewrite (rsumr_l i n) by lia. destruct Hlh as [[-> ->]|[-> ->]].
    - rewrite (rsum_0 i) by (intros l Hl; destruct (Hf l); auto; lia). ring.
    - rewrite (rsumr_0 (S i) n) by (intros l Hl; destruct (Hf l); auto; lia).
      rewrite (rsum_cut i 0) by lia. cbn [rsum]. ring. }
  set (p := fun l => fR (t i l) * fR (F l)) in *.
  assert (S1 : rsum n p = rsumr lo hi p + p i) by (apply Full; intros l Hl Hne; destruct (Hz l Hl Hne) as [|Z]; auto; right; unfold p; rewrite Z; ring).
  assert (S2 : rsum n (fun l => Rabs (p l)) = rsumr lo hi (fun l => Rabs (p l)) + Rabs (p i)).
  { apply (Full (fun l => Rabs (p l))). intros l Hl Hne; destruct (Hz l Hl Hne) as [|Z]; auto; right. unfold p. rewrite Z, Rmult_0_l. apply Rabs_R0. }
  assert (Fe := feta_pos). assert (In := pos_INR n). assert (At := Rabs_pos (fR (t i i))).
  destruct (spread_abs n p (gam n fu) (fR (vval x s0 i) - rsum n p) ((1 + gam n fu) * feta * (INR n + Rabs (fR (t i i))))) as (th & e & Hth & He & Hd).
  - auto.
  - repeat apply Rmult_le_pos; lra.
  - rewrite S1, S2. replace (fR (vval x s0 i) - (rsumr lo hi p + p i)) with (fR (vval x s0 i) - rsumr lo hi p - p i) by ring.
    eapply Rle_trans; [exact H|]. pose proof (pow_gam n fu fu_pos Hu).
    assert (0 <= rsumr lo hi (fun l => Rabs (p l))) by (apply rsumr_pos; intros; apply Rabs_pos). pose proof (Rabs_pos (p i)).
    apply Rplus_le_compat; [apply Rmult_le_compat_r; lra|]. apply Rmult_le_compat_r; [lra|]. apply Rmult_le_compat_r; lra.
  - exists (fun l => fR (t i l) * th l), (- e). split; [|split].
    + intros l _. rewrite Rabs_mult, Rmult_comm. apply Rmult_le_compat_r; [apply Rabs_pos|auto].
    + rewrite Rabs_Ropp. auto.
    + rewrite (rsum_ext n _ (fun l => p l + p l * th l)) by (intros; unfold p; ring). rewrite rsum_add. lra.
Qed.
Lemma trsv_err u o d A x s0 n : uplo2 u = true ->
  nc x = 1%nat -> nr A = n -> nc A = n -> nr x = n -> vinj x -> disj A x ->
  (d = NonUnit -> forall j, (j < n)%nat -> fin (val A s0 j j) /\ fR (val A s0 j j) <> 0) ->
  let t := opm o (trim u d (val A s0)) in
  runs (trsv u o d A x) s0
    (fun _ s' => exists F lo hi, veff x F s0 s' /\ forall i, (i < n)%nat ->
       (lo i = S i /\ hi i = n \/ lo i = O /\ hi i = i) /\ (forall l, (l < n)%nat -> l <> i -> (lo i <= l < hi i)%nat \/ fR (t i l) = 0) /\
       eqn x s0 n t (lo i) (hi i) F i).
Proof.
  intros Hu Hx HA1 HA2 Hxn HI HD Hnz t. unfold runs, trsv. rewrite HA1. cbv zeta. checks.
  assert (Hnz' : forall j, (j < n)%nat -> d = NonUnit -> fin (conj (val A s0 j j)) /\ fR (conj (val A s0 j j)) <> 0) by (intros; rewrite fp_conj; auto).
  assert (Hnz2 : forall j, (j < n)%nat -> d = NonUnit -> fin (val A s0 j j) /\ fR (val A s0 j j) <> 0) by auto.
  assert (Up : forall p : M unit, (forall i l, (l < i < n)%nat -> fR (t i l) = 0) ->
     wp p (fun _ s' => exists F, eff x (fun i _ => F i) s0 s' /\ close x s0 n t S (fun _ => n) F) noX s0 ->
     wp p (fun _ s' => exists F lo hi, veff x F s0 s' /\ forall i, (i < n)%nat ->
       (lo i = S i /\ hi i = n \/ lo i = O /\ hi i = i) /\ (forall l, (l < n)%nat -> l <> i -> (lo i <= l < hi i)%nat \/ fR (t i l) = 0) /\
       eqn x s0 n t (lo i) (hi i) F i) noX s0).
  { intros p Hz Hp. eapply wp_conseq; [exact Hp| |auto]. intros [] s' (F & He & Hc). exists F, S, (fun _ => n). split; [apply veff_eff; auto|].
    intros i Hi. split; [auto|]. split; [|apply Hc; auto]. intros l Hl Hne. destruct (Nat.lt_ge_cases l i); [right; apply Hz; lia|left; lia]. }
  assert (Lo : forall p : M unit, (forall i l, (i < l < n)%nat -> fR (t i l) = 0) ->
     wp p (fun _ s' => exists F, eff x (fun i _ => F i) s0 s' /\ close x s0 n t (fun _ => O) (fun i => i) F) noX s0 ->
     wp p (fun _ s' => exists F lo hi, veff x F s0 s' /\ forall i, (i < n)%nat ->
       (lo i = S i /\ hi i = n \/ lo i = O /\ hi i = i) /\ (forall l, (l < n)%nat -> l <> i -> (lo i <= l < hi i)%nat \/ fR (t i l) = 0) /\
       eqn x s0 n t (lo i) (hi i) F i) noX s0).
  { intros p Hz Hp. eapply wp_conseq; [exact Hp| |auto]. intros [] s' (F & He & Hc). exists F, (fun _ => O), (fun i => i). split; [apply veff_eff; auto|].
    intros i Hi. split; [auto|]. split; [|apply Hc; auto]. intros l Hl Hne. destruct (Nat.lt_ge_cases i l); [right; apply Hz; lia|left; lia]. }
  assert (TZ : forall i l, fR (if (i =? l)%nat then zero else zero) = 0) by (intros; destruct (i =? l)%nat; apply fR_0).
  Local Ltac tc := intros; unfold opm, trim, intri; cases; rewrite ?fp_conj, ?fR_0; auto;
    match goal with d : diag_t |- _ => destruct d; rewrite ?fp_conj; auto end.
  destruct o; destruct u; try discriminate Hu.
  - apply Up; [unfold t; tc|]. apply (trsv_col_up_err (fun a => a) d A); auto; unfold t; tc.
  - apply Lo; [unfold t; tc|]. apply (trsv_col_lo_err (fun a => a) d A); auto; unfold t; tc.
  - apply Lo; [unfold t; tc|]. apply (trsv_dot_up_err (fun a => a) d A); auto; unfold t; tc.
  - apply Up; [unfold t; tc|]. apply (trsv_dot_lo_err (fun a => a) d A); auto; unfold t; tc.
  - apply Lo; [unfold t; tc|]. apply (trsv_dot_up_err conj d A); auto; unfold t; tc.
  - apply Up; [unfold t; tc|]. apply (trsv_dot_lo_err conj d A); auto; unfold t; tc.
  - apply Up; [unfold t; tc|]. apply (trsv_col_up_err conj d A); auto; unfold t; tc.
  - apply Lo; [unfold t; tc|]. apply (trsv_col_lo_err conj d A); auto; unfold t; tc.
Qed.
End Final.
