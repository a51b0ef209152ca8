(** * A calculus of rounding-error bounds *)
From Coq Require Import Bool Arith ZArith Reals Lra Lia Psatz.
From Verif.Core Require Import Scalar FpModel.
From Verif.Spec Require Import LinAlg Rounding.
Local Open Scope R_scope.

Lemma rsum_ext n f g : (forall i, (i < n)%nat -> f i = g i) -> rsum n f = rsum n g.
Proof. induction n; intros H; cbn; auto. rewrite IHn, H; auto; intros; apply H; lia. Qed.
Lemma rsum_le n f g : (forall i, (i < n)%nat -> f i <= g i) -> rsum n f <= rsum n g.
Proof. induction n; intros H; cbn; [lra|]. apply Rplus_le_compat; [apply IHn; intros; apply H; lia|apply H; lia]. Qed.
Lemma rsum_0 n f : (forall i, (i < n)%nat -> f i = 0) -> rsum n f = 0.
Proof. induction n; intros H; cbn; auto. rewrite IHn, H by (auto; intros; apply H; lia). ring. Qed.
Lemma rsum_pos n f : (forall i, (i < n)%nat -> 0 <= f i) -> 0 <= rsum n f.
Proof. intros H. rewrite <- (rsum_0 n (fun _ => 0)) by auto. apply rsum_le. auto. Qed.
Lemma rsum_abs n f : Rabs (rsum n f) <= rsum n (fun i => Rabs (f i)).
Proof. induction n; cbn; [rewrite Rabs_R0; lra|]. eapply Rle_trans; [apply Rabs_triang|]. lra. Qed.
Lemma rsum_scal n c f : rsum n (fun i => c * f i) = c * rsum n f.
Proof. induction n; cbn; [ring|]. rewrite IHn. ring. Qed.
Lemma rsum_add n f g : rsum n (fun i => f i + g i) = rsum n f + rsum n g.
Proof. induction n; cbn; [ring|]. rewrite IHn. ring. Qed.
Lemma rsum_const n c : rsum n (fun _ => c) = INR n * c.
Proof. induction n; cbn [rsum]; [cbn; ring|]. rewrite IHn, S_INR. ring. Qed.

Lemma pow_ge1 u n : 0 <= u -> 1 <= (1 + u) ^ n.
Proof. intros. apply pow_R1_Rle. lra. Qed.
Lemma pow_mono u m n : 0 <= u -> (m <= n)%nat -> (1 + u) ^ m <= (1 + u) ^ n.
Proof. intros. apply Rle_pow; [lra|auto]. Qed.
Lemma pow_gam n u : 0 <= u -> INR n * u < 1 -> (1 + u) ^ n - 1 <= gam n u.
Proof.
  intros Hu Hn. assert (K : (1 + u) ^ n * (1 - INR n * u) <= 1).
  { clear Hn. induction n; [cbn; lra|]. rewrite S_INR. cbn [pow]. pose proof (pow_ge1 u n Hu). pose proof (pos_INR n). 
    replace ((1 + u) * (1 + u) ^ n * (1 - (INR n + 1) * u)) with ((1 + u) ^ n * (1 - INR n * u - (INR n + 1) * u * u)) by ring.
    assert (0 <= (INR n + 1) * u * u) by (repeat apply Rmult_le_pos; lra). nra. }
  unfold gam. apply (Rmult_le_reg_r (1 - INR n * u)); [lra|]. unfold Rdiv. rewrite Rmult_assoc, Rinv_l by lra. lra.
Qed.
Lemma gam_pos n u : 0 <= u -> INR n * u < 1 -> 0 <= gam n u.
Proof. intros Hu Hn. unfold gam, Rdiv. apply Rmult_le_pos; [apply Rmult_le_pos; auto; apply pos_INR|]. left. apply Rinv_0_lt_compat. lra. Qed.

(** a residual within a multiple of the sum of the moduli of the terms is a relative perturbation of the terms *)
Lemma spread n (p : nat -> R) (g d : R) : 0 <= g -> Rabs d <= g * rsum n (fun i => Rabs (p i)) ->
  exists th : nat -> R, (forall i, Rabs (th i) <= g) /\ d = rsum n (fun i => p i * th i).
Proof.
  intros Hg Hd. set (S := rsum n (fun i => Rabs (p i))) in *.
  assert (HS : 0 <= S) by (apply rsum_pos; intros; apply Rabs_pos).
  destruct (Req_dec S 0) as [Z|NZ].
  - exists (fun _ => 0). split; [intros; rewrite Rabs_R0; auto|]. rewrite (rsum_0 n _) by (intros; ring).
    rewrite Z, Rmult_0_r in Hd. pose proof (Rabs_pos d). assert (K : Rabs d = 0) by lra.
    destruct (Req_dec d 0); auto. apply Rabs_no_R0 in H0. contradiction.
  - exists (fun i => if Rle_lt_dec 0 (p i) then d / S else - (d / S)). 
    assert (B : Rabs (d / S) <= g).
    { unfold Rdiv. rewrite Rabs_mult, (Rabs_pos_eq (/ S)) by (left; apply Rinv_0_lt_compat; lra).
      apply (Rmult_le_reg_r S); [lra|]. rewrite Rmult_assoc, Rinv_l by lra. lra. }
    split.
    + intros i. destruct Rle_lt_dec; [auto|rewrite Rabs_Ropp; auto].
    + transitivity (rsum n (fun i => d / S * Rabs (p i))).
      * rewrite rsum_scal. fold S. field. auto.
      * apply rsum_ext. intros i _. destruct Rle_lt_dec; [rewrite Rabs_pos_eq by auto|rewrite Rabs_left by auto]; ring.
Qed.
(** the same with an absolute error *)
Lemma spread_abs n (p : nat -> R) (g d z : R) : 0 <= g -> 0 <= z -> Rabs d <= g * rsum n (fun i => Rabs (p i)) + z ->
  exists th e, (forall i, Rabs (th i) <= g) /\ Rabs e <= z /\ d = rsum n (fun i => p i * th i) + e.
Proof.
  intros Hg Hz Hd. set (M := g * rsum n (fun i => Rabs (p i))) in *.
  assert (HM : 0 <= M) by (apply Rmult_le_pos; auto; apply rsum_pos; intros; apply Rabs_pos).
  assert (Split : exists d1 e, Rabs d1 <= M /\ Rabs e <= z /\ d = d1 + e).
  { destruct (Rle_lt_dec (Rabs d) M).
    - exists d, 0. rewrite Rabs_R0. repeat split; auto. ring.
    - destruct (Rle_lt_dec 0 d).
      + rewrite Rabs_pos_eq in * by auto. exists M, (d - M). rewrite !Rabs_pos_eq by lra. repeat split; lra.
      + rewrite Rabs_left in * by auto. exists (- M), (d + M). rewrite Rabs_Ropp, Rabs_pos_eq by auto. rewrite Rabs_left by lra. repeat split; lra. }
  destruct Split as (d1 & e & H1 & He & ->). destruct (spread n p g d1 Hg H1) as (th & Ht & ->). exists th, e. auto.
Qed.

Section Calc.
Context {E : Env} {FP : FpModel E}.
Notation w := (1 + fu).

(** [v], if finite, is within (w^p - 1) Y + w^p Z of [X] *)
Definition acc (p : nat) (v : T) (X Y Z : R) : Prop :=
  Rabs X <= Y /\ 0 <= Z /\ (fin v -> Rabs (fR v - X) <= (w ^ p - 1) * Y + w ^ p * Z).
Lemma acc_in v : acc 0 v (fR v) (Rabs (fR v)) 0.
Proof. split; [lra|]. split; [lra|]. intros _. rewrite Rminus_eq_0, Rabs_R0. cbn. lra. Qed.
Lemma acc_0 p : acc p zero 0 0 0.
Proof. split; [rewrite Rabs_R0; lra|]. split; [lra|]. intros _. rewrite fR_0, Rminus_0_r, Rabs_R0. lra. Qed.
Lemma acc_wk p q v X Y Z Y' Z' : acc p v X Y Z -> (p <= q)%nat -> Y <= Y' -> Z <= Z' -> acc q v X Y' Z'.
Proof.
  intros (H1 & H2 & H3) Hp HY HZ. split; [lra|]. split; [lra|]. intros F. specialize (H3 F).
  pose proof (pow_mono fu p q fu_pos Hp). pose proof (pow_ge1 fu p fu_pos). pose proof (Rabs_pos X). 
  assert ((w ^ p - 1) * Y <= (w ^ q - 1) * Y') by (apply Rmult_le_compat; lra).
  assert (w ^ p * Z <= w ^ q * Z') by (apply Rmult_le_compat; lra). lra.
Qed.
Lemma acc_cast p v X X' Y Z : acc p v X Y Z -> X = X' -> acc p v X' Y Z.
Proof. intros H ->. auto. Qed.
Lemma acc_abs p v X Y Z : acc p v X Y Z -> fin v -> Rabs (fR v) <= w ^ p * (Y + Z).
Proof.
  intros (H1 & H2 & H3) F. specialize (H3 F). replace (fR v) with (X + (fR v - X)) by ring.
  eapply Rle_trans; [apply Rabs_triang|]. pose proof (pow_ge1 fu p fu_pos). nra.
Qed.
Lemma acc_round p v X Y Z e x y : fin y -> rounded fu e x (fR y) -> 0 <= e -> fin y = fin v -> y = v ->
  Rabs X <= Y -> 0 <= Z -> Rabs (x - X) <= (w ^ p - 1) * Y + w ^ p * Z -> acc (S p) v X Y (Z + e).
Proof.
  intros Fy [Hr _] He _ -> HX HZ Hx. split; [auto|]. split; [lra|]. intros _.
  replace (fR v - X) with ((fR v - x) + (x - X)) by ring. eapply Rle_trans; [apply Rabs_triang|].
  assert (Ax : Rabs x <= Y + ((w ^ p - 1) * Y + w ^ p * Z)).
  { replace x with (X + (x - X)) by ring. eapply Rle_trans; [apply Rabs_triang|]. lra. }
  pose proof (pow_ge1 fu p fu_pos) as Hp. pose proof fu_pos as Hu. cbn [pow].
  set (P := w ^ p) in *. 
  assert (fu * Rabs x <= fu * (P * (Y + Z))) by (apply Rmult_le_compat_l; lra).
  assert (0 <= e * (w * P - 1)) by (apply Rmult_le_pos; nra). nra.
Qed.
Lemma acc_add p a b X1 Y1 Z1 X2 Y2 Z2 : acc p a X1 Y1 Z1 -> acc p b X2 Y2 Z2 ->
  acc (S p) (add a b) (X1 + X2) (Y1 + Y2) (Z1 + Z2).
Proof.
  intros (A1 & A2 & A3) (B1 & B2 & B3).
  assert (HX : Rabs (X1 + X2) <= Y1 + Y2) by (eapply Rle_trans; [apply Rabs_triang|lra]).
  split; [auto|]. split; [lra|]. intros F. destruct (fp_add a b F) as (Fa & Fb & Hr). specialize (A3 Fa). specialize (B3 Fb).
  assert (R : acc (S p) (add a b) (X1 + X2) (Y1 + Y2) (Z1 + Z2 + 0)).
  { eapply (acc_round p _ _ _ _ _ _ _ F Hr); auto; try lra.
    replace (fR a + fR b - (X1 + X2)) with ((fR a - X1) + (fR b - X2)) by ring. eapply Rle_trans; [apply Rabs_triang|]. lra. }
  rewrite Rplus_0_r in R. apply R. auto.
Qed.
Lemma acc_sub p a b X1 Y1 Z1 X2 Y2 Z2 : acc p a X1 Y1 Z1 -> acc p b X2 Y2 Z2 ->
  acc (S p) (sub a b) (X1 - X2) (Y1 + Y2) (Z1 + Z2).
Proof.
  intros (A1 & A2 & A3) (B1 & B2 & B3).
  assert (HX : Rabs (X1 - X2) <= Y1 + Y2) by (unfold Rminus; eapply Rle_trans; [apply Rabs_triang|rewrite Rabs_Ropp; lra]).
  split; [auto|]. split; [lra|]. intros F. destruct (fp_sub a b F) as (Fa & Fb & Hr). specialize (A3 Fa). specialize (B3 Fb).
  assert (R : acc (S p) (sub a b) (X1 - X2) (Y1 + Y2) (Z1 + Z2 + 0)).
  { eapply (acc_round p _ _ _ _ _ _ _ F Hr); auto; try lra.
    replace (fR a - fR b - (X1 - X2)) with ((fR a - X1) + - (fR b - X2)) by ring. eapply Rle_trans; [apply Rabs_triang|]. rewrite Rabs_Ropp. lra. }
  rewrite Rplus_0_r in R. apply R. auto.
Qed.
Lemma acc_0_add p a X Y Z : acc p a X Y Z -> acc p (add zero a) X Y Z.
Proof.
  intros (A1 & A2 & A3). split; [auto|]. split; [auto|]. intros F. rewrite fp_0_add by auto. apply A3. apply (fp_add _ _ F).
Qed.
Lemma acc_mul p q a b X1 Y1 Z1 X2 Y2 Z2 : acc p a X1 Y1 Z1 -> acc q b X2 Y2 Z2 ->
  acc (S (p + q)) (mul a b) (X1 * X2) (Y1 * Y2) (Y1 * Z2 + Z1 * Y2 + Z1 * Z2 + feta).
Proof.
  intros HA HB. assert (Abs := acc_abs _ _ _ _ _ HB). destruct HA as (A1 & A2 & A3), HB as (B1 & B2 & B3).
  pose proof (Rabs_pos X1). pose proof (Rabs_pos X2). pose proof feta_pos.
  assert (HX : Rabs (X1 * X2) <= Y1 * Y2) by (rewrite Rabs_mult; apply Rmult_le_compat; lra).
  assert (HZ : 0 <= Y1 * Z2 + Z1 * Y2 + Z1 * Z2) by (repeat apply Rplus_le_le_0_compat; apply Rmult_le_pos; lra).
  split; [auto|]. split; [lra|]. intros F. destruct (fp_mul a b F) as (Fa & Fb & Hr). specialize (A3 Fa). specialize (B3 Fb). specialize (Abs Fb).
  eapply (acc_round (p + q) _ _ _ _ _ _ _ F Hr); auto.
  replace (fR a * fR b - X1 * X2) with ((fR a - X1) * fR b + X1 * (fR b - X2)) by ring.
  eapply Rle_trans; [apply Rabs_triang|]. rewrite !Rabs_mult.
  pose proof (pow_ge1 fu p fu_pos) as Hp. pose proof (pow_ge1 fu q fu_pos) as Hq. rewrite pow_add. set (P := w ^ p) in *. set (Q := w ^ q) in *.
  assert (K1 : Rabs (fR a - X1) * Rabs (fR b) <= ((P - 1) * Y1 + P * Z1) * (Q * (Y2 + Z2))) by (apply Rmult_le_compat; auto using Rabs_pos).
  assert (K2 : Rabs X1 * Rabs (fR b - X2) <= Y1 * ((Q - 1) * Y2 + Q * Z2)) by (apply Rmult_le_compat; auto using Rabs_pos).
  eapply Rle_trans; [apply Rplus_le_compat; eassumption|]. right. ring.
Qed.
Lemma acc_sum p n (f : nat -> T) X Y Z : (forall i, (i < n)%nat -> acc p (f i) (X i) (Y i) (Z i)) ->
  acc (p + (n - 1)) (sum n f) (rsum n X) (rsum n Y) (rsum n Z).
Proof.
  induction n; intros H; cbn [sum rsum]; [apply acc_0|]. destruct n.
  - cbn. rewrite !Rplus_0_l. rewrite Nat.add_0_r. apply acc_0_add, H. lia.
  - replace (p + (S (S n) - 1))%nat with (S (p + (S n - 1))) by lia. apply acc_add.
    + apply IHn. intros; apply H; lia.
    + eapply acc_wk; [apply H; lia|lia|lra|lra].
Qed.
Lemma acc_facc p n (f : nat -> T) c X Y Z X0 Y0 Z0 : acc p c X0 Y0 Z0 -> (forall i, (i < n)%nat -> acc p (f i) (X i) (Y i) (Z i)) ->
  acc (p + n) (facc n f c) (rsum n X + X0) (rsum n Y + Y0) (rsum n Z + Z0).
Proof.
  intros H0. induction n; intros H; cbn [facc rsum]; [rewrite Nat.add_0_r, !Rplus_0_l; auto|].
  replace (p + S n)%nat with (S (p + n)) by lia.
  eapply acc_cast; [eapply acc_wk; [apply acc_add; [apply IHn; intros; apply H; lia|eapply acc_wk; [apply H; lia|lia|apply Rle_refl|apply Rle_refl]]|lia| |]|]; try lra; ring.
Qed.
(** from the calculus to gamma *)
Lemma acc_gam p v X Y Z : acc p v X Y Z -> INR p * fu < 1 -> fin v ->
  Rabs (fR v - X) <= gam p fu * Y + (1 + gam p fu) * Z.
Proof.
  intros (H1 & H2 & H3) Hp F. eapply Rle_trans; [apply H3; auto|]. pose proof (pow_gam p fu fu_pos Hp). pose proof (Rabs_pos X). nra.
Qed.
Lemma fin_facc n (f : nat -> T) c : fin (facc n f c) -> fin c /\ forall i, (i < n)%nat -> fin (f i).
Proof.
  induction n; cbn; intros H; [split; [auto|intros; lia]|]. destruct (fp_add _ _ H) as (H1 & H2 & _). destruct (IHn H1) as [K1 K2].
  split; auto. intros i Hi. destruct (Nat.eq_dec i n) as [->|]; auto. apply K2. lia.
Qed.
Lemma fin_sum n (f : nat -> T) : fin (sum n f) -> forall i, (i < n)%nat -> fin (f i).
Proof.
  induction n; cbn; intros H i Hi; [lia|]. destruct (fp_add _ _ H) as (H1 & H2 & _). destruct (Nat.eq_dec i n) as [->|]; auto. apply IHn; auto. lia.
Qed.
End Calc.
