(** * rotmg *)
From Coq Require Import Bool Arith ZArith Lia Reals Lra Psatz Ring Field.
From Verif.Core Require Import Scalar Prog View Instances RealLaws.
From Verif.Spec Require Import LinAlg Rot.
From Verif.Model Require Import Householder Sort Rot.
From Verif.Proof Require Import SumLemmas LarfgProof RotgProof.
Local Open Scope T_scope.

Definition Rleb (a b : R) : bool := negb (Rltb b a).
Lemma Rleb_t a b : Rleb a b = true <-> (a <= b)%R.
Proof. unfold Rleb. rewrite negb_true_iff. apply Instances.Rltb_f. Qed.
Lemma Rleb_f a b : Rleb a b = false <-> (b < a)%R.
Proof. unfold Rleb. rewrite negb_false_iff. apply Instances.Rltb_t. Qed.
Section P.
Context {E : Env} {FL : FieldLaws E} {CL : ConjLaws E} {OL : ROrdLaws E} {QL : EqbLaws E} {XL : CplxLaws E} {RL : RLaws E} {NL : FinLaws E}.
Add Field Tf : fth.

Lemma leb_ofR a b : leb (ofR a) (ofR b) = true <-> (a <= b)%R.
Proof.
  unfold leb. rewrite ofR_lt, eqb_toR, orb_true_iff. split.
  - intros [H|H]; [apply Instances.Rltb_t in H; lra|apply Reqb_t in H; lra].
  - intros H. destruct (Req_dec a b) as [e|N]; [right; apply Reqb_t; auto|left; apply Instances.Rltb_t; lra].
Qed.
Lemma leb_ofR_f a b : leb (ofR a) (ofR b) = false <-> (b < a)%R.
Proof.
  destruct (leb (ofR a) (ofR b)) eqn:e; split; intros H; try discriminate; auto.
  - apply leb_ofR in e. lra.
  - destruct (Rlt_le_dec b a); auto. apply leb_ofR in r. congruence.
Qed.

(** the variables of rotmg as real numbers *)
Record rmr := mkrmr { qflag : Z; qd1 : R; qd2 : R; qa : R; qh0 : R; qh1 : R; qh2 : R; qh3 : R }.
Definition up (r : rmr) : rmg := mkrmg (qflag r) (ofR (qd1 r)) (ofR (qd2 r)) (ofR (qa r)) (ofR (qh0 r)) (ofR (qh1 r)) (ofR (qh2 r)) (ofR (qh3 r)).
(** H *)
Definition qH (r : rmr) (P : R -> R -> R -> R -> Prop) : Prop :=
  if Z.eqb (qflag r) (-1) then P (qh0 r) (qh2 r) (qh1 r) (qh3 r)
  else if Z.eqb (qflag r) 0 then P 1%R (qh2 r) (qh1 r) 1%R
  else if Z.eqb (qflag r) 1 then P (qh0 r) 1%R (-1)%R (qh3 r)
  else P 1%R 0%R 0%R 1%R.
Definition qok (d1 d2 a b : R) (r : rmr) : Prop := qH r (fun h11 h12 h21 h22 => mrot d1 d2 a b (qd1 r) (qd2 r) (qa r) h11 h12 h21 h22).

Variable g : R.
Hypothesis Hg : (1 < g)%R.
Notation G2 := (g * g)%R.
Notation gam := (ofR g).
Notation gamsq := (ofR G2).
Notation rgamsq := (ofR (1 / G2)).
Let Ng : g <> 0%R. Proof. lra. Qed.
Let NG2 : G2 <> 0%R. Proof. nra. Qed.
Let PG2 : (1 < G2)%R. Proof. nra. Qed.
Definition inband (x : R) : Prop := (1 / (g * g) < x < g * g)%R.

Definition qflag1 (r : rmr) : rmr :=
  if Z.eqb (qflag r) 0 then mkrmr (-1) (qd1 r) (qd2 r) (qa r) 1 (qh1 r) (qh2 r) 1
  else mkrmr (-1) (qd1 r) (qd2 r) (qa r) (qh0 r) (-1) 1 (qh3 r).
Lemma rmg_flag_up r : rmg_flag (up r) = up (qflag1 r).
Proof.
  unfold rmg_flag, qflag1, up. cbn. destruct (Z.eqb (qflag r) 0); cbn; rewrite ?ofR_1; auto. replace (ofR (-1)) with (- (1)); auto.
  change (-1)%R with (- (1))%R. rewrite ofR_opp, ofR_1. auto.
Qed.
Definition qs1 (r : rmr) : rmr :=
  let r := qflag1 r in
  if Rleb (qd1 r) (1 / G2) then mkrmr (qflag r) (qd1 r * G2) (qd2 r) (qa r / g) (qh0 r / g) (qh1 r) (qh2 r / g) (qh3 r)
  else mkrmr (qflag r) (qd1 r / G2) (qd2 r) (qa r * g) (qh0 r * g) (qh1 r) (qh2 r * g) (qh3 r).
Definition qs2 (r : rmr) : rmr :=
  let r := qflag1 r in
  if Rleb (Rabs (qd2 r)) (1 / G2) then mkrmr (qflag r) (qd1 r) (qd2 r * G2) (qa r) (qh0 r) (qh1 r / g) (qh2 r) (qh3 r / g)
  else mkrmr (qflag r) (qd1 r) (qd2 r / G2) (qa r) (qh0 r) (qh1 r * g) (qh2 r) (qh3 r * g).
Lemma leb_Rleb a b : leb (ofR a) (ofR b) = Rleb a b.
Proof.
  destruct (Rleb a b) eqn:e.
  - apply leb_ofR. apply Rleb_t in e. auto.
  - apply leb_ofR_f. apply Rleb_f in e. auto.
Qed.
Lemma loop1_done fuel r s : inband (qd1 r) -> rmg_loop1 fuel gam gamsq rgamsq (up r) s = Ok (up r) s.
Proof.
  intros [H1 H2]. assert (E1 : leb (rd1 (up r)) rgamsq || leb gamsq (rd1 (up r)) = false).
  { unfold up. cbn [rd1]. apply orb_false_iff. split; apply leb_ofR_f; auto. }
  destruct fuel; cbn [rmg_loop1]; rewrite E1; auto.
Qed.
Lemma loop1_step fuel r s : ~ inband (qd1 r) -> rmg_loop1 (S fuel) gam gamsq rgamsq (up r) s = rmg_loop1 fuel gam gamsq rgamsq (up (qs1 r)) s.
Proof.
  intros H. assert (E1 : leb (rd1 (up r)) rgamsq || leb gamsq (rd1 (up r)) = true).
  { apply orb_true_iff. unfold up. cbn [rd1]. rewrite !leb_ofR. unfold inband in H. lra. }
  cbn [rmg_loop1]. rewrite E1. rewrite rmg_flag_up. f_equal. unfold qs1. set (r' := qflag1 r). unfold up at 1. cbn [rd1]. rewrite leb_Rleb.
  destruct (Rleb (qd1 r') (1 / G2)); unfold up; cbn; rewrite ?ofR_mul, ?ofR_div, ?ofR_mul; auto.
Qed.
Lemma loop2_done fuel r s : inband (Rabs (qd2 r)) -> rmg_loop2 fuel gam gamsq rgamsq (up r) s = Ok (up r) s.
Proof.
  intros [H1 H2]. assert (E1 : leb (absv (rd2 (up r))) rgamsq || leb gamsq (absv (rd2 (up r))) = false).
  { unfold up. cbn [rd2]. rewrite absv_ofR_abs. apply orb_false_iff. split; apply leb_ofR_f; auto. }
  destruct fuel; cbn [rmg_loop2]; rewrite E1; auto.
Qed.
Lemma loop2_step fuel r s : ~ inband (Rabs (qd2 r)) -> rmg_loop2 (S fuel) gam gamsq rgamsq (up r) s = rmg_loop2 fuel gam gamsq rgamsq (up (qs2 r)) s.
Proof.
  intros H. assert (E1 : leb (absv (rd2 (up r))) rgamsq || leb gamsq (absv (rd2 (up r))) = true).
  { apply orb_true_iff. unfold up. cbn [rd2]. rewrite absv_ofR_abs, !leb_ofR. unfold inband in H. lra. }
  cbn [rmg_loop2]. rewrite E1. rewrite rmg_flag_up. f_equal. unfold qs2. set (r' := qflag1 r). unfold up at 1. cbn [rd2]. rewrite absv_ofR_abs, leb_Rleb.
  destruct (Rleb (Rabs (qd2 r')) (1 / G2)); unfold up; cbn; rewrite ?ofR_mul, ?ofR_div, ?ofR_mul; auto.
Qed.

(** ** the loops end *)
Definition within (n : nat) (x : R) : Prop := (1 / (g * g) ^ (S n) < x < (g * g) ^ (S n))%R.
Lemma pow_G2 n : (1 <= G2 ^ n)%R.
Proof. apply pow_R1_Rle. lra. Qed.
Lemma within_exists x : (0 < x)%R -> exists n, within n x.
Proof.
  intros Hx. assert (K : forall y, exists N, forall n, (N <= n)%nat -> (y < G2 ^ n)%R).
  { intros y. destruct (Pow_x_infinity G2 ltac:(rewrite Rabs_right; lra) (y + 1)) as [N HN]. exists N. intros n Hn. specialize (HN n Hn). rewrite Rabs_right in HN; [lra|]. assert (K := pow_G2 n). lra. }
  destruct (K x) as [N1 H1]. destruct (K (/ x)%R) as [N2 H2]. exists (N1 + N2)%nat. split; [|apply H1; lia].
  specialize (H2 (S (N1 + N2)) ltac:(lia)). assert (P := pow_G2 (S (N1 + N2))). set (p := (G2 ^ S (N1 + N2))%R) in *.
  apply (Rmult_lt_reg_r p); [lra|]. replace (1 / p * p)%R with 1%R by (field; lra). 
  assert (/ x * x < p * x)%R by (apply Rmult_lt_compat_r; auto). replace (/ x * x)%R with 1%R in H by (field; lra). lra.
Qed.
Lemma within_0 x : within 0 x -> inband x.
Proof. unfold within, inband. cbn [pow]. rewrite !Rmult_1_r. auto. Qed.
Lemma within_step n x : within (S n) x -> ~ inband x -> within n (if Rleb x (1 / G2) then x * G2 else x / G2).
Proof.
  unfold within, inband. intros [H1 H2] HN. assert (P := pow_G2 n). cbn [pow] in *. set (p := (G2 ^ n)%R) in *. set (q := G2) in *.
  assert (I1 : (1 / q * q = 1)%R) by (field; auto). assert (0 < 1 / q)%R by (unfold Rdiv; rewrite Rmult_1_l; apply Rinv_0_lt_compat; lra).
  assert (Ip : (1 / (q * p) * (q * p) = 1)%R) by (field; lra). assert (Iq : (1 / (q * (q * p)) = 1 / (q * p) * (1 / q))%R) by (field; lra).
  assert (0 < 1 / (q * p))%R by (unfold Rdiv; rewrite Rmult_1_l; apply Rinv_0_lt_compat; nra).
  destruct (Rleb x (1 / q)) eqn:e; [apply Rleb_t in e|apply Rleb_f in e]; split.
  - assert (1 / (q * (q * p)) * q < x * q)%R by (apply Rmult_lt_compat_r; lra). rewrite Iq in H3. nra.
  - assert (x * q <= 1 / q * q)%R by (apply Rmult_le_compat_r; lra). nra.
  - assert (q <= x)%R by lra. assert (1 <= x / q)%R by (apply (Rmult_le_reg_r q); [lra|]; replace (x / q * q)%R with x by (field; auto); lra).
    assert (1 / (q * p) < 1)%R by (apply (Rmult_lt_reg_r (q * p)); nra). lra.
  - apply (Rmult_lt_reg_r q); [lra|]. replace (x / q * q)%R with x by (field; auto). nra.
Qed.
Lemma qflag1_d r : qd1 (qflag1 r) = qd1 r /\ qd2 (qflag1 r) = qd2 r.
Proof. unfold qflag1. destruct (Z.eqb (qflag r) 0); auto. Qed.
Lemma qs1_d r : qd1 (qs1 r) = (if Rleb (qd1 r) (1 / G2) then qd1 r * G2 else qd1 r / G2)%R /\ qd2 (qs1 r) = qd2 r.
Proof. unfold qs1. cbv zeta. destruct (qflag1_d r) as [e1 e2]. rewrite e1. destruct (Rleb (qd1 r) (1 / G2)); cbn; rewrite ?e1, e2; auto. Qed.
Lemma qs2_d r : qd2 (qs2 r) = (if Rleb (Rabs (qd2 r)) (1 / G2) then qd2 r * G2 else qd2 r / G2)%R /\ qd1 (qs2 r) = qd1 r.
Proof. unfold qs2. cbv zeta. destruct (qflag1_d r) as [e1 e2]. rewrite e2. destruct (Rleb (Rabs (qd2 r)) (1 / G2)); cbn; rewrite ?e2, e1; auto. Qed.
Lemma qs2_abs r : Rabs (qd2 (qs2 r)) = (if Rleb (Rabs (qd2 r)) (1 / G2) then Rabs (qd2 r) * G2 else Rabs (qd2 r) / G2)%R.
Proof.
  rewrite (proj1 (qs2_d r)). destruct (Rleb (Rabs (qd2 r)) (1 / G2)); unfold Rdiv; rewrite Rabs_mult; f_equal; apply Rabs_right; [lra|].
  apply Rle_ge. left. apply Rinv_0_lt_compat. lra.
Qed.
Lemma inband_dec x : inband x \/ ~ inband x.
Proof. unfold inband. destruct (Rlt_le_dec (1 / G2) x), (Rlt_le_dec x G2); [left; split; auto|right; lra|right; lra|right; lra]. Qed.
Lemma loop1_ends n : forall r s, within n (qd1 r) -> exists r', (forall fuel, (n <= fuel)%nat -> rmg_loop1 fuel gam gamsq rgamsq (up r) s = Ok (up r') s) /\ inband (qd1 r') /\ qd2 r' = qd2 r.
Proof.
  induction n as [|n IH]; intros r s H.
  - exists r. apply within_0 in H. split; [intros; apply loop1_done; auto|auto].
  - destruct (inband_dec (qd1 r)) as [I|I]; [exists r; split; [intros; apply loop1_done; auto|auto]|].
    assert (W := within_step n _ H I). destruct (qs1_d r) as [D1 D2]. rewrite <- D1 in W. destruct (IH (qs1 r) s W) as (r' & K1 & K2 & K3). exists r'. split; [|rewrite <- D2; auto].
    intros fuel Hf. destruct fuel as [|fuel]; [lia|]. rewrite loop1_step by auto. apply K1. lia.
Qed.
Lemma loop2_ends n : forall r s, within n (Rabs (qd2 r)) -> exists r', (forall fuel, (n <= fuel)%nat -> rmg_loop2 fuel gam gamsq rgamsq (up r) s = Ok (up r') s) /\ inband (Rabs (qd2 r')) /\ qd1 r' = qd1 r.
Proof.
  induction n as [|n IH]; intros r s H.
  - exists r. apply within_0 in H. split; [intros; apply loop2_done; auto|auto].
  - destruct (inband_dec (Rabs (qd2 r))) as [I|I]; [exists r; split; [intros; apply loop2_done; auto|auto]|].
    assert (W := within_step n _ H I). destruct (qs2_d r) as [D1 D2]. rewrite <- qs2_abs in W. destruct (IH (qs2 r) s W) as (r' & K1 & K2 & K3). exists r'. split; [|rewrite <- D2; auto].
    intros fuel Hf. destruct fuel as [|fuel]; [lia|]. rewrite loop2_step by auto. apply K1. lia.
Qed.

(** ** the rotation before rescaling *)
Definition qstart (d1 d2 a b : R) : rmr :=
  let q1 := (d1 * a * a)%R in let q2 := (d2 * b * b)%R in
  if Rltb (Rabs q2) (Rabs q1) then
    let u := (1 + q2 / q1)%R in mkrmr 0 (d1 / u) (d2 / u) (a * u) 0 (- b / a) (d2 * b / (d1 * a)) 0
  else if Rltb q2 0 then mkrmr (-1) 0 0 0 0 0 0 0
  else let u := (1 + q1 / q2)%R in mkrmr 1 (d2 / u) (d1 / u) (b * u) (d1 * a / (d2 * b)) 0 0 (a / b).
Lemma rmg_start_up d1 d2 a b : (0 < d1)%R -> (d2 * b <> 0)%R -> rmg_start (ofR d1) (ofR d2) (ofR a) (ofR b) = up (qstart d1 d2 a b).
Proof.
  intros Hd1' Hdb. assert (Hd1 : d1 <> 0%R) by lra. unfold rmg_start, qstart. cbv zeta. rewrite <- !ofR_mul, !absv_ofR_abs, ofR_lt.
  assert (Nb : b <> 0%R) by (intros ->; apply Hdb; ring). assert (Nd2 : d2 <> 0%R) by (intros ->; apply Hdb; ring).
  destruct (Rltb (Rabs (d2 * b * b)) (Rabs (d1 * a * a))) eqn:e.
  - apply Instances.Rltb_t in e. assert (Na : a <> 0%R). { intros ->. rewrite Rmult_0_r, Rabs_R0 in e. assert (K := Rabs_pos (d2 * b * b)). lra. }
    assert (Nq1 : (d1 * a * a)%R <> 0%R) by (repeat apply Rmult_integral_contrapositive_currified; auto).
    assert (Np1 : (d1 * a)%R <> 0%R) by (apply Rmult_integral_contrapositive_currified; auto).
    set (u := (1 + d2 * b * b / (d1 * a * a))%R).
    assert (Hu : (0 < u)%R).
    { assert (Rabs (d2 * b * b / (d1 * a * a)) < 1)%R. { unfold Rdiv. rewrite Rabs_mult, Rabs_inv by auto. apply (Rmult_lt_reg_r (Rabs (d1 * a * a))); [apply Rabs_pos_lt; auto|]. rewrite Rmult_assoc, Rinv_l by (apply Rabs_no_R0; auto). lra. }
      apply Rabs_def2 in H. unfold u. lra. }
    assert (Eu : 1 - ofR (d2 * b) / ofR (d1 * a) * (- ofR b / ofR a) = ofR u).
    { rewrite <- ofR_opp, <- !ofR_div, <- ofR_mul, <- ofR_1, <- ofR_sub by auto. f_equal. unfold u. field. auto. }
    rewrite Eu. rewrite <- ofR_0, ofR_lt. assert (eu : Rltb 0 u = true) by (apply Instances.Rltb_t; auto). rewrite eu.
    unfold up. cbn. rewrite !ofR_mul, !ofR_div, ?ofR_opp, ?ofR_mul by (auto; lra). auto.
  - apply Instances.Rltb_f in e. rewrite <- ofR_0, ofR_lt. destruct (Rltb (d2 * b * b) 0) eqn:e2.
    { unfold up. cbn. auto. }
    apply Instances.Rltb_f in e2. assert (Nq2 : (d2 * b * b)%R <> 0%R) by (repeat apply Rmult_integral_contrapositive_currified; auto).
    set (u := (1 + d1 * a * a / (d2 * b * b))%R).
    assert (Eu : 1 + ofR (d1 * a) / ofR (d2 * b) * (ofR a / ofR b) = ofR u).
    { rewrite <- !ofR_div, <- ofR_mul, <- ofR_1, <- ofR_add by auto. f_equal. unfold u. field. auto. }
    assert (Hu : (1 <= u)%R).
    { unfold u. assert (0 <= d1 * a * a / (d2 * b * b))%R; [|lra]. apply Rmult_le_pos; [nra|]. left. apply Rinv_0_lt_compat. lra. }
    rewrite Eu. unfold up. cbn. rewrite !ofR_mul, !ofR_div, ?ofR_mul by (auto; lra). auto.
Qed.

Lemma start_ok d1 d2 a b : (0 < d1)%R -> (d2 * b <> 0)%R -> ((0 < d2)%R \/ (Rabs (d2 * b * b) < Rabs (d1 * a * a))%R) ->
  qok d1 d2 a b (qstart d1 d2 a b) /\ (0 < qd1 (qstart d1 d2 a b))%R /\ qd2 (qstart d1 d2 a b) <> 0%R /\ (qflag (qstart d1 d2 a b) = 0%Z \/ qflag (qstart d1 d2 a b) = 1%Z).
Proof.
  intros Hd1 Hdb HH. unfold qstart. cbv zeta.
  assert (Nb : b <> 0%R) by (intros ->; apply Hdb; ring). assert (Nd2 : d2 <> 0%R) by (intros ->; apply Hdb; ring).
  destruct (Rltb (Rabs (d2 * b * b)) (Rabs (d1 * a * a))) eqn:e.
  - apply Instances.Rltb_t in e. assert (Na : a <> 0%R). { intros ->. rewrite Rmult_0_r, Rabs_R0 in e. assert (K := Rabs_pos (d2 * b * b)). lra. }
    assert (Nq1 : (d1 * a * a)%R <> 0%R) by (repeat apply Rmult_integral_contrapositive_currified; auto; lra).
    set (u := (1 + d2 * b * b / (d1 * a * a))%R).
    assert (Hu : (0 < u)%R).
    { assert (Rabs (d2 * b * b / (d1 * a * a)) < 1)%R. { unfold Rdiv. rewrite Rabs_mult, Rabs_inv by auto. apply (Rmult_lt_reg_r (Rabs (d1 * a * a))); [apply Rabs_pos_lt; auto|]. rewrite Rmult_assoc, Rinv_l by (apply Rabs_no_R0; auto). lra. }
      apply Rabs_def2 in H. unfold u. lra. }
    assert (Eu : (u * (d1 * a * a) = d1 * a * a + d2 * b * b)%R) by (unfold u; field; split; lra).
    unfold qok, qH. cbn. split; [|split; [apply Rdiv_lt_0_compat; auto|split; [|auto]]].
    + unfold mrot. assert (Es : (d1 * a * a + d2 * b * b)%R <> 0%R) by (rewrite <- Eu; apply Rmult_integral_contrapositive_currified; auto; lra).
      assert (Es' : (d1 * (a * a) + d2 * (b * b))%R <> 0%R) by (intros e'; apply Es; lra).
      unfold u. split; [field; split; lra|]. split; [field; lra|]. split; [field; split; [lra|split; [lra|]]; auto|]. split; field; split; [lra|split; [lra|]|lra|split; [lra|]]; auto.
    + unfold Rdiv. apply Rmult_integral_contrapositive_currified; auto. apply Rinv_neq_0_compat. lra.
  - apply Instances.Rltb_f in e. destruct HH as [HH|HH]; [|lra]. assert (Hb2 : (0 < b * b)%R) by nra. assert (Hq2 : (0 < d2 * b * b)%R) by nra.
    assert (e2 : Rltb (d2 * b * b) 0 = false) by (apply Instances.Rltb_f; lra). rewrite e2.
    set (u := (1 + d1 * a * a / (d2 * b * b))%R).
    assert (Hu : (1 <= u)%R).
    { unfold u. assert (0 <= d1 * a * a / (d2 * b * b))%R; [|lra]. apply Rmult_le_pos; [nra|]. left. apply Rinv_0_lt_compat. lra. }
    assert (Eu : (u * (d2 * b * b) = d1 * a * a + d2 * b * b)%R) by (unfold u; field; split; lra).
    assert (Es : (d1 * a * a + d2 * b * b)%R <> 0%R) by (rewrite <- Eu; nra).
    assert (Es' : (d2 * b * b + d1 * a * a)%R <> 0%R) by lra.
    assert (Es'' : (d2 * (b * b) + d1 * (a * a))%R <> 0%R) by (intros e'; apply Es; lra).
    unfold qok, qH. cbn. split; [|split; [apply Rdiv_lt_0_compat; lra|split; [|auto]]].
    + unfold mrot, u. split; [field; split; lra|]. split; [field; lra|]. split; [|split]; field; repeat split; try lra; auto.
    + unfold Rdiv. apply Rmult_integral_contrapositive_currified; [lra|]. apply Rinv_neq_0_compat. lra.
Qed.
(** one rescaling step of a rotation that was not rescaled before keeps it right *)
Lemma mrot_row1 d1 d2 a b e1 e2 z h11 h12 h21 h22 k : k <> 0%R -> mrot d1 d2 a b e1 e2 z h11 h12 h21 h22 ->
  mrot d1 d2 a b (e1 / (k * k)) e2 (z * k) (h11 * k) (h12 * k) h21 h22.
Proof.
  intros Hk (K1 & K2 & K3 & K4 & K5). unfold mrot. split; [rewrite <- K1; ring|]. split; [exact K2|].
  split; [rewrite <- K3|split; [rewrite <- K4|rewrite <- K5]]; field; auto.
Qed.
Lemma mrot_row2 d1 d2 a b e1 e2 z h11 h12 h21 h22 k : k <> 0%R -> mrot d1 d2 a b e1 e2 z h11 h12 h21 h22 ->
  mrot d1 d2 a b e1 (e2 / (k * k)) z h11 h12 (h21 * k) (h22 * k).
Proof.
  intros Hk (K1 & K2 & K3 & K4 & K5). unfold mrot. split; [exact K1|]. split; [rewrite <- (Rmult_0_l k), <- K2; ring|].
  split; [rewrite <- K3|split; [rewrite <- K4|rewrite <- K5]]; field; auto.
Qed.
Lemma mrot_eq d1 d2 a b e1 e2 z h11 h12 h21 h22 e1' e2' z' h11' h12' h21' h22' :
  mrot d1 d2 a b e1 e2 z h11 h12 h21 h22 -> e1 = e1' -> e2 = e2' -> z = z' -> h11 = h11' -> h12 = h12' -> h21 = h21' -> h22 = h22' ->
  mrot d1 d2 a b e1' e2' z' h11' h12' h21' h22'.
Proof. intros; subst; auto. Qed.
Lemma qs1_ok d1 d2 a b r : qflag r = 0%Z \/ qflag r = 1%Z -> qok d1 d2 a b r -> qok d1 d2 a b (qs1 r).
Proof.
  destruct r as [fl e1 e2 z h0 h1 h2 h3]. cbn [qflag]. intros Hf H. unfold qok, qH, qs1, qflag1 in *.
  assert (Ig : (/ g)%R <> 0%R) by (apply Rinv_neq_0_compat; auto).
  destruct Hf as [-> | ->]; cbn in *; destruct (Rleb e1 (1 / G2)); cbn.
  all: first [apply (mrot_eq _ _ _ _ _ _ _ _ _ _ _ _ _ _ _ _ _ _ (mrot_row1 _ _ _ _ _ _ _ _ _ _ _ (/ g) Ig H)); field; auto
             |apply (mrot_eq _ _ _ _ _ _ _ _ _ _ _ _ _ _ _ _ _ _ (mrot_row1 _ _ _ _ _ _ _ _ _ _ _ g Ng H)); field; auto].
Qed.
Lemma qs2_ok d1 d2 a b r : qflag r = 0%Z \/ qflag r = 1%Z -> qok d1 d2 a b r -> qok d1 d2 a b (qs2 r).
Proof.
  destruct r as [fl e1 e2 z h0 h1 h2 h3]. cbn [qflag]. intros Hf H. unfold qok, qH, qs2, qflag1 in *.
  assert (Ig : (/ g)%R <> 0%R) by (apply Rinv_neq_0_compat; auto).
  destruct Hf as [-> | ->]; cbn in *; destruct (Rleb (Rabs e2) (1 / G2)); cbn.
  all: first [apply (mrot_eq _ _ _ _ _ _ _ _ _ _ _ _ _ _ _ _ _ _ (mrot_row2 _ _ _ _ _ _ _ _ _ _ _ (/ g) Ig H)); field; auto
             |apply (mrot_eq _ _ _ _ _ _ _ _ _ _ _ _ _ _ _ _ _ _ (mrot_row2 _ _ _ _ _ _ _ _ _ _ _ g Ng H)); field; auto].
Qed.
(** ** the routine *)
Lemma rotmg_unfold fuel d1 d2 a b s : (0 < d1)%R -> (d2 * b <> 0)%R -> rotmg fuel gam (ofR d1) (ofR d2) (ofR a) (ofR b) s =
  (r <- (if negb (Reqb (qd1 (qstart d1 d2 a b)) 0) then rmg_loop1 fuel gam gamsq rgamsq (up (qstart d1 d2 a b)) else ret (up (qstart d1 d2 a b)));;
   (if negb (eqb (rd2 r) 0) then rmg_loop2 fuel gam gamsq rgamsq r else ret r))%prog s.
Proof.
  intros H1 H2. unfold rotmg. assert (L0 : leb (ofR d1) 0 = false) by (rewrite <- ofR_0; apply leb_ofR_f; auto). rewrite L0. cbn [negb].
  unfold check. rewrite andb_false_r. unfold bind at 1, ret at 1. cbv zeta.
  assert (L1 : ltb (ofR d1) 0 = false) by (rewrite <- ofR_0, ofR_lt; apply Instances.Rltb_f; lra). rewrite L1.
  assert (L2 : eqb (ofR d2 * ofR b) 0 = false). { rewrite <- ofR_mul, <- ofR_0, eqb_toR. destruct (Reqb (d2 * b) 0) eqn:e; auto. apply Reqb_t in e. contradiction. }
  rewrite L2. rewrite rmg_start_up by auto. set (q := qstart d1 d2 a b). unfold up at 1. cbn [rd1]. rewrite <- ofR_0, eqb_toR, <- ofR_mul, <- ofR_1, <- ofR_div by auto. auto.
Qed.
Lemma Reqb_f x : x <> 0%R -> Reqb x 0 = false.
Proof. intros H. destruct (Reqb x 0) eqn:e; auto. apply Reqb_t in e. contradiction. Qed.
Lemma rd2_up r : qd2 r <> 0%R -> eqb (rd2 (up r)) 0 = false.
Proof. intros H. unfold up. cbn. rewrite <- ofR_0, eqb_toR. apply Reqb_f; auto. Qed.
(** it ends, with the weights in the band *)
Lemma rotmg_ends d1 d2 a b s : (0 < d1)%R -> (d2 * b <> 0)%R -> exists r N, (forall fuel, (N <= fuel)%nat -> rotmg fuel gam (ofR d1) (ofR d2) (ofR a) (ofR b) s = Ok (up r) s) /\
  (qd1 r = 0%R \/ inband (qd1 r)) /\ (qd2 r = 0%R \/ inband (Rabs (qd2 r))).
Proof.
  intros H1 H2. set (q := qstart d1 d2 a b).
  assert (K1 : exists r N, (forall fuel, (N <= fuel)%nat -> (if negb (Reqb (qd1 q) 0) then rmg_loop1 fuel gam gamsq rgamsq (up q) else ret (up q)) s = Ok (up r) s) /\ (qd1 r = 0%R \/ inband (qd1 r)) /\ qd2 r = qd2 q).
  { destruct (Req_dec (qd1 q) 0) as [e|N].
    - exists q, 0%nat. replace (Reqb (qd1 q) 0) with true by (symmetry; apply Reqb_t; auto). auto.
    - assert (P : (0 < qd1 q)%R).
      { unfold q, qstart in *. cbv zeta in *. destruct (Rltb (Rabs (d2 * b * b)) (Rabs (d1 * a * a))) eqn:e1.
        - destruct (start_ok d1 d2 a b) as (_ & K & _); auto; [right; apply Instances.Rltb_t; auto|]. unfold qstart in K. cbv zeta in K. rewrite e1 in K. auto.
        - destruct (Rltb (d2 * b * b) 0) eqn:e2; [cbn in N; lra|]. destruct (start_ok d1 d2 a b) as (_ & K & _); auto.
          + left. apply Instances.Rltb_f in e2. assert (Nb : b <> 0%R) by (intros ->; apply H2; ring). assert (d2 <> 0%R) by (intros ->; apply H2; ring). assert (0 < b * b)%R by nra. nra.
          + unfold qstart in K. cbv zeta in K. rewrite e1, e2 in K. auto. }
      destruct (within_exists _ P) as [n Hn]. destruct (loop1_ends n q s Hn) as (r & L1 & L2 & L3). exists r, n. rewrite Reqb_f by auto. cbn [negb]. auto. }
  destruct K1 as (r & N1 & L1 & L2 & L3). destruct (Req_dec (qd2 r) 0) as [e|N].
  - exists r, N1. split; [|auto]. intros fuel Hf. rewrite rotmg_unfold by auto. fold q. unfold bind. rewrite L1 by auto.
    unfold up at 1. cbn. rewrite e, ofR_0. rewrite (proj2 (eqb_spec 0 0) eq_refl). auto.
  - destruct (within_exists (Rabs (qd2 r))) as [n Hn]; [apply Rabs_pos_lt; auto|]. destruct (loop2_ends n r s Hn) as (r' & M1 & M2 & M3).
    exists r', (N1 + n)%nat. split; [|split; [rewrite M3; auto|auto]]. intros fuel Hf. rewrite rotmg_unfold by auto. fold q. unfold bind. rewrite L1 by lia.
    rewrite rd2_up by auto. cbn [negb]. apply M1. lia.
Qed.
(** with at most one rescaling step the result is right *)
Definition near (x : R) : Prop := within 1 x.
Lemma rotmg_right fuel d1 d2 a b s : (0 < d1)%R -> (d2 * b <> 0)%R -> ((0 < d2)%R \/ (Rabs (d2 * b * b) < Rabs (d1 * a * a))%R) ->
  let e1 := qd1 (qstart d1 d2 a b) in let e2 := Rabs (qd2 (qstart d1 d2 a b)) in
  (inband e1 /\ inband e2 \/ near e1 /\ inband e2 \/ inband e1 /\ near e2) ->
  exists r, rotmg (S fuel) gam (ofR d1) (ofR d2) (ofR a) (ofR b) s = Ok (up r) s /\ qok d1 d2 a b r.
Proof.
  intros H1 H2 H3. cbv zeta. set (q := qstart d1 d2 a b). destruct (start_ok d1 d2 a b) as (S1 & S2 & S3 & S4); auto. fold q in S1, S2, S3, S4.
  assert (U : forall f r, rmg_loop1 f gam gamsq rgamsq (up q) s = Ok (up r) s -> qd2 r <> 0%R -> rotmg f gam (ofR d1) (ofR d2) (ofR a) (ofR b) s = rmg_loop2 f gam gamsq rgamsq (up r) s).
  { intros f r Hr Hn. rewrite rotmg_unfold by auto. fold q. rewrite Reqb_f by lra. cbn [negb]. unfold bind. rewrite Hr, rd2_up by auto. auto. }
  intros [[B1 B2]|[[B1 B2]|[B1 B2]]].
  - exists q. split; auto. rewrite (U _ q); [apply loop2_done; auto|apply loop1_done; auto|auto].
  - destruct (inband_dec (qd1 q)) as [I|I].
    + exists q. split; auto. rewrite (U _ q); [apply loop2_done; auto|apply loop1_done; auto|auto].
    + exists (qs1 q). split; [|apply qs1_ok; auto]. destruct (qs1_d q) as [D1 D2]. rewrite (U _ (qs1 q)); [|rewrite loop1_step by auto; apply loop1_done; apply within_0; rewrite D1; apply within_step; auto|rewrite D2; auto].
      apply loop2_done. rewrite D2. auto.
  - destruct (inband_dec (Rabs (qd2 q))) as [I|I].
    + exists q. split; auto. rewrite (U _ q); [apply loop2_done; auto|apply loop1_done; auto|auto].
    + exists (qs2 q). split; [|apply qs2_ok; auto]. rewrite (U _ q); [|apply loop1_done; auto|auto]. rewrite loop2_step by auto. apply loop2_done. apply within_0. rewrite qs2_abs. apply within_step; auto.
Qed.
End P.
