(** * C35 (rotg, rotmg; rot and rotm are in Properties/Blas1.v), C36: plane rotations *)
From Coq Require Import Bool Arith ZArith Lia List Reals Lra Psatz Ring Field.
From Verif.Core Require Import Scalar Prog View Instances Quiet RealLaws.
From Verif.Spec Require Import LinAlg Outcome Rot Householder.
From Verif.Model Require Import Legacy Householder Sort Rot.
From Verif.Proof Require Import SumLemmas LarfgProof RotgProof RotmgProof RotSeqProof QRProof.
From Verif.Properties Require Import ExTac Blas1.
From Coq Require PrimFloat Uint63.
Import ListNotations.
Local Open Scope T_scope.

Section G.
Context {E : Env} {FL : FieldLaws E} {CL : ConjLaws E} {OL : ROrdLaws E} {QL : EqbLaws E} {XL : CplxLaws E} {RL : RLaws E} {NL : FinLaws E}.
Add Field Tf : fth.

(** ** rotg *)
(** Real rotg, in exact arithmetic: c^2 + s^2 = 1 and [c s; -s c] (a, b) = (r, 0), whatever the positive scaling
    constants; r is returned in place of a *)
Theorem rotg_real_correct (safmin safmax a b : R) : (0 < safmin)%R -> (0 < safmax)%R ->
  exists r z c s : R, rotg_real (ofR safmin) (ofR safmax) (ofR a) (ofR b) = (ofR r, ofR z, ofR c, ofR s) /\
    (c * c + s * s = 1)%R /\ (c * a + s * b = r)%R /\ (- s * a + c * b = 0)%R /\ (r * r = a * a + b * b)%R.
Proof.
  intros H1 H2. destruct (rotg_real_run safmin safmax a b H1 H2) as (r & z & c & s & K & K1 & K2 & K3 & _). exists r, z, c, s.
  split; [auto|]. split; [auto|]. split; [auto|]. split; [auto|]. rewrite <- K2. 
  transitivity ((c * c + s * s) * (a * a + b * b) - (- s * a + c * b) * (- s * a + c * b))%R; [ring|]. rewrite K1, K3. ring.
Qed.
(** The value z returned in place of b determines the rotation: |z| < 1 means s = z, c = sqrt(1-z^2); |z| > 1 means
    c = 1/z, s = sqrt(1-c^2); z = 1 means c = 0, s = 1 *)
Theorem rotg_real_reconstruct (safmin safmax a b : R) : (0 < safmin)%R -> (0 < safmax)%R ->
  exists r z c s : R, rotg_real (ofR safmin) (ofR safmax) (ofR a) (ofR b) = (ofR r, ofR z, ofR c, ofR s) /\
    ((Rabs z < 1)%R /\ s = z /\ c = sqrt (1 - z * z) \/ (1 < Rabs z)%R /\ c = (1 / z)%R /\ s = sqrt (1 - c * c) \/ z = 1%R /\ c = 0%R /\ s = 1%R).
Proof.
  intros H1 H2. destruct (rotg_real_run safmin safmax a b H1 H2) as (r & z & c & s & K & K1 & K2 & K3 & K4 & K5 & K6). exists r, z, c, s. split; [auto|].
  destruct (Rlt_le_dec (Rabs b) (Rabs a)) as [L|L].
  - left. destruct (K5 L) as [C0 ->]. split; [|split; [auto|]].
    + apply Rabs_def1; nra.
    + symmetry. apply sqrt_lem_1; nra.
  - destruct (Req_dec b 0) as [->|Nb].
    + rewrite Rabs_R0 in L. destruct (Req_dec a 0) as [->|Na]; [|apply Rabs_no_R0 in Na; assert (P := Rabs_pos a); lra].
      left. destruct (K4 eq_refl) as (-> & -> & ->). rewrite Rabs_R0. split; [lra|]. split; auto. replace (1 - 0 * 0)%R with 1%R by ring. rewrite sqrt_1. auto.
    + destruct (K6 L Nb) as [S0 Ez]. right. destruct (Reqb a 0) eqn:e.
      * right. apply Reqb_t in e. subst a. split; [auto|]. assert (c = 0%R) by nra. split; auto. nra.
      * left. assert (Na : a <> 0%R) by (intros e'; apply Reqb_t in e'; congruence).
        assert (Nc : c <> 0%R) by (intros ->; nra). assert (Cc : (c * c < 1)%R) by nra.
        split; [|split].
        -- rewrite Ez. rewrite Rabs_inv. rewrite <- Rinv_1. apply Rinv_lt_contravar; [rewrite Rmult_1_r; apply Rabs_pos_lt; auto|]. apply Rabs_def1; nra.
        -- rewrite Ez. field. auto.
        -- symmetry. apply sqrt_lem_1; nra.
Qed.
(** Complex rotg: c is real and nonnegative, c^2 + |s|^2 = 1 and [c s; -conj(s) c] (a, b) = (r, 0), whatever the
    positive scaling constants and the thresholds *)
Theorem rotg_cplx_correct (safmin safmax rtmin rtmax : R) (a b : T) : (0 < safmin)%R -> (0 < safmax)%R ->
  exists (r : T) (c : R) (s : T), rotg_cplx (ofR safmin) (ofR safmax) (ofR rtmin) (ofR rtmax) a b = (r, ofR c, s) /\
    (0 <= c)%R /\ (c * c + modulus s * modulus s = 1)%R /\ ofR c * a + s * b = r /\ - conj s * a + ofR c * b = 0.
Proof.
  intros H1 H2. destruct (rotg_cplx_run safmin safmax rtmin rtmax a b H1 H2) as (r & c & s & K & (K1 & K2 & K3 & K4) & _). exists r, c, s. auto.
Qed.

(** ** rotmg *)
(** the matrix H denoted by a result of rotmg, as rotm applies it (C35, rotm_correct) *)
Definition rmg_H (r : rmg) : T * T * T * T := rotm_H (rflag r) (rh0 r) (rh1 r) (rh2 r) (rh3 r).
Notation rotmg' fuel d1 d2 a b := (rotmg fuel (ofR 4096) (ofR d1) (ofR d2) (ofR a) (ofR b)).

Lemma near_within x : near_band x -> within 4096 1 x.
Proof. unfold near_band, within. cbn [pow]. rewrite !Rmult_1_r. unfold Rdiv. rewrite Rmult_1_l. auto. Qed.
Lemma band_in x : in_band x <-> inband 4096 x.
Proof. unfold in_band, inband, Rdiv. rewrite Rmult_1_l. tauto. Qed.
Lemma weights_start d1 d2 a b : (0 < d1)%R -> (d2 * b <> 0)%R -> (0 < d2)%R \/ (Rabs (d2 * b * b) < Rabs (d1 * a * a))%R ->
  mrot_weights d1 d2 a b = (qd1 (qstart d1 d2 a b), qd2 (qstart d1 d2 a b)).
Proof.
  intros H1 H2 H3. unfold mrot_weights, qstart. cbv zeta. destruct (Rlt_dec (Rabs (d2 * b * b)) (Rabs (d1 * a * a))) as [L|L].
  - rewrite (proj2 (Instances.Rltb_t _ _) L). auto.
  - assert (L' : Rltb (Rabs (d2 * b * b)) (Rabs (d1 * a * a)) = false) by (apply Instances.Rltb_f; lra). rewrite L'.
    destruct H3 as [H3|H3]; [|contradiction]. assert (Nb : b <> 0%R) by (intros ->; apply H2; ring).
    assert (0 < b * b)%R by nra. assert (L2 : Rltb (d2 * b * b) 0 = false) by (apply Instances.Rltb_f; nra). rewrite L2. auto.
Qed.
Lemma qok_H d1 d2 a b r : qok d1 d2 a b r -> exists h11 h12 h21 h22 : R, rmg_H (up r) = (ofR h11, ofR h12, ofR h21, ofR h22) /\
  mrot d1 d2 a b (qd1 r) (qd2 r) (qa r) h11 h12 h21 h22.
Proof.
  unfold qok, qH, rmg_H, rotm_H, up. cbn. destruct (Z.eqb (qflag r) (-1)); [|destruct (Z.eqb (qflag r) 0); [|destruct (Z.eqb (qflag r) 1)]]; intros H.
  - exists (qh0 r), (qh2 r), (qh1 r), (qh3 r). auto.
  - exists 1%R, (qh2 r), (qh1 r), 1%R. rewrite ofR_1. auto.
  - exists (qh0 r), 1%R, (-1)%R, (qh3 r). rewrite ofR_1. replace (ofR (-1)) with (- (1)); auto. change (-1)%R with (- (1))%R. rewrite ofR_opp, ofR_1. auto.
  - exists 1%R, 0%R, 0%R, 1%R. rewrite ofR_1, ofR_0. auto.
Qed.
(** When at most one rescaling step is needed in total (both weights of the unscaled rotation in
    (4096^-2, 4096^2), or one of them in (4096^-4, 4096^4) and the other in that band), rotmg returns H, new weights
    and a' with H (a, b) = (a', 0) and H^T diag(d1', d2') H = diag(d1, d2).  Missing for the full property: two or
    more rescaling steps, where the claim is false ([rotmg_rescaling_refuted]). *)
Theorem rotmg_correct_partial fuel (d1 d2 a b : R) s : (0 < fuel)%nat -> (0 < d1)%R -> (d2 * b <> 0)%R ->
  (0 < d2)%R \/ (Rabs (d2 * b * b) < Rabs (d1 * a * a))%R ->
  (let '(e1, e2) := mrot_weights d1 d2 a b in
   in_band e1 /\ in_band (Rabs e2) \/ near_band e1 /\ in_band (Rabs e2) \/ in_band e1 /\ near_band (Rabs e2)) ->
  returns (rotmg' fuel d1 d2 a b) s (fun r s' => s' = s /\ exists d1' d2' a' h11 h12 h21 h22 : R,
    rd1 r = ofR d1' /\ rd2 r = ofR d2' /\ ra r = ofR a' /\ rmg_H r = (ofR h11, ofR h12, ofR h21, ofR h22) /\
    mrot d1 d2 a b d1' d2' a' h11 h12 h21 h22).
Proof.
  intros Hf H1 H2 H3 H4. destruct fuel as [|fuel]; [lia|]. rewrite (weights_start d1 d2 a b H1 H2 H3) in H4. rewrite !band_in in H4.
  destruct (rotmg_right 4096 ltac:(lra) fuel d1 d2 a b s H1 H2 H3) as (r & K1 & K2).
  { destruct H4 as [H4|[[H4 H5]|[H4 H5]]]; [left; auto|right; left; split; auto; apply near_within; auto|right; right; split; auto; apply near_within; auto]. }
  exists (up r), s. split; [auto|]. split; [auto|]. destruct (qok_H _ _ _ _ _ K2) as (h11 & h12 & h21 & h22 & K3 & K4).
  exists (qd1 r), (qd2 r), (qa r), h11, h12, h21, h22. auto.
Qed.
(** In exact arithmetic the rescaling loops always end, with the new weights zero or in the band *)
Theorem rotmg_terminates (d1 d2 a b : R) s : (0 < d1)%R -> (d2 * b <> 0)%R ->
  exists N, forall fuel, (N <= fuel)%nat -> returns (rotmg' fuel d1 d2 a b) s (fun r s' => s' = s /\
    exists d1' d2', rd1 r = ofR d1' /\ rd2 r = ofR d2' /\ (d1' = 0%R \/ in_band d1') /\ (d2' = 0%R \/ in_band (Rabs d2'))).
Proof.
  intros H1 H2. destruct (rotmg_ends 4096 ltac:(lra) d1 d2 a b s H1 H2) as (r & N & K1 & K2 & K3). exists N. intros fuel Hf.
  exists (up r), s. split; [auto|]. split; [auto|]. exists (qd1 r), (qd2 r). rewrite !band_in. auto.
Qed.
(** nothing to annihilate: H = I (flag -2), the other arguments are unchanged *)
Theorem rotmg_trivial fuel (d1 d2 a b : R) s : (0 < d1)%R -> (d2 * b = 0)%R ->
  returns (rotmg' fuel d1 d2 a b) s (fun r s' => s' = s /\ rflag r = (-2)%Z /\ rd1 r = ofR d1 /\ rd2 r = ofR d2 /\ ra r = ofR a).
Proof.
  intros H1 H2. exists (mkrmg (-2) (ofR d1) (ofR d2) (ofR a) 0 0 0 0), s. split; [|cbn; auto].
  unfold rotmg. assert (L0 : leb (ofR d1) 0 = false) by (rewrite <- ofR_0; apply leb_ofR_f; auto). rewrite L0. cbn [negb]. unfold check. rewrite andb_false_r. unfold bind, ret at 1.
  assert (L1 : ltb (ofR d1) 0 = false) by (rewrite <- ofR_0, ofR_lt; apply Instances.Rltb_f; lra). rewrite L1.
  rewrite <- ofR_mul, H2, ofR_0, (proj2 (eqb_spec 0 0) eq_refl). auto.
Qed.
(** d1 <= 0 is rejected *)
Theorem rotmg_rejects fuel (d1 d2 a b : R) s : check_input = true -> (d1 <= 0)%R -> rejects (rotmg' fuel d1 d2 a b) s.
Proof.
  intros Hc H. unfold rejects, rotmg. assert (L0 : leb (ofR d1) 0 = true) by (rewrite <- ofR_0; apply leb_ofR; auto). rewrite L0. cbn [negb]. unfold check. rewrite Hc. reflexivity.
Qed.
(** d2 < 0 with d1 a^2 <= |d2| b^2: no such rotation exists, and everything is set to zero *)
Theorem rotmg_indefinite fuel (d1 d2 a b : R) s : (0 < d1)%R -> (d2 < 0)%R -> b <> 0%R -> (Rabs (d1 * a * a) <= Rabs (d2 * b * b))%R ->
  returns (rotmg' fuel d1 d2 a b) s (fun r s' => s' = s /\ r = mkrmg (-1) 0 0 0 0 0 0 0).
Proof.
  intros H1 H2 H3 H4. exists (mkrmg (-1) 0 0 0 0 0 0 0), s. split; [|auto].
  assert (Nd : (d2 * b)%R <> 0%R) by (apply Rmult_integral_contrapositive_currified; lra).
  rewrite rotmg_unfold by (auto; lra). unfold qstart. cbv zeta. assert (L : Rltb (Rabs (d2 * b * b)) (Rabs (d1 * a * a)) = false) by (apply Instances.Rltb_f; auto). rewrite L.
  assert (0 < b * b)%R by nra. assert (L2 : Rltb (d2 * b * b) 0 = true) by (apply Instances.Rltb_t; nra). rewrite L2. cbn [qd1].
  assert (L3 : Reqb 0 0 = true) by (apply Reqb_t; auto). rewrite L3. cbn [negb]. unfold bind, ret at 1, up. cbn. rewrite !ofR_0, (proj2 (eqb_spec 0 0) eq_refl). auto.
Qed.
(** The second rescaling step overwrites h21 and h12 by -1 and 1: for d1 = a = b = 1 and d2 = 2^-50 the returned H
    does not annihilate the second component *)
Theorem rotmg_rescaling_refuted fuel s : (2 <= fuel)%nat ->
  returns (rotmg' fuel 1 (/ 2 ^ 50) 1 1) s (fun r s' => exists h11 h12 h21 h22 : R, rmg_H r = (ofR h11, ofR h12, ofR h21, ofR h22) /\ (h21 * 1 + h22 * 1 <> 0)%R).
Proof.
  intros Hf. destruct fuel as [|[|fuel]]; [lia|lia|]. set (d := (/ 2 ^ 50)%R). assert (Hd : (d * (4096 * 4096) * (4096 * 4096) = / 4)%R) by (unfold d; field). assert (d0 : (0 < d)%R) by (unfold d; apply Rinv_0_lt_compat; lra).
  set (u := (1 + d * 1 * 1 / (1 * 1 * 1))%R). assert (Hu : (u = 1 + d)%R) by (unfold u; field).
  assert (d < / 1000)%R by nra.
  set (q := mkrmr 0 (1 / u) (d / u) (1 * u) 0 (- (1) / 1) (d * 1 / (1 * 1)) 0).
  assert (Q : qstart 1 d 1 1 = q).
  { unfold qstart. cbv zeta. assert (L : Rltb (Rabs (d * 1 * 1)) (Rabs (1 * 1 * 1)) = true) by (apply Instances.Rltb_t; rewrite !Rabs_right by lra; lra). rewrite L. auto. }
  assert (Iu : (/ 2 < / u <= 1)%R). { rewrite Hu. split; [apply Rinv_lt_contravar; lra|]. rewrite <- Rinv_1. apply Rinv_le_contravar; lra. }
  assert (I0 : inband 4096 (qd1 q)). { unfold inband. cbn. unfold Rdiv. lra. }
  assert (D1 : Rleb (Rabs (d / u)) (1 / (4096 * 4096)) = true). { apply Rleb_t. unfold Rdiv. rewrite Rabs_right by nra. nra. }
  assert (N1 : ~ inband 4096 (Rabs (qd2 q))). { unfold inband. cbn. apply Rleb_t in D1. lra. }
  assert (D2 : Rleb (Rabs (d / u * (4096 * 4096))) (1 / (4096 * 4096)) = true). { apply Rleb_t. unfold Rdiv. rewrite Rabs_right by nra. nra. }
  set (q1 := qs2 4096 q). assert (E1 : q1 = mkrmr (-1) (1 / u) (d / u * (4096 * 4096)) (1 * u) 1 (- (1) / 1 / 4096) (d * 1 / (1 * 1)) (1 / 4096)).
  { unfold q1, qs2. cbn. rewrite D1. auto. }
  assert (N2 : ~ inband 4096 (Rabs (qd2 q1))). { rewrite E1. unfold inband. cbn [qd2]. apply Rleb_t in D2. lra. }
  set (q2 := qs2 4096 q1). assert (E2 : q2 = mkrmr (-1) (1 / u) (d / u * (4096 * 4096) * (4096 * 4096)) (1 * u) 1 (-1 / 4096) 1 (1 / 4096 / 4096)).
  { unfold q2. rewrite E1. unfold qs2. cbn. rewrite D2. auto. }
  assert (I2 : inband 4096 (Rabs (qd2 q2))). { rewrite E2. unfold inband. cbn [qd2]. replace (d / u * (4096 * 4096) * (4096 * 4096))%R with (/ 4 * / u)%R by (rewrite <- Hd; field; lra). rewrite Rabs_right by nra. lra. }
  assert (Nz : qd2 q <> 0%R). { unfold q. cbn. unfold Rdiv. nra. }
  exists (up q2), s. split.
  - rewrite rotmg_unfold by (auto; lra). rewrite Q. rewrite Reqb_f by (unfold q; cbn; unfold Rdiv; lra). cbn [negb]. unfold bind. rewrite loop1_done by (auto; lra).
    rewrite rd2_up by auto. cbn [negb]. rewrite loop2_step by (auto; lra). fold q1. rewrite loop2_step by (auto; lra). fold q2. apply loop2_done; auto; lra.
  - exists (qh0 q2), (qh2 q2), (qh1 q2), (qh3 q2). split; [rewrite E2; reflexivity|]. rewrite E2. cbn. lra.
Qed.
End G.

(** In IEEE binary64 arithmetic rotmg never returns when d1 = +inf (the rescaling loop divides d1 by 4096^2 for ever) *)
Theorem rotmg_infinite_weight_diverges fuel (s : @state FE) :
  rotmg (E:=FE) fuel (PrimFloat.of_uint63 (Uint63.of_Z 4096)) PrimFloat.infinity (one (Env:=FE)) (one (Env:=FE)) (one (Env:=FE)) s = OutOfFuel.
Proof.
  set (gam := PrimFloat.of_uint63 (Uint63.of_Z 4096)).
  assert (L : forall fu (r : @rmg FE) s, rd1 r = PrimFloat.infinity ->
    rmg_loop1 (E:=FE) fu gam (mul (Env:=FE) gam gam) (div (Env:=FE) (one (Env:=FE)) (mul (Env:=FE) gam gam)) r s = OutOfFuel).
  { induction fu as [|fu IH]; intros r s' Hr; cbn [rmg_loop1]; rewrite Hr.
    - assert (Ha : leb (E:=FE) PrimFloat.infinity (div (Env:=FE) (one (Env:=FE)) (mul (Env:=FE) gam gam)) || leb (E:=FE) (mul (Env:=FE) gam gam) PrimFloat.infinity = true) by (vm_compute; reflexivity).
      rewrite Ha. reflexivity.
    - assert (Ha : leb (E:=FE) PrimFloat.infinity (div (Env:=FE) (one (Env:=FE)) (mul (Env:=FE) gam gam)) || leb (E:=FE) (mul (Env:=FE) gam gam) PrimFloat.infinity = true) by (vm_compute; reflexivity).
      rewrite Ha. assert (Hf : rd1 (rmg_flag (E:=FE) r) = PrimFloat.infinity) by (unfold rmg_flag; destruct (Z.eqb (rflag r) 0); exact Hr). rewrite Hf.
      assert (Hb : leb (E:=FE) PrimFloat.infinity (div (Env:=FE) (one (Env:=FE)) (mul (Env:=FE) gam gam)) = false) by (vm_compute; reflexivity). rewrite Hb.
      apply IH. cbn [rd1]. vm_compute. reflexivity. }
  unfold rotmg. 
  assert (H0 : negb (leb (E:=FE) PrimFloat.infinity (zero (Env:=FE))) = true) by (vm_compute; reflexivity). rewrite H0. unfold check. rewrite andb_false_r. unfold bind at 1, ret at 1.
  assert (H1 : ltb (Env:=FE) PrimFloat.infinity (zero (Env:=FE)) = false) by (vm_compute; reflexivity). rewrite H1.
  assert (H2 : eqb (Env:=FE) (mul (Env:=FE) (one (Env:=FE)) (one (Env:=FE))) (zero (Env:=FE)) = false) by (vm_compute; reflexivity). rewrite H2. cbv zeta.
  set (r := rmg_start (E:=FE) _ _ _ _). assert (Hr : rd1 r = PrimFloat.infinity) by (vm_compute; reflexivity).
  assert (H3 : negb (eqb (Env:=FE) (rd1 r) (zero (Env:=FE))) = true) by (rewrite Hr; vm_compute; reflexivity). rewrite H3. unfold bind. rewrite L by auto. reflexivity.
Qed.

(** ** C36: rot_sequence *)
Section S.
Context {E : Env}.
Implicit Types (A : view) (s : state).
Lemma eff_trv A F s s' : eff (trv A) F s s' -> eff A (fun i j => F j i) s s'.
Proof.
  intros (H1 & H2 & H3). split; [|split; [|exact H3]].
  - intros i j Hi Hj. exact (H1 j i Hj Hi).
  - intros l Hl. apply H2. intros (i & j & Hi & Hj & e). apply Hl. exists j, i. auto.
Qed.
Lemma rsteps_lines side (c sn : nat -> T) l : forall x r, rsteps side c sn l x r = rot_lines side c sn l x r.
Proof.
  induction l as [|i l IH]; intros x r; auto. change (rsteps side c sn (i :: l) x r) with (rsteps side c sn l (rstep side c sn x i) r). rewrite IH. unfold rot_lines. cbn [fold_left].
  assert (K : forall l x y, (forall r, x r = y r) -> forall r, fold_left (rot_line side c sn) l x r = fold_left (rot_line side c sn) l y r).
  { clear. induction l as [|i l IH]; intros x y H r; cbn; auto. apply IH. intros q. unfold rot_line. rewrite !H. auto. }
  apply K. intros q. unfold rstep, rot_line, upf, dnf. destruct side; auto.
Qed.
(** In every arithmetic (IEEE included) and for both layouts, rot_sequence applies each of the k = m-1 (Left) or
    n-1 (Right) rotations once to every column (row) of A, in the order k-1, ..., 0 (Forward) or 0, ..., k-1
    (Backward), and changes nothing else; it returns 0 *)
Theorem rot_sequence_applies colmajor side dir c sn A s k : isvec c k -> isvec sn k -> vinj A -> disj c A -> disj sn A ->
  (match side with Left => nr A | Right => nc A end = S k) ->
  returns (rot_sequence colmajor side dir c sn A) s (fun z s' => z = 0%Z /\
    eff A (fun i j => let l := match dir with Forward => rev (seq 0 k) | Backward => seq 0 k end in
      match side with
      | Left => rot_lines Left (vval c s) (vval sn s) l (fun r => val A s r j) i
      | Right => rot_lines Right (vval c s) (vval sn s) l (fun r => val A s i r) j
      end) s s').
Proof.
  intros [C1 C2] [S1 S2] HI Dc Ds HA. apply runs_inv.
  eapply wp_conseq; [apply (rot_sequence_run colmajor side dir c sn A s k); auto; destruct side; auto| |intros ? ? []].
  intros z s' [-> He]. cbv beta in He. split; auto. destruct side.
  - apply (eff_ext _ _ _ _ _ He). intros i j Hi Hj. cbv zeta. rewrite rsteps_lines. auto.
  - apply eff_trv in He. apply (eff_ext _ _ _ _ _ He). intros i j Hi Hj. cbv zeta. rewrite rsteps_lines. auto.
Qed.
(** hence the two layouts give the same result, bit for bit *)
Theorem rot_sequence_layouts side dir c sn A s k : isvec c k -> isvec sn k -> vinj A -> disj c A -> disj sn A ->
  (match side with Left => nr A | Right => nc A end = S k) ->
  exists s1 s2, rot_sequence true side dir c sn A s = Ok 0%Z s1 /\ rot_sequence false side dir c sn A s = Ok 0%Z s2 /\
    (forall i j, (i < nr A)%nat -> (j < nc A)%nat -> val A s1 i j = val A s2 i j) /\ (forall l, ~ inview A l -> mem s1 l = mem s2 l).
Proof.
  intros. destruct (rot_sequence_applies true side dir c sn A s k) as (z1 & s1 & K1 & -> & E1 & F1 & _); auto.
  destruct (rot_sequence_applies false side dir c sn A s k) as (z2 & s2 & K2 & -> & E2 & F2 & _); auto.
  exists s1, s2. split; [auto|]. split; [auto|]. split; [intros i j Hi Hj; rewrite E1, E2 by auto; auto|intros l Hl; rewrite F1, F2 by auto; auto].
Qed.
(** a matrix without rows (Left) or columns (Right) is rejected whatever the lengths of c and s *)
Theorem rot_sequence_empty_rejected colmajor side dir c sn A s : check_input = true ->
  (match side with Left => nr A | Right => nc A end = 0%nat) -> rejects (rot_sequence colmajor side dir c sn A) s.
Proof. intros Hc H. unfold rejects, rot_sequence. rewrite H. cbn [Nat.eqb]. unfold check. rewrite Hc. reflexivity. Qed.
Theorem rot_sequence_rejects colmajor side dir c sn A s k : check_input = true -> 
  (match side with Left => nr A | Right => nc A end = S k) -> nr c <> k \/ nr sn <> k -> rejects (rot_sequence colmajor side dir c sn A) s.
Proof.
  intros Hc H Hn. unfold rejects, rot_sequence. rewrite H. cbn [Nat.eqb]. replace (S k - 1)%nat with k by lia. unfold check. rewrite Hc. cbn [andb].
  destruct (Nat.eqb_spec (nr c) k); [|reflexivity]. destruct (Nat.eqb_spec (nr sn) k); [lia|reflexivity].
Qed.
End S.

Section SM.
Context {E : Env} {FL : FieldLaws E} {CL : ConjLaws E}.
Add Field Tf2 : fth.
Implicit Types (A : view) (s : state).
(** In exact arithmetic (c real): A := P A (Left) or A := A P^H (Right), with P = P(0) P(1) ... P(k-1) for Forward and
    P = P(k-1) ... P(1) P(0) for Backward *)
Theorem rot_sequence_correct colmajor side dir c sn A s k : isvec c k -> isvec sn k -> vinj A -> disj c A -> disj sn A ->
  (match side with Left => nr A | Right => nc A end = S k) -> (forall i, (i < k)%nat -> conj (vval c s i) = vval c s i) ->
  returns (rot_sequence colmajor side dir c sn A) s (fun z s' => z = 0%Z /\
    let P := match dir with Forward => pasc (S k) (vval c s) (vval sn s) k | Backward => pdesc (S k) (vval c s) (vval sn s) k end in
    eff A (match side with Left => mmul (S k) P (val A s) | Right => mmul (S k) (val A s) (ctr P) end) s s').
Proof.
  intros HC HS HI Dc Ds HA Hr. destruct (rot_sequence_applies colmajor side dir c sn A s k) as (z & s' & K & -> & He); auto.
  exists 0%Z, s'. split; [auto|]. split; [auto|]. cbv zeta in *. apply (eff_ext _ _ _ _ _ He). intros i j Hi Hj.
  set (l := match dir with Forward => seq 0 k | Backward => rev (seq 0 k) end).
  assert (El : match dir with Forward => rev (seq 0 k) | Backward => seq 0 k end = rev l) by (destruct dir; unfold l; [auto|rewrite rev_involutive; auto]).
  assert (Hl : forall q, In q l -> (q < k)%nat) by (intros q Hq; unfold l in Hq; destruct dir; [|apply in_rev in Hq]; apply in_seq in Hq; lia).
  assert (EP : match dir with Forward => pasc (S k) (vval c s) (vval sn s) k | Backward => pdesc (S k) (vval c s) (vval sn s) k end = pseq (S k) (vval c s) (vval sn s) l) by (destruct dir; auto).
  rewrite El, EP. destruct side.
  - rewrite <- rsteps_lines. rewrite (rsteps_pseq Left _ _ (S k)); [|intros q Hq; apply Hr; auto|intros q Hq; specialize (Hl q Hq); lia|lia]. unfold mmul. auto.
  - rewrite <- rsteps_lines. rewrite (rsteps_pseq Right _ _ (S k)); [|intros q Hq; apply Hr; auto|intros q Hq; specialize (Hl q Hq); lia|lia].
    unfold mmul, ctr, sidem. apply sum_ext. intros q Hq. ring.
Qed.
Lemma ctr_prot (c sn : nat -> T) i p q : conj (c i) = c i -> ctr (prot c sn i) p q = prot c (fun j => - sn j) i p q.
Proof.
  intros Hc. unfold ctr, prot, idm. destruct (Nat.eqb_spec p i), (Nat.eqb_spec q i), (Nat.eqb_spec p (i + 1)), (Nat.eqb_spec q (i + 1)), (Nat.eqb_spec q p), (Nat.eqb_spec p q); subst; try lia;
    rewrite ?conj_opp, ?conj_conj, ?conj_0, ?conj_1, ?Hc; try ring; reflexivity.
Qed.
Lemma prot_unitary m (c sn : nat -> T) i : (i + 1 < m)%nat -> conj (c i) = c i -> c i * c i + sn i * conj (sn i) = 1 -> unitary m (prot c sn i).
Proof.
  intros Hi Hc H1 p q Hp Hq.
  assert (K1 : mmul m (ctr (prot c sn i)) (prot c sn i) p q = rstep Left c (fun j => - sn j) (fun r => prot c sn i r q) i p).
  { rewrite (rstep_prot Left c (fun j => - sn j) m) by auto. unfold mmul, sidem. apply sum_ext. intros l Hl. rewrite ctr_prot by auto. auto. }
  assert (K2 : mmul m (prot c sn i) (ctr (prot c sn i)) p q = rstep Left c sn (fun r => prot c (fun j => - sn j) i r q) i p).
  { rewrite (rstep_prot Left c sn m) by auto. unfold mmul, sidem. apply sum_ext. intros l Hl. rewrite ctr_prot by auto. auto. }
  rewrite K1, K2. unfold rstep, prot, idm, upf, dnf.
  assert (H2 : sn i * conj (sn i) = 1 - c i * c i) by (rewrite <- H1; ring).
  destruct (Nat.eqb_spec p i), (Nat.eqb_spec q i), (Nat.eqb_spec p (i + 1)), (Nat.eqb_spec q (i + 1)), (Nat.eqb_spec p q); subst; try lia;
    rewrite ?Nat.eqb_refl; (destruct (Nat.eqb_spec (i + 1) i) as [?|_]; [lia|]); (destruct (Nat.eqb_spec i (i + 1)) as [?|_]; [lia|]); rewrite ?conj_opp; split; try ring; rewrite <- H1; ring.
Qed.
(** P is unitary when every (c_i, s_i) is a rotation *)
Theorem rot_sequence_unitary m (c sn : nat -> T) k : (k < m)%nat ->
  (forall i, (i < k)%nat -> conj (c i) = c i /\ c i * c i + sn i * conj (sn i) = 1) ->
  unitary m (pasc m c sn k) /\ unitary m (pdesc m c sn k).
Proof.
  intros Hk H. assert (G : forall l, (forall i, In i l -> (i < k)%nat) -> unitary m (pseq m c sn l)).
  { induction l as [|i l IH]; intros Hl.
    - apply unitary_id.
    - cbn. apply unitary_mul; [|apply IH; intros; apply Hl; cbn; auto]. assert (Hi : (i < k)%nat) by (apply Hl; cbn; auto). destruct (H i Hi). apply prot_unitary; auto. lia. }
  split; apply G; intros i Hi; [|apply in_rev in Hi]; apply in_seq in Hi; lia.
Qed.
End SM.

(** The documentation (rot_sequence.hpp:33-39) states the two orders the other way round: for
    direction = Forward, P = P(k-1) ... P(0).  The result is different (3-by-3 identity, two rotations) *)
Definition ex_c : view := vview (mklvec 2 0 1 Forward).
Definition ex_s : view := vview (mklvec 2 10 1 Forward).
Definition ex_A3 : view := lview (mklmat 3 3 100 3 ColMajor).
#[local] Hint Unfold ex_c ex_s ex_A3 : exv.
Definition ex_mem : Z -> R := fun l => if (l <? 2)%Z then (3 / 5)%R else if (l <? 20)%Z then (4 / 5)%R else if (l =? 100)%Z || (l =? 104)%Z || (l =? 108)%Z then 1%R else 0%R.
Theorem rot_sequence_documented_order_refuted colmajor : exists (s : @state RE),
  isvec ex_c 2 /\ isvec ex_s 2 /\ shape ex_A3 3 3 /\
  returns (rot_sequence (E:=RE) colmajor Left Forward ex_c ex_s ex_A3) s (fun _ s' =>
    val ex_A3 s' 0%nat 2%nat <> mmul (E:=RE) 3 (pdesc (E:=RE) 3 (vval ex_c s) (vval ex_s s) 2) (val ex_A3 s) 0%nat 2%nat).
Proof.
  exists (mkst RE ex_mem (fun _ => 0%Z)). split; [split; auto|]. split; [split; auto|]. split; [split; auto|].
  assert (R := rot_sequence_correct (E:=RE) colmajor Left Forward ex_c ex_s ex_A3 (mkst RE ex_mem (fun _ => 0%Z)) 2).
  destruct R as (z & s' & K & _ & He); [split; auto|split; auto|exv|exv|exv|auto|auto|].
  exists z, s'. split; [exact K|]. destruct He as [He _]. rewrite He by (cbn; lia).
  unfold pasc, pdesc, mmul, pseq, prot, idm, vval, val, ex_mem. cbn. lra.
Qed.

(** ** The hypotheses are met *)
Example rotg_real_example : exists r z c s : R, rotg_real (E:=RE) (1 / 2 ^ 1000)%R (2 ^ 1000)%R 3%R 4%R = (r, z, c, s) /\
  (c * c + s * s = 1)%R /\ (c * 3 + s * 4 = r)%R /\ (- s * 3 + c * 4 = 0)%R /\ (r * r = 25)%R.
Proof.
  destruct (rotg_real_correct (E:=RE) (1 / 2 ^ 1000) (2 ^ 1000) 3 4) as (r & z & c & s & K & K1 & K2 & K3 & K4).
  - apply Rdiv_lt_0_compat; [lra|apply pow_lt; lra].
  - apply pow_lt; lra.
  - exists r, z, c, s. split; [exact K|]. repeat split; auto. rewrite K4. ring.
Qed.
Example rotmg_example (s : @state RE) : returns (rotmg (E:=RE) 1 4096%R 1%R 2%R 3%R 1%R) s (fun r s' => s' = s /\
  exists d1' d2' a' h11 h12 h21 h22 : R, rd1 r = d1' /\ rd2 r = d2' /\ ra r = a' /\ rmg_H r = (h11, h12, h21, h22) /\ mrot 1 2 3 1 d1' d2' a' h11 h12 h21 h22).
Proof.
  refine (rotmg_correct_partial (E:=RE) (RL:=RE_R) 1 1 2 3 1 s _ _ _ _ _); [lia|lra|lra|left; lra|]. unfold mrot_weights. cbv zeta.
  destruct (Rlt_dec (Rabs (2 * 1 * 1)) (Rabs (1 * 3 * 3))) as [L|L]; [|exfalso; apply L; rewrite !Rabs_right by lra; lra].
  left. unfold in_band. replace (1 + 2 * 1 * 1 / (1 * 3 * 3))%R with (11 / 9)%R by field. rewrite Rabs_right; [split; lra|]. lra.
Qed.
Example rot_sequence_example (s : @state RE) : returns (rot_sequence (E:=RE) false Right Backward ex_c ex_s ex_A3) s (fun z s' => z = 0%Z /\
  eff ex_A3 (mmul (E:=RE) 3 (val ex_A3 s) (ctr (pdesc (E:=RE) 3 (vval ex_c s) (vval ex_s s) 2))) s s').
Proof. apply (rot_sequence_correct (E:=RE) false Right Backward ex_c ex_s ex_A3 s 2); [split; auto|split; auto|exv|exv|exv|auto|auto]. Qed.
