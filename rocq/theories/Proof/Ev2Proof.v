(** * lapy2, lartg and the 2-by-2 symmetric eigenvalue problem: lae2, laev2 *)
From Coq Require Import Bool Arith ZArith Lia Reals Lra Ring Field.
From Verif.Core Require Import Scalar Instances RealLaws.
From Verif.Model Require Import Householder Sort Rot Steqr.
From Verif.Proof Require Import SumLemmas LarfgProof RotgProof.
Local Open Scope T_scope.

Section P.
Context {E : Env} {FL : FieldLaws E} {CL : ConjLaws E} {OL : ROrdLaws E} {QL : EqbLaws E} {RL : RLaws E}.
Add Field Tf : fth.

Lemma two_ofR : 1 + 1 = ofR 2.
Proof. rewrite <- ofR_1, <- ofR_add. f_equal. Qed.
Lemma half_ofR : 1 / (1 + 1) = ofR (1 / 2).
Proof. rewrite two_ofR, <- ofR_1, <- ofR_div by lra. auto. Qed.
Lemma leb_ofR x y : leb (ofR x) (ofR y) = true <-> (x <= y)%R.
Proof.
  unfold leb. rewrite ofR_lt, eqb_toR, orb_true_iff, Rltb_t, Reqb_t. split; intros; lra.
Qed.
Lemma disc_pos a b c : (0 <= (a - c) * (a - c) + 4 * (b * b))%R.
Proof. assert (S1 := Rle_0_sqr (a - c)). assert (S2 := Rle_0_sqr b). unfold Rsqr in *. lra. Qed.
Lemma w_sqrt w z : (0 < w)%R -> (0 <= z)%R -> (w * sqrt (1 + z / w * (z / w)) = sqrt (w * w + z * z))%R.
Proof.
  intros Hw Hz. rewrite <- (sqrt_square w) at 1 by lra. rewrite <- sqrt_mult_alt by nra. f_equal. field. lra.
Qed.
Lemma lapy2_run x y : lapy2 (ofR x) (ofR y) = ofR (sqrt (x * x + y * y)).
Proof.
  unfold lapy2. rewrite !absv_ofR_abs, ofR_lt.
  assert (Sq : forall z, (Rabs z * Rabs z = z * z)%R) by (intros z; unfold Rabs; destruct (Rcase_abs z); ring).
  assert (Px := Rabs_pos x). assert (Py := Rabs_pos y).
  assert (K : forall w z : R, (0 <= z <= w)%R -> (if eqb (ofR z) 0 then ofR w else ofR w * sqrtv (1 + ofR z / ofR w * (ofR z / ofR w))) = ofR (sqrt (w * w + z * z))).
  { intros w z Hz. rewrite <- ofR_0, eqb_toR. destruct (Reqb z 0) eqn:e.
    - apply Reqb_t in e. subst z. rewrite Rmult_0_l, Rplus_0_r, sqrt_square by lra. auto.
    - assert (Hz0 : z <> 0%R) by (intros e'; apply Reqb_t in e'; congruence).
      rewrite <- ofR_div, <- ofR_mul, <- ofR_1, <- ofR_add by lra.
      rewrite ofR_sqrt by (assert (S := Rle_0_sqr (z / w)); unfold Rsqr in S; lra). rewrite <- ofR_mul. f_equal. apply w_sqrt; lra. }
  destruct (Rltb (Rabs y) (Rabs x)) eqn:e.
  - apply Rltb_t in e. rewrite K by lra. rewrite !Sq. auto.
  - apply Rltb_f in e. rewrite K by lra. rewrite !Sq. f_equal. f_equal. ring.
Qed.
Lemma lartg_run smin smax a b : (0 < smin)%R -> (0 < smax)%R ->
  exists c s r : R, lartg (ofR smin) (ofR smax) (ofR a) (ofR b) = (ofR c, ofR s, ofR r) /\
    (c * c + s * s = 1)%R /\ (c * a + s * b = r)%R /\ (c * b - s * a = 0)%R.
Proof.
  intros H1 H2. destruct (rotg_real_run smin smax a b H1 H2) as (r & z & c & s & K & K1 & K2 & K3 & _).
  exists c, s, r. unfold lartg. rewrite K. repeat split; auto. rewrite <- K3. ring.
Qed.

Lemma ev2_rt_run a b c : ev2_rt (ofR a) (ofR b) (ofR c) = ofR (sqrt ((a - c) * (a - c) + 4 * (b * b))).
Proof.
  unfold ev2_rt. rewrite <- ofR_sub, <- ofR_add, !absv_ofR_abs, !ofR_lt.
  assert (Sq : forall z, (Rabs z * Rabs z = z * z)%R) by (intros z; unfold Rabs; destruct (Rcase_abs z); ring).
  assert (Px := Rabs_pos (a - c)). assert (Py := Rabs_pos (b + b)).
  assert (K : forall w z : R, (0 <= z < w)%R -> ofR w * sqrtv (1 + ofR z / ofR w * (ofR z / ofR w)) = ofR (sqrt (w * w + z * z))).
  { intros w z Hz. rewrite <- ofR_div, <- ofR_mul, <- ofR_1, <- ofR_add by lra.
    rewrite ofR_sqrt by (assert (S := Rle_0_sqr (z / w)); unfold Rsqr in S; lra). rewrite <- ofR_mul. f_equal. apply w_sqrt; lra. }
  destruct (Rltb (Rabs (b + b)) (Rabs (a - c))) eqn:e1; [|destruct (Rltb (Rabs (a - c)) (Rabs (b + b))) eqn:e2].
  - apply Rltb_t in e1. rewrite K by lra. rewrite !Sq. f_equal. f_equal. ring.
  - apply Rltb_t in e2. rewrite K by lra. rewrite !Sq. f_equal. f_equal. ring.
  - apply Rltb_f in e1, e2. assert (e : Rabs (a - c) = Rabs (b + b)) by lra.
    rewrite two_ofR, ofR_sqrt by lra. rewrite <- ofR_mul. f_equal. rewrite <- (sqrt_square (Rabs (b + b))) by auto. rewrite <- sqrt_mult_alt by nra. f_equal.
    rewrite <- (Sq (a - c)%R), e, Sq. ring.
Qed.
(** the two eigenvalues; [s1] has the larger modulus *)
Lemma ev2_pair a b c : let rt := sqrt ((a - c) * (a - c) + 4 * (b * b)) in
  let s1 := if Rltb (a + c) 0 then (1 / 2 * (a + c - rt))%R else (1 / 2 * (a + c + rt))%R in
  (if ltb (ofR a + ofR c) 0 then
    let s1 := 1 / (1 + 1) * (ofR a + ofR c - ofR rt) in (s1, (if ltb (absv (ofR c)) (absv (ofR a)) then ofR a else ofR c) / s1 * (if ltb (absv (ofR c)) (absv (ofR a)) then ofR c else ofR a) - ofR b / s1 * ofR b, false)
  else if ltb 0 (ofR a + ofR c) then
    let s1 := 1 / (1 + 1) * (ofR a + ofR c + ofR rt) in (s1, (if ltb (absv (ofR c)) (absv (ofR a)) then ofR a else ofR c) / s1 * (if ltb (absv (ofR c)) (absv (ofR a)) then ofR c else ofR a) - ofR b / s1 * ofR b, true)
  else (1 / (1 + 1) * ofR rt, - (1 / (1 + 1)) * ofR rt, true)) =
  (ofR s1, ofR (a + c - s1), negb (Rltb (a + c) 0)).
Proof.
  intros rt s1. assert (R0 : (0 <= rt)%R) by apply sqrt_pos.
  assert (R2 : (rt * rt = (a - c) * (a - c) + 4 * (b * b))%R) by (apply sqrt_sqrt, disc_pos).
  rewrite <- !ofR_add, <- !ofR_sub, <- ofR_0, !ofR_lt, half_ofR, <- !ofR_mul, <- ofR_opp, <- ofR_mul. cbv zeta.
  assert (P2 : forall x, (x <> 0)%R -> (x * (a + c - x) = a * c - b * b)%R ->
    (if ltb (absv (ofR c)) (absv (ofR a)) then ofR a else ofR c) / ofR x * (if ltb (absv (ofR c)) (absv (ofR a)) then ofR c else ofR a) - ofR b / ofR x * ofR b = ofR (a + c - x)).
  { intros x Hx Hp. assert (KK : ofR a / ofR x * ofR c - ofR b / ofR x * ofR b = ofR (a + c - x)).
    { rewrite <- !ofR_div, <- !ofR_mul, <- ofR_sub by auto. f_equal. apply (Rmult_eq_reg_l x); auto. rewrite Hp. field. auto. }
    destruct (ltb (absv (ofR c)) (absv (ofR a))); auto. rewrite <- KK. rewrite <- !ofR_div, <- !ofR_mul, <- !ofR_sub by auto. f_equal. field. auto. }
  unfold s1. destruct (Rltb (a + c) 0) eqn:e1; cbn [negb].
  - apply Rltb_t in e1. rewrite P2; auto; [lra|]. nra.
  - apply Rltb_f in e1. destruct (Rltb 0 (a + c)) eqn:e2.
    + apply Rltb_t in e2. rewrite P2; auto; [lra|]. nra.
    + apply Rltb_f in e2. assert (e : (a + c = 0)%R) by lra. f_equal; f_equal; f_equal; lra.
Qed.
Lemma ev2_run a b c : exists s1 s2 cs sn : R,
  lae2 (ofR a) (ofR b) (ofR c) = (ofR s1, ofR s2) /\ laev2 (ofR a) (ofR b) (ofR c) = (ofR s1, ofR s2, ofR cs, ofR sn) /\
  (cs * cs + sn * sn = 1)%R /\ (a * cs + b * sn = s1 * cs)%R /\ (b * cs + c * sn = s1 * sn)%R /\ (s1 + s2 = a + c)%R /\ (Rabs s2 <= Rabs s1)%R.
Proof.
  set (rt := sqrt ((a - c) * (a - c) + 4 * (b * b))).
  set (s1 := if Rltb (a + c) 0 then (1 / 2 * (a + c - rt))%R else (1 / 2 * (a + c + rt))%R).
  assert (R0 : (0 <= rt)%R) by apply sqrt_pos.
  assert (R2 : (rt * rt = (a - c) * (a - c) + 4 * (b * b))%R) by (apply sqrt_sqrt, disc_pos).
  assert (EP := ev2_pair a b c). cbv zeta in EP. fold rt in EP. fold s1 in EP.
  set (sg2 := negb (Rltb (a - c) 0)). set (csr := if sg2 then (a - c + rt)%R else (a - c - rt)%R).
  (* the unit vector orthogonal to (csr, 2b) *)
  assert (U : exists x y : R, (let cs := ofR csr in
    if ltb (absv (ofR b + ofR b)) (absv cs) then
      let ct := - (ofR b + ofR b) / cs in let sn := 1 / sqrtv (1 + ct * ct) in (ct * sn, sn)
    else if eqb (absv (ofR b + ofR b)) 0 then (1, 0)
    else let tn := - cs / (ofR b + ofR b) in let cs := 1 / sqrtv (1 + tn * tn) in (cs, tn * cs)) = (ofR x, ofR y) /\
    (x * x + y * y = 1)%R /\ (x * csr + y * (2 * b) = 0)%R).
  { cbv zeta. rewrite <- !ofR_add, !absv_ofR_abs, ofR_lt, <- ofR_0, eqb_toR. replace (b + b)%R with (2 * b)%R by ring.
    assert (V : forall t, exists u, 1 / sqrtv (1 + ofR t * ofR t) = ofR u /\ (u * u * (1 + t * t) = 1)%R).
    { intros t. assert (P : (0 < 1 + t * t)%R) by nra. exists (1 / sqrt (1 + t * t))%R. split.
      - rewrite <- ofR_mul, <- ofR_1, <- ofR_add, ofR_sqrt, <- ofR_div; auto; try lra. apply Rgt_not_eq, sqrt_lt_R0; auto.
      - assert (S := sqrt_sqrt (1 + t * t) ltac:(lra)). assert (S0 := sqrt_lt_R0 _ P). set (z := sqrt (1 + t * t)) in *. rewrite <- S. field. lra. }
    destruct (Rltb (Rabs (2 * b)) (Rabs csr)) eqn:e1.
    - apply Rltb_t in e1. assert (N : csr <> 0%R) by (intros N; rewrite N, Rabs_R0 in e1; assert (K := Rabs_pos (2 * b)); lra).
      rewrite <- ofR_opp, <- ofR_div by auto. destruct (V (- (2 * b) / csr)%R) as (u & -> & Hu). rewrite <- ofR_mul. eexists _, _. split; [reflexivity|].
      split; [rewrite <- Hu; ring|]. field. auto.
    - apply Rltb_f in e1. destruct (Reqb (Rabs (2 * b)) 0) eqn:e2.
      + apply Reqb_t in e2. exists 1%R, 0%R. rewrite ofR_1. split; auto. split; [ring|].
        assert (C0 : csr = 0%R) by (assert (K := Rabs_pos csr); destruct (Req_dec csr 0); auto; apply Rabs_no_R0 in H; lra). rewrite C0. ring.
      + assert (N : (2 * b <> 0)%R) by (intros N; rewrite N, Rabs_R0 in e2; assert (K : Reqb 0 0 = true) by (apply Reqb_t; auto); congruence).
        rewrite <- ofR_opp, <- ofR_div by auto. destruct (V (- csr / (2 * b))%R) as (u & -> & Hu). rewrite <- ofR_mul. eexists _, _. split; [reflexivity|].
        split; [rewrite <- Hu; ring|]. field. lra. }
  destruct U as (x & y & U & U1 & U2).
  assert (LV : laev2 (ofR a) (ofR b) (ofR c) = if Bool.eqb (negb (Rltb (a + c) 0)) sg2 then (ofR s1, ofR (a + c - s1), ofR (- y), ofR x) else (ofR s1, ofR (a + c - s1), ofR x, ofR y)).
  { unfold laev2. rewrite ev2_rt_run. fold rt. rewrite EP. rewrite <- ofR_sub, <- ofR_add.
    assert (SG : leb 0 (ofR (a - c)) = sg2).
    { unfold sg2. rewrite <- ofR_0. apply eq_true_iff_eq. rewrite leb_ofR, negb_true_iff, Rltb_f. split; intros; lra. }
    rewrite SG. replace (if sg2 then ofR (a - c) + ofR rt else ofR (a - c) - ofR rt) with (ofR csr) by (unfold csr; destruct sg2; rewrite ?ofR_add, ?ofR_sub; auto).
    cbv zeta in U. rewrite <- ofR_add in U. rewrite U. destruct (Bool.eqb _ _); rewrite ?ofR_opp; auto. }
  assert (LA : lae2 (ofR a) (ofR b) (ofR c) = (ofR s1, ofR (a + c - s1))).
  { unfold lae2. rewrite ev2_rt_run. fold rt. destruct (ltb (ofR a + ofR c) 0); [|destruct (ltb 0 (ofR a + ofR c))]; cbv zeta in *; congruence. }
  rewrite LV, LA.
  assert (AB : (Rabs (a + c - s1) <= Rabs s1)%R).
  { unfold s1. destruct (Rltb (a + c) 0) eqn:e; [apply Rltb_t in e|apply Rltb_f in e]; unfold Rabs; repeat destruct Rcase_abs; lra. }
  (* (csr, 2b) is an eigenvector for l2 = (a+c +- rt)/2 *)
  set (l2 := if sg2 then (1 / 2 * (a + c + rt))%R else (1 / 2 * (a + c - rt))%R).
  assert (V1 : (a * csr + b * (2 * b) = l2 * csr)%R) by (unfold l2, csr; destruct sg2; nra).
  assert (V2 : (b * csr + c * (2 * b) = l2 * (2 * b))%R) by (unfold l2, csr; destruct sg2; nra).
  assert (N0 : (csr * csr + 2 * b * (2 * b) = 0 -> a = c /\ b = 0)%R).
  { intros K. assert (csr = 0%R /\ b = 0%R) as [C0 B0] by nra. split; auto. unfold csr, sg2 in C0. destruct (Rltb (a - c) 0) eqn:e; cbn [negb] in C0; [apply Rltb_t in e|apply Rltb_f in e]; subst b; nra. }
  destruct (Req_dec (csr * csr + 2 * b * (2 * b)) 0) as [K0|K0].
  - destruct (N0 K0) as [-> B0]. assert (RT0 : rt = 0%R) by (subst b; nra).
    assert (S1 : s1 = c) by (unfold s1; rewrite RT0; destruct (Rltb (c + c) 0); lra). rewrite S1 in AB.
    destruct (Bool.eqb _ _); eexists _, _, _, _; (split; [reflexivity|]); (split; [reflexivity|]); rewrite B0, ?S1; repeat split; try ring; try (rewrite <- U1; ring); auto.
  - (* (x, y) = m (-2b, csr) *)
    set (N := (csr * csr + 2 * b * (2 * b))%R) in *. set (m := ((csr * y - 2 * b * x) / N)%R).
    assert (X : x = (m * (- (2 * b)))%R). { unfold m. apply (Rmult_eq_reg_r N); auto. replace ((csr * y - 2 * b * x) / N * - (2 * b) * N)%R with ((csr * y - 2 * b * x) * (- (2 * b)))%R by (field; auto). unfold N. assert (Q : (csr * (x * csr + y * (2 * b)) = 0)%R) by (rewrite U2; ring). lra. }
    assert (Y : y = (m * csr)%R). { unfold m. apply (Rmult_eq_reg_r N); auto. replace ((csr * y - 2 * b * x) / N * csr * N)%R with ((csr * y - 2 * b * x) * csr)%R by (field; auto). unfold N. assert (Q : (b * (x * csr + y * (2 * b)) = 0)%R) by (rewrite U2; ring). lra. }
    destruct (Bool.eqb (negb (Rltb (a + c) 0)) sg2) eqn:eb.
    + apply eqb_prop in eb. assert (S1 : s1 = l2) by (unfold s1, l2; rewrite <- eb; destruct (Rltb (a + c) 0); auto).
      eexists _, _, _, _. split; [reflexivity|]. split; [reflexivity|]. split; [rewrite <- U1; ring|]. rewrite S1 in *. rewrite X, Y. clear X Y U U1 U2 LV LA EP. repeat split; auto; try ring.
      * replace (a * - (m * csr) + b * (m * - (2 * b)))%R with (- m * (a * csr + b * (2 * b)))%R by ring. rewrite V1. ring.
      * replace (b * - (m * csr) + c * (m * - (2 * b)))%R with (- m * (b * csr + c * (2 * b)))%R by ring. rewrite V2. ring.
    + assert (S1 : (s1 = a + c - l2)%R) by (unfold s1, l2; destruct sg2, (Rltb (a + c) 0); cbn in eb; try discriminate; lra).
      eexists _, _, _, _. split; [reflexivity|]. split; [reflexivity|]. split; [auto|]. rewrite S1 in *. rewrite X, Y. clear X Y U U1 U2 LV LA EP. repeat split; auto; try ring.
      * assert (Q : (m * (b * csr + c * (2 * b)) = m * (l2 * (2 * b)))%R) by (rewrite V2; auto). lra.
      * assert (Q : (m * (a * csr + b * (2 * b)) = m * (l2 * csr))%R) by (rewrite V1; auto). lra.
Qed.
End P.
