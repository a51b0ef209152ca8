(** * rotg, rotmg *)
From Coq Require Import Bool Arith ZArith Lia Reals Lra Psatz Ring Field.
From Verif.Core Require Import Scalar Prog View Instances RealLaws.
From Verif.Spec Require Import LinAlg Rot.
From Verif.Model Require Import Householder Sort Rot.
From Verif.Proof Require Import SumLemmas LarfgProof.
Local Open Scope T_scope.

Section P.
Context {E : Env} {FL : FieldLaws E} {CL : ConjLaws E} {OL : ROrdLaws E} {QL : EqbLaws E} {XL : CplxLaws E} {RL : RLaws E} {NL : FinLaws E}.
Add Field Tf : fth.

Lemma minT_ofR a b : minT (ofR a) (ofR b) = ofR (Rmin a b).
Proof.
  unfold minT. rewrite ofR_lt. destruct (Rltb b a) eqn:e; [apply Instances.Rltb_t in e|apply Instances.Rltb_f in e].
  - rewrite Rmin_right by lra. auto.
  - rewrite Rmin_left by lra. auto.
Qed.
Lemma clamp_pos smin smax x : (0 < smin)%R -> (0 < smax)%R -> (0 < Rmin smax (Rmax smin x))%R.
Proof. intros H1 H2. apply Rmin_glb_lt; auto. eapply Rlt_le_trans; [exact H1|apply Rmax_l]. Qed.
Lemma sgnT_ofR a : sgnT (ofR a) = ofR (if Rltb 0 a then 1 else if Rltb a 0 then -1 else 0).
Proof.
  unfold sgnT. rewrite <- ofR_0, !ofR_lt. destruct (Rltb 0 a) eqn:e1, (Rltb a 0) eqn:e2; try apply Instances.Rltb_t in e1; try apply Instances.Rltb_t in e2; try lra.
  - rewrite <- ofR_1. auto.
  - change (-1)%R with (- (1))%R. rewrite ofR_opp, ofR_1. auto.
  - auto.
Qed.

Definition rsgn (a : R) : R := if Rltb 0 a then 1 else if Rltb a 0 then -1 else 0.

Lemma rotg_real_run smin smax a b : (0 < smin)%R -> (0 < smax)%R ->
  exists r z c s : R, rotg_real (ofR smin) (ofR smax) (ofR a) (ofR b) = (ofR r, ofR z, ofR c, ofR s) /\
    (c * c + s * s = 1)%R /\ (c * a + s * b = r)%R /\ (- s * a + c * b = 0)%R /\
    (b = 0%R -> c = 1%R /\ s = 0%R /\ z = 0%R) /\
    ((Rabs b < Rabs a)%R -> (0 < c)%R /\ z = s) /\ ((Rabs a <= Rabs b)%R -> b <> 0%R -> (0 < s)%R /\ z = if Reqb a 0 then 1%R else (/ c)%R).
Proof.
  intros Hmn Hmx. unfold rotg_real. rewrite !absv_ofR_abs.
  replace (eqb (ofR (Rabs b)) 0) with (Reqb b 0).
  2: { rewrite <- ofR_0, eqb_toR. destruct (Reqb b 0) eqn:e; symmetry; [apply Reqb_t in e; apply Reqb_t; subst; apply Rabs_R0|].
       destruct (Reqb (Rabs b) 0) eqn:e'; auto. apply Reqb_t in e'. exfalso. assert (b = 0%R) by (destruct (Req_dec b 0); auto; apply Rabs_no_R0 in H; lra). apply Reqb_t in H. congruence. }
  replace (eqb (ofR (Rabs a)) 0) with (Reqb a 0).
  2: { rewrite <- ofR_0, eqb_toR. destruct (Reqb a 0) eqn:e; symmetry; [apply Reqb_t in e; apply Reqb_t; subst; apply Rabs_R0|].
       destruct (Reqb (Rabs a) 0) eqn:e'; auto. apply Reqb_t in e'. exfalso. assert (a = 0%R) by (destruct (Req_dec a 0); auto; apply Rabs_no_R0 in H; lra). apply Reqb_t in H. congruence. }
  destruct (Reqb b 0) eqn:eb.
  { apply Reqb_t in eb. subst b. exists a, 0%R, 1%R, 0%R. rewrite !ofR_0, !ofR_1. split; [auto|]. rewrite Rabs_R0.
    split; [ring|]. split; [ring|]. split; [ring|]. split; [auto|]. split; [intros; split; [lra|auto]|intros; lra]. }
  assert (Nb : b <> 0%R) by (intros e; apply Reqb_t in e; congruence).
  destruct (Reqb a 0) eqn:ea.
  { apply Reqb_t in ea. subst a. exists b, 1%R, 0%R, 1%R. rewrite !ofR_0, !ofR_1. split; [auto|]. rewrite Rabs_R0.
    split; [ring|]. split; [ring|]. split; [ring|]. split; [intros; lra|]. split; [intros K; assert (K' := Rabs_pos b); lra|intros; split; [lra|auto]]. }
  assert (Na : a <> 0%R) by (intros e; apply Reqb_t in e; congruence).
  cbv zeta. rewrite !maxT_ofR, minT_ofR, ofR_lt. set (w := Rmin smax _). assert (Hw : (0 < w)%R) by (apply clamp_pos; auto).
  rewrite <- !ofR_div, <- !ofR_mul, <- !ofR_add by lra. rewrite ofR_sqrt.
  2: { assert (K := Rle_0_sqr (a / w)). assert (K' := Rle_0_sqr (b / w)). unfold Rsqr in *. lra. }
  set (N := sqrt (a * a + b * b)).
  assert (HN : (w * sqrt (a / w * (a / w) + b / w * (b / w)) = N)%R).
  { unfold N. rewrite <- (sqrt_factor w (a * a + b * b)) by nra. f_equal. f_equal. field. lra. }
  assert (N2 : (N * N = a * a + b * b)%R) by (unfold N; apply sqrt_sqrt; nra).
  assert (N0 : (0 < N)%R) by (apply sqrt_lt_R0; nra).
  rewrite !sgnT_ofR.
  set (sg := if Rltb (Rabs b) (Rabs a) then rsgn a else rsgn b).
  assert (Es : (if Rltb (Rabs b) (Rabs a) then ofR (if Rltb 0 a then 1 else if Rltb a 0 then -1 else 0) else ofR (if Rltb 0 b then 1 else if Rltb b 0 then -1 else 0)) = ofR sg).
  { unfold sg, rsgn. destruct (Rltb (Rabs b) (Rabs a)); auto. }
  rewrite Es. rewrite <- !ofR_mul. rewrite Rmult_assoc, HN.
  assert (Sg : sg = 1%R \/ sg = (-1)%R).
  { unfold sg, rsgn. destruct (Rltb (Rabs b) (Rabs a)); [destruct (Rltb 0 a) eqn:e1, (Rltb a 0) eqn:e2|destruct (Rltb 0 b) eqn:e1, (Rltb b 0) eqn:e2]; auto;
    apply Instances.Rltb_f in e1; apply Instances.Rltb_f in e2; lra. }
  set (r := (sg * N)%R). assert (r2 : (r * r = a * a + b * b)%R) by (unfold r; destruct Sg as [-> | ->]; lra).
  assert (Hr : r <> 0%R) by (unfold r; destruct Sg as [-> | ->]; lra).
  rewrite <- !ofR_div by auto. rewrite <- ofR_0, eqb_toR.
  assert (Nc : (a / r)%R <> 0%R) by (intros e; apply Na; replace a with (a / r * r)%R by (field; auto); rewrite e; ring).
  destruct (Reqb (a / r) 0) eqn:ec; [apply Reqb_t in ec; contradiction|]. cbn [negb].
  rewrite <- ofR_1, <- ofR_div by auto.
  exists r, (if Rltb (Rabs b) (Rabs a) then (b / r)%R else (1 / (a / r))%R), (a / r)%R, (b / r)%R.
  split; [destruct (Rltb (Rabs b) (Rabs a)); auto|].
  assert (SQ : forall x : R, (Rabs x * Rabs x = x * x)%R) by (intros x; unfold Rabs; destruct (Rcase_abs x); ring).
  assert (D : forall x, (x / r = x * sg / N)%R) by (intros x; unfold r; destruct Sg as [-> | ->]; field; lra).
  split; [apply (Rmult_eq_reg_r (r * r)); [|nra]; replace ((a / r * (a / r) + b / r * (b / r)) * (r * r))%R with (a * a + b * b)%R by (field; auto); lra|].
  split; [apply (Rmult_eq_reg_r r); [|auto]; replace ((a / r * a + b / r * b) * r)%R with (a * a + b * b)%R by (field; auto); lra|].
  split; [field; auto|]. split; [intros; contradiction|]. split; intros Hab.
  - assert (el : Rltb (Rabs b) (Rabs a) = true) by (apply Instances.Rltb_t; auto). unfold sg in *. rewrite el in *. split; auto. rewrite D.
    apply Rdiv_lt_0_compat; auto. unfold rsgn. destruct (Rltb 0 a) eqn:e1; [apply Instances.Rltb_t in e1; lra|]. apply Instances.Rltb_f in e1. destruct (Rltb a 0) eqn:e2; [apply Instances.Rltb_t in e2; lra|apply Instances.Rltb_f in e2; lra].
  - intros _. assert (el : Rltb (Rabs b) (Rabs a) = false) by (apply Instances.Rltb_f; auto). unfold sg in *. rewrite el in *. split; [|unfold Rdiv at 1; ring].
    rewrite D. apply Rdiv_lt_0_compat; auto. unfold rsgn. destruct (Rltb 0 b) eqn:e1; [apply Instances.Rltb_t in e1; lra|]. apply Instances.Rltb_f in e1. destruct (Rltb b 0) eqn:e2; [apply Instances.Rltb_t in e2; lra|apply Instances.Rltb_f in e2; lra].
Qed.

(** ** complex rotg *)
Lemma sq_ofR (z : T) : re z * re z + im z * im z = ofR (modulus z * modulus z).
Proof. rewrite <- norm_re_im. apply modulus_ofR_sq. Qed.
Lemma mx_ofR (z : T) : exists m, maxT (absv (re z)) (absv (im z)) = ofR m /\ (0 <= m)%R.
Proof.
  exists (Rmax (modulus (re z)) (modulus (im z))). rewrite !absv_ofR, maxT_ofR. split; auto. eapply Rle_trans; [apply modulus_pos|apply Rmax_l].
Qed.
(** the values c = |a|/h, s = conj(b) a/(|a| h), r = a h/|a|, h^2 = |a|^2+|b|^2 *)
Lemma rotg_values (a b : T) (f h : R) : f = modulus a -> (0 < f)%R -> (0 < h)%R -> (h * h = f * f + modulus b * modulus b)%R ->
  let c := (f / h)%R in let s := conj b * a * ofR (/ (f * h)) in let r := a * ofR (h / f) in
  (c * c + modulus s * modulus s = 1)%R /\ ofR c * a + s * b = r /\ - conj s * a + ofR c * b = 0.
Proof.
  intros Hf Hf0 Hh E2 c s r. assert (Nf : ofR f <> 0) by (apply ofR_neq_0; lra). assert (Nh : ofR h <> 0) by (apply ofR_neq_0; lra).
  assert (Ea : a * conj a = ofR f * ofR f) by (rewrite modulus_ofR_sq, <- Hf, ofR_mul; auto).
  assert (Eb : b * conj b = ofR h * ofR h - ofR f * ofR f) by (rewrite modulus_ofR_sq, <- !ofR_mul, <- ofR_sub; f_equal; lra).
  assert (Ei : ofR (/ (f * h)) = 1 / (ofR f * ofR h)).
  { replace (/ (f * h))%R with (1 / (f * h))%R by (field; lra). rewrite ofR_div, ofR_mul, ofR_1; auto. nra. }
  assert (Es : conj s = b * conj a * (1 / (ofR f * ofR h))) by (unfold s; rewrite !conj_mul, conj_conj, ofR_real, Ei; auto).
  assert (Ec : ofR c = ofR f / ofR h) by (apply ofR_div; lra).
  split; [|split].
  - apply ofR_inj. rewrite ofR_add, ofR_1. rewrite <- modulus_ofR_sq, ofR_mul, Es. unfold s. rewrite Ec, Ei.
    transitivity (ofR f / ofR h * (ofR f / ofR h) + (a * conj a) * (b * conj b) / (ofR f * ofR f * ofR h * ofR h)); [field; auto|]. rewrite Ea, Eb. field. auto.
  - unfold s, r. rewrite Ec, Ei, ofR_div by lra.
    transitivity (ofR f / ofR h * a + (b * conj b) * a / (ofR f * ofR h)); [field; auto|]. rewrite Eb. field. auto.
  - rewrite Es, Ec. transitivity (b * (ofR f * ofR f - a * conj a) / (ofR f * ofR h)); [field; auto|]. rewrite Ea. field. auto.
Qed.
Lemma modulus_div_ofR a u : (0 < u)%R -> modulus (a * (1 / ofR u)) = (modulus a / u)%R.
Proof.
  intros Hu. rewrite <- ofR_1, <- ofR_div by lra. rewrite modulus_mul_ofR. { unfold Rdiv. ring. }
  unfold Rdiv. rewrite Rmult_1_l. left. apply Rinv_0_lt_compat. auto.
Qed.
Lemma sqrt_either (t : bool) f2 h2 : (0 <= f2)%R -> (0 <= h2)%R -> (if t then sqrtv (ofR f2 * ofR h2) else sqrtv (ofR f2) * sqrtv (ofR h2)) = ofR (sqrt f2 * sqrt h2).
Proof.
  intros H1 H2. destruct t; [rewrite <- ofR_mul, ofR_sqrt, sqrt_mult by (try apply Rmult_le_pos; auto); auto|rewrite !ofR_sqrt, <- ofR_mul by auto; auto].
Qed.
Definition rotgc_ok (a b r : T) (c : R) (s : T) : Prop :=
  (0 <= c)%R /\ (c * c + modulus s * modulus s = 1)%R /\ ofR c * a + s * b = r /\ - conj s * a + ofR c * b = 0.
Lemma rotg_cplx_run smin smax rmin rmax a b : (0 < smin)%R -> (0 < smax)%R ->
  exists r c s, rotg_cplx (ofR smin) (ofR smax) (ofR rmin) (ofR rmax) a b = (r, ofR c, s) /\ rotgc_ok a b r c s /\
    (b = 0 -> c = 1%R /\ s = 0) /\ (a = 0 -> b <> 0 -> c = 0%R /\ exists r', r = ofR r' /\ (0 <= r')%R).
Proof.
  intros Hmn Hmx. unfold rotg_cplx. cbv zeta.
  destruct (eqb b 0) eqn:eb.
  { apply eqb_spec in eb. subst b. exists a, 1%R, 0. rewrite ofR_1. split; [auto|]. split; [|split; [auto|intros; contradiction]].
    split; [lra|]. rewrite conj_0, ofR_1. assert (M0 : modulus 0 = 0%R) by (apply modulus_0_iff; auto). rewrite M0. split; [ring|]. split; ring. }
  assert (Nb : b <> 0) by (intros e; apply eqb_spec in e; congruence).
  assert (Mb : (0 < modulus b)%R). { destruct (modulus_pos b) as [|e]; auto. symmetry in e. apply modulus_0_iff in e. contradiction. }
  destruct (mx_ofR b) as (g & Eg & Hg). rewrite Eg.
  assert (NMb : ofR (modulus b) <> 0) by (apply ofR_neq_0; lra).
  assert (Ebb : b * conj b = ofR (modulus b) * ofR (modulus b)) by (rewrite modulus_ofR_sq, ofR_mul; auto).
  destruct (eqb a 0) eqn:ea.
  { apply eqb_spec in ea. subst a.
    assert (F : forall u, (0 < u)%R -> rotgc_ok 0 b (ofR (modulus b)) 0 (conj b / ofR (modulus b))).
    { intros u Hu. split; [lra|]. rewrite ofR_0. split; [|split].
      - apply ofR_inj. rewrite ofR_add, ofR_1, <- modulus_ofR_sq. rewrite conj_div', conj_conj, ofR_real, Rmult_0_r, ofR_0 by auto.
        transitivity (b * conj b / (ofR (modulus b) * ofR (modulus b))); [field; auto|]. rewrite Ebb. field. auto.
      - transitivity (b * conj b / ofR (modulus b)); [field; auto|]. rewrite Ebb. field. auto.
      - rewrite conj_div', conj_conj, ofR_real by auto. ring. }
    destruct (ltb (ofR rmin) (ofR g) && ltb (ofR g) (ofR rmax)).
    - rewrite sq_ofR, ofR_sqrt, sqrt_square by nra. exists (ofR (modulus b)), 0%R, (conj b / ofR (modulus b)). rewrite ofR_0. split; [auto|]. split; [apply (F 1%R); lra|].
      split; [intros; contradiction|]. intros _ _. split; auto. exists (modulus b). split; auto. lra.
    - rewrite maxT_ofR, minT_ofR. set (u := Rmin smax _). assert (Hu : (0 < u)%R) by (apply clamp_pos; auto).
      assert (Nu : ofR u <> 0) by (apply ofR_neq_0; lra). assert (Mu : (0 < modulus b / u)%R) by (apply Rdiv_lt_0_compat; auto).
      rewrite sq_ofR, modulus_div_ofR by auto. rewrite ofR_sqrt, sqrt_square by nra. rewrite ofR_div by lra.
      exists (ofR (modulus b)), 0%R, (conj b / ofR (modulus b)). rewrite ofR_0. split.
      { f_equal; [f_equal; field; auto|]. rewrite conj_mul, conj_div', ofR_real, conj_1 by auto. field. auto. }
      split; [apply (F 1%R); lra|]. split; [intros; contradiction|]. intros _ _. split; auto. exists (modulus b). split; auto. lra. }
  assert (Na : a <> 0) by (intros e; apply eqb_spec in e; congruence).
  set (f := modulus a). assert (Mf : (0 < f)%R). { unfold f. destruct (modulus_pos a) as [|e]; auto. symmetry in e. apply modulus_0_iff in e. contradiction. }
  set (h := sqrt (f * f + modulus b * modulus b)). assert (H2 : (h * h = f * f + modulus b * modulus b)%R) by (unfold h; apply sqrt_sqrt; nra).
  assert (Hh : (0 < h)%R) by (apply sqrt_lt_R0; nra).
  assert (V := rotg_values a b f h eq_refl Mf Hh H2). cbv zeta in V.
  exists (a * ofR (h / f)), (f / h)%R, (conj b * a * ofR (/ (f * h))).
  split; [|split; [split; [left; apply Rdiv_lt_0_compat; auto|exact V]|split; intros; contradiction]].
  destruct (mx_ofR a) as (g' & Eg' & Hg'). rewrite Eg'.
  assert (Nf : ofR f <> 0) by (apply ofR_neq_0; lra). assert (Nh : ofR h <> 0) by (apply ofR_neq_0; lra).
  assert (Ei : ofR (/ (f * h)) = 1 / (ofR f * ofR h)).
  { replace (/ (f * h))%R with (1 / (f * h))%R by (field; lra). rewrite ofR_div, ofR_mul, ofR_1; auto. nra. }
  destruct (ltb (ofR rmin) (ofR g') && ltb (ofR g') (ofR rmax) && ltb (ofR rmin) (ofR g) && ltb (ofR g) (ofR rmax)).
  - rewrite !sq_ofR. change (modulus a) with f. rewrite <- ofR_add, <- H2. rewrite sqrt_either by nra. rewrite !sqrt_square by lra.
    rewrite Ei, !ofR_div, !ofR_mul by lra. f_equal; [f_equal|]; field; auto.
  - rewrite maxT_ofR, maxT_ofR, minT_ofR. set (u := Rmin smax _). assert (Hu : (0 < u)%R) by (apply clamp_pos; auto).
    assert (Nu : ofR u <> 0) by (apply ofR_neq_0; lra).
    rewrite !sq_ofR. rewrite !modulus_div_ofR by auto. rewrite conj_mul, conj_div', ofR_real, conj_1 by auto. change (modulus a) with f.
    destruct (ltb (ofR g' * (1 / ofR u)) (ofR rmin)).
    + rewrite maxT_ofR, minT_ofR. set (v := Rmin smax _). assert (Hv : (0 < v)%R) by (apply clamp_pos; auto).
      assert (Nv : ofR v <> 0) by (apply ofR_neq_0; lra). rewrite ?sq_ofR, ?modulus_div_ofR by auto. change (modulus a) with f.
      replace (ofR (f / v * (f / v)) * (ofR v * (1 / ofR u)) * (ofR v * (1 / ofR u)) + ofR (modulus b / u * (modulus b / u))) with (ofR (h / u * (h / u))).
      2: { rewrite <- ofR_1, <- ofR_div, <- !ofR_mul, <- ofR_add by lra. f_equal. transitivity (h * h / (u * u))%R; [field; lra|]. rewrite H2. field. lra. }
      assert (0 < f / v)%R by (apply Rdiv_lt_0_compat; auto). assert (0 < h / u)%R by (apply Rdiv_lt_0_compat; auto).
      rewrite sqrt_either by nra. rewrite !sqrt_square by lra. rewrite Ei, !ofR_mul, !ofR_div by lra. f_equal; [f_equal|]; field; auto.
    + rewrite ?sq_ofR, ?modulus_div_ofR by auto. change (modulus a) with f.
      replace (ofR (f / u * (f / u)) + ofR (modulus b / u * (modulus b / u))) with (ofR (h / u * (h / u))).
      2: { rewrite <- ofR_add by lra. f_equal. transitivity (h * h / (u * u))%R; [field; lra|]. rewrite H2. field. lra. }
      assert (0 < f / u)%R by (apply Rdiv_lt_0_compat; auto). assert (0 < h / u)%R by (apply Rdiv_lt_0_compat; auto).
      rewrite sqrt_either by nra. rewrite !sqrt_square by lra. rewrite Ei, !ofR_mul, !ofR_div by lra. f_equal; [f_equal|]; field; auto.
Qed.
End P.
