(** * Generation of one reflector: larfg *)
From Coq Require Import Bool Arith ZArith Lia Reals Lra Psatz Ring Field.
From Verif.Core Require Import Scalar Prog View Slice Loops Instances RealLaws.
From Verif.Spec Require Import LinAlg Outcome Norms Householder.
From Verif.Model Require Import Gemm Blas1 Legacy LaAux Norms Work Householder.
From Verif.Proof Require Import SumLemmas Tactics Blas1Proof RsclProof NormsProof SliceTac LarfProof.
From Verif.Properties Require Norms.
Local Open Scope T_scope.

Section P.
Context {E : Env} {FL : FieldLaws E} {CL : ConjLaws E} {OL : ROrdLaws E} {QL : EqbLaws E} {XL : CplxLaws E} {RL : RLaws E} {NL : FinLaws E}.
Add Field Tf : fth.
Implicit Types (x v : view) (s : state).

(** the machine constants *)
Definition hconst_ok (h : hconst) (st bt sm : R) : Prop :=
  (exists ss sb, blue_ok (hblue h) st bt ss sb) /\ (0 <= st)%R /\ (1 <= bt)%R /\
  hsafe h = ofR sm /\ (0 < sm)%R /\ conj (hmin h) = hmin h /\ conj (hmax h) = hmax h /\ hmin h * hmax h = 1.
Lemma vsq_nonneg n f : (0 <= vsq n f)%R.
Proof. induction n as [|n IH]; [unfold vsq; cbn; lra|]. unfold vsq in *. cbn [rsum]. assert (K := modulus_pos (f n)). nra. Qed.
Lemma vsq_ext n f g : (forall i, (i < n)%nat -> f i = g i) -> vsq n f = vsq n g.
Proof. unfold vsq. intros H. induction n as [|n IH]; cbn [rsum]; auto. rewrite IH, H by auto. auto. Qed.
Lemma vsq_sum n f : ofR (vsq n f) = sum n (fun i => f i * conj (f i)).
Proof. unfold vsq. induction n as [|n IH]; cbn [rsum sum]; [apply ofR_0|]. rewrite ofR_add, IH, modulus_ofR_sq. auto. Qed.
Lemma modulus_mul_ofR a c : (0 <= c)%R -> modulus (a * ofR c) = (modulus a * c)%R.
Proof.
  intros Hc. apply Rsqr_inj; [apply modulus_pos|apply Rmult_le_pos; [apply modulus_pos|auto]|]. unfold Rsqr. apply ofR_inj. rewrite <- modulus_ofR_sq.
  replace (modulus a * c * (modulus a * c))%R with (modulus a * modulus a * (c * c))%R by ring. rewrite ofR_mul, <- modulus_ofR_sq, ofR_mul, conj_mul, ofR_real. ring.
Qed.
Lemma vsq_scal n f c : (0 <= c)%R -> vsq n (fun i => f i * ofR c) = (vsq n f * (c * c))%R.
Proof. intros Hc. unfold vsq. induction n as [|n IH]; cbn [rsum]; [ring|]. rewrite IH, modulus_mul_ofR by auto. ring. Qed.
Lemma vsq_0 n f : vsq n f = 0%R -> forall i, (i < n)%nat -> f i = 0.
Proof.
  intros H i Hi. apply modulus_0_iff. induction n as [|n IH]; [lia|]. unfold vsq in *. cbn [rsum] in H. change (rsum n (fun i => modulus (f i) * modulus (f i))%R) with (vsq n f) in *.
  assert (K := vsq_nonneg n f). assert (K' := modulus_pos (f n)). assert (vsq n f = 0%R) by nra. assert (modulus (f n) = 0%R) by nra.
  destruct (Nat.eq_dec i n) as [->|]; auto. apply IH; auto; lia.
Qed.

Lemma nrm2_wp h st bt sm x s (Q : T -> state -> Prop) X : hconst_ok h st bt sm -> nc x = 1%nat -> norm_exact st bt (nr x) (vval x s) ->
  (forall r, (0 <= r)%R -> (r * r = vsq (nr x) (vval x s))%R -> Q (ofR r) s) -> wp (nrm2 (hblue h) x) Q X s.
Proof.
  intros ((ss & sb & HB) & Hst & _) Hx HE HQ. destruct (Verif.Properties.Norms.nrm2_correct (hblue h) st bt ss sb x s (nr x)) as (a & s' & K & -> & r & -> & (K1 & K2 & K3) & K4 & K5); auto; [split; auto|].
  unfold wp. rewrite K. apply HQ; auto. destruct HE as [HE|HE]; auto.
Qed.

(** ** lapy2, lapy3 *)
Lemma absv_ofR_abs a : absv (ofR a) = ofR (Rabs a).
Proof. rewrite absv_ofR, modulus_ofR. auto. Qed.
Lemma sqrt_factor (w s2 : R) : (0 < w)%R -> (0 <= s2)%R -> (w * sqrt (s2 / (w * w)) = sqrt s2)%R.
Proof.
  intros Hw Hs. rewrite sqrt_div_alt by nra. rewrite sqrt_square by lra. field. lra.
Qed.
Lemma lapy2_ofR a b : lapy2 (ofR a) (ofR b) = ofR (sqrt (a * a + b * b)).
Proof.
  unfold lapy2. rewrite !absv_ofR_abs, ofR_lt.
  assert (G : forall w z, (0 <= z <= w)%R -> (if eqb (ofR z) 0 then ofR w else ofR w * sqrtv (1 + ofR z / ofR w * (ofR z / ofR w))) = ofR (sqrt (w * w + z * z))).
  { intros w z Hwz. rewrite <- ofR_0, eqb_toR. destruct (Reqb z 0) eqn:ez.
    - apply Reqb_t in ez. subst z. f_equal. rewrite Rmult_0_l, Rplus_0_r, sqrt_square; lra.
    - assert (z <> 0%R) by (intros e; apply Reqb_t in e; congruence). assert (0 < w)%R by lra.
      rewrite <- ofR_div, <- ofR_mul, <- ofR_1, <- ofR_add by lra. rewrite ofR_sqrt. 2: { assert (K := Rle_0_sqr (z / w)). unfold Rsqr in K. lra. }
      rewrite <- ofR_mul. f_equal. rewrite <- (sqrt_factor w (w * w + z * z)) by nra. f_equal. f_equal. field. lra. }
  assert (Ha : (Rabs a * Rabs a = a * a)%R) by (unfold Rabs; destruct (Rcase_abs a); ring). assert (Hb : (Rabs b * Rabs b = b * b)%R) by (unfold Rabs; destruct (Rcase_abs b); ring).
  assert (Pa := Rabs_pos a). assert (Pb := Rabs_pos b).
  destruct (Rltb (Rabs b) (Rabs a)) eqn:e; [apply Instances.Rltb_t in e|apply Instances.Rltb_f in e]; rewrite G by lra; f_equal; f_equal; lra.
Qed.
Lemma maxT_ofR a b : maxT (ofR a) (ofR b) = ofR (Rmax a b).
Proof.
  unfold maxT. rewrite ofR_lt. destruct (Rltb a b) eqn:e; [apply Instances.Rltb_t in e|apply Instances.Rltb_f in e].
  - rewrite Rmax_right by lra. auto.
  - rewrite Rmax_left by lra. auto.
Qed.
Lemma lapy3_ofR a b c : lapy3 (ofR a) (ofR b) (ofR c) = ofR (sqrt (a * a + b * b + c * c)).
Proof.
  unfold lapy3. rewrite !absv_ofR_abs, !maxT_ofR. set (w := Rmax (Rabs a) (Rmax (Rabs b) (Rabs c))).
  assert (Ha : (Rabs a * Rabs a = a * a)%R) by (unfold Rabs; destruct (Rcase_abs a); ring). assert (Hb : (Rabs b * Rabs b = b * b)%R) by (unfold Rabs; destruct (Rcase_abs b); ring).
  assert (Hc : (Rabs c * Rabs c = c * c)%R) by (unfold Rabs; destruct (Rcase_abs c); ring).
  assert (Pa := Rabs_pos a). assert (Pb := Rabs_pos b). assert (Pc := Rabs_pos c).
  assert (W1 : (Rabs a <= w)%R) by apply Rmax_l. assert (W2 : (Rmax (Rabs b) (Rabs c) <= w)%R) by apply Rmax_r.
  assert (W3 : (Rabs b <= w)%R) by (eapply Rle_trans; [apply Rmax_l|exact W2]). assert (W4 : (Rabs c <= w)%R) by (eapply Rle_trans; [apply Rmax_r|exact W2]).
  rewrite <- ofR_0, eqb_toR. destruct (Reqb w 0) eqn:ez.
  - apply Reqb_t in ez. rewrite <- !ofR_add. f_equal. replace (a * a + b * b + c * c)%R with 0%R by nra. rewrite sqrt_0. lra.
  - assert (w <> 0%R) by (intros e; apply Reqb_t in e; congruence). assert (0 < w)%R by lra.
    rewrite <- !ofR_div, <- !ofR_mul, <- !ofR_add by lra. rewrite ofR_sqrt.
    2: { assert (K := Rle_0_sqr (Rabs a / w)). assert (K' := Rle_0_sqr (Rabs b / w)). assert (K'' := Rle_0_sqr (Rabs c / w)). unfold Rsqr in *. lra. }
    rewrite <- ofR_mul. f_equal. rewrite <- (sqrt_factor w (a * a + b * b + c * c)) by nra. f_equal. f_equal. rewrite <- Ha, <- Hb, <- Hc. field. lra.
Qed.
Lemma re_ofR a : exists p, re a = ofR p.
Proof. apply is_ofR, re_real. Qed.
Lemma im_ofR a : exists p, im a = ofR p.
Proof. apply is_ofR, im_real. Qed.
(** the value of beta: a square root of |alpha|^2 + r^2, of sign opposite to re alpha *)
Definition is_beta (alpha : T) (r2 b : R) : Prop :=
  (b * b = modulus alpha * modulus alpha + r2)%R /\ (if Rltb (toR (re alpha)) 0 then (0 <= b)%R else (b <= 0)%R).
Lemma larfg_beta_run alpha r : exists b, larfg_beta alpha (ofR r) = ofR b /\ is_beta alpha (r * r) b.
Proof.
  destruct (re_ofR alpha) as [p Hp]. destruct (im_ofR alpha) as [q Hq]. unfold larfg_beta.
  assert (Hn : (modulus alpha * modulus alpha = p * p + q * q)%R).
  { rewrite modulus_sq, norm_re_im, Hp, Hq, <- !ofR_mul, <- ofR_add, toR_ofR. auto. }
  assert (Ht : (if cplx then lapy3 (re alpha) (im alpha) (ofR r) else lapy2 (re alpha) (ofR r)) = ofR (sqrt (p * p + q * q + r * r))).
  { destruct cplx eqn:Hc.
    - rewrite Hp, Hq. apply lapy3_ofR.
    - rewrite Hp, lapy2_ofR. f_equal. f_equal. assert (K := real_type Hc alpha). apply im_0 in K. rewrite Hq, <- ofR_0 in K. apply ofR_inj in K. rewrite K. ring. }
  rewrite Ht, Hp, <- ofR_0, ofR_lt. assert (Hs : (0 <= p * p + q * q + r * r)%R) by nra.
  assert (K := sqrt_sqrt _ Hs). assert (K' := sqrt_pos (p * p + q * q + r * r)).
  destruct (Rltb p 0) eqn:e.
  - eexists. split; [reflexivity|]. split; [lra|]. rewrite Hp, toR_ofR, e. auto.
  - rewrite <- ofR_opp. eexists. split; [reflexivity|]. split; [nra|]. rewrite Hp, toR_ofR, e. lra.
Qed.
Lemma is_beta_unique alpha r2 b b' : is_beta alpha r2 b -> is_beta alpha r2 b' -> b = b'.
Proof. unfold is_beta. destruct (Rltb (toR (re alpha)) 0); intros [H1 H2] [H3 H4]; nra. Qed.
Lemma is_beta_scal alpha r2 b c : (0 < c)%R -> is_beta alpha r2 b -> is_beta (alpha * ofR c) (r2 * (c * c)) (b * c).
Proof.
  intros Hc [H1 H2]. split.
  - rewrite modulus_mul_ofR by lra. replace (b * c * (b * c))%R with (b * b * (c * c))%R by ring. rewrite H1. ring.
  - destruct (re_ofR alpha) as [p Hp]. assert (K : re (alpha * ofR c) = ofR (p * c)). { rewrite re_mul, Hp, (im_0 (ofR c)), (re_idem (ofR c)) by apply ofR_real. rewrite ofR_mul. ring. }
    rewrite K, toR_ofR. rewrite Hp, toR_ofR in H2. destruct (Rltb p 0) eqn:e; [apply Instances.Rltb_t in e|apply Instances.Rltb_f in e].
    + rewrite (proj2 (Instances.Rltb_t _ _)) by nra. nra.
    + rewrite (proj2 (Instances.Rltb_f _ _)) by nra. nra.
Qed.

Lemma larfg_scale_run sm x : nc x = 1%nat -> vinj x -> (0 < sm)%R -> forall left b alpha knt s,
  runs (larfg_scale left (ofR sm) (ofR (/ sm)) x (ofR b) alpha knt) s (fun r s' => exists k, r = (ofR (b * (/ sm) ^ k), alpha * ofR ((/ sm) ^ k), (knt + k)%nat) /\
    veff x (fun i => vval x s i * ofR ((/ sm) ^ k)) s s' /\ (k = 0%nat -> left = 0%nat \/ (sm <= Rabs b)%R) /\ (k <> 0%nat -> (Rabs (b * (/ sm) ^ k) < 1)%R)).
Proof.
  intros Hx HI Hsm left. induction left as [|left IH]; intros b alpha knt s; unfold runs in *; cbn [larfg_scale].
  - apply wp_ret. exists 0%nat. cbn [pow]. split; [|split; [|split]]; try lia.
    + rewrite Rmult_1_r, Nat.add_0_r, ofR_1. do 2 f_equal. ring.
    + rewrite ofR_1. repeat split; auto. intros i Hi. ring.
  - rewrite absv_ofR_abs, ofR_lt. destruct (Rltb (Rabs b) sm) eqn:e; [apply Rltb_t in e|apply Rltb_f in e].
    + apply wp_bind. eapply wp_use; [apply scal_run; auto|]. intros u s1 He1. cbv beta in He1. rewrite <- ofR_mul.
      eapply wp_use; [apply IH|]. intros r s2 HL. cbv beta in HL. destruct HL as (k & -> & He2 & K1 & K2). exists (S k).
      destruct He1 as (A1 & A2 & A3), He2 as (B1 & B2 & B3). split; [|split; [|split]]; try lia.
      * cbn [pow]. f_equal; [f_equal|lia]; [f_equal; ring|]. rewrite (ofR_mul (/ sm)). ring.
      * split; [|split].
        -- intros i Hi. rewrite B1, A1 by auto. cbn [pow]. rewrite (ofR_mul (/ sm)). ring.
        -- intros l Hl. rewrite B2, A2; auto.
        -- congruence.
      * intros _. destruct k as [|k].
        -- cbn [pow]. rewrite Rmult_1_r, Rabs_mult, (Rabs_right (/ sm)) by (apply Rle_ge, Rlt_le, Rinv_0_lt_compat; auto).
           apply (Rmult_lt_reg_r sm); auto. rewrite Rmult_assoc, Rinv_l by lra. lra.
        -- replace (b * (/ sm) ^ S (S k))%R with (b * / sm * (/ sm) ^ S k)%R by (cbn [pow]; ring). apply K2. lia.
    + apply wp_ret. exists 0%nat. cbn [pow]. split; [|split; [|split]]; try lia.
      * rewrite Rmult_1_r, Nat.add_0_r, ofR_1. do 2 f_equal. ring.
      * rewrite ofR_1. repeat split; auto. intros i Hi. ring.
      * auto.
Qed.

Definition larfg_tau (storeMode : storev_t) (alpha : T) (b : R) : T :=
  let tau := (ofR b - alpha) / ofR b in match storeMode with Rowwise => conj tau | Columnwise => tau end.

Lemma ofR_neq_0 b : b <> 0%R -> ofR b <> 0.
Proof. intros H e. rewrite <- ofR_0 in e. apply ofR_inj in e. auto. Qed.
Lemma is_beta_gamma alpha r2 b : is_beta alpha r2 b -> b <> 0%R -> alpha - ofR b <> 0.
Proof.
  intros [H1 H2] Hb e. assert (Ha : alpha = ofR b) by (transitivity (alpha - ofR b + ofR b); [ring|rewrite e; ring]).
  rewrite Ha, (re_idem (ofR b)), toR_ofR in H2 by apply ofR_real. destruct (Rltb b 0) eqn:e2; [apply Rltb_t in e2|apply Rltb_f in e2]; lra.
Qed.
Lemma norm_exact_1 (st bt : R) n f : (1 <= bt)%R -> (vsq n f <= 1)%R -> norm_exact st bt n f.
Proof. intros H1 H2. left. nra. Qed.

Lemma larfg_x_run h st bt sm md alpha x s : hconst_ok h st bt sm -> nc x = 1%nat -> vinj x -> norm_exact st bt (nr x) (vval x s) ->
  runs (larfg_x h md alpha x) s (fun r s' =>
    (vsq (nr x) (vval x s) = 0%R /\ im alpha = 0 /\ r = (alpha, 0) /\ s' = s) \/
    ((vsq (nr x) (vval x s) <> 0%R \/ im alpha <> 0) /\ exists b, is_beta alpha (vsq (nr x) (vval x s)) b /\ b <> 0%R /\
      r = (ofR b, larfg_tau md alpha b) /\ veff x (fun i => vval x s i / (alpha - ofR b)) s s')).
Proof.
  intros Hh Hx HI Hex. unfold runs, larfg_x. cbv zeta. apply wp_bind. apply (nrm2_wp h st bt sm); auto. intros r Hr0 Hr.
  destruct Hh as (HB & Hst & Hbt & Hsf & Hsm & R1 & R2 & R3). assert (Hh : hconst_ok h st bt sm) by (repeat split; auto).
  rewrite Hsf. assert (Hri : 1 / ofR sm = ofR (/ sm)). { rewrite <- ofR_1, <- ofR_div by lra. f_equal. field. lra. } rewrite Hri.
  rewrite <- ofR_0 at 1. rewrite ofR_lt. set (F := vsq (nr x) (vval x s)) in *.
  destruct (Rltb 0 r || negb (eqb (im alpha) 0)) eqn:Ec.
  2: { apply orb_false_elim in Ec as [E1 E2]. apply Rltb_f in E1. apply negb_false_iff, eqb_spec in E2. apply wp_ret. left. repeat split; auto. nra. }
  assert (Hnt : F <> 0%R \/ im alpha <> 0).
  { apply orb_prop in Ec as [E1|E1]; [apply Rltb_t in E1; left; nra|]. right. intros e. apply eqb_spec in e. rewrite e in E1. discriminate. }
  destruct (larfg_beta_run alpha r) as (b & Hb & Hib). rewrite Hr in Hib. rewrite Hb.
  assert (HF := vsq_nonneg (nr x) (vval x s)). change (vsq (nr x) (vval x s)) with F in HF.
  assert (Hb0 : b <> 0%R).
  { intros ->. destruct Hib as [Hb1 _]. assert (K := modulus_pos alpha). destruct Hnt as [Hnt|Hnt]; [nra|]. assert (modulus alpha = 0%R) by nra.
    apply modulus_0_iff in H. apply Hnt. rewrite H. apply im_0, conj_0. }
  assert (G : forall k b' alpha' s1, b' = (b * (/ sm) ^ k)%R -> alpha' = alpha * ofR ((/ sm) ^ k) -> veff x (fun i => vval x s i * ofR ((/ sm) ^ k)) s s1 ->
    wp (rscl (hmin h) (hmax h) (alpha' - ofR b') x;;
        beta <- foldup 0 k (ofR b') (fun _ beta => ret (beta * ofR sm));;
        ret (beta, match md with Columnwise => (ofR b' - alpha') / ofR b' | Rowwise => conj ((ofR b' - alpha') / ofR b') end))
      (fun r s' => (F = 0%R /\ im alpha = 0 /\ r = (alpha, 0) /\ s' = s) \/ ((F <> 0%R \/ im alpha <> 0) /\ exists b, is_beta alpha F b /\ b <> 0%R /\
        r = (ofR b, larfg_tau md alpha b) /\ veff x (fun i => vval x s i / (alpha - ofR b)) s s')) noX s1).
  { intros k b' alpha' s1 -> -> (A1 & A2 & A3). assert (Hp : (0 < (/ sm) ^ k)%R) by (apply pow_lt, Rinv_0_lt_compat; auto).
    assert (Hg := is_beta_gamma alpha F b Hib Hb0). assert (Hpt : ofR ((/ sm) ^ k) <> 0) by (apply ofR_neq_0; lra). assert (Hbt' : ofR b <> 0) by (apply ofR_neq_0; auto).
    assert (Heq : alpha * ofR ((/ sm) ^ k) - ofR (b * (/ sm) ^ k) = (alpha - ofR b) * ofR ((/ sm) ^ k)) by (rewrite ofR_mul; ring).
    rewrite Heq. apply wp_bind. eapply wp_use; [apply rscl_run; auto|].
    { intros e. apply OrdLemmas.mul_0_inv in e. tauto. }
    intros u s2 (B1 & B2 & B3). apply wp_bind.
    apply (wp_foldup _ (fun i a s' => a = ofR (b * (/ sm) ^ (k - i)) /\ s' = s2)); [lia|split; [repeat f_equal; lia|auto]| |].
    - intros i a s' Hi [-> ->]. apply wp_ret. split; auto. rewrite <- ofR_mul. f_equal. replace (k - i)%nat with (S (k - S i)) by lia. cbn [pow]. field. lra.
    - intros a s' [-> ->]. apply wp_ret. right. split; auto. exists b. split; auto. split; auto. split.
      + rewrite Nat.sub_diag. cbn [pow]. rewrite Rmult_1_r. f_equal. unfold larfg_tau. cbv zeta.
        assert (K : (ofR (b * (/ sm) ^ k) - alpha * ofR ((/ sm) ^ k)) / ofR (b * (/ sm) ^ k) = (ofR b - alpha) / ofR b) by (rewrite ofR_mul; field; auto).
        rewrite K. destruct md; auto.
      + split; [|split].
        * intros i Hi. rewrite B1, A1 by auto. field. auto.
        * intros l Hl. rewrite B2, A2; auto.
        * congruence. }
  rewrite absv_ofR_abs, ofR_lt. destruct (Rltb (Rabs b) sm) eqn:e; [apply Rltb_t in e|apply Rltb_f in e].
  - apply wp_bind. apply wp_bind. eapply wp_use; [apply (larfg_scale_run sm x Hx HI Hsm)|]. intros q s1 HL. cbv beta in HL. destruct HL as (k & -> & He & K1 & K2).
    assert (Hk : k <> 0%nat) by (intros ->; destruct (K1 eq_refl); [lia|lra]). specialize (K2 Hk). cbn [Nat.add].
    assert (Hp : (0 < (/ sm) ^ k)%R) by (apply pow_lt, Rinv_0_lt_compat; auto). set (p := ((/ sm) ^ k)%R) in *.
    assert (Hv : vsq (nr x) (vval x s1) = (F * (p * p))%R). { unfold F. rewrite <- vsq_scal by lra. apply vsq_ext. apply He. }
    assert (Hib' := is_beta_scal alpha F b p Hp Hib).
    apply wp_bind. apply (nrm2_wp h st bt sm); auto.
    { apply norm_exact_1; auto. rewrite Hv. destruct Hib' as [Hq _]. assert (K := modulus_pos (alpha * ofR p)).
      assert (K3 : (b * p * (b * p) < 1)%R). { rewrite <- (Rabs_right 1) in K2 by lra. apply Rsqr_lt_abs_1 in K2. unfold Rsqr in K2. lra. } nra. }
    intros r' Hr0' Hr'. rewrite Hv in Hr'. destruct (larfg_beta_run (alpha * ofR p) r') as (b' & Hb' & Hibb). rewrite Hb'. apply wp_ret.
    rewrite Hr' in Hibb. assert (b' = (b * p)%R) by (eapply is_beta_unique; eauto). apply G; auto.
  - apply wp_bind, wp_ret. apply (G 0%nat); cbn [pow].
    + ring.
    + rewrite ofR_1. ring.
    + rewrite ofR_1. repeat split; auto. intros i Hi. ring.
Qed.

(** ** The algebra of one reflector *)
Lemma sum_pull n p (f : nat -> T) : (p < n)%nat -> sum n f = f p + sum n (fun i => if (i =? p)%nat then 0 else f i).
Proof.
  intros Hp. rewrite (sum_ext n f (fun i => (if (i =? p)%nat then f p else 0) + (if (i =? p)%nat then 0 else f i))).
  2: { intros i Hi. destruct (Nat.eqb_spec i p) as [->|]; ring. }
  rewrite sum_plus, (sum_single n p); auto; [rewrite Nat.eqb_refl; auto|]. intros i Hi Hn. destruct (Nat.eqb_spec i p); [lia|auto].
Qed.
Lemma ctr_refl tau u i j : ctr (refl tau u) i j = refl (conj tau) u i j.
Proof.
  unfold ctr, refl. rewrite conj_sub, !conj_mul, conj_conj. unfold idm. rewrite Nat.eqb_sym. destruct (i =? j)%nat; rewrite ?conj_1, ?conj_0; ring.
Qed.
Lemma refl_mul n t1 t2 u i j : (i < n)%nat -> (j < n)%nat ->
  mmul n (refl t1 u) (refl t2 u) i j = refl (t1 + t2 - t1 * t2 * sum n (fun l => conj (u l) * u l)) u i j.
Proof.
  intros Hi Hj. rewrite LarfProof.refl_l by auto.
  assert (K : sum n (fun l => conj (u l) * refl t2 u l j) = conj (u j) - t2 * sum n (fun l => conj (u l) * u l) * conj (u j)).
  { change (mmul n (fun _ l => conj (u l)) (refl t2 u) 0%nat j = conj (u j) - t2 * sum n (fun l => conj (u l) * u l) * conj (u j)). rewrite LarfProof.refl_r by auto. reflexivity. }
  rewrite K. unfold refl. ring.
Qed.
Lemma refl_0 u i j : refl 0 u i j = idm i j.
Proof. unfold refl. ring. Qed.
Lemma refl_unitary n tau u : tau + conj tau = tau * conj tau * sum n (fun l => conj (u l) * u l) -> unitary n (refl tau u).
Proof.
  intros H i j Hi Hj. rewrite <- (refl_0 u i j). split.
  - transitivity (mmul n (refl (conj tau) u) (refl tau u) i j); [apply sum_ext; intros; rewrite ctr_refl; auto|]. rewrite refl_mul by auto. f_equal. rewrite (Radd_comm (F_R fth)), H. ring.
  - transitivity (mmul n (refl tau u) (refl (conj tau) u) i j); [apply sum_ext; intros; rewrite ctr_refl; auto|]. rewrite refl_mul by auto. f_equal. rewrite H. ring.
Qed.
Lemma happly_refl md n tau u z i : (i < n)%nat -> happly md n (refl tau u) z i =
  match md with
  | Columnwise => z i - conj tau * u i * sum n (fun l => conj (u l) * z l)
  | Rowwise => z i - tau * sum n (fun l => z l * u l) * conj (u i)
  end.
Proof.
  intros Hi. destruct md; cbn [happly].
  - unfold mvmul. rewrite (sum_ext n _ (fun l => refl (conj tau) u i l * z l)) by (intros; rewrite ctr_refl; auto).
    change (mmul n (refl (conj tau) u) (fun l _ => z l) i 0%nat = z i - conj tau * u i * sum n (fun l => conj (u l) * z l)). rewrite LarfProof.refl_l by auto. auto.
  - change (mmul n (fun _ l => z l) (refl tau u) 0%nat i = z i - tau * sum n (fun l => z l * u l) * conj (u i)). rewrite LarfProof.refl_r by auto. auto.
Qed.

Section Math.
Variables (n p : nat) (z : nat -> T) (md : storev_t) (b : R).
Hypothesis Hp : (p < n)%nat.
Hypothesis Hb : b <> 0%R.
Let beta := ofR b.
Let alpha := z p.
Let gamma := alpha - beta.
Let S0 := sum n (fun i => if (i =? p)%nat then 0 else z i * conj (z i)).
Hypothesis Hg : gamma <> 0.
Hypothesis Hq : beta * beta = alpha * conj alpha + S0.
Let u : nat -> T := fun i => if (i =? p)%nat then 1 else hst md (fun i => z i / gamma) i.
Let tau := larfg_tau md alpha b.

Lemma conj_neq_0' a : a <> 0 -> conj a <> 0.
Proof. intros H e. apply H. rewrite <- (conj_conj a), e. apply conj_0. Qed.
Lemma conj_div' a c : c <> 0 -> conj (a / c) = conj a / conj c.
Proof. intros H. assert (H' := conj_neq_0' c H). assert (K : conj (a / c) * conj c = conj a) by (rewrite <- conj_mul; f_equal; field; auto). rewrite <- K. field. auto. Qed.
Local Lemma Hbt : beta <> 0.
Proof. apply ofR_neq_0, Hb. Qed.
Local Lemma Hbc : conj beta = beta.
Proof. apply ofR_real. Qed.
Local Lemma Hgc : conj gamma = conj alpha - beta.
Proof. unfold gamma. rewrite conj_sub, Hbc. auto. Qed.
Local Lemma Hgc0 : conj gamma <> 0.
Proof. apply conj_neq_0', Hg. Qed.
Local Lemma tau_val : tau = match md with Columnwise => - gamma / beta | Rowwise => - conj gamma / beta end.
Proof.
  unfold tau, larfg_tau. cbv zeta. change (ofR b) with beta. destruct md.
  - unfold gamma. field. apply Hbt.
  - rewrite conj_div', conj_sub by apply Hbt. rewrite Hbc, Hgc. field. apply Hbt.
Qed.
Local Lemma tau_conj : conj tau = match md with Columnwise => - conj gamma / beta | Rowwise => - gamma / beta end.
Proof. rewrite tau_val. destruct md; rewrite conj_div', conj_opp, ?conj_conj, Hbc by apply Hbt; auto. Qed.
Local Lemma uu : sum n (fun l => conj (u l) * u l) = 1 + S0 / (gamma * conj gamma).
Proof.
  rewrite (sum_pull n p) by auto. unfold u at 1 2. rewrite Nat.eqb_refl, conj_1.
  rewrite (sum_ext n _ (fun i => (if (i =? p)%nat then 0 else z i * conj (z i)) * (1 / (gamma * conj gamma)))).
  - rewrite sum_scal_r. unfold S0. field. split; [apply Hgc0|apply Hg].
  - intros i Hi. unfold u. destruct (i =? p)%nat; [ring|]. destruct md; cbn [hst]; rewrite ?conj_conj, conj_div' by apply Hg; field; (split; [apply Hgc0|apply Hg]).
Qed.
Local Lemma gg : gamma * conj gamma + S0 = beta * (beta - alpha) + beta * (beta - conj alpha).
Proof.
  rewrite Hgc. unfold gamma. transitivity (alpha * conj alpha + S0 - beta * alpha - beta * conj alpha + beta * beta); [ring|]. rewrite <- Hq. ring.
Qed.
Lemma larfg_unitary : unitary n (refl tau u).
Proof.
  apply refl_unitary. rewrite uu, tau_conj, tau_val.
  assert (K : gamma * conj gamma * (1 + S0 / (gamma * conj gamma)) = beta * (beta - alpha) + beta * (beta - conj alpha)).
  { rewrite <- gg. field. split; [apply Hgc0|apply Hg]. }
  assert (K2 : (beta * (beta - alpha) + beta * (beta - conj alpha)) / (beta * beta) = - gamma / beta + - conj gamma / beta).
  { rewrite Hgc. unfold gamma. field. apply Hbt. }
  rewrite <- K in K2. assert (B := Hbt). assert (GC := Hgc0). destruct md.
  - rewrite <- K2. field. repeat split; auto.
  - rewrite (Radd_comm (F_R fth)), <- K2. field. repeat split; auto.
Qed.
Local Lemma uz : match md with Columnwise => sum n (fun l => conj (u l) * z l) | Rowwise => sum n (fun l => z l * u l) end = - (beta * gamma) / conj gamma.
Proof.
  assert (K : match md with Columnwise => sum n (fun l => conj (u l) * z l) | Rowwise => sum n (fun l => z l * u l) end = alpha + S0 / conj gamma).
  { destruct md eqn:Emd.
    - rewrite (sum_pull n p) by auto. unfold u at 1. rewrite Nat.eqb_refl, conj_1.
      rewrite (sum_ext n _ (fun i => (if (i =? p)%nat then 0 else z i * conj (z i)) * (1 / conj gamma))).
      + rewrite sum_scal_r. change (z p) with alpha; unfold S0. field. apply Hgc0.
      + intros i Hi. unfold u. destruct (i =? p)%nat; [ring|]. try rewrite Emd. cbn [hst]. rewrite conj_div' by apply Hg. field. apply Hgc0.
    - rewrite (sum_pull n p) by auto. unfold u at 1. rewrite Nat.eqb_refl.
      rewrite (sum_ext n _ (fun i => (if (i =? p)%nat then 0 else z i * conj (z i)) * (1 / conj gamma))).
      + rewrite sum_scal_r. change (z p) with alpha; unfold S0. field. apply Hgc0.
      + intros i Hi. unfold u. destruct (i =? p)%nat; [ring|]. try rewrite Emd. cbn [hst]. rewrite conj_div' by apply Hg. field. apply Hgc0. }
  rewrite K. assert (K2 : alpha * conj gamma + S0 = - (beta * gamma)).
  { rewrite Hgc. unfold gamma. transitivity (alpha * conj alpha + S0 - alpha * beta); [ring|]. rewrite <- Hq. ring. }
  rewrite <- K2. field. apply Hgc0.
Qed.
Lemma larfg_annih i : (i < n)%nat -> happly md n (refl tau u) z i = if (i =? p)%nat then beta else 0.
Proof.
  intros Hi. rewrite happly_refl by auto. assert (U := uz). assert (TC := tau_conj). assert (TV := tau_val). assert (B := Hbt). assert (G := Hgc0).
  destruct md eqn:Emd.
  - rewrite U, TC. unfold u. try rewrite Emd. destruct (Nat.eqb_spec i p) as [->|]; cbn [hst].
    + change (z p) with alpha. transitivity (alpha - gamma); [field; auto|unfold gamma; ring].
    + field. auto.
  - rewrite U, TV. unfold u. try rewrite Emd. destruct (Nat.eqb_spec i p) as [->|]; cbn [hst].
    + rewrite conj_1. change (z p) with alpha. transitivity (alpha - gamma); [field; auto|unfold gamma; ring].
    + rewrite conj_conj. field. auto.
Qed.
End Math.

(** ** The vector interface *)
Definition rest_ix (dir : direction_t) (i : nat) : nat := match dir with Forward => S i | Backward => i end.
Lemma hpos_lt dir n : (0 < n)%nat -> (hpos dir n < n)%nat.
Proof. destruct dir; cbn; lia. Qed.
Lemma rest_ix_lt dir n i : (i < n - 1)%nat -> (rest_ix dir i < n)%nat /\ rest_ix dir i <> hpos dir n.
Proof. destruct dir; cbn; lia. Qed.
Lemma rest_ix_surj dir n j : (j < n)%nat -> j <> hpos dir n -> exists i, (i < n - 1)%nat /\ j = rest_ix dir i.
Proof. destruct dir; cbn; intros Hj Hn; [exists (j - 1)%nat; lia|exists j; lia]. Qed.
Lemma rest_sum dir n (g : nat -> T) : (0 < n)%nat -> sum (n - 1) (fun i => g (rest_ix dir i)) = sum n (fun i => if (i =? hpos dir n)%nat then 0 else g i).
Proof.
  intros Hn. replace n with (S (n - 1)) at 2 by lia. destruct dir; cbn [rest_ix hpos].
  - rewrite sum_S_l. cbn [Nat.eqb]. ring.
  - cbn [sum]. rewrite Nat.eqb_refl. transitivity (sum (n - 1) (fun i => if (i =? n - 1)%nat then 0 else g i)); [|ring].
    apply sum_ext. intros i Hi. destruct (Nat.eqb_spec i (n - 1)); [lia|auto].
Qed.
Lemma rest_vsq dir n (f : nat -> T) : (0 < n)%nat -> vsq n f = (modulus (f (hpos dir n)) * modulus (f (hpos dir n)) + vsq (n - 1) (fun i => f (rest_ix dir i)))%R.
Proof.
  intros Hn. apply ofR_inj. rewrite ofR_add, <- modulus_ofR_sq, !vsq_sum. rewrite (sum_pull n (hpos dir n)) by (apply hpos_lt; auto).
  rewrite (rest_sum dir n (fun i => f i * conj (f i))); auto.
Qed.
Lemma norm_exact_rest st bt dir n (f : nat -> T) : (0 < n)%nat -> norm_exact st bt n f -> norm_exact st bt (n - 1) (fun i => f (rest_ix dir i)).
Proof.
  intros Hn [H|H]; [left|right].
  - rewrite (rest_vsq dir) in H by auto. assert (K := modulus_pos (f (hpos dir n))). nra.
  - intros i Hi. apply H, rest_ix_lt. auto.
Qed.

Lemma zero_or n p (z : nat -> T) : {exists i, (i < n)%nat /\ i <> p /\ z i <> 0} + {forall i, (i < n)%nat -> i <> p -> z i = 0}.
Proof.
  induction n as [|k [IH|IH]].
        - right. intros; lia.
        - left. destruct IH as (i & H1 & H2 & H3). exists i. auto.
        - destruct (Nat.eq_dec k p) as [->|Hk]; [right; intros i Hi Hne; apply IH; lia|]. destruct (eqb (z k) 0) eqn:e.
          + apply eqb_spec in e. right. intros i Hi Hne. destruct (Nat.eq_dec i k) as [->|]; auto. apply IH; auto; lia.
          + left. exists k. repeat split; auto. intros e'. apply eqb_spec in e'. congruence.
Qed.
Lemma larfg_run h st bt sm dir md v s : hconst_ok h st bt sm -> nc v = 1%nat -> (0 < nr v)%nat -> vinj v -> norm_exact st bt (nr v) (vval v s) ->
  let n := nr v in let z := vval v s in let p := hpos dir n in
  runs (larfg h dir md v) s (fun tau s' =>
    ((forall i, (i < n)%nat -> i <> p -> z i = 0) /\ im (z p) = 0 /\ tau = 0 /\ veff v z s s') \/
    (((exists i, (i < n)%nat /\ i <> p /\ z i <> 0) \/ im (z p) <> 0) /\ exists b, is_beta (z p) (vsq (n - 1) (fun i => z (rest_ix dir i))) b /\ b <> 0%R /\ tau = larfg_tau md (z p) b /\
      veff v (fun i => if (i =? p)%nat then ofR b else z i / (z p - ofR b)) s s')).
Proof.
  intros Hh Hc Hn HI Hex n z p. unfold runs, larfg. cbv zeta. apply wp_bind, wp_assert; [destruct (Nat.eqb_spec (nr v) 0); auto; lia|].
  set (x := match dir with Forward => Slice.vsub v 1 (nr v) | Backward => Slice.vsub v 0 (nr v - 1) end).
  assert (Hix : (if match dir with Forward => true | Backward => false end then 0%nat else (nr v - 1)%nat) = p) by (destruct dir; reflexivity). rewrite Hix.
  assert (Xn : nr x = (n - 1)%nat) by (unfold x; destruct dir; cbn; unfold n; lia). assert (Xc : nc x = 1%nat) by (unfold x; destruct dir; reflexivity).
  assert (Xa : forall i, ad x i 0 = ad v (rest_ix dir i) 0) by (intros i; unfold x; destruct dir; reflexivity).
  assert (Xv : forall st i, vval x st i = vval v st (rest_ix dir i)) by (intros; unfold vval, val; rewrite Xa; auto).
  assert (Hpn := hpos_lt dir n Hn). change (hpos dir n) with p in Hpn.
  assert (Xi : vinj x) by (unfold x; destruct dir; apply vinj_vsub; auto; lia).
  assert (Xin : forall l, inview x l -> exists i, (i < n)%nat /\ i <> p /\ l = ad v i 0).
  { intros l (i & j & Hi & Hj & ->). replace j with 0%nat by lia. rewrite Xn in Hi. destruct (rest_ix_lt dir n i Hi). exists (rest_ix dir i). auto. }
  apply wp_bind. apply (wp_conseq _ _ (fun w s1 => w = x /\ s1 = s) _ noX).
  { unfold x. destruct dir; apply wp_slvec; auto; lia. } 2: auto.
  intros w s1 [-> ->]. apply wp_bind. unfold rdv. apply wp_rd; [auto|lia|]. change (val v s p 0) with (z p).
  assert (Hvx : vsq (nr x) (vval x s) = vsq (n - 1) (fun i => z (rest_ix dir i))) by (rewrite Xn; apply vsq_ext; intros; apply Xv).
  apply wp_bind. eapply wp_use.
  { apply (larfg_x_run h st bt sm md (z p) x s); auto. rewrite Xn. assert (K := norm_exact_rest st bt dir n z Hn Hex). destruct K as [K|K]; [left|right].
    - rewrite (vsq_ext (n - 1) _ (fun i => z (rest_ix dir i))); auto. intros; apply Xv.
    - intros i Hi. rewrite Xv. auto. }
  intros r s2 HL. cbv beta in HL. rewrite Hvx in HL. apply wp_bind. unfold wrv. apply wp_wr; [auto|lia|]. apply wp_ret.
  destruct HL as [(K1 & K2 & -> & ->)|(K1 & b & K2 & K3 & -> & (A1 & A2 & A3))]; cbn [fst snd]; [left|right].
  - split; [|split; [|split]]; auto.
    + intros i Hi Hne. destruct (rest_ix_surj dir n i Hi Hne) as (k & Hk & ->). apply (vsq_0 (n - 1) (fun i => z (rest_ix dir i))); auto.
    + split; [|split]; auto.
      * intros i Hi. unfold vval, val, setm. cbn [mem]. destruct (Z.eqb_spec (ad v i 0) (ad v p 0)) as [e|]; auto. apply HI in e; try lia. destruct e as [-> _]. reflexivity.
      * intros l Hl. unfold setm. cbn [mem]. destruct (Z.eqb_spec l (ad v p 0)) as [->|]; auto.
  - split.
    { destruct K1 as [K1|K1]; auto. left. assert (Cl : {exists i, (i < n)%nat /\ i <> p /\ z i <> 0} + {forall i, (i < n)%nat -> i <> p -> z i = 0}).
      { apply zero_or. }
      destruct Cl as [Cl|Cl]; auto. exfalso. apply K1. apply ofR_inj. rewrite vsq_sum, ofR_0. apply sum_0. intros k Hk. destruct (rest_ix_lt dir n k Hk). rewrite Cl by auto. ring. }
    exists b. split; [auto|split; [auto|split; [auto|]]]. split; [|split]; auto.
    + intros i Hi. unfold vval, val, setm. cbn [mem]. destruct (Z.eqb_spec (ad v i 0) (ad v p 0)) as [e|ne].
      * apply HI in e; try lia. destruct e as [-> _]. rewrite Nat.eqb_refl. auto.
      * destruct (Nat.eqb_spec i p) as [->|Hne]; [congruence|]. destruct (rest_ix_surj dir n i Hi Hne) as (k & Hk & ->).
        assert (K := A1 k ltac:(lia)). rewrite !Xv in K. exact K.
    + intros l Hl. unfold setm. cbn [mem]. destruct (Z.eqb_spec l (ad v p 0)) as [->|]; auto; [exfalso; apply Hl; exists p, 0%nat; repeat split; auto; lia|].
      apply A2. intros K. destruct (Xin l K) as (i & Hi & _ & ->). apply Hl. exists i, 0%nat. repeat split; auto; lia.
Qed.
Lemma im0_real a : im a = 0 -> conj a = a.
Proof.
  intros H. apply reim_ext; [apply re_conj|]. rewrite im_conj, H. ring.
Qed.
Lemma refl_ext tau u u' i j : u i = u' i -> u j = u' j -> refl tau u i j = refl tau u' i j.
Proof. intros H1 H2. unfold refl. rewrite H1, H2. auto. Qed.
Lemma unitary_ext n Q Q' : (forall i j, (i < n)%nat -> (j < n)%nat -> Q i j = Q' i j) -> unitary n Q -> unitary n Q'.
Proof.
  intros H HU i j Hi Hj. destruct (HU i j Hi Hj) as [H1 H2]. split; [rewrite <- H1|rewrite <- H2]; symmetry; apply sum_ext; intros; unfold ctr; rewrite !H by auto; auto.
Qed.
Lemma happly_ext md n H H' z i : (forall i j, (i < n)%nat -> (j < n)%nat -> H i j = H' i j) -> (i < n)%nat -> happly md n H z i = happly md n H' z i.
Proof. intros HH Hi. destruct md; cbn [happly]; apply sum_ext; intros; unfold ctr; rewrite HH by auto; auto. Qed.
Lemma is_beta_re alpha r2 b : (0 <= r2)%R -> is_beta alpha r2 b -> b <> 0%R -> exists t, re ((ofR b - alpha) / ofR b) = ofR t /\ (1 <= t <= 2)%R.
Proof.
  intros Hr [H1 H2] Hb. destruct (re_ofR alpha) as [q Hq]. assert (B := ofR_neq_0 b Hb).
  assert (Eq : (ofR b - alpha) / ofR b = ofR 1 - ofR (/ b) * alpha). { rewrite ofR_1. assert (K : ofR (/ b) * ofR b = 1) by (rewrite <- ofR_mul, Rinv_l, ofR_1; auto).
    transitivity (ofR (/ b) * ofR b - ofR (/ b) * alpha); [|rewrite K; ring]. transitivity (ofR (/ b) * ofR b * ((ofR b - alpha) / ofR b)); [rewrite K; ring|field; auto]. }
  rewrite Eq. exists (1 - / b * q)%R. split.
  - assert (Ro : forall a c, re (a - c) = re a - re c). { intros a c. assert (K : re (a - c) + re c = re a) by (rewrite <- re_add; f_equal; ring). rewrite <- K. ring. }
    rewrite Ro, re_mul, (im_0 (ofR (/ b))), !(re_idem (ofR _)) by apply ofR_real. rewrite Hq, ofR_sub, ofR_mul. ring.
  - rewrite Hq, toR_ofR in H2. assert (Hm : (q * q <= b * b)%R).
    { rewrite H1. assert (K : (modulus alpha * modulus alpha = q * q + toR (im alpha) * toR (im alpha))%R).
      { destruct (im_ofR alpha) as [w Hw]. rewrite modulus_sq, norm_re_im, Hq, Hw, <- !ofR_mul, <- ofR_add, !toR_ofR. auto. } rewrite K. nra. }
    assert (Hd : (/ b * q * b = q)%R) by (field; auto). set (d := (/ b * q)%R) in *.
    destruct (Rltb q 0) eqn:e; [apply Rltb_t in e|apply Rltb_f in e].
    + assert (P : (0 < b)%R) by lra. assert (Q : (- b <= q)%R) by nra. split.
      * destruct (Rle_or_lt d 0); [lra|]. assert (0 < d * b)%R by (apply Rmult_lt_0_compat; auto). lra.
      * destruct (Rle_or_lt (- 1) d); [lra|]. assert (d * b < - 1 * b)%R by (apply Rmult_lt_compat_r; auto). lra.
    + assert (P : (0 < - b)%R) by lra. assert (Q : (q <= - b)%R) by nra. split.
      * destruct (Rle_or_lt d 0); [lra|]. assert (0 < d * - b)%R by (apply Rmult_lt_0_compat; auto). lra.
      * destruct (Rle_or_lt (- 1) d); [lra|]. assert (d * - b < - 1 * - b)%R by (apply Rmult_lt_compat_r; auto). lra.
Qed.
Lemma is_beta_mod alpha r2 b : (0 <= r2)%R -> is_beta alpha r2 b -> b <> 0%R -> (modulus ((ofR b - alpha) / ofR b - 1) <= 1)%R.
Proof.
  intros Hr [H1 H2] Hb. assert (B := ofR_neq_0 b Hb). assert (P := modulus_pos ((ofR b - alpha) / ofR b - 1)).
  assert (K : (modulus ((ofR b - alpha) / ofR b - 1) * modulus ((ofR b - alpha) / ofR b - 1) * (b * b) = modulus alpha * modulus alpha)%R).
  { apply ofR_inj. rewrite !ofR_mul, <- (ofR_mul (modulus _)), <- modulus_ofR_sq, <- (ofR_mul (modulus alpha)), <- modulus_ofR_sq.
    assert (Eq : (ofR b - alpha) / ofR b - 1 = - alpha / ofR b) by (field; auto). rewrite Eq, conj_div', conj_opp, ofR_real by auto. field. auto. }
  assert (0 < b * b)%R by nra. set (w := modulus ((ofR b - alpha) / ofR b - 1)) in *. assert (w * w <= 1)%R; [|nra].
  apply (Rmult_le_reg_r (b * b)); auto. lra.
Qed.
Lemma larfg_reflects h st bt sm dir md v s : hconst_ok h st bt sm -> nc v = 1%nat -> (0 < nr v)%nat -> vinj v -> norm_exact st bt (nr v) (vval v s) ->
  runs (larfg h dir md v) s (fun tau s' => veff v (vval v s') s s' /\ reflects md dir (nr v) (vval v s) tau (vval v s')).
Proof.
  intros Hh Hc Hn HI Hex. eapply wp_conseq; [apply (larfg_run h st bt sm dir md v s Hh Hc Hn HI Hex)| |auto]. cbv zeta. intros tau s' HL. cbv beta in HL.
  set (n := nr v) in *. set (z := vval v s) in *. set (p := hpos dir n) in *. assert (Hpn : (p < n)%nat) by (apply hpos_lt; auto).
  destruct HL as [(K1 & K2 & -> & (A1 & A2 & A3))|(K1 & b & K2 & K3 & -> & (A1 & A2 & A3))].
  - split; [repeat split; auto|]. split; change (hpos dir n) with p.
    + rewrite A1 by auto. apply im0_real; auto.
    + rewrite A1 by auto. rewrite (rest_vsq dir n z Hn). assert (K : vsq (n - 1) (fun i => z (rest_ix dir i)) = 0%R).
      { apply ofR_inj. rewrite vsq_sum, ofR_0. apply sum_0. intros i Hi. destruct (rest_ix_lt dir n i Hi). rewrite K1 by auto. ring. } rewrite K. change (hpos dir n) with p. lra.
    + apply refl_unitary. rewrite conj_0. ring.
    + intros i Hi. rewrite happly_refl by auto. rewrite conj_0. rewrite A1 by auto. destruct (Nat.eqb_spec i p) as [->|]; [|rewrite (K1 i) by auto]; destruct md; ring.
    + tauto.
    + tauto.
  - split; [repeat split; auto; intros i Hi; rewrite A1; auto|].
    assert (Hg := is_beta_gamma _ _ _ K2 K3).
    assert (Hq : ofR b * ofR b = z p * conj (z p) + sum n (fun i => if (i =? p)%nat then 0 else z i * conj (z i))).
    { destruct K2 as [K2 _]. rewrite <- ofR_mul, K2, ofR_add, <- modulus_ofR_sq, vsq_sum. f_equal. apply (rest_sum dir n (fun i => z i * conj (z i))). auto. }
    set (u := fun i => if (i =? p)%nat then 1 else hst md (fun i => z i / (z p - ofR b)) i).
    assert (Hu : forall i, (i < n)%nat -> hvec dir n (hst md (vval v s')) i = u i).
    { intros i Hi. unfold hvec, u. change (hpos dir n) with p. destruct (Nat.eqb_spec i p) as [|Hne]; auto. assert (K := A1 i Hi). destruct (Nat.eqb_spec i p); [lia|]. destruct md; cbn [hst]; rewrite K; auto. }
    assert (U := larfg_unitary n p z md b Hpn K3 Hg Hq). change (fun i => if (i =? p)%nat then 1 else hst md (fun i => z i / (z p - ofR b)) i) with u in U.
    assert (HH : forall i j, (i < n)%nat -> (j < n)%nat -> refl (larfg_tau md (z p) b) u i j = refl (larfg_tau md (z p) b) (hvec dir n (hst md (vval v s'))) i j).
    { intros i j Hi Hj. apply refl_ext; rewrite Hu by auto; auto. }
    assert (Vp : vval v s' p = ofR b) by (rewrite A1 by auto; rewrite Nat.eqb_refl; auto).
    assert (R2 := vsq_nonneg (n - 1) (fun i => z (rest_ix dir i))).
    assert (Tz : larfg_tau md (z p) b <> 0).
    { assert (Bt := ofR_neq_0 b K3). assert (Ht : (ofR b - z p) / ofR b <> 0). { intros e. apply Hg. transitivity (- ((ofR b - z p) / ofR b) * ofR b); [field; auto|rewrite e; ring]. }
      unfold larfg_tau. cbv zeta. destruct md; auto. apply conj_neq_0'; auto. }
    split; change (hpos dir n) with p.
    + rewrite Vp. apply ofR_real.
    + rewrite Vp. rewrite (rest_vsq dir n z Hn). change (hpos dir n) with p. destruct K2 as [K2 _]. rewrite <- K2. rewrite modulus_ofR. unfold Rabs; destruct (Rcase_abs b); ring.
    + eapply unitary_ext; [exact HH|exact U].
    + intros i Hi. rewrite <- (happly_ext md n (refl (larfg_tau md (z p) b) u)) by auto. rewrite Vp. exact (larfg_annih n p z md b Hpn K3 Hg Hq i Hi).
    + split; [|tauto]. intros [J1 J2]. destruct K1 as [(i & H1 & H2 & H3)|K1]; [|tauto]. exfalso. apply H3. auto.
    + intros _. destruct (is_beta_re _ _ _ R2 K2 K3) as (t & Ht & Hb). assert (Hm := is_beta_mod _ _ _ R2 K2 K3). unfold larfg_tau. cbv zeta. destruct md.
      * split; eauto.
      * split; [exists t; rewrite re_conj; auto|]. rewrite <- modulus_conj. rewrite conj_sub, conj_conj, conj_1. auto.
Qed.
End P.
