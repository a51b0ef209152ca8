From Coq Require Import Bool Arith ZArith Lia Reals Lra Psatz.
From Verif.Core Require Import Scalar Instances.
From Verif.Spec Require Import Small.
From Verif.Model Require Import Householder Sort Rot Steqr Small.
From Verif.Proof Require Import SmallProof.
Local Open Scope R_scope.
Lemma sgR_1 : sgR 1 = 1.
Proof. apply sgR_pos. lra. Qed.
Lemma tup_eq (a b c d e f a' b' : R) : a = a' -> b = b' -> (a, b, c, d, e, f) = (a', b', c, d, e, f).
Proof. intros -> ->. auto. Qed.
Lemma svd22_eq (eps f g h : R) : exists F H, Rabs H <= Rabs F /\ Rmax (Rabs f) (Rabs h) = Rabs F /\
  forall smin smax cl sl cr sr gb smin' smax' e1 e2, svd22_core (E:=RE) eps F (Rabs F) H (Rabs H) g (Rabs g) = (smin, smax, (cl, sl, cr, sr), gb) ->
    (let ts := (if gb : bool then sgR sr * sgR cl * sgR g else sgR cl * sgR cr * sgR F) in smax * sgR ts = smax' /\ smin * (sgR ts * (sgR F * sgR H)) = smin') ->
    svd_eqs F g H smin' smax' cl sl cr sr e1 e2 ->
    exists csl snl csr snr, svd22 (E:=RE) eps f g h = (smin', smax', csl, snl, csr, snr) /\ svd_eqs f g h smin' smax' csl snl csr snr e1 e2.
Proof.
  unfold svd22. cbn [ltb RE absv]. destruct (Rltb_spec (Rabs f) (Rabs h)) as [K|K].
  - exists h, f. split; [lra|]. split; [rewrite Rmax_right; lra|]. intros * E. cbv zeta. rewrite E. cbv beta iota zeta. intros [<- <-] V.
    exists sr, cr, sl, cl. split; [|apply svd_eqs_swap; auto]. rewrite !sgnR. cbn [mul RE].
    apply tup_eq; destruct gb; rewrite ?sgR_mul, ?sgR_idem; eqR; ring.
  - exists f, h. split; [lra|]. split; [rewrite Rmax_left; lra|]. intros * E. cbv zeta. rewrite E. cbv beta iota zeta. intros [<- <-] V.
    exists cl, sl, cr, sr. split; auto. rewrite !sgnR. cbn [mul RE].
    apply tup_eq; destruct gb; rewrite ?sgR_mul, ?sgR_idem; eqR; ring.
Qed.
Lemma sgR_abs2 x : Rabs x = x * sgR x.
Proof. destruct (sgR_cases x) as [[H ->]|[[H ->]|[-> ->]]]; [rewrite Rabs_right by lra|rewrite Rabs_left by lra|rewrite Rabs_R0]; lra. Qed.
Lemma svd22_run (eps f g h : R) : 0 < eps -> exists smin smax csl snl csr snr, svd22 (E:=RE) eps f g h = (smin, smax, csl, snl, csr, snr) /\
  let M := Rmax (Rabs f) (Rabs h) in
  Rabs smin <= Rabs smax /\
  (~ (M < Rabs g /\ M / Rabs g < eps) \/ M = 0 -> svd_eqs f g h smin smax csl snl csr snr 0 0) /\
  (M < Rabs g /\ M / Rabs g < eps -> svd_eqs f g h smin smax csl snl csr snr (eps * eps) (2 * (eps * eps) * Rabs g)).
Proof.
  intros Heps. destruct (svd22_eq eps f g h) as (F & H & HF & EM & RUN). cbv zeta. rewrite EM. clear EM.
  assert (HH : F = 0 -> H = 0). { intros K. rewrite K, Rabs_R0 in HF. destruct (Req_dec H 0); auto. apply Rabs_pos_lt in H0. lra. }
  pose proof (Rabs_pos F) as F0. pose proof (Rabs_pos H) as H0. pose proof (Rabs_pos g) as g0.
  assert (LIFT : forall smin' smax', Rabs smin' <= Rabs smax' -> forall e1 e2, (exists csl snl csr snr, svd22 (E:=RE) eps f g h = (smin', smax', csl, snl, csr, snr) /\ svd_eqs f g h smin' smax' csl snl csr snr e1 e2) ->
     (e1 <= 0 /\ e2 <= 0 \/ ~ (~ (Rabs F < Rabs g /\ Rabs F / Rabs g < eps) \/ Rabs F = 0) /\ e1 <= eps * eps /\ e2 <= 2 * (eps * eps) * Rabs g) ->
     exists smin smax csl snl csr snr, svd22 (E:=RE) eps f g h = (smin, smax, csl, snl, csr, snr) /\ Rabs smin <= Rabs smax /\
     (~ (Rabs F < Rabs g /\ Rabs F / Rabs g < eps) \/ Rabs F = 0 -> svd_eqs f g h smin smax csl snl csr snr 0 0) /\
     (Rabs F < Rabs g /\ Rabs F / Rabs g < eps -> svd_eqs f g h smin smax csl snl csr snr (eps * eps) (2 * (eps * eps) * Rabs g))).
  { intros smin' smax' HS e1 e2 (csl & snl & csr & snr & E & (V1 & V2 & V3 & V4 & V5 & V6)) He. exists smin', smax', csl, snl, csr, snr. split; auto. split; auto.
    assert (HE : 0 <= eps * eps) by nra. assert (HG : 0 <= 2 * (eps * eps) * Rabs g) by nra.
    destruct He as [[L1 L2]|(N & L1 & L2)]; (split; [intros C|intros C]); try (exfalso; apply N; exact C); repeat apply Logic.conj; lra. }
  destruct (Req_dec g 0) as [G0|G0].
  { apply (LIFT H F HF 0 0); [|left; lra]. apply (RUN (Rabs H) (Rabs F) 1 0 1 0 false).
    - unfold svd22_core. cbn [eqb RE zero]. rewrite G0, Rabs_R0. destruct (Reqb_spec 0 0); [reflexivity|lra].
    - cbv zeta iota. rewrite sgR_1, !Rmult_1_l, sgR_idem. split; [apply sgR_abs|].
      destruct (Req_dec F 0) as [Z|Z]; [rewrite (HH Z), Rabs_R0; ring|]. rewrite <- Rmult_assoc with (r1 := sgR F), sgR_sq by auto. rewrite Rmult_1_l. apply sgR_abs.
    - rewrite G0. repeat apply Logic.conj; apply abs_0; ring. }
  assert (Gp : 0 < Rabs g) by (apply Rabs_pos_lt; auto).
  assert (CS : (Rabs F < Rabs g /\ Rabs F / Rabs g < eps) \/ ~ (Rabs F < Rabs g /\ Rabs F / Rabs g < eps)).
  { destruct (Rlt_dec (Rabs F) (Rabs g)), (Rlt_dec (Rabs F / Rabs g) eps); tauto. }
  destruct CS as [[C1 C2]|CS].
  - set (x := F / g). set (y := H / g). assert (Hx : Rabs x = Rabs F / Rabs g). { unfold x, Rdiv. rewrite Rabs_mult, Rabs_inv. auto. }
    assert (Hy : Rabs y = Rabs H / Rabs g). { unfold y, Rdiv. rewrite Rabs_mult, Rabs_inv. auto. }
    assert (Hyx : Rabs y <= Rabs x). { rewrite Hx, Hy. unfold Rdiv. apply Rmult_le_compat_r; auto. left. apply Rinv_0_lt_compat; auto. }
    assert (X1 : Rabs x < 1). { rewrite Hx. apply (Rmult_lt_reg_r (Rabs g)); auto. unfold Rdiv. rewrite Rmult_assoc, Rinv_l; lra. }
    rewrite <- Hx in C2. pose proof (Rabs_pos x) as X0. pose proof (Rabs_pos y) as Y0.
    assert (HS : Rabs (F * H / g) <= Rabs g).
    { replace (F * H / g) with (x * y * g) by (unfold x, y; field; auto). rewrite !Rabs_mult. assert (Rabs x * Rabs y <= 1) by nra. nra. }
    assert (CORE : svd22_core (E:=RE) eps F (Rabs F) H (Rabs H) g (Rabs g) = (Rabs F * Rabs H / Rabs g, Rabs g, (1, y, x, 1), true)).
    { unfold svd22_core. cbn [eqb RE zero ltb div one mul]. destruct (Reqb_spec (Rabs g) 0); [lra|]. destruct (Rltb_spec (Rabs F) (Rabs g)); [|lra]. rewrite Hx in C2. destruct (Rltb_spec (Rabs F / Rabs g) eps); [|lra]. cbn [andb].
      match goal with |- (?a, _, _, _) = (?b, _, _, _) => assert (EE : a = b) end; [|rewrite EE; reflexivity].
      destruct (Rltb_spec 1 (Rabs H)); eqR; field; lra. }
    assert (SG : (let ts := sgR 1 * sgR 1 * sgR g in Rabs g * sgR ts = g /\ Rabs F * Rabs H / Rabs g * (sgR ts * (sgR F * sgR H)) = F * H / g)).
    { cbv zeta. rewrite sgR_1. rewrite !Rmult_1_l, sgR_idem. split; [apply sgR_abs|]. rewrite <- (sgR_abs F) at 3. rewrite <- (sgR_abs H) at 3.
      destruct (sgR_cases g) as [[Z Q]|[[Z Q]|[Z Q]]]; rewrite Q; [rewrite (Rabs_right g) by lra|rewrite (Rabs_left g) by lra|]; [field; lra|field; lra|lra]. }
    destruct (Req_dec F 0) as [Z|Z].
    + apply (LIFT (F * H / g) g HS 0 0); [|left; lra]. apply (RUN _ _ 1 y x 1 true (F * H / g) g 0 0 CORE SG). subst x y. rewrite (HH Z), Z. repeat apply Logic.conj; apply abs_0; field; auto.
    + apply (LIFT (F * H / g) g HS (eps * eps) (2 * (eps * eps) * Rabs g)); [|right]; [|split; [intros [N|N]; [apply N; rewrite <- Hx; auto|apply Rabs_pos_lt in Z; lra]|lra]].
      apply (RUN _ _ 1 y x 1 true (F * H / g) g _ _ CORE SG).
      assert (XX : Rabs x * Rabs x <= eps * eps) by nra. assert (YY : Rabs y * Rabs y <= eps * eps) by nra. assert (XY : Rabs x * Rabs y <= eps * eps) by nra.
      repeat apply Logic.conj.
      * replace (1 * 1 + y * y - 1) with (y * y) by ring. rewrite Rabs_mult. auto.
      * replace (x * x + 1 * 1 - 1) with (x * x) by ring. rewrite Rabs_mult. auto.
      * replace (1 * (F * x + g * 1) + y * H * 1 - g) with ((x * x + y * y) * g) by (unfold x, y; field; auto). rewrite Rabs_mult. apply Rmult_le_compat_r; [lra|]. eapply Rle_trans; [apply Rabs_triang|]. rewrite !Rabs_mult. lra.
      * replace (1 * (- F * 1 + g * x) + y * H * x) with ((y * y) * x * g) by (unfold x, y; field; auto). rewrite !Rabs_mult. apply Rmult_le_compat_r; [lra|]. nra.
      * replace (- y * (F * x + g * 1) + 1 * H * 1) with (- (x * x) * y * g) by (unfold x, y; field; auto). rewrite !Rabs_mult, Rabs_Ropp, Rabs_mult. apply Rmult_le_compat_r; [lra|]. nra.
      * replace (- y * (- F * 1 + g * x) + 1 * H * x - F * H / g) with (0:R) by (unfold x, y; field; auto). rewrite Rabs_R0. nra.
  - assert (Z : F <> 0). { intros Z. apply CS. rewrite Z, Rabs_R0. unfold Rdiv. rewrite Rmult_0_l. lra. }
    destruct (svd_core eps F g H HF Z G0 CS) as (a & cl & sl & cr & sr & CORE & A1 & Pcl & Pcr & Psr & V).
    assert (Z' : 0 < Rabs F) by (apply Rabs_pos_lt; auto).
    apply (LIFT (H / a) (F * a)) with 0 0; [|eapply RUN; [exact CORE| |exact V]|left; lra].
    + unfold Rdiv. rewrite !Rabs_mult, (Rabs_right a), (Rabs_right (/ a)) by (try lra; apply Rle_ge; left; apply Rinv_0_lt_compat; lra).
      assert (/ a <= 1) by (rewrite <- Rinv_1; apply Rinv_le_contravar; lra). assert (0 < / a) by (apply Rinv_0_lt_compat; lra). nra.
    + assert (ET : (if Rltb (Rabs F) (Rabs g) then sgR sr * sgR cl * sgR g else sgR cl * sgR cr * sgR F) = sgR F).
      { rewrite Psr, sgR_mul, (sgR_pos cl), (sgR_pos cr) by auto. destruct (Rltb (Rabs F) (Rabs g)); [|ring]. transitivity ((sgR g * sgR g) * sgR F); [ring|]. rewrite sgR_sq by auto. ring. }
      cbv zeta. rewrite ET, sgR_idem. split.
      * rewrite Rmult_assoc, (Rmult_comm a), <- Rmult_assoc, sgR_abs. auto.
      * rewrite <- (Rmult_assoc (sgR F)), sgR_sq, Rmult_1_l by auto. unfold Rdiv. rewrite Rmult_assoc, (Rmult_comm (/ a)), <- Rmult_assoc, sgR_abs. auto.
Qed.
