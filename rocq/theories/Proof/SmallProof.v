(** * The small kernels over the real numbers *)
From Coq Require Import Bool Arith ZArith Lia Reals Lra Psatz.
From Verif.Core Require Import Scalar Instances.
From Verif.Spec Require Import Small.
From Verif.Model Require Import Householder Sort Rot Steqr Small.
Local Open Scope R_scope.

Lemma Rltb_spec a b : BoolSpec (a < b) (b <= a) (Rltb a b).
Proof. destruct (Rltb a b) eqn:K; constructor; [apply Rltb_t|apply Rltb_f]; auto. Qed.
Lemma Reqb_spec a b : BoolSpec (a = b) (a <> b) (Reqb a b).
Proof. unfold Reqb. destruct (Req_EM_T a b); constructor; auto. Qed.
Lemma maxR a b : maxT (E:=RE) a b = Rmax a b.
Proof. unfold maxT. cbn. destruct (Rltb_spec a b); [rewrite Rmax_right|rewrite Rmax_left]; lra. Qed.
Lemma minR a b : minT (E:=RE) a b = Rmin a b.
Proof. unfold minT. cbn. destruct (Rltb_spec b a); [rewrite Rmin_right|rewrite Rmin_left]; lra. Qed.
Lemma lebR a b : leb (E:=RE) a b = negb (Rltb b a).
Proof. unfold leb. cbn. destruct (Rltb_spec a b), (Reqb_spec a b), (Rltb_spec b a); cbn; auto; lra. Qed.
(** the sign of a real number, 0 for 0 *)
Definition sgR (x : R) : R := if Rlt_dec 0 x then 1 else if Rlt_dec x 0 then -1 else 0.
Lemma sgnR x : sgnT (E:=RE) x = sgR x.
Proof. unfold sgnT, sgR. cbn. destruct (Rltb_spec 0 x), (Rltb_spec x 0), (Rlt_dec 0 x), (Rlt_dec x 0); cbn; lra. Qed.
Lemma sgR_pos x : 0 < x -> sgR x = 1.
Proof. intros H. unfold sgR. destruct (Rlt_dec 0 x); lra. Qed.
Lemma sgR_neg x : x < 0 -> sgR x = -1.
Proof. intros H. unfold sgR. destruct (Rlt_dec 0 x), (Rlt_dec x 0); lra. Qed.
Lemma sgR_0 : sgR 0 = 0.
Proof. unfold sgR. destruct (Rlt_dec 0 0); lra. Qed.
Lemma sgR_cases x : (0 < x /\ sgR x = 1) \/ (x < 0 /\ sgR x = -1) \/ (x = 0 /\ sgR x = 0).
Proof. destruct (Rtotal_order x 0) as [H|[->|H]]; [right; left|right; right|left]; split; auto; [apply sgR_neg|apply sgR_0|apply sgR_pos]; auto. Qed.
Ltac eqR := match goal with |- @eq _ ?x ?y => change (@eq R x y) end.
Ltac ff := eqR; field.
Lemma sq_sqrt x : 0 <= x -> sqrt x * sqrt x = x.
Proof. apply sqrt_sqrt. Qed.
Lemma abs_sq x : Rabs x * Rabs x = x * x.
Proof. rewrite <- Rabs_mult. apply Rabs_right. nra. Qed.

(** ** Division *)
Lemma ladiv1_run a b c d p q : c <> 0 -> ladiv1 (E:=RE) a b c d = (p, q) -> p = (a * c + b * d) / (c * c + d * d) /\ q = (b * c - a * d) / (c * c + d * d).
Proof.
  intros Hc. assert (Hn : c * c + d * d <> 0) by nra. assert (Hr : c + d * (d / c) <> 0).
  { replace (c + d * (d / c)) with ((c * c + d * d) / c) by (field; auto). intros K. apply Hn. apply (Rmult_eq_reg_r (/ c)); [|apply Rinv_neq_0_compat; auto]. unfold Rdiv in K. lra. }
  unfold ladiv1, ladiv2. cbn. intros K. injection K as <- <-.
  destruct (Reqb_spec (d / c) 0) as [D0|D0]; cbn.
  - assert (d = 0). { apply (Rmult_eq_reg_r (/ c)); [unfold Rdiv in D0; lra|apply Rinv_neq_0_compat; auto]. } subst d. split; field; auto.
  - split; match goal with |- context[Reqb ?x 0] => destruct (Reqb_spec x 0) end; cbn; field; auto.
Qed.
Lemma ladiv_fin (a b c d aa bb cc dd s al be' : R) : c <> 0 -> d <> 0 -> al <> 0 -> be' <> 0 -> aa = a * al -> bb = b * al -> cc = c * be' -> dd = d * be' -> s = be' / al ->
  (let '(p, q) := if leb (E:=RE) (Rabs d) (Rabs c) then ladiv1 (E:=RE) aa bb cc dd else let '(p, q) := ladiv1 (E:=RE) bb aa dd cc in (p, - q) in
   if negb (Reqb s 1) then (p * s, q * s) else (p, q)) = ((a * c + b * d) / (c * c + d * d), (b * c - a * d) / (c * c + d * d)).
Proof.
  intros Hc Hd Ha Hb -> -> -> -> ->. assert (Hn : c * c + d * d <> 0) by nra.
  assert (Hn1 : c * be' * (c * be') + d * be' * (d * be') <> 0).
  { replace (c * be' * (c * be') + d * be' * (d * be')) with ((c * c + d * d) * (be' * be')) by ring. repeat apply Rmult_integral_contrapositive_currified; auto. }
  match goal with |- (let '(p, q) := ?X in _) = _ => destruct X as [p q] eqn:H end.
  assert (P : p = (a * c + b * d) / (c * c + d * d) * (al / be') /\ q = (b * c - a * d) / (c * c + d * d) * (al / be')).
  { destruct (leb (E:=RE) (Rabs d) (Rabs c)).
    - apply ladiv1_run in H; [|apply Rmult_integral_contrapositive; auto]. destruct H as [-> ->]. split; ff; auto.
    - match type of H with (let '(_, _) := ?X in _) = _ => destruct X as [p1 q1] eqn:K end. apply ladiv1_run in K; [|apply Rmult_integral_contrapositive; auto]. injection H as <- <-. destruct K as [-> ->].
      split; ff; (split; [auto|]); try (split; [auto|]); rewrite ?(Rplus_comm (d * be' * _)); auto. }
  destruct P as [-> ->]. destruct (Reqb_spec (be' / al) 1) as [E1|E1]; cbn.
  - assert (be' = al). { replace be' with (be' / al * al) by (field; auto). rewrite E1. ring. } subst. f_equal; ff; auto.
  - f_equal; ff; auto.
Qed.
Lemma ladiv_run ov safmin u (a b c d : R) : u <> 0 -> c <> 0 \/ d <> 0 ->
  ladiv (E:=RE) ov safmin u a b c d = ((a * c + b * d) / (c * c + d * d), (b * c - a * d) / (c * c + d * d)).
Proof.
  intros Hu Hcd. unfold ladiv. cbn [eqb RE zero]. destruct (Reqb_spec d 0) as [->|Hd]; [cbn; f_equal; field; lra|].
  destruct (Reqb_spec c 0) as [->|Hc]; [cbn; f_equal; field; lra|]. clear Hcd.
  set (be := @div RE (two (E:=RE)) (@mul RE u u)). assert (Hbe : be <> 0). { unfold be, two. cbn. apply Rmult_integral_contrapositive_currified; [lra|]. apply Rinv_neq_0_compat. nra. }
  assert (H2 : (1 / (1 + 1) : R) <> 0) by lra. cbv zeta. clearbody be.
  destruct (leb (E:=RE) _ (maxT (E:=RE) (@absv RE a) (@absv RE b))) eqn:E1; destruct (leb (E:=RE) _ (maxT (E:=RE) (@absv RE c) (@absv RE d))) eqn:E2;
  destruct (leb (E:=RE) (maxT (E:=RE) (@absv RE a) (@absv RE b)) _) eqn:E3; destruct (leb (E:=RE) (maxT (E:=RE) (@absv RE c) (@absv RE d)) _) eqn:E4; cbv iota beta; clear E1 E2 E3 E4.
  Ltac go a b c d al be' := apply (ladiv_fin a b c d _ _ _ _ _ al be'); [auto|auto|repeat apply Rmult_integral_contrapositive_currified; lra|repeat apply Rmult_integral_contrapositive_currified; lra|
    unfold halfT, two; cbn; ff; auto; fail|unfold halfT, two; cbn; ff; auto; fail|unfold halfT, two; cbn; ff; auto; fail|unfold halfT, two; cbn; ff; auto; fail|unfold halfT, two; cbn; ff; auto; fail].
  all: first [go a b c d 1 1|go a b c d (1/2) 1|go a b c d 1 (1/2)|go a b c d (1/2) (1/2)|go a b c d be 1|go a b c d (1/2*be) 1|go a b c d be (1/2)|go a b c d (1/2*be) (1/2)
    |go a b c d 1 be|go a b c d (1/2) be|go a b c d 1 (1/2*be)|go a b c d (1/2) (1/2*be)|go a b c d be be|go a b c d (1/2*be) be|go a b c d be (1/2*be)|go a b c d (1/2*be) (1/2*be)].
Qed.

(** ** Singular values *)
Ltac sq0 := repeat apply Rplus_le_le_0_compat; try lra; apply Rle_0_sqr.
Lemma sv_alg mx mn g S D k : 0 < mx -> 0 <= S -> 0 <= D -> 0 < S + D -> S * S - D * D = 4 * mn * mx / (k * k) -> 0 < k -> S * S + D * D = 2 * (mx * mx + mn * mn + g * g) / (k * k) ->
  2 * mn * mx / k / (S + D) * (k * (S + D) / 2) = mn * mx /\ 2 * mn * mx / k / (S + D) = k * (S - D) / 2 /\ (k * (S - D) / 2) * (k * (S - D) / 2) + (k * (S + D) / 2) * (k * (S + D) / 2) = mx * mx + mn * mn + g * g.
Proof.
  intros Hx HS HD HSD H1 Hk H2. split; [field; lra|]. split.
  - assert (2 * mn * mx / k = k * (S * S - D * D) / 2) by (rewrite H1; field; lra). rewrite H. field. lra.
  - replace (k * (S - D) / 2 * (k * (S - D) / 2) + k * (S + D) / 2 * (k * (S + D) / 2)) with (k * k * (S * S + D * D) / 2) by field. rewrite H2. field. lra.
Qed.
Lemma sing22_mx f g h smin smax : 0 <= smin <= smax -> smin * smin + smax * smax = Rmax (Rabs f) (Rabs h) * Rmax (Rabs f) (Rabs h) + Rmin (Rabs f) (Rabs h) * Rmin (Rabs f) (Rabs h) + Rabs g * Rabs g ->
  smin * smax = Rmin (Rabs f) (Rabs h) * Rmax (Rabs f) (Rabs h) -> sing22 f g h smin smax.
Proof.
  intros H1 H2 H3. split; auto. rewrite Rabs_mult, H2, H3. pose proof (abs_sq f). pose proof (abs_sq g). pose proof (abs_sq h).
  destruct (Rle_dec (Rabs f) (Rabs h)); [rewrite Rmin_left, Rmax_right by lra|rewrite Rmin_right, Rmax_left by lra]; split; lra.
Qed.
Lemma sqrt_pos_lt x : 0 < x -> 0 < sqrt x.
Proof. apply sqrt_lt_R0. Qed.
Lemma singularvalues22_run (f g h : R) : let r := singularvalues22 (E:=RE) f g h in sing22 f g h (fst r) (snd r).
Proof.
  unfold singularvalues22. cbv zeta. rewrite !maxR, !minR. cbn [absv RE eqb zero ltb]. set (mx := Rmax (Rabs f) (Rabs h)). set (mn := Rmin (Rabs f) (Rabs h)).
  assert (Hm : 0 <= mn <= mx). { pose proof (Rabs_pos f). pose proof (Rabs_pos h). unfold mn, mx. destruct (Rle_dec (Rabs f) (Rabs h)); [rewrite Rmin_left, Rmax_right by lra|rewrite Rmin_right, Rmax_left by lra]; lra. }
  pose proof (Rabs_pos g) as Hg. set (ga := Rabs g) in *.
  destruct (Reqb_spec mn 0) as [E0|E0].
  { cbn [fst snd]. destruct (Reqb_spec mx 0) as [E1|E1].
    - apply sing22_mx; fold mn mx ga; nra.
    - rewrite ?maxR, ?minR. cbn. set (M := Rmax mx ga). set (m := Rmin mx ga).
      assert (HM : 0 < M /\ M * M + m * m = mx * mx + ga * ga). { unfold M, m. destruct (Rle_dec mx ga); [rewrite Rmin_left, Rmax_right by lra|rewrite Rmin_right, Rmax_left by lra]; lra. }
      assert (Hs : sqrt (1 + m / M * (m / M)) * sqrt (1 + m / M * (m / M)) = 1 + m / M * (m / M)) by (apply sq_sqrt; nra).
      pose proof (sqrt_pos (1 + m / M * (m / M))). apply sing22_mx; fold mn mx ga; rewrite ?E0; [nra| |ring].
      set (q := sqrt _) in *. transitivity (M * M * (q * q)); [ring|]. rewrite Hs. transitivity (M * M + m * m); [field; lra|lra]. }
  destruct (Rltb_spec ga mx) as [K|K].
  - cbn. set (S := sqrt _). set (D := sqrt _).
    assert (HS : S * S = (1 + mn / mx) * (1 + mn / mx) + ga / mx * (ga / mx)) by (apply sq_sqrt; sq0).
    assert (HD : D * D = (mx - mn) / mx * ((mx - mn) / mx) + ga / mx * (ga / mx)) by (apply sq_sqrt; sq0).
    assert (S0 : 0 < S). { apply sqrt_pos_lt. assert (0 <= mn / mx) by (apply Rmult_le_pos; [lra|left; apply Rinv_0_lt_compat; lra]). nra. }
    pose proof (sqrt_pos ((mx - mn) / mx * ((mx - mn) / mx) + ga / mx * (ga / mx))) as D0. fold D in D0.
    destruct (sv_alg mx mn ga S D mx) as (A1 & A2 & A3); [lra..|rewrite HS, HD; field; lra|lra|rewrite HS, HD; field; lra|].
    assert (B1 : mn * ((1 + 1) / (S + D)) = 2 * mn * mx / mx / (S + D)) by (field; lra).
    assert (B2 : mx / ((1 + 1) / (S + D)) = mx * (S + D) / 2) by (field; lra).
    apply sing22_mx; fold mn mx ga; rewrite ?B1, ?B2; [|rewrite A2; exact A3|exact A1]. rewrite A2. split; [|nra].
    rewrite <- A2. apply Rmult_le_pos; [|left; apply Rinv_0_lt_compat; lra]. replace (2 * mn * mx / mx) with (2 * mn) by (field; lra). lra.
  - cbn. destruct (Reqb_spec (mx / ga) 0) as [E1|E1].
    { exfalso. assert (0 < mx / ga) by (apply Rmult_lt_0_compat; [lra|apply Rinv_0_lt_compat; lra]). lra. }
    cbn. set (S := sqrt _). set (D := sqrt _).
    assert (HS : S * S = 1 + (1 + mn / mx) * (mx / ga) * ((1 + mn / mx) * (mx / ga))) by (apply sq_sqrt; sq0).
    assert (HD : D * D = 1 + (mx - mn) / mx * (mx / ga) * ((mx - mn) / mx * (mx / ga))) by (apply sq_sqrt; sq0).
    assert (S0 : 0 < S) by (apply sqrt_pos_lt; match goal with |- 0 < 1 + ?x * ?x => pose proof (Rle_0_sqr x) as K1; unfold Rsqr in K1; lra end).
    assert (D0 : 0 < D) by (apply sqrt_pos_lt; match goal with |- 0 < 1 + ?x * ?x => pose proof (Rle_0_sqr x) as K1; unfold Rsqr in K1; lra end).
    destruct (sv_alg mx mn ga S D ga) as (A1 & A2 & A3); [lra..|rewrite HS, HD; field; lra|lra|rewrite HS, HD; field; lra|].
    assert (B1 : mn * (1 / (S + D)) * (mx / ga) + mn * (1 / (S + D)) * (mx / ga) = 2 * mn * mx / ga / (S + D)) by (field; lra).
    assert (B2 : ga / (1 / (S + D) + 1 / (S + D)) = ga * (S + D) / 2) by (field; lra).
    apply sing22_mx; fold mn mx ga; rewrite ?B1, ?B2; [|rewrite A2; exact A3|exact A1]. rewrite A2. split; [|nra].
    rewrite <- A2. apply Rmult_le_pos; [|left; apply Rinv_0_lt_compat; lra]. apply Rmult_le_pos; [nra|left; apply Rinv_0_lt_compat; lra].
Qed.

(** ** The eigenvalues of a rank-one modification *)
Lemma rank1_run (d0 d1 z0 z1 rho lam p q : R) : z0 <> 0 -> z1 <> 0 -> p = d0 - lam -> q = d1 - lam -> p <> 0 -> q <> 0 -> p * q + rho * (z0 * z0 * q + z1 * z1 * p) = 0 ->
  let x := z0 / p in let y := z1 / q in let N := sqrt (x * x + y * y) in rank1_eig d0 d1 z0 z1 rho (x / N) (y / N) lam.
Proof.
  intros Hz0 Hz1 Hp Hq P0 Q0 HS x y N. assert (HN : 0 < x * x + y * y).
  { assert (x <> 0). { unfold x, Rdiv. apply Rmult_integral_contrapositive_currified; auto. apply Rinv_neq_0_compat; auto. } nra. }
  assert (N0 : 0 < N) by (apply sqrt_lt_R0; auto). assert (NN : N * N = x * x + y * y) by (apply sqrt_sqrt; lra).
  assert (X : x * p = z0) by (unfold x; field; auto). assert (Y : y * q = z1) by (unfold y; field; auto).
  assert (W : 1 + rho * (z0 * x + z1 * y) = 0).
  { apply (Rmult_eq_reg_r (p * q)); [|apply Rmult_integral_contrapositive_currified; auto]. rewrite Rmult_0_l, <- HS. transitivity (p * q + rho * (z0 * (x * p) * q + z1 * (y * q) * p)); [ring|]. rewrite X, Y. ring. }
  split; [|split].
  - transitivity ((x * x + y * y) / (N * N)); [field; lra|]. rewrite <- NN. field. lra.
  - assert (K : d0 * x + z0 * (rho * (z0 * x + z1 * y)) = lam * x). { replace (rho * (z0 * x + z1 * y)) with (-1) by lra. replace d0 with (p + lam) by lra. lra. }
    transitivity ((d0 * x + z0 * (rho * (z0 * x + z1 * y))) / N); [field; lra|]. rewrite K. field. lra.
  - assert (K : d1 * y + z1 * (rho * (z0 * x + z1 * y)) = lam * y). { replace (rho * (z0 * x + z1 * y)) with (-1) by lra. replace d1 with (q + lam) by lra. lra. }
    transitivity ((d1 * y + z1 * (rho * (z0 * x + z1 * y))) / N); [field; lra|]. rewrite K. field. lra.
Qed.
Lemma div_opp (a b : R) : - a / - b = a / b.
Proof. destruct (Req_dec b 0) as [->|Hb]; [rewrite Ropp_0; unfold Rdiv; rewrite Rinv_0; ring|field; lra]. Qed.
Lemma laed5_run (i : nat) (d0 d1 z0 z1 rho : R) : d0 < d1 -> 0 < rho -> z0 <> 0 -> z1 <> 0 -> (i = 0 \/ i = 1)%nat ->
  let '(x, y, lam) := laed5 (E:=RE) i d0 d1 z0 z1 rho in
  rank1_eig d0 d1 z0 z1 rho x y lam /\ (i = 0%nat -> d0 < lam < d1) /\ (i = 1%nat -> d1 < lam).
Proof.
  intros Hd Hr Hz0 Hz1 Hi. unfold laed5. cbv zeta. cbn [add sub mul div opp absv sqrtv RE ltb zero one].
  set (del := d1 - d0). set (r0 := rho * z0 * z0). set (r1 := rho * z1 * z1).
  assert (Hdel : 0 < del) by (unfold del; lra).
  assert (P0 : 0 < r0). { unfold r0. assert (0 < z0 * z0) by nra. nra. } assert (P1 : 0 < r1). { unfold r1. assert (0 < z1 * z1) by nra. nra. }
  change (@two RE) with (1 + 1)%R. change (@fourT RE) with (1 + 1 + (1 + 1))%R.
  (* the case lam = d1 + tau *)
  set (b := - del + rho * (z0 * z0 + z1 * z1)). set (c := r1 * del). set (q := sqrt (b * b + (1 + 1 + (1 + 1)) * c)).
  assert (Eb : b = - del + r0 + r1) by (unfold b, r0, r1; ring). assert (Hc : 0 < c) by (unfold c; nra).
  assert (Hqq : q * q = b * b + 4 * c) by (unfold q; rewrite sqrt_sqrt; nra). assert (Hq0 : 0 <= q) by apply sqrt_pos.
  assert (Hqb : Rabs b < q). { apply Rsqr_incrst_0; auto; [|apply Rabs_pos]. unfold Rsqr. rewrite abs_sq. lra. }
  assert (Hbq : - q < b < q) by (split; [pose proof (Rle_abs (- b)); rewrite Rabs_Ropp in *; lra|pose proof (Rle_abs b); lra]).
  assert (D1 : forall tau, tau * tau - b * tau - c = 0 -> tau <> 0 -> del + tau <> 0 ->
     rank1_eig d0 d1 z0 z1 rho ((- z0) / (del + tau) / sqrt ((- z0) / (del + tau) * ((- z0) / (del + tau)) + (- z1) / tau * ((- z1) / tau))) ((- z1) / tau / sqrt ((- z0) / (del + tau) * ((- z0) / (del + tau)) + (- z1) / tau * ((- z1) / tau))) (d1 + tau)).
  { intros tau Ht T0 T1. assert (E1 : - z0 / (del + tau) = z0 / (- (del + tau))) by (field; auto). assert (E2 : - z1 / tau = z1 / (- tau)) by (field; auto). rewrite E1, E2.
    apply (rank1_run d0 d1 z0 z1 rho (d1 + tau)); auto; unfold del in *; try lra.
    rewrite Eb in Ht. unfold r0, r1, c in Ht. unfold r1 in Ht. nra. }
  destruct Hi as [->| ->]; cbn [Nat.eqb].
  - destruct (Rltb_spec 0 (1 + (1 + 1) * rho * (z1 * z1 - z0 * z0) / del)) as [Hw|Hw].
    + set (b' := del + rho * (z0 * z0 + z1 * z1)). set (c' := r0 * del).
      assert (Eb' : b' = del + r0 + r1) by (unfold b', r0, r1; ring). assert (Hc' : 0 < c') by (unfold c'; nra).
      assert (Hdisc : b' * b' - 4 * c' = (del - r0 + r1) * (del - r0 + r1) + 4 * (r0 * r1)) by (rewrite Eb'; unfold c'; ring).
      assert (H01 : 0 < r0 * r1) by nra.
      assert (Hpos : 0 < b' * b' - (1 + 1 + (1 + 1)) * c'). { replace (1 + 1 + (1 + 1)) with 4 by ring. rewrite Hdisc. nra. }
      rewrite (Rabs_right (b' * b' - _)) by lra. set (q' := sqrt (b' * b' - (1 + 1 + (1 + 1)) * c')).
      assert (Hq' : q' * q' = b' * b' - 4 * c') by (unfold q'; rewrite sqrt_sqrt; lra). assert (Q0 : 0 < q') by (apply sqrt_lt_R0; auto).
      assert (B0 : 0 < b') by lra. set (tau := (1 + 1) * c' / (b' + q')).
      assert (Et : tau = (b' - q') / 2). { unfold tau. apply (Rmult_eq_reg_r (2 * (b' + q'))); [|lra]. transitivity (4 * c'); [field; lra|]. transitivity (b' * b' - q' * q'); [lra|field]. }
      assert (Tq : tau * tau - b' * tau + c' = 0). { rewrite Et. replace ((b' - q') / 2 * ((b' - q') / 2) - b' * ((b' - q') / 2) + c') with ((q' * q' - (b' * b' - 4 * c')) / 4) by field. rewrite Hq'. field. }
      assert (T0 : 0 < tau). { unfold tau, Rdiv. apply Rmult_lt_0_compat; [lra|apply Rinv_0_lt_compat; lra]. }
      assert (T1 : tau < del). { destruct (Rlt_le_dec tau del) as [|K]; auto. exfalso. (* (tau - del)(tau - r0 - r1) = - ... *)
        assert (K1 : (tau - del) * (tau - r0 - r1) = r1 * del) by (rewrite Eb' in Tq; unfold c' in Tq; nra).
        assert (K2 : 2 * tau <= b') by (rewrite Et; lra). assert (K3 : 0 < r1 * del) by nra. rewrite Eb' in K2. nra. }
      split; [|split; [intros _; unfold del in *; lra|discriminate]].
      assert (E1 : - z0 / tau = z0 / (- tau)) by (field; lra). rewrite E1.
      apply (rank1_run d0 d1 z0 z1 rho (d0 + tau)); auto; unfold del in *; try lra. rewrite Eb' in Tq. unfold c', r0, r1 in Tq. nra.
    + assert (HT : forall tau, tau = (b - q) / 2 -> tau * tau - b * tau - c = 0 /\ - del < tau < 0).
      { intros tau Et. assert (Tq : tau * tau - b * tau - c = 0). { rewrite Et. replace ((b - q) / 2 * ((b - q) / 2) - b * ((b - q) / 2) - c) with ((q * q - (b * b + 4 * c)) / 4) by field. rewrite Hqq. field. }
        split; auto. split; [|lra]. destruct (Rlt_le_dec (- del) tau) as [|K]; auto. exfalso.
        assert (K1 : (tau + del) * (tau - r0 - r1) = - r0 * del) by (rewrite Eb in Tq; unfold c in Tq; nra).
        assert (0 < r0 * del) by nra. nra. }
      match goal with |- context[?t] => match t with (if Rltb 0 b then _ else _) => set (tau := t) end end.
      assert (Et : tau = (b - q) / 2).
      { unfold tau. destruct (Rltb_spec 0 b) as [K|K]; [|ff]. eqR. apply (Rmult_eq_reg_r (2 * (b + q))); [|lra]. transitivity (- (4 * c)); [field; lra|]. transitivity (b * b - q * q); [lra|field]. }
      destruct (HT _ Et) as [H1 H2]. clearbody tau. split; [apply D1; auto; lra|]. split; [intros _; unfold del in *; lra|discriminate].
  - match goal with |- context[?t] => match t with (if Rltb 0 b then _ else _) => set (tau := t) end end.
    assert (Et : tau = (b + q) / 2).
    { unfold tau. destruct (Rltb_spec 0 b) as [K|K]; [ff|]. eqR. apply (Rmult_eq_reg_r (2 * (- b + q))); [|lra]. transitivity (4 * c); [field; lra|]. transitivity (q * q - b * b); [lra|field]. }
    clearbody tau. assert (T0 : 0 < tau) by lra.
    split; [apply D1|split; [discriminate|intros _; unfold del in *; lra]]; [|lra|lra].
    rewrite Et. replace ((b + q) / 2 * ((b + q) / 2) - b * ((b + q) / 2) - c) with ((q * q - (b * b + 4 * c)) / 4) by field. rewrite Hqq. field.
Qed.

(** ** The singular value decomposition *)
Lemma sgR_abs x : Rabs x * sgR x = x.
Proof. destruct (sgR_cases x) as [[H ->]|[[H ->]|[-> ->]]]; [rewrite Rabs_right by lra|rewrite Rabs_left by lra|rewrite Rabs_R0]; lra. Qed.
Lemma sgR_mul x y : sgR (x * y) = sgR x * sgR y.
Proof.
  destruct (sgR_cases x) as [[H ->]|[[H ->]|[-> ->]]], (sgR_cases y) as [[K ->]|[[K ->]|[-> ->]]]; rewrite ?Rmult_0_l, ?Rmult_0_r, ?sgR_0; auto;
  [rewrite sgR_pos by nra|rewrite sgR_neg by nra|rewrite sgR_neg by nra|rewrite sgR_pos by nra]; lra.
Qed.
Lemma sgR_idem x : sgR (sgR x) = sgR x.
Proof. destruct (sgR_cases x) as [[H ->]|[[H ->]|[-> ->]]]; [apply sgR_pos|apply sgR_neg|apply sgR_0]; lra. Qed.
Lemma sgR_sq x : x <> 0 -> sgR x * sgR x = 1.
Proof. destruct (sgR_cases x) as [[H ->]|[[H ->]|[-> ->]]]; lra. Qed.
Lemma svd_eqs_swap F G H smin smax cl sl cr sr e1 e2 : svd_eqs F G H smin smax cl sl cr sr e1 e2 -> svd_eqs H G F smin smax sr cr sl cl e1 e2.
Proof.
  intros (H1 & H2 & H3 & H4 & H5 & H6). repeat apply Logic.conj.
  - replace (sr * sr + cr * cr - 1) with (cr * cr + sr * sr - 1) by ring; auto.
  - replace (sl * sl + cl * cl - 1) with (cl * cl + sl * sl - 1) by ring; auto.
  - replace (sr * (H * sl + G * cl) + cr * F * cl - smax) with (cl * (F * cr + G * sr) + sl * H * sr - smax) by ring; auto.
  - rewrite <- Rabs_Ropp. replace (- (sr * (- H * cl + G * sl) + cr * F * sl)) with (- sl * (F * cr + G * sr) + cl * H * sr) by ring; auto.
  - rewrite <- Rabs_Ropp. replace (- (- cr * (H * sl + G * cl) + sr * F * cl)) with (cl * (- F * sr + G * cr) + sl * H * cr) by ring; auto.
  - replace (- cr * (- H * cl + G * sl) + sr * F * sl - smin) with (- sl * (- F * sr + G * cr) + cl * H * cr - smin) by ring; auto.
Qed.
Lemma abs_0 x : x = 0 -> Rabs x <= 0.
Proof. intros ->. rewrite Rabs_R0. lra. Qed.
Lemma svd_alg F k m a tau c : 0 < a -> m <> 0 -> m * tau = a * a - 1 -> a * a * (a * a - 1 - k * k - m * m) + k * k = 0 -> c * c * (1 + tau * tau) = 1 ->
  svd_eqs F (m * F) (k * F) (F * k / a) (F * a) (a * c) (k * (tau * c) / a) c (tau * c) 0 0.
Proof.
  intros Ha Hm Ht Hc Hn.
  assert (M2 : m * m <> 0) by nra.
  assert (K : a * a + k * k * tau * tau / (a * a) = 1 + tau * tau).
  { apply (Rmult_eq_reg_r (a * a * (m * m))); [|apply Rmult_integral_contrapositive_currified; nra].
    transitivity (a * a * (a * a) * (m * m) + k * k * ((m * tau) * (m * tau))); [field; lra|].
    transitivity (a * a * (m * m) + a * a * ((m * tau) * (m * tau))); [|field; lra]. rewrite Ht.
    assert (X : m * m * (a * a) = (a * a - k * k) * (a * a - 1)) by lra.
    transitivity (m * m * (a * a) * (a * a) + k * k * ((a * a - 1) * (a * a - 1))); [ring|]. transitivity (m * m * (a * a) + a * a * ((a * a - 1) * (a * a - 1))); [|ring]. rewrite X. ring. }
  repeat apply Logic.conj; apply abs_0.
  - transitivity (c * c * (a * a + k * k * tau * tau / (a * a)) - 1); [field; lra|]. rewrite K, Hn. ring.
  - transitivity (c * c * (1 + tau * tau) - 1); [ring|]. rewrite Hn. ring.
  - transitivity (F * a * (c * c * (1 + m * tau + k * k * tau * tau / (a * a)) - 1)); [field; lra|]. replace (1 + m * tau + _) with (a * a + k * k * tau * tau / (a * a)) by (rewrite Ht; ring). rewrite K, Hn. ring.
  - assert (X : a * a * (m - tau) + k * k * tau = 0).
    { apply (Rmult_eq_reg_r m); auto. transitivity (a * a * (m * m) + (k * k - a * a) * (m * tau)); [ring|]. rewrite Ht. lra. }
    transitivity (F * (c * c) / a * (a * a * (m - tau) + k * k * tau)); [field; lra|]. rewrite X. ring.
  - transitivity (F * (k * tau * (c * c) / a) * (a * a - 1 - m * tau)); [field; lra|]. rewrite Ht. ring.
  - transitivity (F * k / a * (c * c * (a * a - m * tau + tau * tau) - 1)); [field; lra|]. replace (a * a - m * tau + tau * tau) with (1 + tau * tau) by (rewrite Ht; ring). rewrite Hn. ring.
Qed.
Lemma svd_core (eps F G H : R) : Rabs H <= Rabs F -> F <> 0 -> G <> 0 -> ~ (Rabs F < Rabs G /\ Rabs F / Rabs G < eps) ->
  exists a cl sl cr sr, svd22_core (E:=RE) eps F (Rabs F) H (Rabs H) G (Rabs G) = (Rabs H / a, Rabs F * a, (cl, sl, cr, sr), Rltb (Rabs F) (Rabs G)) /\
    1 <= a /\ 0 < cl /\ 0 < cr /\ sgR sr = sgR (G * F) /\ svd_eqs F G H (H / a) (F * a) cl sl cr sr 0 0.
Proof.
  intros HF F0 G0 Hsm. unfold svd22_core. cbn [eqb RE zero ltb].
  assert (Fa : 0 < Rabs F) by (apply Rabs_pos_lt; auto). assert (Ga : 0 < Rabs G) by (apply Rabs_pos_lt; auto). pose proof (Rabs_pos H) as Ha.
  destruct (Reqb_spec (Rabs G) 0) as [K|_]; [lra|].
  assert (EB : (Rltb (Rabs F) (Rabs G) && Rltb (@div RE (Rabs F) (Rabs G)) eps)%bool = false).
  { destruct (Rltb_spec (Rabs F) (Rabs G)); auto. cbn. destruct (Rltb_spec (Rabs F / Rabs G) eps); auto. exfalso; auto. }
  rewrite EB. clear EB. cbn [add sub mul div opp absv sqrtv RE ltb zero one]. unfold halfT, fourT, two. cbn [add sub mul div opp absv sqrtv RE ltb zero one].
  set (kk := Rabs H / Rabs F). assert (Kk : 0 <= kk <= 1).
  { unfold kk. split; [apply Rmult_le_pos; [lra|left; apply Rinv_0_lt_compat; lra]|]. apply (Rmult_le_reg_r (Rabs F)); auto. unfold Rdiv. rewrite Rmult_assoc, Rinv_l; lra. }
  match goal with |- context[?t] => match t with (if Reqb _ (Rabs F) then _ else _) => set (l := t) end end.
  assert (El : @eq R l (1 - kk)). { unfold l, kk. destruct (Reqb_spec (Rabs F - Rabs H) (Rabs F)) as [K|K]; [|field; lra]. assert (Rabs H = 0) by lra. rewrite H0. field. lra. }
  clearbody l. change (@T RE) with R in l. set (m := G / F). assert (M0 : m <> 0). { unfold m, Rdiv. apply Rmult_integral_contrapositive_currified; auto. apply Rinv_neq_0_compat; auto. }
  assert (MM : 0 < m * m) by nra.
  match goal with |- context[?t] => match t with (if Reqb l 0 then Rabs m else _) => set (r := t) end end.
  assert (Er : r * r = l * l + m * m /\ 0 <= r).
  { unfold r. destruct (Reqb_spec l 0) as [K|K]; [split; [rewrite abs_sq, K; ring|apply Rabs_pos]|split; [apply sq_sqrt; nra|apply sqrt_pos]]. }
  clearbody r. change (@T RE) with R in r. destruct Er as [Er Hr0]. set (s := sqrt ((1 + 1 - l) * (1 + 1 - l) + m * m)). assert (Es : s * s = (1 + kk) * (1 + kk) + m * m) by (unfold s; rewrite sq_sqrt; rewrite ?El; nra).
  assert (S0 : 0 <= s) by apply sqrt_pos. clearbody s.
  assert (Hs : 1 + kk <= s) by nra. assert (Hr : 1 - kk < r) by (rewrite El in Er; nra). rewrite El in *. clear El l.
  destruct (Reqb_spec (m * m) 0) as [K|_]; [lra|].
  set (a := 1 / (1 + 1) * (s + r)). assert (Ea : @eq R a ((s + r) / 2)) by (unfold a; field). clearbody a.
  assert (A1 : 1 < a) by lra.
  set (t := (m / (s + (1 + 1 - (1 - kk))) + m / (r + (1 - kk))) * (1 + a)).
  assert (Et : m * t = 2 * (a * a - 1)).
  { assert (X1 : m * (m / (s + (1 + 1 - (1 - kk)))) = s - (1 + kk)). { transitivity ((m * m) / (s + (1 + kk))); [field; lra|]. replace (m * m) with ((s - (1 + kk)) * (s + (1 + kk))) by (rewrite <- (Rplus_0_r (m * m)); nra). field. lra. }
    assert (X2 : m * (m / (r + (1 - kk))) = r - (1 - kk)). { transitivity ((m * m) / (r + (1 - kk))); [field; lra|]. replace (m * m) with ((r - (1 - kk)) * (r + (1 - kk))) by nra. field. lra. }
    unfold t. transitivity ((m * (m / (s + (1 + 1 - (1 - kk)))) + m * (m / (r + (1 - kk)))) * (1 + a)); [ring|]. rewrite X1, X2. replace (s - (1 + kk) + (r - (1 - kk))) with (2 * (a - 1)) by lra. ring. }
  clearbody t.
  set (L := sqrt (t * t + (1 + 1 + (1 + 1)))). assert (EL : L * L = t * t + 4) by (unfold L; rewrite sq_sqrt; nra). assert (L0 : 0 < L) by (apply sqrt_lt_R0; nra). clearbody L.
  set (k := H / F). assert (Hk : k * k = kk * kk). { unfold k, kk. transitivity ((H * H) / (F * F)); [field; auto|]. rewrite <- (abs_sq H), <- (abs_sq F). field. lra. }
  pose proof (svd_alg F k m a (t / 2) (2 / L)) as SA.
  assert (G1 : 0 < a) by lra. assert (G2 : m * (t / 2) = a * a - 1) by lra.
  assert (G4 : 2 / L * (2 / L) * (1 + t / 2 * (t / 2)) = 1). { transitivity ((t * t + 4) / (L * L)); [field; lra|]. rewrite EL. field. nra. }
  assert (G3 : a * a * (a * a - 1 - k * k - m * m) + k * k = 0).
  { rewrite Hk. assert (Y : 2 * a * (s - r) = 4 * kk). { replace (2 * a) with (s + r) by lra. transitivity (s * s - r * r); [ring|]. rewrite Es, Er. ring. } assert (Y2 : s - r = 2 * a - 2 * r) by lra.
    rewrite Y2 in Y. assert (Y3 : a * (a - r) = kk) by lra. assert (Y4 : s = 2 * a - r) by lra.
    assert (Y5 : a * a + (a - r) * (a - r) = 1 + kk * kk + m * m). { assert (Z : s * s + r * r = 2 + 2 * (kk * kk) + 2 * (m * m)) by lra. rewrite Y4 in Z. lra. }
    transitivity (a * a * (a * a) - a * a * (1 + kk * kk + m * m) + kk * kk); [ring|]. rewrite <- Y5, <- Y3. ring. }
  specialize (SA G1 M0 G2 G3 G4).
  assert (P1 : 1 + t / 2 * m = a * a) by lra.
  exists a, (((1 + 1) / L + t / L * m) / a), (k * (t / L) / a), ((1 + 1) / L), (t / L).
  assert (Q1 : ((1 + 1) / L + t / L * m) / a = a * (2 / L)). { transitivity (2 / L * (1 + t / 2 * m) / a); [field; lra|]. rewrite P1. field. lra. }
  assert (Q2 : t / L = t / 2 * (2 / L)) by (field; lra).
  assert (I0 : 0 < 2 / L) by (apply Rmult_lt_0_compat; [lra|apply Rinv_0_lt_compat; lra]).
  split; [reflexivity|]. split; [lra|]. split; [rewrite Q1; apply Rmult_lt_0_compat; lra|]. split; [replace ((1 + 1) / L) with (2 / L) by (field; lra); auto|]. split.
  - assert (Et2 : t * m > 0) by nra. replace (G * F) with (m * (F * F)) by (unfold m; field; auto). rewrite (sgR_mul m). rewrite (sgR_pos (F * F)) by nra.
    unfold Rdiv. rewrite sgR_mul, (sgR_pos (/ L)) by (apply Rinv_0_lt_compat; auto).
    destruct (sgR_cases t) as [[Q ->]|[[Q ->]|[Q ->]]], (sgR_cases m) as [[Q' ->]|[[Q' ->]|[Q' ->]]]; nra.
  - rewrite Q1, Q2. replace ((1 + 1) / L) with (2 / L) by (field; lra). replace G with (m * F) by (unfold m; field; auto). replace H with (k * F) by (unfold k; field; auto). replace (k * F / a) with (F * k / a) by (field; lra). exact SA.
Qed.
