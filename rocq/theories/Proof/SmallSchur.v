(** * The Schur factorization of a 2-by-2 matrix, over the real numbers *)
From Coq Require Import Bool Arith ZArith Lia Reals Lra Psatz.
From Verif.Core Require Import Scalar Instances.
From Verif.Spec Require Import Small.
From Verif.Model Require Import Householder Sort Rot Steqr Small.
From Verif.Proof Require Import SmallProof SmallSvd Ev2Proof.
Local Open Scope R_scope.

Lemma schur_id a b c d : schur_of a b c d a b c d 1 0.
Proof. repeat split; ring. Qed.
Lemma schur_conj a b c d cs sn : cs * cs + sn * sn = 1 ->
  schur_of a b c d ((a * cs + b * sn) * cs + (c * cs + d * sn) * sn) ((- a * sn + b * cs) * cs + (- c * sn + d * cs) * sn)
    (- (a * cs + b * sn) * sn + (c * cs + d * sn) * cs) (- (- a * sn + b * cs) * sn + (- c * sn + d * cs) * cs) cs sn.
Proof.
  intros H. split; auto. assert (H2 : (cs * cs + sn * sn) * (cs * cs + sn * sn) = 1) by (rewrite H; ring).
  repeat split; [transitivity ((cs * cs + sn * sn) * (cs * cs + sn * sn) * a)|transitivity ((cs * cs + sn * sn) * (cs * cs + sn * sn) * b)|transitivity ((cs * cs + sn * sn) * (cs * cs + sn * sn) * c)|transitivity ((cs * cs + sn * sn) * (cs * cs + sn * sn) * d)];
  try (rewrite H2; ring); ring.
Qed.
Lemma schur_comp a b c d a1 b1 c1 d1 a2 b2 c2 d2 cs sn cs1 sn1 : schur_of a b c d a1 b1 c1 d1 cs sn -> schur_of a1 b1 c1 d1 a2 b2 c2 d2 cs1 sn1 ->
  schur_of a b c d a2 b2 c2 d2 (cs * cs1 - sn * sn1) (cs * sn1 + sn * cs1).
Proof.
  intros (H0 & -> & -> & -> & ->) (K0 & -> & -> & -> & ->). split; [|repeat split; ring].
  transitivity ((cs * cs + sn * sn) * (cs1 * cs1 + sn1 * sn1)); [ring|]. rewrite H0, K0. ring.
Qed.
Lemma schur_inv a b c d aa bb cc dd cs sn : schur_of a b c d aa bb cc dd cs sn -> aa + dd = a + d /\ aa * dd - bb * cc = a * d - b * c.
Proof.
  intros (H & -> & -> & -> & ->). split.
  - transitivity ((cs * cs + sn * sn) * (aa + dd)); [rewrite H; ring|ring].
  - transitivity ((cs * cs + sn * sn) * (cs * cs + sn * sn) * (aa * dd - bb * cc)); [rewrite H; ring|ring].
Qed.
Lemma schur_scale n (mn mx sigma temp : R) : mn <> 0 -> mx <> 0 -> exists t, t <> 0 /\ schur22_scale (E:=RE) n mn mx sigma temp = (t * sigma, t * temp).
Proof.
  intros H1 H2. revert sigma temp. induction n as [|n IH]; intros sigma temp; cbn [schur22_scale].
  - exists 1. split; [lra|]. f_equal; eqR; ring.
  - destruct (leb (E:=RE) mx _). { destruct (IH (sigma * mn) (temp * mn)) as (t & T0 & E). exists (t * mn). split; [apply Rmult_integral_contrapositive; auto|]. cbn [mul RE]. rewrite E. f_equal; eqR; ring. }
    destruct (leb (E:=RE) _ mn). { destruct (IH (sigma * mx) (temp * mx)) as (t & T0 & E). exists (t * mx). split; [apply Rmult_integral_contrapositive; auto|]. cbn [mul RE]. rewrite E. f_equal; eqR; ring. }
    exists 1. split; [lra|]. f_equal; eqR; ring.
Qed.
Lemma lapy2R (x y : R) : lapy2 (E:=RE) x y = sqrt (x * x + y * y).
Proof. exact (lapy2_run (E:=RE) x y). Qed.

(** the real-eigenvalue case *)
Lemma schur_real a b c d z : z <> 0 -> z * z = (a - d) * z + b * c ->
  schur_of a b c d (d + z) (b - c) 0 (d - b * c / z) (z / sqrt (c * c + z * z)) (c / sqrt (c * c + z * z)).
Proof.
  intros Z0 HZ. assert (P : 0 < c * c + z * z) by nra. set (tau := sqrt (c * c + z * z)). assert (HT : tau * tau = c * c + z * z) by (apply sqrt_sqrt; lra). assert (T0 : 0 < tau) by (apply sqrt_lt_R0; auto). clearbody tau.
  assert (HA : a = d + z - b * c / z). { apply (Rmult_eq_reg_r z); auto. transitivity (z * z - b * c + d * z); [rewrite HZ; ring|field; auto]. }
  assert (N : c * c + z * z <> 0) by lra. subst a. clear HZ.
  split; [|split; [|split; [|split]]].
  - transitivity ((c * c + z * z) / (tau * tau)); [field; lra|rewrite HT; field; auto].
  - transitivity ((z * z * (d + z) - z * c * (b - c) + c * c * (d - b * c / z)) / (tau * tau)); [rewrite HT; field; auto|field; lra].
  - transitivity ((z * (d + z) * c + (z * (b - c) - c * (d - b * c / z)) * z) / (tau * tau)); [rewrite HT; field; auto|field; lra].
  - transitivity ((c * (d + z) * z - (c * (b - c) + z * (d - b * c / z)) * c) / (tau * tau)); [rewrite HT; field; auto|field; lra].
  - transitivity ((c * (d + z) * c + (c * (b - c) + z * (d - b * c / z)) * z) / (tau * tau)); [rewrite HT; field; auto|field; lra].
Qed.
(** equal diagonal elements, off-diagonal elements of the same sign *)
Lemma schur_eqdiag t b c : 0 < b * c ->
  let p := if Rltb 0 c then sqrt (Rabs b) * sqrt (Rabs c) else - sqrt (Rabs b) * sqrt (Rabs c) in let tau := 1 / sqrt (Rabs (b + c)) in
  schur_of t b c t (t + p) (b - c) 0 (t - p) (sqrt (Rabs b) * tau) (sqrt (Rabs c) * tau).
Proof.
  intros H p tau. assert (HS : exists s, (s = 1 \/ s = -1) /\ b = s * Rabs b /\ c = s * Rabs c /\ p = s * (sqrt (Rabs b) * sqrt (Rabs c)) /\ Rabs (b + c) = Rabs b + Rabs c /\ 0 < Rabs b /\ 0 < Rabs c).
  { unfold p. destruct (Rltb_spec 0 c) as [K|K].
    - assert (0 < b) by nra. exists 1. rewrite !Rabs_right by lra. repeat split; lra.
    - assert (c <> 0) by (intros ->; lra). assert (b < 0) by nra. exists (-1). rewrite !Rabs_left by lra. repeat split; lra. }
  destruct HS as (s & Hs & Eb & Ec & Ep & ES & B0 & C0). set (x := sqrt (Rabs b)) in *. set (y := sqrt (Rabs c)) in *.
  assert (X : x * x = Rabs b) by (apply sqrt_sqrt; lra). assert (Y : y * y = Rabs c) by (apply sqrt_sqrt; lra).
  assert (HT : tau * tau = 1 / (x * x + y * y)). { unfold tau. rewrite ES, X, Y. set (q := sqrt _). assert (Q : q * q = Rabs b + Rabs c) by (apply sqrt_sqrt; lra). rewrite <- Q. assert (q <> 0) by (intros ->; lra). field. auto. }
  clearbody tau. assert (SS : s * s = 1) by (destruct Hs as [->| ->]; ring). rewrite Ep. rewrite Eb, Ec, <- X, <- Y. assert (N : x * x + y * y <> 0) by lra. clear - HT N.
  assert (U : tau * tau * (x * x + y * y) = 1) by (rewrite HT; field; auto).
  repeat split.
  - transitivity (tau * tau * (x * x + y * y)); [ring|auto].
  - transitivity ((tau * tau * (x * x + y * y)) * t); [rewrite U; ring|ring].
  - transitivity ((tau * tau * (x * x + y * y)) * (s * (x * x))); [rewrite U; ring|ring].
  - transitivity ((tau * tau * (x * x + y * y)) * (s * (y * y))); [rewrite U; ring|ring].
  - transitivity ((tau * tau * (x * x + y * y)) * t); [rewrite U; ring|ring].
Qed.
(** the rotation that makes the diagonal elements equal *)
Lemma schur_rot (sigma temp : R) : sigma <> 0 ->
  let tau := sqrt (sigma * sigma + temp * temp) in let cs := sqrt (1 / 2 * (1 + Rabs sigma / tau)) in let sn := - (1 / 2 * temp / (tau * cs)) * sgR sigma in
  0 < tau /\ tau * tau = sigma * sigma + temp * temp /\ cs * cs + sn * sn = 1 /\ cs * cs - sn * sn = Rabs sigma / tau /\ 2 * (cs * sn) = - (temp / tau) * sgR sigma.
Proof.
  intros S0 tau cs sn. assert (P : 0 < sigma * sigma + temp * temp) by nra. assert (HT : tau * tau = sigma * sigma + temp * temp) by (apply sqrt_sqrt; lra). assert (T0 : 0 < tau) by (apply sqrt_lt_R0; auto). unfold sn, cs. clear sn cs. clearbody tau.
  pose proof (Rabs_pos_lt _ S0) as A0. pose proof (abs_sq sigma) as A2. assert (Q0 : 0 < Rabs sigma / tau) by (apply Rmult_lt_0_compat; [auto|apply Rinv_0_lt_compat; auto]).
  set (cs := sqrt _). assert (C2 : cs * cs = 1 / 2 * (1 + Rabs sigma / tau)) by (apply sqrt_sqrt; lra). assert (C0 : 0 < cs) by (apply sqrt_lt_R0; lra). clearbody cs.
  set (sn := - _ * _). assert (S2 : sn * sn = 1 / 2 * (1 - Rabs sigma / tau)).
  { unfold sn. transitivity ((1 / 4 * (temp * temp) / (tau * tau * (cs * cs))) * (sgR sigma * sgR sigma)); [field; lra|]. rewrite sgR_sq, C2 by auto. replace (temp * temp) with ((tau - Rabs sigma) * (tau + Rabs sigma)) by lra. field. split; [lra|]. lra. }
  split; auto. split; auto. split; [lra|]. split; [lra|]. unfold sn. field. lra.
Qed.
Lemma bc_prod (b c : R) : Rmax (Rabs b) (Rabs c) * (Rmin (Rabs b) (Rabs c) * (sgR b * sgR c)) = b * c.
Proof.
  replace (b * c) with ((Rabs b * sgR b) * (Rabs c * sgR c)) by (rewrite !sgR_abs; auto).
  destruct (Rle_dec (Rabs b) (Rabs c)); [rewrite Rmax_right, Rmin_left by lra|rewrite Rmax_left, Rmin_right by lra]; ring.
Qed.
(** the second branch: [t] is the power of two by which sigma and temp are scaled *)
Lemma schur_cplx a b c d t : t <> 0 -> b + c <> 0 ->
  let sigma := t * (b + c) in let temp := t * (a - d) in
  let tau := sqrt (sigma * sigma + temp * temp) in let cs := sqrt (1 / 2 * (1 + Rabs sigma / tau)) in let sn := - (1 / 2 * temp / (tau * cs)) * sgR sigma in
  let a' := (a * cs + b * sn) * cs + (c * cs + d * sn) * sn in let b' := (- a * sn + b * cs) * cs + (- c * sn + d * cs) * sn in
  let c' := - (a * cs + b * sn) * sn + (c * cs + d * sn) * cs in let d' := - (- a * sn + b * cs) * sn + (- c * sn + d * cs) * cs in
  schur_of a b c d (1 / 2 * (a' + d')) b' c' (1 / 2 * (a' + d')) cs sn /\
  b' - c' = b - c /\ (b' + c') * (b' + c') = (b + c) * (b + c) + (a - d) * (a - d) /\ 0 < (b' + c') * (b + c) /\ 4 * (b' * c') = (a - d) * (a - d) + 4 * (b * c).
Proof.
  intros T0 BC sigma temp tau cs sn. assert (S0 : sigma <> 0) by (unfold sigma; apply Rmult_integral_contrapositive; auto).
  destruct (schur_rot sigma temp S0) as (P0 & P1 & P2 & P3 & P4). change (0 < tau) in P0. change (tau * tau = sigma * sigma + temp * temp) in P1. change (cs * cs + sn * sn = 1) in P2. change (cs * cs - sn * sn = Rabs sigma / tau) in P3. change (2 * (cs * sn) = - (temp / tau) * sgR sigma) in P4.
  clearbody sn cs tau. cbv zeta. set (a' := (a * cs + b * sn) * cs + (c * cs + d * sn) * sn). set (b' := (- a * sn + b * cs) * cs + (- c * sn + d * cs) * sn). set (c' := - (a * cs + b * sn) * sn + (c * cs + d * sn) * cs). set (d' := - (- a * sn + b * cs) * sn + (- c * sn + d * cs) * cs).
  pose proof (schur_conj a b c d cs sn P2) as SC. fold a' b' c' d' in SC. pose proof (sgR_sq sigma S0) as SS.
  assert (ESG : Rabs sigma = sigma * sgR sigma) by apply sgR_abs2.
  assert (ED : a' - d' = 0).
  { transitivity ((a - d) * (cs * cs - sn * sn) + (b + c) * (2 * (cs * sn))); [unfold a', d'; ring|]. rewrite P3, P4, ESG. unfold sigma, temp. field. lra. }
  assert (EA : 1 / 2 * (a' + d') = a') by lra. assert (EA2 : d' = a') by lra. rewrite EA. rewrite EA2 in SC.
  assert (BM : b' - c' = b - c). { transitivity ((cs * cs + sn * sn) * (b - c)); [unfold b', c'; ring|rewrite P2; ring]. }
  assert (BP : (b' + c') * t * sgR sigma = tau).
  { transitivity (((b + c) * (cs * cs - sn * sn) - (a - d) * (2 * (cs * sn))) * t * sgR sigma); [unfold b', c'; ring|]. rewrite P3, P4, ESG.
    transitivity ((sigma * (sigma * (sgR sigma * sgR sigma)) + temp * temp * (sgR sigma * sgR sigma)) / tau); [|rewrite SS; replace (sigma * (sigma * 1) + temp * temp * 1) with (tau * tau) by lra; field; lra].
    set (g := sgR sigma). unfold sigma, temp. field. lra. }
  assert (SQ : (b' + c') * (b' + c') = (b + c) * (b + c) + (a - d) * (a - d)).
  { apply (Rmult_eq_reg_r (t * t)); [|nra]. transitivity (tau * tau); [|rewrite P1; unfold sigma, temp; ring]. transitivity (((b' + c') * t * sgR sigma) * ((b' + c') * t * sgR sigma)); [|rewrite BP; auto].
    transitivity (((b' + c') * (b' + c') * (t * t)) * (sgR sigma * sgR sigma)); [rewrite SS; ring|ring]. }
  split; [exact SC|]. split; [exact BM|]. split; [exact SQ|]. split.
  - assert (Z : 0 < tau * Rabs sigma) by (apply Rmult_lt_0_compat; [auto|apply Rabs_pos_lt; auto]). rewrite <- BP, ESG in Z.
    replace ((b' + c') * t * sgR sigma * (sigma * sgR sigma)) with ((b' + c') * (b + c) * (t * t) * (sgR sigma * sgR sigma)) in Z by (unfold sigma; ring). rewrite SS, Rmult_1_r in Z.
    assert (TT : 0 < t * t) by nra. apply (Rmult_lt_reg_r (t * t)); auto. lra.
  - transitivity ((b' + c') * (b' + c') - (b' - c') * (b' - c')); [ring|]. rewrite SQ, BM. ring.
Qed.
Lemma sg_eq b c : b <> 0 -> c <> 0 -> sgR b = sgR c -> 0 < b * c.
Proof. intros B C. destruct (sgR_cases b) as [[Q1 ->]|[[Q1 ->]|[Q1 ->]]], (sgR_cases c) as [[Q3 ->]|[[Q3 ->]|[Q3 ->]]]; intros; try lra; try contradiction; nra. Qed.
Lemma sg_ne b c : b <> 0 -> c <> 0 -> sgR b <> sgR c -> b * c < 0.
Proof. intros B C. destruct (sgR_cases b) as [[Q1 ->]|[[Q1 ->]|[Q1 ->]]], (sgR_cases c) as [[Q3 ->]|[[Q3 ->]|[Q3 ->]]]; intros; try lra; try contradiction; nra. Qed.
Lemma schur22_factor_run (eps mn a b c d : R) : 0 < eps -> 0 < mn ->
  ~ (a = d /\ 0 < b * c /\ 4 * eps <= schur_z a b c d) -> ~ (b = - c /\ c <> 0 /\ a <> d /\ schur_z a b c d < 4 * eps) ->
  exists aa bb cc dd cs sn : R, schur22_factor (E:=RE) eps mn a b c d = (aa, bb, cc, dd, cs, sn) /\ schur_of a b c d aa bb cc dd cs sn /\ schur_std a b c d aa bb cc dd.
Proof.
  intros He Hm N1 N2. unfold schur22_factor. cbv zeta. cbn [eqb RE zero one opp].
  destruct (Reqb_spec c 0) as [C0|C0]. { exists a, b, c, d, 1, 0. split; auto. split; [apply schur_id|left; split; auto]. rewrite C0, Rabs_R0. intros _ _. apply Rabs_pos. }
  destruct (Reqb_spec b 0) as [B0|B0]. { exists d, (- c), 0, a, 0, 1. split; auto. split; [|left; split; auto; intros W; contradiction]. rewrite B0. repeat split; ring. }
  rewrite ?sgnR. cbn [sub RE].
  destruct (Reqb_spec (a - d) 0) as [D0|D0]; [destruct (Reqb_spec (sgR b) (sgR c)) as [S0|S0]|]; cbn [negb andb].
  2: { exists a, b, c, d, 1, 0. split; auto. split; [apply schur_id|]. right; left. split; [lra|]. apply sg_ne; auto. }
  all: rewrite !maxR, !minR; cbn [mul add sub div RE absv sqrtv one]; rewrite ?maxR; unfold halfT, fourT, two; cbn [mul add sub div RE absv sqrtv one].
  all: rewrite lebR; match goal with |- context[Rltb ?z _] => assert (EZ : @eq R z (schur_z a b c d)) end.
  1,3: unfold schur_z; assert (EP : 1 / (1 + 1) * (a - d) = (a - d) / 2) by field; rewrite EP; pose proof (bc_prod b c) as BP;
       (assert (MX : 0 < Rmax (Rabs b) (Rabs c)) by (eapply Rlt_le_trans; [apply Rabs_pos_lt; exact B0|apply Rmax_l]));
       (assert (MS : 0 < Rmax (Rabs ((a - d) / 2)) (Rmax (Rabs b) (Rabs c))) by (eapply Rlt_le_trans; [exact MX|apply Rmax_r]));
       rewrite <- BP; eqR; field; lra.
  all: rewrite EZ; destruct (Rltb_spec (schur_z a b c d) ((1 + 1 + (1 + 1)) * eps)) as [K|K]; cbn [negb].
  2: { exfalso. apply N1. split; [lra|]. split; [|lra]. apply sg_eq; auto. }
  1: assert (BC : b + c <> 0) by (intros Z; pose proof (sg_eq b c B0 C0 S0); replace b with (- c) in * by lra; nra).
  2: assert (BC : b + c <> 0) by (intros Z; apply N2; repeat split; [lra|auto|lra|lra]).
  3: { clear EZ. set (p := 1 / (1 + 1) * (a - d)). assert (EP : p = (a - d) / 2) by (unfold p; field).
       set (sc := Rmax (Rabs p) _). set (zz := schur_z a b c d) in *. assert (ESC : sc * zz = p * p + b * c /\ 0 < sc).
       { assert (Z : 0 < sc) by (eapply Rlt_le_trans; [|apply Rmax_r]; eapply Rlt_le_trans; [apply Rabs_pos_lt; exact B0|apply Rmax_l]).
         split; auto. unfold zz, schur_z. rewrite <- EP. fold sc. field. lra. }
       destruct ESC as [ESC SC0]. assert (Z0 : 0 < zz) by lra. assert (P0 : p <> 0) by (rewrite EP; lra). clearbody zz sc p.
       set (q := sqrt sc * sqrt zz). assert (Hq : q * q = p * p + b * c /\ 0 < q).
       { unfold q. split; [|apply Rmult_lt_0_compat; apply sqrt_lt_R0; auto]. transitivity ((sqrt sc * sqrt sc) * (sqrt zz * sqrt zz)); [ring|]. rewrite !sqrt_sqrt by lra. auto. }
       destruct Hq as [Hq Q0]. rewrite ?sgnR. cbn [mul RE]. rewrite !Rmult_assoc. fold q. clearbody q. set (z := p + sgR p * q). assert (Hz : z <> 0). { unfold z. destruct (sgR_cases p) as [[W ->]|[[W ->]|[W ->]]]; lra. }
       assert (HZ : z * z = (a - d) * z + b * c). { unfold z. pose proof (sgR_sq p P0) as SS. replace (a - d) with (2 * p) by lra. transitivity (p * p + 2 * p * (sgR p * q) + (sgR p * sgR p) * (q * q)); [ring|]. rewrite SS, Hq. ring. }
       clearbody z. rewrite lapy2R. exists (d + z), (b - c), 0, (d - b * c / z), (z / sqrt (c * c + z * z)), (c / sqrt (c * c + z * z)). split.
       { assert (EE : Rmax (Rabs b) (Rabs c) / z * (Rmin (Rabs b) (Rabs c) * (sgR b * sgR c)) = b * c / z) by (rewrite <- (bc_prod b c); field; auto). rewrite <- EE. reflexivity. }
       split; [apply schur_real; auto|left; split; auto]. intros _ HD. assert (HD' : p * p + b * c = 0) by (rewrite EP; lra). rewrite HD' in ESC. nra. }
  all: clear EZ; match goal with |- context[schur22_scale _ ?mn ?mx ?s ?t] => destruct (schur_scale 20 mn mx s t) as (t0 & T0 & ->) end;
       [lra|unfold Rdiv; apply Rmult_integral_contrapositive_currified; [lra|apply Rinv_neq_0_compat; lra]|].
  all: cbv beta iota; rewrite ?lapy2R, ?sgnR; pose proof (schur_cplx a b c d t0 T0 BC) as SC; cbv zeta in SC;
       replace (1 / 2) with (1 / (1 + 1)) in SC by field.
  all: match type of SC with schur_of _ _ _ _ _ _ _ _ ?cs ?sn /\ _ => set (sn0 := sn) in *; set (cs0 := cs) in *; clearbody cs0 end; 
       change (- (1 / (1 + 1) * (t0 * (a - d)) / (sqrt (t0 * (b + c) * (t0 * (b + c)) + t0 * (a - d) * (t0 * (a - d))) * cs0)) * sgR (t0 * (b + c))) with sn0; clearbody sn0.
  all: match type of SC with schur_of _ _ _ _ ?aa ?bb ?cc ?dd _ _ /\ _ => set (a1 := aa) in *; set (b1 := bb) in *; set (c1 := cc) in * end.
  all: destruct SC as (SC & SM & SQ & SP & SD).
  all: destruct (Reqb_spec c1 0) as [Z1|Z1]; cbn [negb andb]; [exists a1, b1, c1, a1, cs0, sn0; split; [reflexivity|]; split; [exact SC|left; split; [exact Z1|]; intros _ HD; rewrite Z1 in *; assert (E1 : b1 = b - c) by lra; rewrite E1 in SP; apply Rsqr_le_abs_0; unfold Rsqr; lra]|].
  all: destruct (Reqb_spec b1 0) as [Z2|Z2]; cbn [negb andb]; [exists a1, b1, c1, a1, cs0, sn0; split; [reflexivity|]; split; [exact SC|right; right]|].
  1,3: split; [auto|]; split; [exact Z2|]; split; [exact Z1|]; rewrite Z2 in *; split; [lra|];
       assert (E1 : c1 = - (b - c)) by lra; rewrite E1 in SP; apply Rsqr_lt_abs_0; unfold Rsqr; lra.
  all: rewrite ?sgnR; destruct (Reqb_spec (sgR b1) (sgR c1)) as [S1|S1]; [|exists a1, b1, c1, a1, cs0, sn0; split; [reflexivity|]; split; [exact SC|right; left]; split; [auto|];
       apply sg_ne; auto].
  all: assert (BCP : 0 < b1 * c1) by (apply sg_eq; auto).
  all: pose proof (schur_eqdiag a1 b1 c1 BCP) as SE; cbv zeta in SE; pose proof (schur_comp _ _ _ _ _ _ _ _ _ _ _ _ _ _ _ _ SC SE) as SF;
       match type of SF with schur_of _ _ _ _ ?aa ?bb ?cc ?dd ?cs ?sn => exists aa, bb, cc, dd, cs, sn end; (split; [reflexivity|]); split; [exact SF|left; split; [reflexivity|]; intros _ HD; lra].
Qed.
(** the eigenvalues *)
Lemma schur22_eig_run (aa bb cc dd : R) : cc = 0 \/ (aa = dd /\ bb * cc <= 0) ->
  let '((r1, i1), (r2, i2)) := schur22_eig (E:=RE) aa bb cc dd in
  r1 + r2 = aa + dd /\ i1 + i2 = 0 /\ r1 * r2 - i1 * i2 = aa * dd - bb * cc /\ r1 * i2 + i1 * r2 = 0 /\ 0 <= i1.
Proof.
  intros H. unfold schur22_eig. cbn [eqb RE zero]. destruct (Reqb_spec cc 0) as [C|C]; cbn [negb].
  - rewrite C. repeat split; try lra.
  - destruct H as [H|[H1 H2]]; [contradiction|]. cbn [mul sqrtv absv opp RE]. set (q := sqrt (Rabs bb) * sqrt (Rabs cc)).
    assert (Q : q * q = - (bb * cc)). { unfold q. transitivity ((sqrt (Rabs bb) * sqrt (Rabs bb)) * (sqrt (Rabs cc) * sqrt (Rabs cc))); [ring|]. rewrite !sqrt_sqrt by apply Rabs_pos. rewrite <- Rabs_mult. apply Rabs_left1; auto. }
    repeat split; try lra; [subst; ring|]. apply Rmult_le_pos; apply sqrt_pos.
Qed.
(** the defect for b = - c: the matrix that is returned is half the one it has to be *)
Lemma schur22_opp (eps mn a b d : R) : 0 < eps -> 0 < mn -> b <> 0 -> a <> d -> Rabs (a - d) <= 2 * Rabs b ->
  exists aa bb cc dd cs sn : R, schur22_factor (E:=RE) eps mn a b (- b)%R d = (aa, bb, cc, dd, cs, sn) /\ cs * cs + sn * sn = 1 / 2 /\ aa = (a + d) / 4 /\ dd = (a + d) / 4 /\ bb = b / 2 /\ cc = - b / 2.
Proof.
  intros He Hm B0 D0 HB. unfold schur22_factor. cbv zeta. cbn [eqb RE zero one opp].
  destruct (Reqb_spec (- b) 0); [lra|]. destruct (Reqb_spec b 0); [lra|]. cbn [sub RE]. destruct (Reqb_spec (a - d) 0); [lra|]. cbn [andb].
  rewrite !maxR, !minR, !sgnR. cbn [mul add sub div RE absv sqrtv one]; rewrite ?maxR; unfold halfT, fourT, two; cbn [mul add sub div RE absv sqrtv one].
  rewrite Rabs_Ropp, (Rmax_left (Rabs b)), (Rmin_left (Rabs b)) by lra. assert (EP : Rabs (1 / (1 + 1) * (a - d)) <= Rabs b).
  { rewrite Rabs_mult, (Rabs_right (1 / (1 + 1))) by lra. lra. }
  rewrite lebR. rewrite (Rmax_right _ (Rabs b)) by exact EP. assert (BB : 0 < Rabs b) by (apply Rabs_pos_lt; auto).
  match goal with |- context[Rltb ?z ?e] => destruct (Rltb_spec z e) as [K|K] end; cbn [negb].
  2: { exfalso. set (p := 1 / (1 + 1) * (a - d)) in *. assert (Z : p / Rabs b * p + Rabs b / Rabs b * (Rabs b * (sgR b * sgR (- b))) <= 0).
       { assert (ES : sgR b * sgR (- b) = -1). { destruct (sgR_cases b) as [[Q1 ->]|[[Q1 ->]|[Q1 ->]]]; [rewrite sgR_neg by lra; lra|rewrite sgR_pos by lra; lra|lra]. }
         rewrite ES. replace (p / Rabs b * p + Rabs b / Rabs b * (Rabs b * -1)) with ((Rabs p * Rabs p - Rabs b * Rabs b) / Rabs b) by (rewrite abs_sq; field; lra).
         assert (Rabs p * Rabs p <= Rabs b * Rabs b) by (pose proof (Rabs_pos p); nra). assert (0 < / Rabs b) by (apply Rinv_0_lt_compat; auto). unfold Rdiv. nra. }
       lra. }
  clear K. match goal with |- context[schur22_scale _ ?mn ?mx ?s ?t] => destruct (schur_scale 20 mn mx s t) as (t0 & T0 & ->) end;
       [lra|unfold Rdiv; apply Rmult_integral_contrapositive_currified; [lra|apply Rinv_neq_0_compat; lra]|].
  cbv beta iota. rewrite ?sgnR. assert (S0 : @eq R (t0 * (b + - b)) 0) by ring. rewrite ?S0, ?sgR_0. cbn [opp RE]. rewrite Rabs_R0.
  match goal with |- context[sqrt (1 / (1 + 1) * (1 + 0 / ?t))] => set (tau := t) end. assert (EC : @eq R (sqrt (1 / (1 + 1) * (1 + 0 / tau))) (sqrt (1 / 2))). { apply f_equal. unfold Rdiv. rewrite Rmult_0_l. lra. }
  rewrite EC. set (cs := sqrt (1 / 2)). assert (C2 : cs * cs = 1 / 2) by (apply sqrt_sqrt; lra). rewrite Rmult_0_r. clearbody cs.
  assert (E1 : @eq R (- (a * cs + b * 0) * 0 + (- b * cs + d * 0) * cs) (- b / 2)) by (transitivity (- b * (cs * cs)); [ring|rewrite C2; field]).
  assert (E2 : @eq R ((- a * 0 + b * cs) * cs + (- - b * 0 + d * cs) * 0) (b / 2)) by (transitivity (b * (cs * cs)); [ring|rewrite C2; field]).
  rewrite E1, E2. destruct (Reqb_spec (- b / 2) 0); [lra|]. destruct (Reqb_spec (b / 2) 0); [lra|]. cbn [negb andb].
  destruct (Reqb_spec (sgR (b / 2)) (sgR (- b / 2))) as [Q|Q]. { exfalso. apply sg_eq in Q; auto. nra. }
  do 6 eexists. split; [reflexivity|]. split; [rewrite C2; ring|]. repeat split; try (transitivity (1 / 2 * (cs * cs) * (a + d)); [field|rewrite C2; field]).
Qed.
Lemma schur22_defective (eps mn a b c d : R) : 0 < eps -> 0 < mn -> b <> 0 -> Rabs b < Rabs c -> (a - d) * (a - d) + 4 * (b * c) = 0 ->
  exists aa bb cc dd cs sn : R, schur22_factor (E:=RE) eps mn a b c d = (aa, bb, cc, dd, cs, sn) /\ cc <> 0 /\ bb = 0.
Proof.
  intros He Hm B0 BC HD.
  assert (C0 : c <> 0) by (intros ->; rewrite Rabs_R0 in BC; pose proof (Rabs_pos b); lra).
  destruct (schur22_factor_run eps mn a b c d He Hm) as (aa & bb & cc & dd & cs & sn & E & V & W).
  - intros (Q & Q2 & _). rewrite Q in HD. lra.
  - intros (Q & _). rewrite Q, Rabs_Ropp in BC. lra.
  - exists aa, bb, cc, dd, cs, sn. split; auto. destruct W as [[W1 W2]|[[W1 W2]|W]]; [|exfalso|tauto].
    + specialize (W2 B0 HD). lra.
    + destruct (schur_inv _ _ _ _ _ _ _ _ _ _ V) as [I1 I2]. rewrite <- W1 in *. assert (4 * (aa * aa) = (a + d) * (a + d)) by (replace (a + d) with (2 * aa) by lra; ring). nra.
Qed.
