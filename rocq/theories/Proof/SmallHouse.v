(** * inv_house3, real numbers *)
From Coq Require Import Bool Arith ZArith Lia Reals Lra Psatz.
From Verif.Core Require Import Scalar Instances RealLaws Prog View.
From Verif.Spec Require Import Outcome LinAlg Norms Householder Small.
From Verif.Model Require Import Householder Sort Rot Steqr Norms QGen Small.
From Verif.Proof Require Import LarfgProof SmallProof SmallViews.
Local Open Scope R_scope.

(** the vector to which larfg is applied *)
Definition ih3 (safemin a00 a01 a02 a10 a11 a12 : R) : R * R * R :=
  if Rltb (Rmax (Rabs a01) (Rabs a02)) safemin && Rltb (Rmax (Rabs a11) (Rabs a12)) safemin then (0, 1, 0)
  else
    let '(b11, b12, b21, b22, v1, v2) :=
      if Rltb (Rmax (Rabs a01) (Rabs a02)) (Rmax (Rabs a11) (Rabs a12)) then (a11, a12, a01, a02, - a10, - a00) else (a01, a02, a11, a12, - a00, - a10) in
    let sw := Rltb (Rabs b11) (Rabs b12) in
    let '(u11, u12, b21, b22) := if sw then (b12, b11, b22, b21) else (b11, b12, b21, b22) in
    let l21 := b21 / u11 in
    let u22 := b22 - l21 * u12 in
    let v2 := v2 - v1 * l21 in
    if Rltb (Rabs u22) safemin then (0, 1, (- u12) / u11)
    else
      let scale := 1 in
      let scale := if Rltb (Rabs u22) (Rabs v2) then Rabs (u22 / v2) else scale in
      let scale := if Rltb (Rabs u11) (Rabs v1) then Rmin scale (Rabs (u11 / v1)) else scale in
      let v2 := (scale * v2) / u22 in
      let v1 := (scale * v1 - u12 * v2) / u11 in
      if sw then (scale, v2, v1) else (scale, v1, v2).
Lemma inv_house3_run (h : hconst (E:=RE)) (A v : view) (Q : R -> state -> Prop) (s : state (E:=RE)) : (2 <= nr A)%nat -> (3 <= nc A)%nat -> nr v = 3%nat -> nc v = 1%nat -> vinj v ->
  (let '(x, y, z) := ih3 (hsafe h) (val A s 0 0) (val A s 0 1) (val A s 0 2) (val A s 1 0) (val A s 1 1) (val A s 1 2) in
   forall s', veff v (v3f (E:=RE) x y z) s s' -> wp (larfg h Forward Columnwise v) Q noX s') ->
  wp (inv_house3 (E:=RE) h A v) Q noX s.
Proof.
  intros Hr Hc Hv Hvc HI H. unfold inv_house3. cbv zeta. repeat (apply wp_bind; apply wp_rd; [lia|lia|]).
  unfold ih3 in H. cbv zeta in H. rewrite !maxR, lebR. cbn [abs1 RE ltb].
  destruct (Rltb (Rmax (Rabs (val A s 0 1)) (Rabs (val A s 0 2))) (hsafe h) && Rltb (Rmax (Rabs (val A s 1 1)) (Rabs (val A s 1 2))) (hsafe h)).
  { apply (wp_bind3 (E:=RE) v 0 1 0); auto. }
  destruct (Rltb (Rmax (Rabs (val A s 0 1)) (Rabs (val A s 0 2))) (Rmax (Rabs (val A s 1 1)) (Rabs (val A s 1 2)))); cbn [negb]; cbv iota beta in *.
  all: match goal with |- context[Rltb ?x ?y] => destruct (Rltb x y) end; cbv iota beta in *.
  all: cbn [sub mul div opp zero one RE] in *; match goal with |- context[Rltb ?x (@hsafe ?e ?h)] => destruct (Rltb x (@hsafe e h)); [apply wp_bind3; auto|] end.
  all: rewrite minR; apply wp_bind; apply wp_v3; auto.
Qed.
Lemma lu_core (sm u11 u12 b21 b22 w1 w2 : R) : 0 < sm -> u11 <> 0 ->
  let u22 := b22 - b21 / u11 * u12 in sm <= Rabs u22 ->
  let v2 := w2 - w1 * (b21 / u11) in
  let scale := if Rltb (Rabs u22) (Rabs v2) then Rabs (u22 / v2) else 1 in
  let scale := if Rltb (Rabs u11) (Rabs w1) then Rmin scale (Rabs (u11 / w1)) else scale in
  let x2 := scale * v2 / u22 in let x1 := (scale * w1 - u12 * x2) / u11 in
  0 < scale /\ u11 * x1 + u12 * x2 = scale * w1 /\ b21 * x1 + b22 * x2 = scale * w2 /\ (Rabs u12 <= Rabs u11 -> scale * scale <= 1 /\ x2 * x2 <= 1 /\ x1 * x1 <= 4).
Proof.
  intros Hs U1 u22 H2 v2. assert (U2 : u22 <> 0) by (intros K; rewrite K, Rabs_R0 in H2; lra). intros sc sc2 x2 x1.
  assert (S1 : 0 < sc). { unfold sc. destruct (Rltb_spec (Rabs u22) (Rabs v2)) as [K|K]; [|lra]. apply Rabs_pos_lt. unfold Rdiv. apply Rmult_integral_contrapositive_currified; auto. apply Rinv_neq_0_compat. intros Z. rewrite Z, Rabs_R0 in K. pose proof (Rabs_pos u22). lra. }
  assert (S2 : 0 < sc2). { unfold sc2. destruct (Rltb_spec (Rabs u11) (Rabs w1)) as [K|K]; [|lra]. apply Rmin_glb_lt; auto. apply Rabs_pos_lt. unfold Rdiv. apply Rmult_integral_contrapositive_currified; auto. apply Rinv_neq_0_compat. intros Z. rewrite Z, Rabs_R0 in K. pose proof (Rabs_pos u11). lra. }
  split; auto. assert (B1 : Rabs (sc2 * v2) <= Rabs u22 /\ Rabs (sc2 * w1) <= Rabs u11 /\ sc2 <= 1).
  { assert (B0 : Rabs (sc * v2) <= Rabs u22 /\ sc <= 1).
    { unfold sc. destruct (Rltb_spec (Rabs u22) (Rabs v2)) as [K|K]; [|rewrite Rmult_1_l; lra]. pose proof (Rabs_pos u22). set (y := Rabs (u22 / v2)).
      assert (Y : 0 <= y /\ y * Rabs v2 = Rabs u22). { split; [apply Rabs_pos|]. unfold y, Rdiv. rewrite Rabs_mult, Rabs_inv. field. lra. } destruct Y as [Y0 Y]. rewrite Rabs_mult, (Rabs_right y) by lra. split; [lra|nra]. }
    destruct B0 as [B0 B1]. unfold sc2. destruct (Rltb_spec (Rabs u11) (Rabs w1)) as [K|K].
    - pose proof (Rabs_pos u11). set (y := Rabs (u11 / w1)). assert (Y : 0 <= y /\ y * Rabs w1 = Rabs u11). { split; [apply Rabs_pos|]. unfold y, Rdiv. rewrite Rabs_mult, Rabs_inv. field. lra. } destruct Y as [Y0 Y].
      assert (M0 : 0 <= Rmin sc y) by (apply Rmin_glb; lra). rewrite !Rabs_mult, (Rabs_right (Rmin sc y)) by lra. pose proof (Rmin_l sc y). pose proof (Rmin_r sc y). pose proof (Rabs_pos v2). pose proof (Rabs_pos w1).
      rewrite Rabs_mult, (Rabs_right sc) in B0 by lra. split; [nra|]. split; [nra|lra].
    - split; auto. split; auto. rewrite Rabs_mult, (Rabs_right sc) by lra. pose proof (Rabs_pos w1). nra. }
  destruct B1 as (B1 & B2 & B3). clearbody sc2. assert (E1 : u11 * x1 + u12 * x2 = sc2 * w1) by (unfold x1; field; auto). split; auto.
  assert (E2 : u22 * x2 = sc2 * v2) by (unfold x2; field; auto).
  split. { transitivity (b21 / u11 * (u11 * x1 + u12 * x2) + u22 * x2); [unfold u22; field; auto|]. rewrite E1, E2. unfold v2. ring. }
  intros HP. assert (PU : 0 < Rabs u11) by (apply Rabs_pos_lt; auto). assert (PV : 0 < Rabs u22) by (apply Rabs_pos_lt; auto).
  assert (X2 : Rabs x2 <= 1). { apply (Rmult_le_reg_r (Rabs u22)); auto. rewrite <- Rabs_mult. replace (x2 * u22) with (sc2 * v2) by lra. lra. }
  assert (X1 : Rabs x1 <= 2). { apply (Rmult_le_reg_r (Rabs u11)); auto. rewrite <- Rabs_mult. replace (x1 * u11) with (sc2 * w1 + - (u12 * x2)) by lra. eapply Rle_trans; [apply Rabs_triang|]. rewrite Rabs_Ropp, (Rabs_mult u12). pose proof (Rabs_pos u12). pose proof (Rabs_pos x2). assert (Rabs u12 * Rabs x2 <= Rabs u11 * 1) by (apply Rmult_le_compat; auto). lra. }
  pose proof (Rabs_pos x1). pose proof (Rabs_pos x2). pose proof (abs_sq x1). pose proof (abs_sq x2). split; [nra|split; nra].
Qed.
Lemma max_abs (a b : R) : (Rmax (Rabs a) (Rabs b) = Rabs a /\ Rabs b <= Rabs a) \/ (Rmax (Rabs a) (Rabs b) = Rabs b /\ Rabs a < Rabs b).
Proof. destruct (Rlt_dec (Rabs a) (Rabs b)); [right; split; auto; apply Rmax_right; lra|left; split; [apply Rmax_left|]; lra]. Qed.
Lemma ih3_null (sm a00 a01 a02 a10 a11 a12 : R) : 0 < sm -> sm <= bmax a01 a02 a11 a12 -> sm * bmax a01 a02 a11 a12 <= Rabs (a01 * a12 - a02 * a11) ->
  let '(x, y, z) := ih3 sm a00 a01 a02 a10 a11 a12 in 0 < x /\ a00 * x + a01 * y + a02 * z = 0 /\ a10 * x + a11 * y + a12 * z = 0 /\ x * x + y * y + z * z <= 6.
Proof.
  intros Hs HM HD. unfold ih3, bmax in *. cbv zeta. set (t1 := Rmax (Rabs a01) (Rabs a02)) in *. set (t2 := Rmax (Rabs a11) (Rabs a12)) in *.
  destruct (Rltb_spec t1 sm) as [K1|K1], (Rltb_spec t2 sm) as [K2|K2]; cbn [andb].
  1: exfalso; assert (Rmax t1 t2 < sm) by (apply Rmax_lub_lt; auto); lra.
  all: clear K1 K2; destruct (Rltb_spec t1 t2) as [K|K]; [rewrite (Rmax_right t1 t2) in HM, HD by lra|rewrite (Rmax_left t1 t2) in HM, HD by lra].
  all: match goal with |- context[Rltb (Rabs ?a) (Rabs ?b)] => destruct (max_abs a b) as [[E1 E2]|[E1 E2]]; destruct (Rltb_spec (Rabs a) (Rabs b)) as [K3|K3]; try lra end; cbv iota beta.
  all: unfold t1, t2 in HM, HD; rewrite E1 in HM, HD.
  all: match type of HM with _ <= Rabs ?p => assert (P0 : p <> 0) by (intros Z; rewrite Z, Rabs_R0 in HM; lra) end.
  all: match goal with |- context[Rltb (Rabs (?q - ?b / ?p * ?c)) ?m] => 
     assert (U : m <= Rabs (q - b / p * c)); [replace (q - b / p * c) with ((q * p - b * c) / p) by (field; auto); unfold Rdiv; rewrite Rabs_mult, Rabs_inv;
       (apply (Rmult_le_reg_r (Rabs p)); [apply Rabs_pos_lt; auto|]); rewrite Rmult_assoc, Rinv_l by (apply Rabs_no_R0; auto); rewrite Rmult_1_r; eapply Rle_trans; [exact HD|];
       first [right; apply f_equal; ring|rewrite <- Rabs_Ropp; right; apply f_equal; ring]|];
     destruct (Rltb_spec (Rabs (q - b / p * c)) m) as [K4|K4]; [lra|] end.
  all: match goal with |- context[(?w2 - ?w1 * (?b / ?p))] => match type of U with _ <= Rabs (?q - _ * ?c) => pose proof (lu_core sm p c b q w1 w2 Hs P0) as LC; cbv zeta in LC; specialize (LC U) end end.
  all: destruct LC as (L1 & L2 & L3 & L4); destruct L4 as (L4 & L5 & L6); [lra|]; (split; [exact L1|]); (split; [lra|]); (split; [lra|]); lra.
Qed.
Lemma ih3_zero (sm a00 a10 : R) : 0 < sm -> ih3 sm a00 0 0 a10 0 0 = (0, 1, 0).
Proof. intros H. unfold ih3. rewrite Rabs_R0, Rmax_left by lra. destruct (Rltb_spec 0 sm); [reflexivity|lra]. Qed.
(** singular trailing block *)
Lemma sing_q (p c q b : R) : p <> 0 -> Rabs c <= Rabs p -> q = b / p * c -> Rabs q <= Rabs b.
Proof.
  intros P H ->. apply Rabs_pos_lt in P. pose proof (Rabs_pos b). unfold Rdiv. rewrite !Rabs_mult, Rabs_inv. apply (Rmult_le_reg_r (Rabs p)); auto.
  replace (Rabs b * / Rabs p * Rabs c * Rabs p) with (Rabs b * Rabs c) by (field; lra). apply Rmult_le_compat_l; auto.
Qed.
Lemma sing_z (p c : R) : p <> 0 -> Rabs c <= Rabs p -> - c / p * (- c / p) <= 1.
Proof.
  intros P H. replace (- c / p * (- c / p)) with (Rabs (c / p) * Rabs (c / p)) by (rewrite abs_sq; field; auto). apply Rabs_pos_lt in P as P1. pose proof (Rabs_pos c). 
  assert (Rabs (c / p) <= 1). { unfold Rdiv. rewrite Rabs_mult, Rabs_inv. apply (Rmult_le_reg_r (Rabs p)); auto. rewrite Rmult_assoc, Rinv_l by lra. lra. } pose proof (Rabs_pos (c / p)). nra.
Qed.
Lemma sing_sw (p c q b : R) : p <> 0 -> Rabs c < Rabs p -> q = b / p * c -> c * 1 + p * (- c / p) = 0 /\ q * 1 + b * (- c / p) = 0 /\ Rabs q <= Rabs b.
Proof. intros P H Hq. split; [field; auto|]. split; [rewrite Hq; field; auto|apply (sing_q p c q b); auto; lra]. Qed.
Lemma sing_ns (p c q b : R) : p <> 0 -> Rabs c <= Rabs p -> q = b / p * c -> Rabs q <= Rabs b /\ (Rabs c < Rabs p \/ Rabs q < Rabs b -> p * 1 + c * (- c / p) <> 0).
Proof.
  intros P H Hq. split; [apply (sing_q p c q b); auto|]. intros HL. assert (L : Rabs c < Rabs p).
  { destruct HL as [|L]; auto. destruct (Rle_lt_or_eq_dec _ _ H) as [|K]; auto. exfalso. rewrite Hq in L. unfold Rdiv in L. rewrite !Rabs_mult, Rabs_inv, K in L. rewrite Rmult_assoc, Rinv_l in L by (apply Rabs_no_R0; auto). lra. }
  intros Z. assert (Z2 : p * p - c * c = 0) by (transitivity ((p * 1 + c * (- c / p)) * p); [field; auto|rewrite Z; ring]). pose proof (abs_sq p). pose proof (abs_sq c). pose proof (Rabs_pos c). nra.
Qed.
Lemma ih3_sing (sm a00 a01 a02 a10 a11 a12 : R) : 0 < sm -> sm <= bmax a01 a02 a11 a12 -> a01 * a12 = a02 * a11 ->
  let '(x, y, z) := ih3 sm a00 a01 a02 a10 a11 a12 in
  x = 0 /\ y = 1 /\ z * z <= 1 /\
  (Rabs a01 < Rabs a02 \/ Rabs a11 < Rabs a12 -> a01 * y + a02 * z = 0 /\ a11 * y + a12 * z = 0) /\
  (Rabs a02 < Rabs a01 \/ Rabs a12 < Rabs a11 -> a01 * y + a02 * z <> 0 \/ a11 * y + a12 * z <> 0).
Proof.
  intros Hs HM HD. unfold ih3, bmax in *. cbv zeta. set (t1 := Rmax (Rabs a01) (Rabs a02)) in *. set (t2 := Rmax (Rabs a11) (Rabs a12)) in *.
  assert (HC : Rabs a01 * Rabs a12 = Rabs a02 * Rabs a11) by (rewrite <- !Rabs_mult, HD; auto).
  pose proof (Rabs_pos a01). pose proof (Rabs_pos a02). pose proof (Rabs_pos a11). pose proof (Rabs_pos a12).
  destruct (Rltb_spec t1 sm) as [K1|K1], (Rltb_spec t2 sm) as [K2|K2]; cbn [andb].
  1: exfalso; assert (Rmax t1 t2 < sm) by (apply Rmax_lub_lt; auto); lra.
  all: clear K1 K2; destruct (Rltb_spec t1 t2) as [K|K]; [rewrite (Rmax_right t1 t2) in HM by lra|rewrite (Rmax_left t1 t2) in HM by lra].
  all: match goal with |- context[Rltb (Rabs ?a) (Rabs ?b)] => destruct (max_abs a b) as [[E1 E2]|[E1 E2]]; destruct (Rltb_spec (Rabs a) (Rabs b)) as [K3|K3]; try lra end; cbv iota beta.
  all: unfold t1, t2 in HM; rewrite E1 in HM.
  all: match type of HM with _ <= Rabs ?p => assert (P0 : p <> 0) by (intros Z; rewrite Z, Rabs_R0 in HM; lra); assert (P1 : 0 < Rabs p) by lra end.
  all: match goal with |- context[Rltb (Rabs (?q - ?b / ?p * ?c)) ?m] => 
     assert (U : q - b / p * c = 0); [replace (q - b / p * c) with ((q * p - b * c) / p) by (field; auto); replace (q * p - b * c) with 0 by lra; unfold Rdiv; ring|];
     assert (Hq : q = b / p * c) by lra;
     rewrite U, Rabs_R0; destruct (Rltb_spec 0 m) as [K4|K4]; [|lra];
     (split; [auto|]); (split; [auto|]); (split; [apply sing_z; auto; lra|]); first [pose proof (sing_sw p c q b P0 E2 Hq) as (W1 & W2 & W3)|pose proof (sing_ns p c q b P0 E2 Hq) as (W3 & W4)] end.
  all: try (split; [intros _; split; assumption|intros [W|W]; exfalso; lra]).
  all: split; [intros [W|W]; exfalso; lra|intros W; first [left; apply W4; lra|right; apply W4; lra]].
Qed.

(** ** Applying the reflector *)
Local Open Scope T_scope.
Lemma refl_null (z : nat -> R) (tau : R) (v : nat -> R) (b0 b1 b2 : R) : reflects (E:=RE) Columnwise Forward 3 z tau v -> (z 0%nat * z 0%nat + z 1%nat * z 1%nat + z 2%nat * z 2%nat <> 0)%R ->
  let H := refl (E:=RE) tau (hvec (E:=RE) Forward 3 v) in
  (sum (E:=RE) 3 (fun j => @mul RE (if (j =? 0)%nat then b0 else if (j =? 1)%nat then b1 else b2) (H j 0%nat)) = 0%R <-> (b0 * z 0%nat + b1 * z 1%nat + b2 * z 2%nat = 0)%R).
Proof.
  intros [_ _ HU HA _ _] Hz H. unfold unitary in HU. unfold happly in HA. change (hst (E:=RE) Columnwise v) with v in *. fold H in HU, HA. clearbody H.
  pose proof (HA 0%nat ltac:(lia)) as A0. pose proof (HA 1%nat ltac:(lia)) as A1. pose proof (HA 2%nat ltac:(lia)) as A2.
  assert (U : forall i j, (i < 3)%nat -> (j < 3)%nat -> mmul (E:=RE) 3 H (ctr (E:=RE) H) i j = idm (E:=RE) i j) by (intros; apply HU; auto).
  assert (ZH : forall i, (i < 3)%nat -> z i = (v 0%nat * H i 0%nat)%R).
  { intros i Hi. pose proof (U i 0%nat Hi ltac:(lia)) as U0. pose proof (U i 1%nat Hi ltac:(lia)) as U1. pose proof (U i 2%nat Hi ltac:(lia)) as U2.
    unfold mvmul, mmul, ctr, idm in *. cbn in A0, A1, A2. cbn [sum] in U0, U1, U2. cbn [conj RE add mul zero one] in *.
    assert (Y : (H i 0%nat * (0 + H 0%nat 0%nat * z 0%nat + H 1%nat 0%nat * z 1%nat + H 2%nat 0%nat * z 2%nat) + H i 1%nat * (0 + H 0%nat 1%nat * z 0%nat + H 1%nat 1%nat * z 1%nat + H 2%nat 1%nat * z 2%nat) + H i 2%nat * (0 + H 0%nat 2%nat * z 0%nat + H 1%nat 2%nat * z 1%nat + H 2%nat 2%nat * z 2%nat) = v 0%nat * H i 0%nat)%R) by (rewrite A0, A1, A2; ring).
    rewrite <- Y. clear Y A0 A1 A2 HU HA. match type of U0 with ?a = ?b => match type of U1 with ?c = ?d => match type of U2 with ?e = ?f => transitivity (z 0%nat * a + z 1%nat * c + z 2%nat * e)%R; [rewrite U0, U1, U2|ring] end end end.
    assert (Ei : i = 0%nat \/ i = 1%nat \/ i = 2%nat) by lia. destruct Ei as [->|[->| ->]]; cbn; ring. }
  pose proof (ZH 0%nat ltac:(lia)) as Z0. pose proof (ZH 1%nat ltac:(lia)) as Z1. pose proof (ZH 2%nat ltac:(lia)) as Z2.
  assert (V0 : v 0%nat <> 0%R). { intros K. rewrite K in *. apply Hz. rewrite Z0, Z1, Z2. ring. }
  rewrite Z0, Z1, Z2. cbn [sum Nat.eqb add mul zero RE]. split; intros K.
  - transitivity (v 0%nat * (0 + b0 * H 0%nat 0%nat + b1 * H 1%nat 0%nat + b2 * H 2%nat 0%nat))%R; [ring|]. rewrite K. ring.
  - apply (Rmult_eq_reg_l (v 0%nat)); auto. transitivity (b0 * (v 0%nat * H 0%nat 0%nat) + b1 * (v 0%nat * H 1%nat 0%nat) + b2 * (v 0%nat * H 2%nat 0%nat))%R; [ring|]. rewrite K. ring.
Qed.
