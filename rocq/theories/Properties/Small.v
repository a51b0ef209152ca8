(** * C55: the small kernels of the eigenvalue and SVD algorithms *)
From Coq Require Import Bool Arith ZArith Lia Reals Lra Psatz Floats.
From Verif.Core Require Import Scalar Prog View Instances RealLaws.
From Verif.Spec Require Import LinAlg Outcome Norms Householder Small.
From Verif.Model Require Import Legacy Norms Householder QGen Small.
From Verif.Proof Require Import LarfgProof SmallProof SmallSvd SmallSchur SmallViews SmallHouse.
From Verif.Properties Require Import Norms Householder ExTac.
Local Open Scope R_scope.

(** ** ladiv: (a + ib) / (c + id), whatever the scaling constants *)
Theorem ladiv_correct (ov safmin u a b c d : R) : u <> 0 -> c <> 0 \/ d <> 0 ->
  ladiv (E:=RE) ov safmin u a b c d = ((a * c + b * d) / (c * c + d * d), (b * c - a * d) / (c * c + d * d)).
Proof. apply ladiv_run. Qed.

(** ** singularvalues22, svd22 *)
Theorem singularvalues22_correct (f g h : R) : exists smin smax : R, singularvalues22 (E:=RE) f g h = (smin, smax) /\ sing22 f g h smin smax.
Proof. pose proof (singularvalues22_run f g h) as H. cbv zeta in H. destruct (singularvalues22 (E:=RE) f g h) as [a b]. exists a, b. split; auto. Qed.
Theorem svd22_correct (eps f g h : R) : 0 < eps -> exists smin smax csl snl csr snr : R, svd22 (E:=RE) eps f g h = (smin, smax, csl, snl, csr, snr) /\
  let M := Rmax (Rabs f) (Rabs h) in
  Rabs smin <= Rabs smax /\
  (~ (M < Rabs g /\ M / Rabs g < eps) \/ M = 0 -> svd_eqs f g h smin smax csl snl csr snr 0 0) /\
  (M < Rabs g /\ M / Rabs g < eps -> svd_eqs f g h smin smax csl snl csr snr (eps * eps) (2 * (eps * eps) * Rabs g)).
Proof. apply svd22_run. Qed.
(** the two kernels agree: |smin| and |smax| from svd22 are the singular values *)
Theorem svd22_singular_values (eps f g h : R) : 0 < eps -> ~ (Rmax (Rabs f) (Rabs h) < Rabs g /\ Rmax (Rabs f) (Rabs h) / Rabs g < eps) ->
  exists smin smax csl snl csr snr : R, svd22 (E:=RE) eps f g h = (smin, smax, csl, snl, csr, snr) /\ sing22 f g h (Rabs smin) (Rabs smax).
Proof.
  intros He HN. destruct (svd22_run eps f g h He) as (smin & smax & cl & sl & cr & sr & E & HL & HE & _). exists smin, smax, cl, sl, cr, sr. split; auto.
  destruct (HE (or_introl HN)) as (H1 & H2 & H3 & H4 & H5 & H6). clear HE HN E.
  assert (Z : forall x, Rabs x <= 0 -> x = 0). { intros x Hx. destruct (Req_dec x 0); auto. apply Rabs_pos_lt in H. lra. }
  apply Z in H1, H2, H3, H4, H5, H6.
  assert (C1 : cl * cl + sl * sl = 1) by lra. assert (C2 : cr * cr + sr * sr = 1) by lra.
  split; [split; [apply Rabs_pos|auto]|]. rewrite !abs_sq. rewrite <- Rabs_mult.
  assert (F1 : f * f + g * g + h * h = smin * smin + smax * smax).
  { transitivity ((cl * cl + sl * sl) * ((f * cr + g * sr) * (f * cr + g * sr) + (- f * sr + g * cr) * (- f * sr + g * cr) + (h * sr) * (h * sr) + (h * cr) * (h * cr))).
    - rewrite C1. transitivity ((cr * cr + sr * sr) * (f * f + g * g + h * h)); [rewrite C2; ring|ring].
    - transitivity ((cl * (f * cr + g * sr) + sl * h * sr) * (cl * (f * cr + g * sr) + sl * h * sr) + (cl * (- f * sr + g * cr) + sl * h * cr) * (cl * (- f * sr + g * cr) + sl * h * cr) + (- sl * (f * cr + g * sr) + cl * h * sr) * (- sl * (f * cr + g * sr) + cl * h * sr) + (- sl * (- f * sr + g * cr) + cl * h * cr) * (- sl * (- f * sr + g * cr) + cl * h * cr)); [ring|].
      rewrite H4, H5. replace (cl * (f * cr + g * sr) + sl * h * sr) with smax by lra. replace (- sl * (- f * sr + g * cr) + cl * h * cr) with smin by lra. ring. }
  split; [lra|]. f_equal.
  transitivity ((cl * (f * cr + g * sr) + sl * h * sr) * (- sl * (- f * sr + g * cr) + cl * h * cr) - (cl * (- f * sr + g * cr) + sl * h * cr) * (- sl * (f * cr + g * sr) + cl * h * sr)).
  - rewrite H4, H5. replace (cl * (f * cr + g * sr) + sl * h * sr) with smax by lra. replace (- sl * (- f * sr + g * cr) + cl * h * cr) with smin by lra. ring.
  - transitivity ((cl * cl + sl * sl) * (cr * cr + sr * sr) * (f * h)); [ring|]. rewrite C1, C2. ring.
Qed.

(** ** laed5: the eigenvalue number [i] and eigenvector of diag(d0, d1) + rho z z^T *)
Theorem laed5_correct (i : nat) (d0 d1 z0 z1 rho : R) : d0 < d1 -> 0 < rho -> z0 <> 0 -> z1 <> 0 -> (i = 0 \/ i = 1)%nat ->
  exists x y lam : R, laed5 (E:=RE) i d0 d1 z0 z1 rho = (x, y, lam) /\ rank1_eig d0 d1 z0 z1 rho x y lam /\ (i = 0%nat -> d0 < lam < d1) /\ (i = 1%nat -> d1 < lam).
Proof.
  intros H1 H2 H3 H4 Hi. pose proof (laed5_run i d0 d1 z0 z1 rho H1 H2 H3 H4 Hi) as H. destruct (laed5 (E:=RE) i d0 d1 z0 z1 rho) as [[x y] lam]. exists x, y, lam. auto.
Qed.

(** ** lahqr_schur22 *)
Theorem lahqr_schur22_correct (eps mn a b c d : R) : 0 < eps -> 0 < mn ->
  ~ (a = d /\ 0 < b * c /\ 4 * eps <= schur_z a b c d) -> ~ (b = - c /\ c <> 0 /\ a <> d /\ schur_z a b c d < 4 * eps) ->
  exists aa bb cc dd r1 i1 r2 i2 cs sn : R, lahqr_schur22 (E:=RE) eps mn a b c d = ((aa, bb, cc, dd), ((r1, i1), (r2, i2)), (cs, sn)) /\
    schur_of a b c d aa bb cc dd cs sn /\ schur_std a b c d aa bb cc dd /\
    (* r1 + i i1 and r2 + i i2 are the eigenvalues: their sum and their product *)
    r1 + r2 = a + d /\ i1 + i2 = 0 /\ r1 * r2 - i1 * i2 = a * d - b * c /\ r1 * i2 + i1 * r2 = 0 /\ 0 <= i1.
Proof.
  intros He Hm N1 N2. destruct (schur22_factor_run eps mn a b c d He Hm N1 N2) as (aa & bb & cc & dd & cs & sn & E & V & W).
  destruct (schur_inv _ _ _ _ _ _ _ _ _ _ V) as [I1 I2].
  assert (HC : cc = 0 \/ (aa = dd /\ bb * cc <= 0)). { destruct W as [[W _]|[[W1 W2]|(W1 & W2 & _)]]; auto; right; split; auto; [lra|rewrite W2; lra]. }
  pose proof (schur22_eig_run aa bb cc dd HC) as H. unfold lahqr_schur22. rewrite E. destruct (schur22_eig (E:=RE) aa bb cc dd) as [[r1 i1] [r2 i2]].
  destruct H as (H1 & H2 & H3 & H4 & H5). exists aa, bb, cc, dd, r1, i1, r2, i2, cs, sn. split; [reflexivity|]. split; auto. split; auto. split; [lra|]. split; auto. split; [lra|]. auto.
Qed.
(** False of the code: for b = - c (and a, d close together) it returns half the matrix, with cs^2 + sn^2 = 1/2 *)
Theorem lahqr_schur22_opposite_refuted (eps mn a b d : R) : 0 < eps -> 0 < mn -> b <> 0 -> a <> d -> Rabs (a - d) <= 2 * Rabs b ->
  exists aa bb cc dd cs sn : R, fst (fst (lahqr_schur22 (E:=RE) eps mn a b (- b)%R d)) = (aa, bb, cc, dd) /\ snd (lahqr_schur22 (E:=RE) eps mn a b (- b)%R d) = (cs, sn) /\
    cs * cs + sn * sn = 1 / 2 /\ aa + dd = (a + d) / 2 /\ ~ schur_of a b (- b) d aa bb cc dd cs sn.
Proof.
  intros He Hm Hb Hd HB. destruct (schur22_opp eps mn a b d He Hm Hb Hd HB) as (aa & bb & cc & dd & cs & sn & E & H1 & H2 & H3 & _).
  exists aa, bb, cc, dd, cs, sn. unfold lahqr_schur22. rewrite E. split; auto. split; auto. split; auto. split; [lra|]. intros [H _]. lra.
Qed.
(** ... a matrix with a double eigenvalue and |b| < |c| comes out lower triangular ... *)
Theorem lahqr_schur22_defective_refuted (eps mn a b c d : R) : 0 < eps -> 0 < mn -> b <> 0 -> Rabs b < Rabs c -> (a - d) * (a - d) + 4 * (b * c) = 0 ->
  exists aa bb cc dd : R, fst (fst (lahqr_schur22 (E:=RE) eps mn a b c d)) = (aa, bb, cc, dd) /\ cc <> 0 /\ bb = 0.
Proof.
  intros He Hm Hb HB HD. destruct (schur22_defective eps mn a b c d He Hm Hb HB HD) as (aa & bb & cc & dd & cs & sn & E & H1 & H2).
  exists aa, bb, cc, dd. unfold lahqr_schur22. rewrite E. auto.
Qed.
(** ... and a = d with b c > 0 divides by zero: in IEEE double precision, [[1, 1], [1, 1]], whose eigenvalues are 0 and
    2, gets the diagonal elements 1 and -infinity *)
Theorem lahqr_schur22_equal_diagonal_refuted : exists bb cc cs sn s2 : @T FE,
  lahqr_schur22 (E:=FE) 0x1p-52%float 0x1p-485%float 1%float 1%float 1%float 1%float = ((1%float, bb, cc, neg_infinity), ((1%float, 0%float), (neg_infinity, s2)), (cs, sn)).
Proof. do 5 eexists. vm_compute. reflexivity. Qed.

(** ** lahqr_eig22, for any complex square root *)
Theorem lahqr_eig22_correct (csqrt : @T CE -> @T CE) (a00 a01 a10 a11 : @T CE) : (forall z, mul (csqrt z) (csqrt z) = z) ->
  exists s1 s2, lahqr_eig22 csqrt a00 a01 a10 a11 = (s1, s2) /\ add s1 s2 = add a00 a11 /\ mul s1 s2 = sub (mul a00 a11) (mul a01 a10).
Proof. intros H. pose proof (eig22_run csqrt a00 a01 a10 a11 H) as K. destruct (lahqr_eig22 csqrt a00 a01 a10 a11) as [s1 s2]. exists s1, s2. auto. Qed.
Theorem complex_sqrt_exists : exists csqrt : @T CE -> @T CE, forall z, mul (csqrt z) (csqrt z) = z.
Proof. exists csqrtC. apply csqrtC_sq. Qed.

(** ** lahqr_shiftcolumn: a nonzero multiple of the first column of (H - s1 I)(H - s2 I) (its real part, when s1 and s2
    are complex shifts of a real matrix) *)
Theorem lahqr_shiftcolumn_real_correct (H v : view) (r1 i1 r2 i2 : R) (n : nat) (s : @state RE) : (n = 2 \/ n = 3)%nat -> shape H n n -> isvec v n -> vinj v -> disj H v ->
  returns (shiftcolumn_real (E:=RE) H v (r1, i1) (r2, i2)) s (fun r s' => r = 0%Z /\ only_changes (inview v) s s' /\
    exists c : R, c <> 0 /\ forall i, (i < n)%nat -> c * vval v s' i = shcol (E:=RE) n (val H s) r1 r2 (i1 * i2)%R i).
Proof.
  intros Hn [H1 H2] [V1 V2] HI _. subst n. assert (HA : forall a b : R, 0 <= a -> 0 <= b -> a + b = 0 -> a = 0 /\ b = 0) by (intros; lra).
  assert (K : runs (shiftcolumn_real (E:=RE) H v (r1, i1) (r2, i2)) s (fun r s' => r = 0%Z /\ veff v (vval v s') s s' /\ exists c : R, c <> 0 /\ forall i, (i < nc H)%nat -> c * vval v s' i = shcol (E:=RE) (nc H) (val H s) r1 r2 (i1 * i2)%R i)).
  { apply (shiftcolumn_real_run (E:=RE)); try lia; auto.
    - cbn. intros x i y Z. pose proof (Rabs_pos x). pose proof (Rabs_pos i). pose proof (Rabs_pos y). repeat split; apply abs_eq0; lra.
    - cbn. intros x i y z Z. pose proof (Rabs_pos x). pose proof (Rabs_pos i). pose proof (Rabs_pos y). pose proof (Rabs_pos z). repeat split; apply abs_eq0; lra. }
  apply runs_inv in K. destruct K as (r & s' & E & R0 & (A1 & A2 & A3) & c & C0 & HC). exists r, s'. split; auto. split; auto. split; [split; auto|]. exists c. rewrite <- H2. auto.
Qed.
Theorem lahqr_shiftcolumn_complex_correct (H v : view) (s1 s2 : @T CE) (n : nat) (s : @state CE) : (n = 2 \/ n = 3)%nat -> shape H n n -> isvec v n -> vinj v -> disj H v ->
  returns (shiftcolumn_cplx (E:=CE) H v s1 s2) s (fun r s' => r = 0%Z /\ only_changes (inview v) s s' /\
    exists c : @T CE, c <> zero /\ forall i, (i < n)%nat -> mul c (vval v s' i) = shcol (E:=CE) n (val H s) s1 s2 zero i).
Proof.
  intros Hn [H1 H2] [V1 V2] HI _. subst n.
  assert (K : runs (shiftcolumn_cplx (E:=CE) H v s1 s2) s (fun r s' => r = 0%Z /\ veff v (vval v s') s s' /\ exists c : @T CE, c <> zero /\ forall i, (i < nc H)%nat -> mul c (vval v s' i) = shcol (E:=CE) (nc H) (val H s) s1 s2 zero i)).
  { assert (A4 : forall x y z w : @T CE, add (add (add (abs1 x) (abs1 y)) (abs1 z)) (abs1 w) = zero -> x = zero /\ y = zero /\ z = zero /\ w = zero) by apply CEs_0.
    apply (shiftcolumn_cplx_run (E:=CE)); try lia; auto.
    - intros x y Z. destruct (A4 x y zero zero) as (B1 & B2 & _); auto. rewrite Z. cbn. rewrite Rabs_R0. f_equal; lra.
    - intros x y z Z. destruct (A4 x y z zero) as (B1 & B2 & B3 & _); auto. rewrite Z. cbn. rewrite Rabs_R0. f_equal; lra. }
  apply runs_inv in K. destruct K as (r & s' & E & R0 & (A1 & A2 & A3) & c & C0 & HC). exists r, s'. split; auto. split; auto. split; [split; auto|]. exists c. rewrite <- H2. auto.
Qed.
Theorem lahqr_shiftcolumn_rejects {E : Env} (H v : view) (s1 s2 : T * T) (z1 z2 : T) s : check_input = true ->
  ~ ((nc H = 2 \/ nc H = 3)%nat /\ nr H = nc H /\ nr v = nc H) -> rejects (shiftcolumn_real H v s1 s2) s /\ rejects (shiftcolumn_cplx H v z1 z2) s.
Proof.
  intros Hc Hn. unfold rejects, shiftcolumn_real, shiftcolumn_cplx, bind, check. destruct s1 as [r1 i1], s2 as [r2 i2]. rewrite Hc. cbn [andb].
  destruct (Nat.eqb_spec (nc H) 2) as [K|K].
  - cbn [negb andb]. destruct (Nat.eqb_spec (nc H) (nr H)); [|split; reflexivity]. cbn [negb]. destruct (Nat.eqb_spec (nr v) (nc H)); [|split; reflexivity]. exfalso. apply Hn. lia.
  - destruct (Nat.eqb_spec (nc H) 3) as [K3|K3]; [|split; reflexivity].
    cbn [negb andb]. destruct (Nat.eqb_spec (nc H) (nr H)); [|split; reflexivity]. cbn [negb]. destruct (Nat.eqb_spec (nr v) (nc H)); [|split; reflexivity]. exfalso. apply Hn. lia.
Qed.

(** ** inv_house3: a reflector H such that the first column of A H is zero (in the rows 0 and 1) *)
Definition col0 (tau : R) (v : nat -> R) (A : nat -> nat -> R) (r : nat) : R :=
  sum (E:=RE) 3 (fun j => A r j * refl (E:=RE) tau (hvec (E:=RE) Forward 3 v) j 0%nat).
Lemma col0_eq tau v A r : col0 tau v A r = sum (E:=RE) 3 (fun j => @mul RE (if (j =? 0)%nat then A r 0%nat else if (j =? 1)%nat then A r 1%nat else A r 2%nat) (refl (E:=RE) tau (hvec (E:=RE) Forward 3 v) j 0%nat)).
Proof. unfold col0. cbn [sum Nat.eqb]. reflexivity. Qed.
Section House.
Context (h : @hconst RE) (st bt sm : R).
Lemma house3_run (A v : view) (s : @state RE) : hconst_ok h st bt sm -> 6 <= bt * bt -> (2 <= nr A)%nat -> (3 <= nc A)%nat -> isvec v 3 -> vinj v ->
  let '(x, y, z) := ih3 sm (val A s 0 0) (val A s 0 1) (val A s 0 2) (val A s 1 0) (val A s 1 1) (val A s 1 2) in
  x * x + y * y + z * z <= 6 -> x * x + y * y + z * z <> 0 ->
  returns (inv_house3 (E:=RE) h A v) s (fun tau s' => only_changes (inview v) s s' /\ unitary (E:=RE) 3 (refl tau (hvec Forward 3 (vval v s'))) /\
    forall r, (r = 0 \/ r = 1)%nat -> (col0 tau (vval v s') (val A s) r = 0 <-> val A s r 0 * x + val A s r 1 * y + val A s r 2 * z = 0)).
Proof.
  intros Hh Hb HA1 HA2 [V1 V2] HI. destruct (ih3 _ _ _ _ _ _ _) as [[x y] z] eqn:E3. intros Hle Hne.
  assert (HS : hsafe h = sm) by (destruct Hh as (_ & _ & _ & K & _); exact K).
  apply runs_inv. apply inv_house3_run; auto. rewrite HS, E3. intros s1 W.
  assert (Ev : forall i, (i < 3)%nat -> vval v s1 i = v3f (E:=RE) x y z i) by (intros i Hi; apply W; lia).
  assert (Ez0 := Ev 0%nat ltac:(lia)). assert (Ez1 := Ev 1%nat ltac:(lia)). assert (Ez2 := Ev 2%nat ltac:(lia)). cbn [v3f] in Ez0, Ez1, Ez2.
  assert (HX : norm_exact (E:=RE) st bt (nr v) (vval v s1)).
  { left. rewrite V1. unfold vsq. cbn [rsum]. rewrite Ez0, Ez1, Ez2. unfold modulus. cbn. rewrite !abs_sq. lra. }
  eapply wp_use; [exact (larfg_reflects (E:=RE) h st bt sm Forward Columnwise v s1 Hh V2 ltac:(lia) HI HX)|].
  intros tau s' [L1 L2]. rewrite V1 in L2. pose proof (veff_comp v _ _ s s1 s' W L1) as (A1 & A2 & A3).
  split; [split; auto|]. split; [apply L2|]. intros r Hr. rewrite col0_eq. 
  pose proof (refl_null (vval v s1) tau (vval v s') (val A s r 0) (val A s r 1) (val A s r 2) L2) as RN. cbv zeta in RN. rewrite Ez0, Ez1, Ez2 in RN. exact (RN Hne).
Qed.
(** the trailing 2-by-2 block is well conditioned, or zero *)
Theorem inv_house3_correct (A v : view) (s : @state RE) : hconst_ok h st bt sm -> 6 <= bt * bt -> (2 <= nr A)%nat -> (3 <= nc A)%nat -> isvec v 3 -> vinj v -> disj A v ->
  let a i j := val A s i j in let M := bmax (a 0%nat 1%nat) (a 0%nat 2%nat) (a 1%nat 1%nat) (a 1%nat 2%nat) in
  (sm <= M /\ sm * M <= Rabs (a 0%nat 1%nat * a 1%nat 2%nat - a 0%nat 2%nat * a 1%nat 1%nat)) \/ M = 0 ->
  returns (inv_house3 (E:=RE) h A v) s (fun tau s' => only_changes (inview v) s s' /\ unitary (E:=RE) 3 (refl tau (hvec Forward 3 (vval v s'))) /\
    forall r, (r = 0 \/ r = 1)%nat -> col0 tau (vval v s') a r = 0).
Proof.
  intros Hh Hb HA1 HA2 HV HI _ a M HM. assert (S0 : 0 < sm) by (destruct Hh as (_ & _ & _ & _ & K & _); exact K).
  pose proof (house3_run A v s Hh Hb HA1 HA2 HV HI) as HR.
  assert (HN : let '(x, y, z) := ih3 sm (val A s 0 0) (val A s 0 1) (val A s 0 2) (val A s 1 0) (val A s 1 1) (val A s 1 2) in
    x * x + y * y + z * z <= 6 /\ x * x + y * y + z * z <> 0 /\ forall r, (r = 0 \/ r = 1)%nat -> val A s r 0 * x + val A s r 1 * y + val A s r 2 * z = 0).
  { destruct HM as [[HM HD]|HM].
    - pose proof (ih3_null sm (val A s 0 0) (val A s 0 1) (val A s 0 2) (val A s 1 0) (val A s 1 1) (val A s 1 2) S0 HM HD) as HN. destruct (ih3 _ _ _ _ _ _ _) as [[x y] z].
      destruct HN as (N1 & N2 & N3 & N4). split; auto. split; [nra|]. intros r [-> | ->]; auto.
    - assert (ZZ : forall x y : R, Rmax x y = 0 -> 0 <= x -> 0 <= y -> x = 0 /\ y = 0). { intros x y Z X Y. pose proof (Rmax_l x y). pose proof (Rmax_r x y). lra. }
      assert (MP : forall x y : R, 0 <= Rmax (Rabs x) (Rabs y)) by (intros x y; pose proof (Rabs_pos x); pose proof (Rmax_l (Rabs x) (Rabs y)); lra).
      unfold M, bmax in HM. apply ZZ in HM; auto. destruct HM as [HM1 HM2]. apply ZZ in HM1; [|apply Rabs_pos..]. apply ZZ in HM2; [|apply Rabs_pos..].
      destruct HM1 as [B1 B2], HM2 as [B3 B4]. apply abs_eq0 in B1, B2, B3, B4. unfold a in *. rewrite B1, B2, B3, B4, ih3_zero by auto. split; [lra|]. split; [lra|]. intros r [-> | ->]; rewrite ?B1, ?B2, ?B3, ?B4; ring. }
  destruct (ih3 _ _ _ _ _ _ _) as [[x y] z]. destruct HN as (N1 & N2 & N3). destruct (HR N1 N2) as (tau & s' & E & C1 & C2 & C3). exists tau, s'. split; auto. split; auto. split; auto. intros r Hr. apply C3; auto.
Qed.
(** A singular trailing block: right when a second element is the larger one of its row, and wrong when a first element is *)
Theorem inv_house3_singular (A v : view) (s : @state RE) : hconst_ok h st bt sm -> 6 <= bt * bt -> (2 <= nr A)%nat -> (3 <= nc A)%nat -> isvec v 3 -> vinj v -> disj A v ->
  let a i j := val A s i j in let M := bmax (a 0%nat 1%nat) (a 0%nat 2%nat) (a 1%nat 1%nat) (a 1%nat 2%nat) in
  sm <= M -> a 0%nat 1%nat * a 1%nat 2%nat = a 0%nat 2%nat * a 1%nat 1%nat ->
  returns (inv_house3 (E:=RE) h A v) s (fun tau s' => only_changes (inview v) s s' /\ unitary (E:=RE) 3 (refl tau (hvec Forward 3 (vval v s'))) /\
    (Rabs (a 0%nat 1%nat) < Rabs (a 0%nat 2%nat) \/ Rabs (a 1%nat 1%nat) < Rabs (a 1%nat 2%nat) -> forall r, (r = 0 \/ r = 1)%nat -> col0 tau (vval v s') a r = 0) /\
    (Rabs (a 0%nat 2%nat) < Rabs (a 0%nat 1%nat) \/ Rabs (a 1%nat 2%nat) < Rabs (a 1%nat 1%nat) -> exists r, (r = 0 \/ r = 1)%nat /\ col0 tau (vval v s') a r <> 0)).
Proof.
  intros Hh Hb HA1 HA2 HV HI _ a M HM HD. assert (S0 : 0 < sm) by (destruct Hh as (_ & _ & _ & _ & K & _); exact K).
  pose proof (house3_run A v s Hh Hb HA1 HA2 HV HI) as HR.
  pose proof (ih3_sing sm (val A s 0 0) (val A s 0 1) (val A s 0 2) (val A s 1 0) (val A s 1 1) (val A s 1 2) S0 HM HD) as HN. destruct (ih3 _ _ _ _ _ _ _) as [[x y] z].
  destruct HN as (-> & -> & N1 & N2 & N3). destruct HR as (tau & s' & E & C1 & C2 & C3); [lra|nra|]. exists tau, s'. split; auto. split; auto. split; auto. split.
  - intros HL r Hr. apply C3; auto. destruct (N2 HL) as [K1 K2]. destruct Hr as [-> | ->]; lra.
  - intros HL. destruct (N3 HL) as [K|K]; [exists 0%nat|exists 1%nat]; (split; [auto|]); intros Z; apply C3 in Z; auto; lra.
Qed.
End House.

(** concrete instances *)
Example ladiv_example : ladiv (E:=RE) 1000%R (1 / 1000)%R (1 / 8)%R 1%R 2%R 3%R 4%R = (11 / 25, 2 / 25).
Proof. rewrite ladiv_correct by lra. f_equal; lra. Qed.
Example svd22_example : exists smin smax csl snl csr snr : R, svd22 (E:=RE) (1 / 8)%R 3%R 4%R 5%R = (smin, smax, csl, snl, csr, snr) /\ svd_eqs 3 4 5 smin smax csl snl csr snr 0 0.
Proof.
  destruct (svd22_correct (1/8) 3 4 5 ltac:(lra)) as (a & b & c & d & e & f & E & _ & H & _). exists a, b, c, d, e, f. split; auto. apply H. left. rewrite !Rabs_right, Rmax_right by lra. lra.
Qed.
(** g dominates *)
Example svd22_example_dominant : exists smin smax csl snl csr snr : R, svd22 (E:=RE) (1 / 8)%R 1%R 100%R 1%R = (smin, smax, csl, snl, csr, snr) /\ svd_eqs 1 100 1 smin smax csl snl csr snr (1 / 64) (100 / 32).
Proof.
  destruct (svd22_correct (1/8) 1 100 1 ltac:(lra)) as (a & b & c & d & e & f & E & _ & _ & H). exists a, b, c, d, e, f. split; auto.
  replace (1 / 64) with (1 / 8 * (1 / 8)) by lra. replace (100 / 32) with (2 * (1 / 8 * (1 / 8)) * Rabs 100) by (rewrite Rabs_right; lra). apply H. rewrite !Rabs_right, Rmax_left by lra. lra.
Qed.
Example laed5_example : exists x y lam : R, laed5 (E:=RE) 1 1%R 2%R 1%R 1%R 1%R = (x, y, lam) /\ rank1_eig 1 2 1 1 1 x y lam /\ 2 < lam.
Proof. destruct (laed5_correct 1 1 2 1 1 1) as (x & y & lam & E & H & _ & HL); try lra; [auto|]. exists x, y, lam. auto. Qed.
(** real and complex eigenvalues *)
Example lahqr_schur22_example : exists aa bb cc dd r1 i1 r2 i2 cs sn : R, lahqr_schur22 (E:=RE) (1 / 8)%R (1 / 8)%R 1%R 2%R 3%R 4%R = ((aa, bb, cc, dd), ((r1, i1), (r2, i2)), (cs, sn)) /\
  schur_of 1 2 3 4 aa bb cc dd cs sn /\ cc = 0 /\ r1 + r2 = 5 /\ i1 = 0 /\ r1 * r2 = -2.
Proof.
  destruct (lahqr_schur22_correct (1/8) (1/8) 1 2 3 4) as (aa & bb & cc & dd & r1 & i1 & r2 & i2 & cs & sn & E & V & W & H1 & H2 & H3 & H4 & H5); try lra.
  exists aa, bb, cc, dd, r1, i1, r2, i2, cs, sn. split; auto. split; auto.
  assert (I0 : i1 = 0). { assert (i2 = - i1) by lra. subst i2. assert (Z : i1 * (r2 - r1) = 0) by lra. apply Rmult_integral in Z. destruct Z as [Z|Z]; auto. assert (r1 = r2) by lra. nra. }
  split; [|split; [lra|split; [auto|rewrite I0 in H3; lra]]].
  destruct W as [[W _]|[[W1 W2]|(_ & _ & _ & W & _)]]; auto; [|lra]. exfalso. destruct (schur_inv _ _ _ _ _ _ _ _ _ _ V) as [J1 J2]. subst dd. nra.
Qed.
Example lahqr_schur22_example_complex : exists aa bb cc dd r1 i1 r2 i2 cs sn : R, lahqr_schur22 (E:=RE) (1 / 8)%R (1 / 8)%R 1%R (-2)%R 3%R 2%R = ((aa, bb, cc, dd), ((r1, i1), (r2, i2)), (cs, sn)) /\
  schur_of 1 (-2) 3 2 aa bb cc dd cs sn /\ aa = dd /\ bb * cc < 0 /\ 0 < i1.
Proof.
  destruct (lahqr_schur22_correct (1/8) (1/8) 1 (-2) 3 2) as (aa & bb & cc & dd & r1 & i1 & r2 & i2 & cs & sn & E & V & W & H1 & H2 & H3 & H4 & H5); try lra.
  exists aa, bb, cc, dd, r1, i1, r2, i2, cs, sn. split; auto. split; auto. destruct (schur_inv _ _ _ _ _ _ _ _ _ _ V) as [J1 J2].
  assert (W' : aa = dd /\ bb * cc < 0). { destruct W as [[W _]|[W|(W1 & W2 & _)]]; auto; exfalso; [rewrite W in J2|rewrite W2 in J2]; nra. }
  destruct W' as [W1 W2]. split; auto. split; auto. destruct (Rle_lt_or_eq_dec _ _ H5) as [|Z]; auto. exfalso. rewrite <- Z in *. nra.
Qed.
Example lahqr_schur22_opposite_example : exists aa bb cc dd cs sn : R, fst (fst (lahqr_schur22 (E:=RE) (1 / 8)%R (1 / 8)%R 3%R 2%R (- 2)%R 1%R)) = (aa, bb, cc, dd) /\
  snd (lahqr_schur22 (E:=RE) (1 / 8)%R (1 / 8)%R 3%R 2%R (- 2)%R 1%R) = (cs, sn) /\ cs * cs + sn * sn = 1 / 2 /\ aa + dd = (3 + 1) / 2 /\ ~ schur_of 3 2 (- 2) 1 aa bb cc dd cs sn.
Proof. apply (lahqr_schur22_opposite_refuted (1/8) (1/8) 3 2 1); try lra. replace (3 - 1) with 2 by lra. rewrite !Rabs_right by lra. lra. Qed.
Example lahqr_schur22_defective_example : exists aa bb cc dd : R, fst (fst (lahqr_schur22 (E:=RE) (1 / 8)%R (1 / 8)%R 2%R 1%R (- 4)%R (- 2)%R)) = (aa, bb, cc, dd) /\ cc <> 0 /\ bb = 0.
Proof. apply (lahqr_schur22_defective_refuted (1/8) (1/8) 2 1 (-4) (-2)); try lra. rewrite (Rabs_left (-4)), Rabs_right by lra. lra. Qed.
Definition exA23 : view := lview (mklmat 2 3 0 2 ColMajor).
Definition exA22 : view := lview (mklmat 2 2 0 2 ColMajor).
Definition exv3 : view := vview (mklvec 3 10 1 Forward).
Definition exv2 : view := vview (mklvec 2 10 1 Forward).
#[global] Hint Unfold exA23 exA22 exv3 exv2 : exv.
(** the matrix [[1, 2, 1], [1, 4, x]] *)
Definition exA_s (x : R) : @state RE := mkst RE (fun l => if (l =? 2)%Z then 2 else if (l =? 3)%Z then 4 else if (l =? 5)%Z then x else 1) (fun _ => 0%Z).
Example shiftcolumn_example : exists r s', shiftcolumn_real (E:=RE) exA22 exv2 (1%R, 2%R) (1%R, (- 2)%R) (exA_s 3) = Ok r s' /\ exists c : R, c <> 0 /\ c * vval exv2 s' 1 = 1 * (1 - 1) + (4 - 1) * 1.
Proof.
  destruct (lahqr_shiftcolumn_real_correct exA22 exv2 1 2 1 (- 2) 2 (exA_s 3)) as (r & s' & E & _ & _ & c & C0 & HC); [auto|split; reflexivity|split; reflexivity|exv|exv|].
  exists r, s'. split; [exact E|]. exists c. split; auto. rewrite (HC 1%nat) by lia. unfold shcol. cbn. lra.
Qed.
Example inv_house3_example : returns (inv_house3 (E:=RE) (ex_h RE) exA23 exv3) (exA_s 3) (fun tau s' => col0 tau (vval exv3 s') (val exA23 (exA_s 3)) 0 = 0 /\ col0 tau (vval exv3 s') (val exA23 (exA_s 3)) 1 = 0).
Proof.
  destruct (inv_house3_correct (ex_h RE) (1/8) 1000 (1/1000) exA23 exv3 (exA_s 3)) as (tau & s' & E & _ & _ & H); [exact (ex_h_ok RE)|lra|cbn; lia|cbn; lia|split; reflexivity|exv|exv| |].
  - left. unfold bmax. cbn. rewrite (Rabs_right 2), (Rabs_right 1), (Rabs_right 4), (Rabs_right 3), (Rabs_right (2 * 3 - 1 * 4)) by lra. rewrite (Rmax_left 2 1), (Rmax_left 4 3), (Rmax_right 2 4) by lra. lra.
  - exists tau, s'. split; [exact E|]. split; apply H; auto.
Qed.
(** the trailing block [[2, 1], [4, 2]]: the first column is not reduced *)
Example inv_house3_singular_example : returns (inv_house3 (E:=RE) (ex_h RE) exA23 exv3) (exA_s 2) (fun tau s' => exists r, (r = 0 \/ r = 1)%nat /\ col0 tau (vval exv3 s') (val exA23 (exA_s 2)) r <> 0).
Proof.
  destruct (inv_house3_singular (ex_h RE) (1/8) 1000 (1/1000) exA23 exv3 (exA_s 2)) as (tau & s' & E & _ & _ & _ & H); [exact (ex_h_ok RE)|lra|cbn; lia|cbn; lia|split; reflexivity|exv|exv| | |].
  - unfold bmax. cbn. rewrite (Rabs_right 2), (Rabs_right 1), (Rabs_right 4) by lra. rewrite (Rmax_left 2 1), (Rmax_left 4 2), (Rmax_right 2 4) by lra. lra.
  - cbn. lra.
  - exists tau, s'. split; [exact E|]. apply H. left. cbn. rewrite !Rabs_right by lra. lra.
Qed.
