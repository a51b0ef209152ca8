(** * steqr *)
From Coq Require Import Bool Arith ZArith Lia Reals Lra Ring Field List Permutation.
From Verif.Core Require Import Scalar Instances Inv0 Prog View Slice RealLaws.
From Verif.Model Require Import Blas1 Householder Sort Rot Steqr.
From Verif.Spec Require Import Outcome LinAlg Norms Householder Reduce Steqr.
From Verif.Proof Require Import SumLemmas Tactics Blas1Proof PotrfProof BlockAlg LarfProof LarfgProof QRProof QGenProof QFactProof ReduceMath SliceTac GetrfRecProof RotgProof GivensProof SteqrMath Ev2Proof.
Local Open Scope T_scope.

Section P.
Context {E : Env} {FL : FieldLaws E} {CL : ConjLaws E} {OL : ROrdLaws E} {QL : EqbLaws E} {XL : CplxLaws E} {RL : RLaws E} {NL : FinLaws E} {IL : Inv0Laws E}.
Add Field Tf : fth.

(** ** real elements *)
Definition real (x : T) : Prop := conj x = x.
Lemma real_0 : real 0. Proof. apply conj_0. Qed.
Lemma real_1 : real 1. Proof. apply conj_1. Qed.
Lemma real_add x y : real x -> real y -> real (x + y). Proof. unfold real. intros. rewrite conj_add; congruence. Qed.
Lemma real_mul x y : real x -> real y -> real (x * y). Proof. unfold real. intros. rewrite conj_mul; congruence. Qed.
Lemma real_sub x y : real x -> real y -> real (x - y). Proof. unfold real. intros. rewrite conj_sub; congruence. Qed.
Lemma real_ofR x : real (ofR x). Proof. apply ofR_real. Qed.
Lemma real_div x y : real x -> real y -> real (x / y).
Proof.
  unfold real. intros Hx Hy. destruct (eqb y 0) eqn:e.
  - apply eqb_spec in e. subst y. assert (K : forall z, z / 0 = z * (1 / 0)).
    { intros z. rewrite (Fdiv_def fth z 0), (Fdiv_def fth 1 0). ring. }
    rewrite (K x), conj_mul, inv0_real. congruence.
  - assert (N : y <> 0) by (intros N; apply eqb_spec in N; congruence).
    apply is_ofR in Hx, Hy. destruct Hx as [a ->], Hy as [b ->]. rewrite <- ofR_div; [apply ofR_real|]. intros N'. subst b. apply N, ofR_0.
Qed.
Lemma real_sgn x : real x -> real (sgnT x).
Proof. intros H. apply is_ofR in H. destruct H as [a ->]. rewrite sgnT_ofR. apply ofR_real. Qed.
Lemma real_lapy2 x y : real x -> real y -> real (lapy2 x y).
Proof. intros Hx Hy. apply is_ofR in Hx, Hy. destruct Hx as [a ->], Hy as [b ->]. rewrite lapy2_run. apply ofR_real. Qed.
Lemma lartg_T smin smax a b : (0 < smin)%R -> (0 < smax)%R -> real a -> real b ->
  exists c s r, lartg (ofR smin) (ofR smax) a b = (c, s, r) /\ real c /\ real s /\ real r /\ c * c + s * s = 1 /\ c * a + s * b = r /\ c * b - s * a = 0.
Proof.
  intros H1 H2 Ha Hb. apply is_ofR in Ha, Hb. destruct Ha as [x ->], Hb as [y ->]. destruct (lartg_run smin smax x y H1 H2) as (c & s & r & K & K1 & K2 & K3).
  exists (ofR c), (ofR s), (ofR r). split; auto. do 3 (split; [apply ofR_real|]). rewrite <- !ofR_mul, <- !ofR_add, <- ofR_sub, K1, K2, K3. auto using ofR_0, ofR_1.
Qed.
Lemma ev2_T a b c : real a -> real b -> real c -> exists s1 s2 cs sn, lae2 a b c = (s1, s2) /\ laev2 a b c = (s1, s2, cs, sn) /\
  real s1 /\ real s2 /\ real cs /\ real sn /\ cs * cs + sn * sn = 1 /\ a * cs + b * sn = s1 * cs /\ b * cs + c * sn = s1 * sn /\ s1 + s2 = a + c.
Proof.
  intros Ha Hb Hc. apply is_ofR in Ha, Hb, Hc. destruct Ha as [x ->], Hb as [y ->], Hc as [z ->].
  destruct (ev2_run x y z) as (s1 & s2 & cs & sn & K1 & K2 & K3 & K4 & K5 & K6 & _). exists (ofR s1), (ofR s2), (ofR cs), (ofR sn).
  split; auto. split; auto. do 4 (split; [apply ofR_real|]). rewrite <- !ofR_mul, <- !ofR_add, K3, K4, K5, K6. auto using ofR_1.
Qed.

(** ** memory *)
Section St.
Context (wz : bool) (d e Z : view) (n : nat).
Context (Hd : nr d = n) (Hd1 : nc d = 1%nat) (Id : vinj d) (He : (n <= nr e + 1)%nat) (He1 : nc e = 1%nat) (Ie : vinj e) (Dde : disj d e).
Context (HZ : wz = true -> nc Z = n /\ vinj Z /\ disj Z d /\ disj Z e).

Definition st3 (s0 : state) (dv ev : nat -> T) (Zv : mat) (s : state) : Prop :=
  (forall i, (i < n)%nat -> vval d s i = dv i) /\ (forall i, (i + 1 < n)%nat -> vval e s i = ev i) /\
  (wz = true -> forall r q, (r < nr Z)%nat -> (q < n)%nat -> val Z s r q = Zv r q) /\
  (forall l, ~ inview d l -> ~ inview e l -> (wz = true -> ~ inview Z l) -> mem s l = mem s0 l) /\ imem s = imem s0.
Lemma st3_rd_d s0 dv ev Zv s i (Q : T -> state -> Prop) X : st3 s0 dv ev Zv s -> (i < n)%nat -> Q (dv i) s -> wp (rdv d i) Q X s.
Proof. intros (H & _) Hi HQ. apply wp_rd; try lia. change (val d s i 0) with (vval d s i). rewrite H; auto. Qed.
Lemma st3_rd_e s0 dv ev Zv s i (Q : T -> state -> Prop) X : st3 s0 dv ev Zv s -> (i + 1 < n)%nat -> Q (ev i) s -> wp (rdv e i) Q X s.
Proof. intros (_ & H & _) Hi HQ. apply wp_rd; try lia. change (val e s i 0) with (vval e s i). rewrite H; auto. Qed.
Lemma in_d i : (i < n)%nat -> inview d (ad d i 0).
Proof. intros. exists i, 0%nat. repeat split; lia. Qed.
Lemma in_e i : (i + 1 < n)%nat -> inview e (ad e i 0).
Proof. intros. exists i, 0%nat. repeat split; lia. Qed.
Lemma setm_mem s l v l' : mem (setm s l v) l' = if BinInt.Z.eqb l' l then v else mem s l'.
Proof. reflexivity. Qed.
Lemma st3_wr_d s0 dv ev Zv s i v (Q : unit -> state -> Prop) X : st3 s0 dv ev Zv s -> (i < n)%nat ->
  (forall s', st3 s0 (upd dv i v) ev Zv s' -> Q tt s') -> wp (wrv d i v) Q X s.
Proof.
  intros (H1 & H2 & H3 & H4 & H5) Hi HQ. apply wp_wr; try lia. apply HQ. split; [|split; [|split; [|split]]]; auto.
  - intros k Hk. unfold vval, val, upd. rewrite setm_mem. destruct (Nat.eqb_spec k i) as [->|N]; [rewrite BinInt.Z.eqb_refl; auto|].
    destruct (BinInt.Z.eqb_spec (ad d k 0) (ad d i 0)) as [e0|]; [apply Id in e0; lia|]. apply H1; auto.
  - intros k Hk. unfold vval, val. rewrite setm_mem. destruct (BinInt.Z.eqb_spec (ad e k 0) (ad d i 0)) as [e0|]; [exfalso; symmetry in e0; apply Dde in e0; auto; lia|]. apply H2; auto.
  - intros Hz r q Hr Hq. destruct (HZ Hz) as (Z1 & Z2 & Z3 & Z4). unfold val. rewrite setm_mem. destruct (BinInt.Z.eqb_spec (ad Z r q) (ad d i 0)) as [e0|]; [exfalso; apply Z3 in e0; auto; lia|]. apply H3; auto.
  - intros l L1 L2 L3. rewrite setm_mem. destruct (BinInt.Z.eqb_spec l (ad d i 0)) as [e0|]; auto. exfalso. apply L1. rewrite e0. apply in_d; auto.
Qed.
Lemma st3_wr_e s0 dv ev Zv s i v (Q : unit -> state -> Prop) X : st3 s0 dv ev Zv s -> (i + 1 < n)%nat ->
  (forall s', st3 s0 dv (upd ev i v) Zv s' -> Q tt s') -> wp (wrv e i v) Q X s.
Proof.
  intros (H1 & H2 & H3 & H4 & H5) Hi HQ. apply wp_wr; try lia. apply HQ. split; [|split; [|split; [|split]]]; auto.
  - intros k Hk. unfold vval, val. rewrite setm_mem. destruct (BinInt.Z.eqb_spec (ad d k 0) (ad e i 0)) as [e0|]; [exfalso; apply Dde in e0; auto; lia|]. apply H1; auto.
  - intros k Hk. unfold vval, val, upd. rewrite setm_mem. destruct (Nat.eqb_spec k i) as [->|N]; [rewrite BinInt.Z.eqb_refl; auto|].
    destruct (BinInt.Z.eqb_spec (ad e k 0) (ad e i 0)) as [e0|]; [apply Ie in e0; lia|]. apply H2; auto.
  - intros Hz r q Hr Hq. destruct (HZ Hz) as (Z1 & Z2 & Z3 & Z4). unfold val. rewrite setm_mem. destruct (BinInt.Z.eqb_spec (ad Z r q) (ad e i 0)) as [e0|]; [exfalso; apply Z4 in e0; auto; lia|]. apply H3; auto.
  - intros l L1 L2 L3. rewrite setm_mem. destruct (BinInt.Z.eqb_spec l (ad e i 0)) as [e0|]; auto. exfalso. apply L2. rewrite e0. apply in_e; auto.
Qed.
(** two columns of Z are replaced *)
Lemma st3_cols s0 dv ev Zv s s' j1 j2 (f g : nat -> T) : wz = true -> st3 s0 dv ev Zv s -> (j1 < n)%nat -> (j2 < n)%nat -> j1 <> j2 ->
  veff2 (vcol Z 0 (nr Z) j1) f (vcol Z 0 (nr Z) j2) g s s' ->
  st3 s0 dv ev (fun r q => if (q =? j1)%nat then f r else if (q =? j2)%nat then g r else Zv r q) s'.
Proof.
  intros Hz (H1 & H2 & H3 & H4 & H5) Hj1 Hj2 Hn (V1 & V2 & V3 & V4). destruct (HZ Hz) as (Z1 & Z2 & Z3 & Z4). cbn [nr vcol] in *. rewrite Nat.sub_0_r in *.
  assert (INc : forall l j, inview (vcol Z 0 (nr Z) j) l -> exists r, (r < nr Z)%nat /\ l = ad Z r j).
  { intros l j (r & c & Hr & Hc & e0). cbn [nr vcol ad] in *. exists r. split; [lia|]. auto. }
  assert (OUT : forall l, ~ inview Z l -> mem s' l = mem s l).
  { intros l Hl. apply V3; intros K; apply INc in K; destruct K as (r & Hr & e0); apply Hl; [exists r, j1|exists r, j2]; repeat split; auto; lia. }
  assert (NZ : forall l V, disj Z V -> inview V l -> ~ inview Z l).
  { intros l V D (a & b & Ha & Hb & e0) (a' & b' & Ha' & Hb' & e1). apply (D a' b' a b); auto; congruence. }
  split; [|split; [|split; [|split]]].
  - intros i Hi. unfold vval, val. rewrite OUT; [apply H1; auto|]. apply (NZ _ d); auto using in_d.
  - intros i Hi. unfold vval, val. rewrite OUT; [apply H2; auto|]. apply (NZ _ e); auto using in_e.
  - intros _ r q Hr Hq. destruct (Nat.eqb_spec q j1) as [->|N1]; [exact (V1 r Hr)|]. destruct (Nat.eqb_spec q j2) as [->|N2]; [exact (V2 r Hr)|].
    rewrite <- (H3 Hz r q Hr Hq). unfold val. apply V3; intros K; apply INc in K; destruct K as (r' & Hr' & e0); apply Z2 in e0; lia.
  - intros l L1 L2 L3. rewrite OUT; auto.
  - congruence.
Qed.
Lemma col_disj j1 j2 : wz = true -> (j1 < n)%nat -> (j2 < n)%nat -> j1 <> j2 -> disj (vcol Z 0 (nr Z) j1) (vcol Z 0 (nr Z) j2).
Proof.
  intros Hz H1 H2 Hn a b a' b'. destruct (HZ Hz) as (Z1 & Z2 & _). cbn [nr nc vcol ad]. intros Ha Hb Ha' Hb' e0. apply Z2 in e0; lia.
Qed.
Lemma st3_ext s0 dv ev Zv Zv' s : (forall r q, (r < nr Z)%nat -> (q < n)%nat -> Zv r q = Zv' r q) -> st3 s0 dv ev Zv s -> st3 s0 dv ev Zv' s.
Proof. intros H (H1 & H2 & H3 & H4 & H5). split; [|split; [|split; [|split]]]; auto. intros Hz r q Hr Hq. rewrite H3; auto. Qed.
Lemma st3_rot s0 dv ev Zv s j1 j2 c sn (Q : unit -> state -> Prop) X : st3 s0 dv ev Zv s -> (j1 < n)%nat -> (j2 < n)%nat -> j1 <> j2 ->
  (forall s', st3 s0 dv ev (mmul n Zv (givens j1 j2 c sn)) s' -> Q tt s') -> wp (if wz then rot_cols Z j1 j2 c sn else ret tt) Q X s.
Proof.
  intros HS H1 H2 Hn HQ. assert (HS' := HS). destruct HS as (_ & _ & H3 & _). destruct (Bool.bool_dec wz true) as [Hz|Hz].
  - destruct (HZ Hz) as (Z1 & Z2 & Z3 & Z4). rewrite Hz at 1. unfold rot_cols. apply wp_bind, wp_slcol; try lia. apply wp_bind, wp_slcol; try lia.
    apply wp_noX. eapply wp_conseq; [apply rot_run; auto| |auto].
    + apply vinj_vcol; auto; lia.
    + apply vinj_vcol; auto; lia.
    + apply col_disj; auto.
    + intros Hc a b. apply andb_true_iff in Hc. destruct Hc as [Hc1 Hc2]. apply eqb_spec in Hc1, Hc2. subst c sn. rewrite conj_0. split; ring.
    + intros [] s' V. cbv beta in V. apply HQ. eapply st3_ext; [|apply (st3_cols s0 dv ev Zv s s' j1 j2 _ _ Hz HS' H1 H2 Hn V)].
      intros r q Hr Hq. rewrite mmul_givens by auto. unfold gcol. cbv beta.
      change (vval (vcol Z 0 (nr Z) j1) s r) with (val Z s r j1). change (vval (vcol Z 0 (nr Z) j2) s r) with (val Z s r j2). rewrite !H3 by auto. auto.
  - assert (Hf : wz = false) by (destruct wz; congruence). rewrite Hf at 1. apply wp_ret, HQ. destruct HS' as (K1 & K2 & K3 & K4 & K5).
    split; [|split; [|split; [|split]]]; auto. intros; congruence.
Qed.

(** ** The loop invariant *)
Context (Z0 : mat) (T0 : mat) (eps smin smax : R) (Heps : (0 <= eps)%R) (Hsmin : (0 < smin)%R) (Hsmax : (0 < smax)%R).
Let delta := sqrt (eps * eps * fro2 n n T0 + 2 * smin).
Definition realv (dv ev : nat -> T) : Prop := (forall i, (i < n)%nat -> real (dv i)) /\ (forall i, (i + 1 < n)%nat -> real (ev i)).
Lemma Sim_grot k M M' W j1 j2 c sn : real c -> real sn -> c * c + sn * sn = 1 -> (j1 < n)%nat -> (j2 < n)%nat -> j1 <> j2 ->
  (forall r q, (r < n)%nat -> (q < n)%nat -> M' r q = grot j1 j2 c sn M r q) -> Sim n T0 delta k M W -> Sim n T0 delta k M' (mmul n W (givens j1 j2 c sn)).
Proof.
  intros Hc Hs Hcs H1 H2 Hn HM HS. apply (Sim_uni n T0 delta k M); auto.
  - apply givens_unitary; auto. rewrite Hs; auto.
  - intros r q Hr Hq. rewrite HM by auto. symmetry. apply mmul_grot; auto.
Qed.
Definition ok3 (s0 : state) (k : nat) (dv ev : nat -> T) (W : mat) (s : state) : Prop :=
  st3 s0 dv ev (mmul n Z0 W) s /\ realv dv ev /\ Sim n T0 delta k (symtri dv ev) W.

(** one QR sweep *)
Definition qinv (s0 : state) (k lo hi : nat) (ev0 : nat -> T) (i : nat) (st : T * T * T * T) (s : state) : Prop :=
  let '(sn, c, p, g) := st in exists dv ev W,
  st3 s0 dv ev (mmul n Z0 W) s /\ realv dv ev /\ real sn /\ real c /\ real p /\ real g /\
  (forall j, (j < lo \/ hi <= j + 1)%nat -> ev j = ev0 j) /\
  (i = lo -> c = 1 /\ p = 0) /\
  Sim n T0 delta k (bulge i (if (i =? lo)%nat then 0 else sn * ev i)
    (symtri (upd dv i (dv i - p)) (fun j => if (j =? i)%nat then c * ev i else if ((lo <? i) && (j + 1 =? i))%nat then g else ev j))) W.
Lemma real_upd (f : nat -> T) m i v : (forall j, (j < m)%nat -> real (f j)) -> real v -> forall j, (j < m)%nat -> real (upd f i v j).
Proof. intros H Hv j Hj. unfold upd. destruct (j =? i)%nat; auto. Qed.
Lemma st_qr_run s0 k dv ev W s lo hi X : ok3 s0 k dv ev W s -> (lo + 1 < hi)%nat -> (hi <= n)%nat ->
  ((0 < lo)%nat -> ev (lo - 1)%nat = 0) -> ((hi < n)%nat -> ev (hi - 1)%nat = 0) ->
  wp (st_qr (ofR smin) (ofR smax) wz d e Z lo hi) (fun _ s' => exists dv' ev' W', ok3 s0 k dv' ev' W' s' /\
    (forall j, (j < lo \/ hi <= j + 1)%nat -> ev' j = ev j)) X s.
Proof.
  intros (HS & (RD & RE) & HSim) Hlo Hhi B1 B2. unfold st_qr.
  apply wp_bind, (st3_rd_d s0 dv ev (mmul n Z0 W)); auto; [lia|].
  apply wp_bind, (st3_rd_d s0 dv ev (mmul n Z0 W)); auto; [lia|].
  apply wp_bind, (st3_rd_e s0 dv ev (mmul n Z0 W)); auto; [lia|].
  apply wp_bind, (st3_rd_d s0 dv ev (mmul n Z0 W)); auto; [lia|].
  apply wp_bind, (st3_rd_e s0 dv ev (mmul n Z0 W)); auto; [lia|].
  set (g1 := (dv (hi - 2)%nat - dv (hi - 1)%nat) / ((1 + 1) * ev (hi - 2)%nat)). set (g0 := dv lo - _ + _).
  assert (Rg1 : real g1) by (apply real_div; [apply real_sub; apply RD; lia|apply real_mul; [apply real_add; apply real_1|apply RE; lia]]).
  assert (Rg0 : real g0).
  { apply real_add; [apply real_sub; apply RD; lia|]. apply real_div; [apply RE; lia|]. apply real_add; auto. apply real_mul; [apply real_sgn; auto|apply real_lapy2; auto using real_1]. }
  clearbody g0. clear g1 Rg1.
  apply wp_bind. apply (wp_foldup _ (qinv s0 k lo hi ev)); [lia| | |].
  - exists dv, ev, W. split; [auto|]. split; [split; auto|]. split; [apply real_1|]. split; [apply real_1|]. split; [apply real_0|]. split; [auto|]. split; [auto|]. split; [auto|].
    rewrite Nat.eqb_refl. eapply Sim_ext; [|exact HSim]. intros r q Hr Hq. rewrite (bulge_0 n) by (auto; intros; apply symtri_far; auto).
    unfold symtri, upd. nats; subst; auto; try ring.
  - intros i [[[sn c] p] g] s1 Hi (dv1 & ev1 & W1 & HS1 & (RD1 & RE1) & Rs & Rc & Rp & Rg & HB & HI & HM).
    apply wp_bind, (st3_rd_e s0 dv1 ev1 (mmul n Z0 W1)); auto; [lia|].
    apply wp_bind, (st3_rd_e s0 dv1 ev1 (mmul n Z0 W1)); auto; [lia|].
    destruct (lartg_T smin smax g (sn * ev1 i)) as (c' & s' & r' & -> & Rc' & Rs' & Rr' & C1 & C2 & C3); auto; [apply real_mul; auto; apply RE1; lia|].
    set (ev2 := if (i =? lo)%nat then ev1 else upd ev1 (i - 1) r').
    assert (RE2 : forall j, (j + 1 < n)%nat -> real (ev2 j)).
    { intros j Hj. unfold ev2, upd. destruct (i =? lo)%nat; auto. destruct (j =? i - 1)%nat; auto. }
    apply wp_bind. apply wp_conseq with (Q := fun _ s2 => st3 s0 dv1 ev2 (mmul n Z0 W1) s2) (X := X); [|intros [] s2 HS2|auto].
    { unfold ev2. destruct (Nat.eqb_spec i lo) as [->|N]; cbn [negb]; [apply wp_ret; auto|]. eapply st3_wr_e; eauto. lia. }
    apply wp_bind, (st3_rd_d s0 dv1 ev2 (mmul n Z0 W1)); auto; [lia|].
    apply wp_bind, (st3_rd_d s0 dv1 ev2 (mmul n Z0 W1)); auto; [lia|].
    set (a := dv1 i - p). set (b := c * ev1 i). set (w := (dv1 (i + 1)%nat - a) * s' + (1 + 1) * c' * b).
    assert (Ra : real a) by (apply real_sub; auto; apply RD1; lia). assert (Rb : real b) by (apply real_mul; auto; apply RE1; lia).
    assert (Rw : real w) by (apply real_add; apply real_mul; auto; [apply real_sub; auto; apply RD1; lia|apply real_mul; auto; apply real_add; apply real_1]).
    apply wp_bind, (st3_wr_d s0 dv1 ev2 (mmul n Z0 W1)); auto; [lia|]. intros s3 HS3. cbv zeta.
    apply wp_bind, (st3_rot s0 (upd dv1 i (a + s' * w)) ev2 (mmul n Z0 W1)); auto; [lia..|]. intros s4 HS4.
    apply wp_ret. exists (upd dv1 i (a + s' * w)), ev2, (mmul n W1 (givens i (i + 1) c' s')).
    split; [eapply st3_ext; [|exact HS4]; intros; symmetry; apply mmul_assoc|].
    split; [split; auto; apply real_upd; auto; apply real_add; auto; apply real_mul; auto|].
    do 2 (split; [auto|]). split; [apply real_mul; auto|]. split; [apply real_sub; auto; apply real_mul; auto|].
    split. { intros j Hj. rewrite <- HB by auto. unfold ev2, upd. destruct (Nat.eqb_spec i lo); auto. destruct (Nat.eqb_spec j (i - 1)); auto; lia. }
    split; [intros; lia|]. replace (S i) with (i + 1)%nat by lia.
    apply (Sim_grot k (bulge i (if (i =? lo)%nat then 0 else sn * ev1 i) (symtri (upd dv1 i a) (fun j => if (j =? i)%nat then b else if ((lo <? i) && (j + 1 =? i))%nat then g else ev1 j)))); auto; try lia.
    intros r q Hr Hq. apply (chase_dn n); auto; try lia; unfold upd; nats; auto.
    all: assert (V2 : forall j, (j + 1 <> i)%nat -> ev2 j = ev1 j) by (intros j Hj; unfold ev2, upd; destruct (Nat.eqb_spec i lo); auto; destruct (Nat.eqb_spec j (i - 1)); auto; lia).
    1: intros j J1 J2 J3; nats; auto.
    1,2: intros J; rewrite V2 by lia; auto.
    + intros J. assert (EV : ev1 (i - 1)%nat = 0) by (rewrite HB by lia; subst i; apply B1; lia). unfold ev2. nats. rewrite EV. split; ring.
    + intros J. unfold ev2, upd. nats. split; auto.
    + intros j J1 J2 J3 J4. nats. apply V2. auto.
    + intros j J1 J2 J3 J4. nats. apply V2. auto.
  - intros [[[sn c] p] g] s1 (dv1 & ev1 & W1 & HS1 & (RD1 & RE1) & Rs & Rc & Rp & Rg & HB & HI & HM).
    apply wp_bind, (st3_rd_d s0 dv1 ev1 (mmul n Z0 W1)); auto; [lia|].
    apply wp_bind, (st3_wr_d s0 dv1 ev1 (mmul n Z0 W1)); auto; [lia|]. intros s2 HS2.
    eapply st3_wr_e; [exact HS2|lia|]. intros s3 HS3. eexists _, _, W1. split; [split; [exact HS3|split]|].
    + split; [apply real_upd; auto; apply real_sub; auto; apply RD1; lia|]. intros j Hj. unfold upd. destruct (j =? hi - 2)%nat; auto.
    + eapply Sim_ext; [|exact HM]. intros r q Hr Hq. unfold bulge, symtri, upd.
      assert (EZ : (hi < n)%nat -> ev1 (hi - 1)%nat = 0) by (intros; rewrite HB by lia; auto).
      nats; subst; auto.
      1,3: rewrite EZ by lia; ring.
      * replace r with (hi - 1)%nat by lia. rewrite EZ by lia. ring.
      * replace q with (hi - 1)%nat by lia. rewrite EZ by lia. ring.
    + intros j Hj. rewrite <- HB by auto. unfold upd. destruct (Nat.eqb_spec j (hi - 2)); auto; lia.
Qed.
(** one QL sweep; the invariant is indexed by one more than the position of the next rotation *)
Definition linv (s0 : state) (k lo hi : nat) (ev0 : nat -> T) (m : nat) (st : T * T * T * T) (s : state) : Prop :=
  let '(sn, c, p, g) := st in let i := (m - 1)%nat in exists dv ev W,
  st3 s0 dv ev (mmul n Z0 W) s /\ realv dv ev /\ real sn /\ real c /\ real p /\ real g /\
  (forall j, (j < lo \/ hi <= j + 1)%nat -> ev j = ev0 j) /\
  (m = hi -> c = 1 /\ p = 0) /\
  Sim n T0 delta k (bulge i (if (m =? hi)%nat then 0 else sn * ev (i - 1)%nat)
    (symtri (upd dv i (dv i - p)) (fun j => if (j + 1 =? i)%nat then c * ev j else if ((m <? hi) && (j =? i))%nat then g else ev j))) W.
Lemma st_ql_run s0 k dv ev W s lo hi X : ok3 s0 k dv ev W s -> (lo + 1 < hi)%nat -> (hi <= n)%nat ->
  ((0 < lo)%nat -> ev (lo - 1)%nat = 0) -> ((hi < n)%nat -> ev (hi - 1)%nat = 0) ->
  wp (st_ql (ofR smin) (ofR smax) wz d e Z lo hi) (fun _ s' => exists dv' ev' W', ok3 s0 k dv' ev' W' s' /\
    (forall j, (j < lo \/ hi <= j + 1)%nat -> ev' j = ev j)) X s.
Proof.
  intros (HS & (RD & RE) & HSim) Hlo Hhi B1 B2. unfold st_ql.
  apply wp_bind, (st3_rd_d s0 dv ev (mmul n Z0 W)); auto; [lia|].
  apply wp_bind, (st3_rd_d s0 dv ev (mmul n Z0 W)); auto; [lia|].
  apply wp_bind, (st3_rd_e s0 dv ev (mmul n Z0 W)); auto; [lia|].
  apply wp_bind, (st3_rd_d s0 dv ev (mmul n Z0 W)); auto; [lia|].
  apply wp_bind, (st3_rd_e s0 dv ev (mmul n Z0 W)); auto; [lia|].
  set (g1 := (dv (lo + 1)%nat - dv lo) / ((1 + 1) * ev lo)). set (g0 := dv (hi - 1)%nat - _ + _).
  assert (Rg1 : real g1) by (apply real_div; [apply real_sub; apply RD; lia|apply real_mul; [apply real_add; apply real_1|apply RE; lia]]).
  assert (Rg0 : real g0).
  { apply real_add; [apply real_sub; apply RD; lia|]. apply real_div; [apply RE; lia|]. apply real_add; auto. apply real_mul; [apply real_sgn; auto|apply real_lapy2; auto using real_1]. }
  clearbody g0. clear g1 Rg1.
  apply wp_bind. apply (wp_folddown _ (linv s0 k lo hi ev)); [lia| | |].
  - exists dv, ev, W. split; [auto|]. split; [split; auto|]. split; [apply real_1|]. split; [apply real_1|]. split; [apply real_0|]. split; [auto|]. split; [auto|]. split; [auto|].
    rewrite Nat.eqb_refl. eapply Sim_ext; [|exact HSim]. intros r q Hr Hq. rewrite (bulge_0 n) by (auto; intros; apply symtri_far; auto).
    unfold symtri, upd. nats; subst; auto; try ring.
  - intros i [[[sn c] p] g] s1 Hi (dv1 & ev1 & W1 & HS1 & (RD1 & RE1) & Rs & Rc & Rp & Rg & HB & HI & HM).
    replace (S i - 1)%nat with i in * by lia.
    apply wp_bind, (st3_rd_e s0 dv1 ev1 (mmul n Z0 W1)); auto; [lia|].
    apply wp_bind, (st3_rd_e s0 dv1 ev1 (mmul n Z0 W1)); auto; [lia|].
    destruct (lartg_T smin smax g (sn * ev1 (i - 1)%nat)) as (c' & s' & r' & -> & Rc' & Rs' & Rr' & C1 & C2 & C3); auto; [apply real_mul; auto; apply RE1; lia|].
    set (ev2 := if (i =? hi - 1)%nat then ev1 else upd ev1 i r').
    assert (RE2 : forall j, (j + 1 < n)%nat -> real (ev2 j)).
    { intros j Hj. unfold ev2, upd. destruct (i =? hi - 1)%nat; auto. destruct (j =? i)%nat; auto. }
    apply wp_bind. apply wp_conseq with (Q := fun _ s2 => st3 s0 dv1 ev2 (mmul n Z0 W1) s2) (X := X); [|intros [] s2 HS2|auto].
    { unfold ev2. destruct (Nat.eqb_spec i (hi - 1)) as [->|N]; cbn [negb]; [apply wp_ret; auto|]. eapply st3_wr_e; eauto. lia. }
    apply wp_bind, (st3_rd_d s0 dv1 ev2 (mmul n Z0 W1)); auto; [lia|].
    apply wp_bind, (st3_rd_d s0 dv1 ev2 (mmul n Z0 W1)); auto; [lia|].
    set (a := dv1 i - p). set (b := c * ev1 (i - 1)%nat). set (w := (dv1 (i - 1)%nat - a) * s' + (1 + 1) * c' * b).
    assert (Ra : real a) by (apply real_sub; auto; apply RD1; lia). assert (Rb : real b) by (apply real_mul; auto; apply RE1; lia).
    assert (Rw : real w) by (apply real_add; apply real_mul; auto; [apply real_sub; auto; apply RD1; lia|apply real_mul; auto; apply real_add; apply real_1]).
    apply wp_bind, (st3_wr_d s0 dv1 ev2 (mmul n Z0 W1)); auto; [lia|]. intros s3 HS3. cbv zeta.
    apply wp_bind, (st3_rot s0 (upd dv1 i (a + s' * w)) ev2 (mmul n Z0 W1)); auto; [lia..|]. intros s4 HS4.
    apply wp_ret. exists (upd dv1 i (a + s' * w)), ev2, (mmul n W1 (givens i (i - 1) c' s')).
    split; [eapply st3_ext; [|exact HS4]; intros; symmetry; apply mmul_assoc|].
    split; [split; auto; apply real_upd; auto; apply real_add; auto; apply real_mul; auto|].
    do 2 (split; [auto|]). split; [apply real_mul; auto|]. split; [apply real_sub; auto; apply real_mul; auto|].
    split. { intros j Hj. rewrite <- HB by auto. unfold ev2, upd. destruct (Nat.eqb_spec i (hi - 1)); auto. destruct (Nat.eqb_spec j i); auto; lia. }
    split; [intros; lia|]. replace (i - 1 - 1)%nat with (i - 2)%nat by lia.
    apply (Sim_grot k (bulge i (if (S i =? hi)%nat then 0 else sn * ev1 (i - 1)%nat) (symtri (upd dv1 i a) (fun j => if (j + 1 =? i)%nat then c * ev1 j else if ((S i <? hi) && (j =? i))%nat then g else ev1 j)))); auto; try lia.
    intros r q Hr Hq. apply (chase_up n); auto; try lia; unfold upd; nats; auto.
    all: assert (V2 : forall j, (j <> i)%nat -> ev2 j = ev1 j) by (intros j Hj; unfold ev2, upd; destruct (Nat.eqb_spec i (hi - 1)); auto; destruct (Nat.eqb_spec j i); auto; lia).
    1: intros j J1 J2 J3; nats; auto.
    1,2: intros J; rewrite V2 by lia; auto.
    + intros J. assert (EV : ev1 i = 0) by (rewrite HB by lia; replace i with (hi - 1)%nat by lia; apply B2; lia). unfold ev2. nats. rewrite EV. split; ring.
    + intros J. unfold ev2, upd. nats. split; auto.
    + intros j J1 J2 J3 J4. nats. apply V2. auto.
    + intros j J1 J2 J3 J4. nats. apply V2. auto.
  - intros [[[sn c] p] g] s1 (dv1 & ev1 & W1 & HS1 & (RD1 & RE1) & Rs & Rc & Rp & Rg & HB & HI & HM). replace (lo + 1 - 1)%nat with lo in * by lia.
    apply wp_bind, (st3_rd_d s0 dv1 ev1 (mmul n Z0 W1)); auto; [lia|].
    apply wp_bind, (st3_wr_d s0 dv1 ev1 (mmul n Z0 W1)); auto; [lia|]. intros s2 HS2.
    eapply st3_wr_e; [exact HS2|lia|]. intros s3 HS3. eexists _, _, W1. split; [split; [exact HS3|split]|].
    + split; [apply real_upd; auto; apply real_sub; auto; apply RD1; lia|]. intros j Hj. unfold upd. destruct (j =? lo)%nat; auto.
    + eapply Sim_ext; [|exact HM]. intros r q Hr Hq. unfold bulge, symtri, upd.
      assert (EZ : (0 < lo)%nat -> ev1 (lo - 1)%nat = 0) by (intros; rewrite HB by lia; auto).
      nats; subst; auto.
      all: assert (EZ' := EZ ltac:(lia)); rewrite ?Nat.add_sub in *; rewrite EZ'; ring.
    + intros j Hj. rewrite <- HB by auto. unfold upd. destruct (Nat.eqb_spec j lo); auto; lia.
Qed.

(** the number of nonzero elements *)
Fixpoint nzc (m : nat) (ev : nat -> T) : nat := match m with O => 0%nat | S m' => (nzc m' ev + if eqb (ev m') 0 then 0 else 1)%nat end.
Lemma nzc_le m ev : (nzc m ev <= m)%nat.
Proof. induction m; cbn; auto. destruct (eqb _ _); lia. Qed.
Lemma nzc_mono m ev ev' : (forall j, (j < m)%nat -> ev j = 0 -> ev' j = 0) -> (nzc m ev' <= nzc m ev)%nat.
Proof.
  induction m as [|m IH]; intros H; cbn; auto. assert (K := IH ltac:(auto)). destruct (eqb (ev m) 0) eqn:e1, (eqb (ev' m) 0) eqn:e2; try lia.
  apply eqb_spec in e1. apply H in e1; auto. apply eqb_spec in e1. congruence.
Qed.
Lemma nzc_dec m ev ev' i : (forall j, (j < m)%nat -> ev j = 0 -> ev' j = 0) -> (i < m)%nat -> ev i <> 0 -> ev' i = 0 -> (nzc m ev' + 1 <= nzc m ev)%nat.
Proof.
  induction m as [|m IH]; intros H Hi H1 H2; [lia|]. cbn. destruct (Nat.eq_dec i m) as [->|N].
  - assert (K := nzc_mono m ev ev' ltac:(auto)). apply eqb_spec in H2. rewrite H2. destruct (eqb (ev m) 0) eqn:e1; [|lia]. apply eqb_spec in e1. congruence.
  - assert (K := IH ltac:(auto) ltac:(lia) H1 H2). destruct (eqb (ev m) 0) eqn:e1, (eqb (ev' m) 0) eqn:e2; try lia.
    apply eqb_spec in e1. apply H in e1; auto. apply eqb_spec in e1. congruence.
Qed.
Lemma small_spec x a b : real x -> leb (x * x) (ofR eps * ofR eps * absv a * absv b + ofR smin) = true <->
  (modulus x * modulus x <= eps * eps * modulus a * modulus b + smin)%R.
Proof.
  intros Hx. replace (x * x) with (x * conj x) by (rewrite Hx; auto). rewrite modulus_ofR_sq, !absv_ofR, <- !ofR_mul, <- ofR_add. apply leb_ofR.
Qed.
Lemma st_find_run s0 k dv ev W s lo c X : ok3 s0 k dv ev W s -> (lo + c < n)%nat -> ((0 < lo)%nat -> ev (lo - 1)%nat = 0) ->
  wp (st_find (ofR eps * ofR eps) (ofR smin) d e lo c) (fun lo' s' => exists k' ev', ok3 s0 k' dv ev' W s' /\
    (k' + nzc (n - 1) ev' <= k + nzc (n - 1) ev)%nat /\ (lo <= lo' <= lo + c)%nat /\ ((0 < lo')%nat -> ev' (lo' - 1)%nat = 0) /\
    (forall j, (lo' <= j < lo + c)%nat -> ev' j <> 0) /\ (forall j, (j + 1)%nat <> lo' -> ev' j = ev j)) X s.
Proof.
  intros HO. assert (HO' := HO). destruct HO as (HS & (RD & RE) & HM). induction c as [|c IH]; intros Hc HL; cbn [st_find].
  - apply wp_ret. exists k, ev. split; auto. split; auto. split; [lia|]. split; auto. split; [intros; lia|auto].
  - set (i := (lo + S c)%nat).
    apply wp_bind, (st3_rd_e s0 dv ev (mmul n Z0 W)); auto; [lia|].
    apply wp_bind, (st3_rd_d s0 dv ev (mmul n Z0 W)); auto; [lia|].
    apply wp_bind, (st3_rd_d s0 dv ev (mmul n Z0 W)); auto.
    destruct (leb _ _) eqn:el.
    + apply small_spec in el; [|apply RE; lia].
      apply wp_bind, (st3_wr_e s0 dv ev (mmul n Z0 W)); auto; [lia|]. intros s1 HS1. apply wp_ret.
      assert (RU : realv dv (upd ev (i - 1) 0)) by (split; auto; intros j Hj; unfold upd; destruct (j =? i - 1)%nat; auto using real_0).
      assert (Z1 : upd ev (i - 1) 0 (i - 1)%nat = 0) by (unfold upd; rewrite Nat.eqb_refl; auto).
      assert (MO : forall j, (j < n - 1)%nat -> ev j = 0 -> upd ev (i - 1) 0 j = 0) by (intros j Hj J; unfold upd; destruct (j =? i - 1)%nat; auto).
      assert (OT : forall j, (j + 1)%nat <> i -> upd ev (i - 1) 0 j = ev j) by (intros j Hj; unfold upd; destruct (Nat.eqb_spec j (i - 1)); auto; lia).
      destruct (eqb (ev (i - 1)%nat) 0) eqn:ez.
      * apply eqb_spec in ez. exists k, (upd ev (i - 1) 0). split; [|split; [|split; [lia|split; [auto|split; [intros; lia|auto]]]]].
        -- split; auto. split; auto. eapply Sim_ext; [|exact HM]. intros r q Hr Hq. unfold symtri, upd. nats; subst; auto; try (replace r with (i - 1)%nat by lia; auto); replace q with (i - 1)%nat by lia; auto.
        -- assert (K := nzc_mono (n - 1) ev (upd ev (i - 1) 0) MO). lia.
      * assert (NZ : ev (i - 1)%nat <> 0) by (intros J; apply eqb_spec in J; congruence).
        exists (S k), (upd ev (i - 1) 0). split; [|split; [|split; [lia|split; [auto|split; [intros; lia|auto]]]]].
        -- split; auto. split; auto. apply Sim_deflate; auto; try lra; [lia|]. replace (i - 1 + 1)%nat with i by lia. auto.
        -- assert (K := nzc_dec (n - 1) ev (upd ev (i - 1) 0) (i - 1) MO ltac:(lia) NZ Z1). lia.
    + eapply wp_conseq; [apply IH; auto; lia| |auto]. intros lo' s' (k' & ev' & K1 & K2 & K3 & K4 & K5 & K6). exists k', ev'.
      split; auto. split; auto. split; [lia|]. split; auto. split; auto. intros j Hj. destruct (Nat.eq_dec j (lo + c)) as [->|]; [|apply K5; lia].
      rewrite K6 by lia. intros J. replace (i - 1)%nat with (lo + c)%nat in el by lia. apply not_true_iff_false in el. apply el. apply small_spec; [apply RE; lia|].
      rewrite J. assert (M0 : (modulus 0 = 0)%R) by (apply modulus_0_iff; auto). rewrite M0.
      assert (P1 := modulus_pos (dv (lo + c)%nat)). assert (P2 := modulus_pos (dv i)). assert (P3 : (0 <= eps * eps * modulus (dv (lo + c)%nat))%R) by (apply Rmult_le_pos; auto; nra). nra.
Qed.
Lemma st_22_run s0 k dv ev W s lo X : ok3 s0 k dv ev W s -> (lo + 1 < n)%nat -> ((0 < lo)%nat -> ev (lo - 1)%nat = 0) -> ((lo + 2 < n)%nat -> ev (lo + 1)%nat = 0) ->
  wp (st_22 wz d e Z lo) (fun _ s' => exists dv' W', ok3 s0 k dv' (upd ev lo 0) W' s') X s.
Proof.
  intros (HS & (RD & RE) & HM) Hlo B1 B2. unfold st_22.
  apply wp_bind, (st3_rd_d s0 dv ev (mmul n Z0 W)); auto; [lia|].
  apply wp_bind, (st3_rd_e s0 dv ev (mmul n Z0 W)); auto.
  apply wp_bind, (st3_rd_d s0 dv ev (mmul n Z0 W)); try lia; auto.
  destruct (ev2_T (dv lo) (ev lo) (dv (lo + 1)%nat)) as (s1 & s2 & cs & sn & E1 & E2 & R1 & R2 & R3 & R4 & C1 & C2 & C3 & C4); auto; try (apply RD; lia).
  set (W' := mmul n W (givens lo (lo + 1) cs sn)).
  apply wp_bind. apply wp_conseq with (Q := fun ss s' => ss = (s1, s2) /\ st3 s0 dv ev (mmul n Z0 W') s') (X := X); [| |auto].
  { assert (K : wp (if wz then rot_cols Z lo (lo + 1) cs sn else ret tt) (fun _ s' => st3 s0 dv ev (mmul n Z0 W') s') X s).
    { eapply st3_rot; [exact HS|lia..|]. intros s' HS'. eapply st3_ext; [|exact HS']. intros; symmetry; apply mmul_assoc. }
    destruct wz.
    - rewrite E2. apply wp_bind. eapply wp_conseq; [exact K| |auto]. intros u0 s' HS'. apply wp_ret. auto.
    - apply wp_ret. auto. }
  intros ss s' [-> HS'].
  apply wp_bind, (st3_wr_d s0 dv ev (mmul n Z0 W')); auto; [lia|]. intros s3 HS3.
  apply wp_bind. eapply st3_wr_d; [exact HS3|lia|]. intros s4 HS4.
  eapply st3_wr_e; [exact HS4|lia|]. intros s5 HS5. eexists _, W'. split; [exact HS5|]. split.
  - split; [apply real_upd; auto; apply real_upd; auto|]. intros j Hj. unfold upd. destruct (j =? lo)%nat; auto using real_0.
  - apply (Sim_grot k (symtri dv ev)); auto; try lia. apply (block2 n dv ev _ _ lo cs sn s1 s2); auto; unfold upd; intros; nats; auto.
Qed.
Lemma st_loop_run s0 X : forall iters k dv ev W s lo hi old fwd, ok3 s0 k dv ev W s -> (k + nzc (n - 1) ev <= n - 1)%nat -> (hi <= n)%nat -> ((1 < hi)%nat -> (lo < hi)%nat) ->
  ((0 < lo)%nat -> ev (lo - 1)%nat = 0) -> (forall j, (hi <= j + 1)%nat -> (j + 1 < n)%nat -> ev j = 0) ->
  wp (st_loop iters (ofR eps * ofR eps) (ofR smin) (ofR smax) wz d e Z lo hi old fwd)
    (fun _ s' => exists k' dv' ev' W', ok3 s0 k' dv' ev' W' s' /\ (k' <= n - 1)%nat) X s.
Proof.
  induction iters as [|it IH]; intros k dv ev W s lo hi old fwd HO Hk Hhi Hlo B1 B2; cbn [st_loop].
  { apply wp_ret. exists k, dv, ev, W. split; auto. lia. }
  destruct (Nat.leb_spec hi 1) as [H1|H1].
  { apply wp_ret. exists k, dv, ev, W. split; auto. lia. }
  specialize (Hlo H1).
  apply wp_bind. eapply wp_conseq; [apply (st_find_run s0 k dv ev W s lo (hi - 1 - lo) X); auto; lia| |auto].
  intros lo' s1 (k1 & ev1 & HO1 & Hk1 & Hl1 & B1' & NZ & OT). replace (lo + (hi - 1 - lo))%nat with (hi - 1)%nat in * by lia.
  assert (B2' : forall j, (hi <= j + 1)%nat -> (j + 1 < n)%nat -> ev1 j = 0) by (intros j J1 J2; rewrite OT by lia; auto).
  destruct (Nat.eqb_spec lo' (hi - 1)) as [e1|N1].
  { apply (IH k1 dv ev1 W); auto; try lia. intros j J1 J2. destruct (Nat.eq_dec (hi - 1) (j + 1)); [|apply B2'; lia]. replace j with (lo' - 1)%nat by lia. apply B1'. lia. }
  destruct (Nat.eqb_spec (lo' + 1) (hi - 1)) as [e2|N2].
  { apply wp_bind. eapply wp_conseq; [apply (st_22_run s0 k1 dv ev1 W s1 lo' X); auto; try lia; intros; apply B2'; lia| |auto].
    intros u0 s2 (dv2 & W2 & HO2). apply (IH k1 dv2 (upd ev1 lo' 0) W2); auto; try lia.
    - assert (K := nzc_mono (n - 1) ev1 (upd ev1 lo' 0) ltac:(intros j Hj J; unfold upd; destruct (j =? lo')%nat; auto)). lia.
    - intros j J1 J2. unfold upd. destruct (Nat.eqb_spec j lo'); auto. destruct (Nat.eq_dec (j + 1) lo'); [|apply B2'; lia]. replace j with (lo' - 1)%nat by lia. apply B1'. lia. }
  apply wp_bind. apply wp_conseq with (Q := fun _ s2 => s2 = s1) (X := X); [| |auto].
  { destruct (match old with None => true | Some (a, b) => (b <=? lo') || (hi <=? a) end)%nat; [|apply wp_ret; auto].
    destruct HO1 as (HS1 & _). apply wp_bind. eapply st3_rd_d; [exact HS1|lia|]. apply wp_bind. eapply st3_rd_d; [exact HS1|lia|]. apply wp_ret. auto. }
  intros f2 s2 ->.
  apply wp_bind. apply wp_conseq with (Q := fun _ s' => exists dv' ev' W', ok3 s0 k1 dv' ev' W' s' /\ (forall j, (j < lo' \/ hi <= j + 1)%nat -> ev' j = ev1 j)) (X := X); [| |auto].
  { destruct f2; [apply st_qr_run with (dv := dv) (W := W)|apply st_ql_run with (dv := dv) (W := W)]; auto; try lia; intros; apply B2'; lia. }
  intros u0 s3 (dv3 & ev3 & W3 & HO3 & OT3). apply (IH k1 dv3 ev3 W3); auto; try lia.
  - assert (K := nzc_mono (n - 1) ev1 ev3). specialize (K ltac:(intros j Hj J; destruct (Nat.lt_ge_cases j lo'); [rewrite OT3 by lia; auto|]; destruct (Nat.lt_ge_cases j (hi - 1)); [exfalso; apply (NZ j); auto; lia|]; rewrite OT3 by lia; auto)). lia.
  - intros J. rewrite OT3 by lia. auto.
  - intros j J1 J2. rewrite OT3 by lia. auto.
Qed.
End St.
End P.
