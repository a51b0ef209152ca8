(** * gghrd *)
From Coq Require Import Bool Arith ZArith Lia Ring Field.
From Verif.Core Require Import Scalar Prog View Slice.
From Verif.Spec Require Import LinAlg Householder Reduce Steqr.
From Verif.Model Require Import Blas1 Rot Gghrd.
From Verif.Proof Require Import SumLemmas Tactics SliceTac Blas1Proof PotrfProof BlockAlg LarfgProof QRProof QGenProof ReduceMath GivensProof.
Local Open Scope T_scope.

Section P.
Context {E : Env} {FL : FieldLaws E} {CL : ConjLaws E} {QL : EqbLaws E}.
Add Field Tf : fth.

Definition rotg_good (rotg : T -> T -> T * T * T) : Prop := forall a b r c s, rotg a b = (r, c, s) ->
  conj c = c /\ c * c + s * conj s = 1 /\ c * a + s * b = r /\ c * b - conj s * a = 0.

Lemma rot_id c s : eqb c one && eqb s zero = true -> forall a b, c * a + s * b = a /\ c * b - conj s * a = b.
Proof. intros Hc a b. apply andb_true_iff in Hc. destruct Hc as [H1 H2]. apply eqb_spec in H1, H2. subst c s. rewrite conj_0. split; ring. Qed.
Lemma rot_rows_eff X i1 i2 lo hi c s st : vinj X -> (i1 < nr X)%nat -> (i2 < nr X)%nat -> i1 <> i2 -> (lo <= hi <= nc X)%nat ->
  wp (a1 <- slrow X i1 lo hi;; a2 <- slrow X i2 lo hi;; rot a1 a2 c s)
     (fun _ s' => eff X (fun r q => if (lo <=? q)%nat && (q <? hi)%nat then grow i1 i2 c (conj s) (val X st) r q else val X st r q) st s') noX st.
Proof.
  intros HI H1 H2 Hn Hh. apply wp_bind, wp_slrow; [lia..|]. apply wp_bind, wp_slrow; [lia..|].
  eapply wp_conseq; [apply rot_run| |intros ? ? []]; auto.
  - apply vinj_vrow; auto; lia.
  - apply vinj_vrow; auto; lia.
  - intros a b a' b'. cbn [nr nc vrow ad]. intros Ha Hb Ha' Hb' e. apply HI in e; lia.
  - apply rot_id.
  - intros [] s' (V1 & V2 & V3 & V4). cbn [nr vrow] in *. unfold vval, val in V1, V2. cbn [vrow ad] in V1, V2.
    assert (NI : forall r q i, (r < nr X)%nat -> (q < nc X)%nat -> (i < nr X)%nat -> (r <> i \/ q < lo \/ hi <= q)%nat -> ~ inview (vrow X i lo hi) (ad X r q)).
    { intros r q i Hr Hq Hi Hx (a & b & Ha & Hb & e). cbn [nr nc vrow ad] in *. apply HI in e; lia. }
    split; [|split; [|exact V4]].
    + intros r q Hr Hq. unfold grow, val. destruct (Nat.leb_spec lo q), (Nat.ltb_spec q hi); cbn [andb]; try (apply V3; apply NI; lia).
      destruct (Nat.eqb_spec r i1) as [->|N1]; [|destruct (Nat.eqb_spec r i2) as [->|N2]; [|apply V3; apply NI; lia]].
      * specialize (V1 (q - lo)%nat ltac:(lia)). replace (lo + (q - lo))%nat with q in V1 by lia. rewrite conj_conj. exact V1.
      * specialize (V2 (q - lo)%nat ltac:(lia)). replace (lo + (q - lo))%nat with q in V2 by lia. exact V2.
    + intros l Hl. apply V3; intros (a & b & Ha & Hb & e); cbn [nr nc vrow ad] in *; apply Hl; [exists i1, (lo + a)%nat|exists i2, (lo + a)%nat]; repeat split; auto; lia.
Qed.
Lemma rot_vcols_eff X i1 i2 hi c s st : vinj X -> (i1 < nc X)%nat -> (i2 < nc X)%nat -> i1 <> i2 -> (hi <= nr X)%nat ->
  wp (rot (vcol X 0 hi i1) (vcol X 0 hi i2) c s)
     (fun _ s' => eff X (fun r q => if (r <? hi)%nat then gcol i1 i2 c s (val X st) r q else val X st r q) st s') noX st.
Proof.
  intros HI H1 H2 Hn Hh. 
  eapply wp_conseq; [apply rot_run| |intros ? ? []]; auto.
  - apply vinj_vcol; auto; lia.
  - apply vinj_vcol; auto; lia.
  - intros a b a' b'. cbn [nr nc vcol ad]. intros Ha Hb Ha' Hb' e. apply HI in e; lia.
  - apply rot_id.
  - intros [] s' (V1 & V2 & V3 & V4). cbn [nr vcol] in *. rewrite Nat.sub_0_r in *. unfold vval, val in V1, V2. cbn [vcol ad Nat.add] in V1, V2.
    assert (NI : forall r q i, (r < nr X)%nat -> (q < nc X)%nat -> (i < nc X)%nat -> (q <> i \/ hi <= r)%nat -> ~ inview (vcol X 0 hi i) (ad X r q)).
    { intros r q i Hr Hq Hi Hx (a & b & Ha & Hb & e). cbn [nr nc vcol ad] in *. apply HI in e; lia. }
    split; [|split; [|exact V4]].
    + intros r q Hr Hq. unfold gcol, val. destruct (Nat.ltb_spec r hi); try (apply V3; apply NI; lia).
      destruct (Nat.eqb_spec q i1) as [->|N1]; [|destruct (Nat.eqb_spec q i2) as [->|N2]; [|apply V3; apply NI; lia]].
      * exact (V1 r ltac:(lia)).
      * exact (V2 r ltac:(lia)).
    + intros l Hl. apply V3; intros (a & b & Ha & Hb & e); cbn [nr nc vcol ad] in *; apply Hl; [exists a, i1|exists a, i2]; repeat split; auto; lia.
Qed.
Lemma rot_cols_eff X i1 i2 hi c s st : vinj X -> (i1 < nc X)%nat -> (i2 < nc X)%nat -> i1 <> i2 -> (hi <= nr X)%nat ->
  wp (a1 <- slcol X 0 hi i1;; a2 <- slcol X 0 hi i2;; rot a1 a2 c s)
     (fun _ s' => eff X (fun r q => if (r <? hi)%nat then gcol i1 i2 c s (val X st) r q else val X st r q) st s') noX st.
Proof. intros. apply wp_bind, wp_slcol; [lia..|]. apply wp_bind, wp_slcol; [lia..|]. apply rot_vcols_eff; auto. Qed.

Section G.
Variables (rotg : T -> T -> T * T * T) (Hrot : rotg_good rotg).
Variables (wantq wantz : bool) (n ilo ihi : nat) (A B Q Z : view).
Definition vs (k : nat) : view := match k with 0 => A | 1 => B | 2 => Q | _ => Z end%nat.
Hypotheses (HV : forall k, (k < 4)%nat -> vinj (vs k) /\ nr (vs k) = n /\ nc (vs k) = n)
  (HD : forall k k', (k < 4)%nat -> (k' < 4)%nat -> k <> k' -> disj (vs k) (vs k'))
  (Hlo : (ilo < ihi)%nat) (Hhi : (ihi <= n)%nat).
Variable s0 : state.
Definition St (F : nat -> mat) (s : state) : Prop :=
  (forall k r q, (k < 4)%nat -> (r < n)%nat -> (q < n)%nat -> val (vs k) s r q = F k r q) /\
  (forall l, (forall k, (k < 4)%nat -> ~ inview (vs k) l) -> mem s l = mem s0 l) /\ imem s = imem s0.
Definition updv (F : nat -> mat) (k : nat) (M : mat) : nat -> mat := fun k' => if (k' =? k)%nat then M else F k'.
Lemma St_eff F k M G s s' : (k < 4)%nat -> St F s -> eff (vs k) G s s' -> (forall r q, (r < n)%nat -> (q < n)%nat -> G r q = M r q) -> St (updv F k M) s'.
Proof.
  intros Hk (H1 & H2 & H3) (E1 & E2 & E3) HG. destruct (HV k Hk) as (_ & Hr & Hc). split; [|split].
  - intros k' r q Hk' Hr' Hq'. unfold updv. destruct (Nat.eqb_spec k' k) as [->|N].
    + rewrite E1 by lia. auto.
    + destruct (HV k' Hk') as (_ & Hr2 & Hc2). rewrite <- H1 by auto. unfold val. apply E2. intros (a & b & Ha & Hb & e).
      apply (HD k' k Hk' Hk N r q a b); auto; lia.
  - intros l Hl. rewrite E2 by auto. auto.
  - congruence.
Qed.
Lemma St_ext F G s : (forall k r q, (k < 4)%nat -> (r < n)%nat -> (q < n)%nat -> F k r q = G k r q) -> St F s -> St G s.
Proof. intros H (H1 & H2 & H3). split; [|split]; auto. intros. rewrite H1 by auto. auto. Qed.

Lemma VA : vinj A /\ nr A = n /\ nc A = n. Proof. apply (HV 0); lia. Qed.
Lemma VB : vinj B /\ nr B = n /\ nc B = n. Proof. apply (HV 1); lia. Qed.
Lemma VQ : vinj Q /\ nr Q = n /\ nc Q = n. Proof. apply (HV 2); lia. Qed.
Lemma VZ : vinj Z /\ nr Z = n /\ nc Z = n. Proof. apply (HV 3); lia. Qed.

Definition Fleft (i : nat) (c s : T) (F : nat -> mat) : nat -> mat := fun k =>
  match k with
  | 0 => grow (i - 1) i c (conj s) (F 0%nat)
  | 1 => grow (i - 1) i c (conj s) (F 1%nat)
  | 2 => if wantq then gcol (i - 1) i c (conj s) (F 2%nat) else F 2%nat
  | _ => F k
  end%nat.
Lemma gg_left_run F s i j : St F s -> (j + 1 < i)%nat -> (i < n)%nat ->
  (forall q, (q < j)%nat -> F 0%nat (i - 1)%nat q = 0 /\ F 0%nat i q = 0) ->
  (forall q, (q < i - 1)%nat -> F 1%nat (i - 1)%nat q = 0 /\ F 1%nat i q = 0) ->
  wp (gg_left rotg wantq n A B Q i j) (fun _ s' => exists c sn, conj c = c /\ c * c + sn * conj sn = 1 /\
    St (Fleft i c sn F) s' /\ Fleft i c sn F 0%nat i j = 0) noX s.
Proof.
  intros HS Hj Hi Z1 Z2. destruct VA as (IA & RA & CA), VB as (IB & RB & CB), VQ as (IQ & RQ & CQ). assert (HS0 := HS). destruct HS0 as (VF & _ & _).
  assert (VFA : forall r q, (r < n)%nat -> (q < n)%nat -> val A s r q = F 0%nat r q) by (intros; apply (VF 0%nat); auto; lia).
  assert (VFB : forall r q, (r < n)%nat -> (q < n)%nat -> val B s r q = F 1%nat r q) by (intros; apply (VF 1%nat); auto; lia).
  unfold gg_left. apply wp_bind, wp_rd; [lia..|]. apply wp_bind, wp_rd; [lia..|]. rewrite !VFA by lia.
  destruct (rotg (F 0%nat (i - 1)%nat j) (F 0%nat i j)) as [[r c] sn] eqn:ER. apply Hrot in ER. destruct ER as (R1 & R2 & R3 & R4).
  apply wp_bind. apply (wp_wr_eff _ _ _ _ _ _ _ _ _ (eff_refl A s) IA); [lia..|]. intros s1 E1.
  apply wp_bind. apply (wp_wr_eff _ _ _ _ _ _ _ _ _ E1 IA); [lia..|]. clear s1 E1. intros s1 E1.
  apply wp_bind. eapply wp_conseq; [apply (rot_rows_eff A (i - 1) i (j + 1) n); auto; lia| |intros ? ? []]. intros [] s2 E2. cbv beta in E2.
  assert (HS2 : St (updv F 0 (grow (i - 1) i c (conj sn) (F 0%nat))) s2).
  { apply (St_eff F 0 _ _ s s2 ltac:(lia) HS (eff_trans _ _ _ _ _ _ E1 E2)). intros a q Ha Hq. clear E2.
    assert (V1 : forall a q, (a < n)%nat -> (q < n)%nat -> val A s1 a q = fupd (fupd (F 0%nat) (i - 1) j r) i j 0 a q).
    { intros a' q' Ha' Hq'. rewrite (eff_val _ _ _ _ _ _ E1) by lia. unfold fupd. repeat match goal with |- context [if ?b then _ else _] => destruct b end; auto. }
    assert (V2 : forall a q, (a < n)%nat -> (j + 1 <= q)%nat -> (q < n)%nat -> val A s1 a q = F 0%nat a q).
    { intros a' q' Ha' Hq' Hq''. rewrite V1 by lia. unfold fupd. destruct (Nat.eqb_spec q' j); [lia|]. rewrite !andb_false_r. auto. }
    destruct (Nat.leb_spec (j + 1) q), (Nat.ltb_spec q n); cbn [andb]; try lia.
    - unfold grow. destruct (Nat.eqb_spec a (i - 1)); [|destruct (Nat.eqb_spec a i)]; rewrite ?V2 by lia; auto.
    - rewrite V1 by lia. unfold fupd, grow. destruct (Nat.eqb_spec a i) as [->|Na]; cbn [andb].
      + destruct (Nat.eqb_spec i (i - 1)); [lia|]. cbn [andb]. destruct (Nat.eqb_spec q j) as [->|Nq]; [rewrite <- R4; ring|].
        destruct (Z1 q ltac:(lia)) as [Y1 Y2]. rewrite Y1, Y2. ring.
      + destruct (Nat.eqb_spec a (i - 1)) as [->|Na']; cbn [andb]; auto. destruct (Nat.eqb_spec q j) as [->|Nq]; [rewrite <- R3, conj_conj; auto|].
        destruct (Z1 q ltac:(lia)) as [Y1 Y2]. rewrite Y1, Y2. ring. }
  assert (VFB2 : forall r q, (r < n)%nat -> (q < n)%nat -> val B s2 r q = F 1%nat r q) by (intros; apply (proj1 HS2 1%nat); auto; lia).
  apply wp_bind. eapply wp_conseq; [apply (rot_rows_eff B (i - 1) i (i - 1) n); auto; lia| |intros ? ? []]. intros [] s3 E3. cbv beta in E3.
  assert (HS3 : St (updv (updv F 0 (grow (i - 1) i c (conj sn) (F 0%nat))) 1 (grow (i - 1) i c (conj sn) (F 1%nat))) s3).
  { apply (St_eff _ 1 _ _ s2 s3 ltac:(lia) HS2 E3). intros a q Ha Hq.
    destruct (Nat.leb_spec (i - 1) q), (Nat.ltb_spec q n); cbn [andb]; try lia; rewrite ?VFB2 by lia.
    - unfold grow. destruct (Nat.eqb_spec a (i - 1)); [|destruct (Nat.eqb_spec a i)]; rewrite ?VFB2 by lia; auto.
    - unfold grow. destruct (Z2 q ltac:(lia)) as [Y1 Y2]. destruct (Nat.eqb_spec a (i - 1)) as [->|]; [|destruct (Nat.eqb_spec a i) as [->|]]; rewrite ?Y1, ?Y2; auto; ring. }
  assert (FZ : Fleft i c sn F 0%nat i j = 0).
  { cbn [Fleft]. unfold grow. destruct (Nat.eqb_spec i (i - 1)); [lia|]. rewrite Nat.eqb_refl. rewrite <- R4. ring. }
  case_eq wantq; intros Hw.
  - eapply wp_conseq; [apply (rot_cols_eff Q (i - 1) i n); auto; lia| |intros ? ? []]. intros [] s4 E4. cbv beta in E4. exists c, sn. split; [auto|]. split; [auto|]. split; [|auto].
    eapply St_ext; [|apply (St_eff _ 2 (gcol (i - 1) i c (conj sn) (F 2%nat)) _ s3 s4 ltac:(lia) HS3 E4)].
    + intros [|[|[|[|k]]]] a q Hk Ha Hq; try lia; cbn [Fleft]; unfold updv; cbn [Nat.eqb]; auto. rewrite Hw. auto.
    + assert (VFQ : forall r q, (r < n)%nat -> (q < n)%nat -> val Q s3 r q = F 2%nat r q) by (intros; apply (proj1 HS3 2%nat); auto; lia).
      intros a q Ha Hq. destruct (Nat.ltb_spec a n); [|lia]. unfold gcol. rewrite !VFQ by lia. auto.
  - apply wp_ret. exists c, sn. split; [auto|]. split; [auto|]. split; [|auto]. eapply St_ext; [|exact HS3].
    intros [|[|[|[|k]]]] a q Hk Ha Hq; try lia; cbn [Fleft]; unfold updv; cbn [Nat.eqb]; auto. rewrite Hw. auto.
Qed.
Definition Fright (i : nat) (c s : T) (F : nat -> mat) : nat -> mat := fun k =>
  match k with
  | 0 => gcol i (i - 1) c s (F 0%nat)
  | 1 => gcol i (i - 1) c s (F 1%nat)
  | 2 => F 2%nat
  | _ => if wantz then gcol i (i - 1) c s (F k) else F k
  end%nat.
Lemma gg_right_run F s i : St F s -> (0 < i)%nat -> (i < ihi)%nat ->
  (forall r, (ihi <= r)%nat -> (r < n)%nat -> F 0%nat r (i - 1)%nat = 0 /\ F 0%nat r i = 0) ->
  (forall r, (i < r)%nat -> (r < n)%nat -> F 1%nat r (i - 1)%nat = 0 /\ F 1%nat r i = 0) ->
  wp (gg_right rotg wantz n ihi A B Z i) (fun _ s' => exists c sn, conj c = c /\ c * c + sn * conj sn = 1 /\
    St (Fright i c sn F) s' /\ Fright i c sn F 1%nat i (i - 1)%nat = 0) noX s.
Proof.
  intros HS Hj Hi Z1 Z2. destruct VA as (IA & RA & CA), VB as (IB & RB & CB), VZ as (IZ & RZ & CZ). assert (HS0 := HS). destruct HS0 as (VF & _ & _).
  assert (VFA : forall r q, (r < n)%nat -> (q < n)%nat -> val A s r q = F 0%nat r q) by (intros; apply (VF 0%nat); auto; lia).
  assert (VFB : forall r q, (r < n)%nat -> (q < n)%nat -> val B s r q = F 1%nat r q) by (intros; apply (VF 1%nat); auto; lia).
  unfold gg_right. apply wp_bind, wp_rd; [lia..|]. apply wp_bind, wp_rd; [lia..|]. rewrite !VFB by lia.
  destruct (rotg (F 1%nat i i) (F 1%nat i (i - 1)%nat)) as [[r c] sn] eqn:ER. apply Hrot in ER. destruct ER as (R1 & R2 & R3 & R4).
  apply wp_bind. apply (wp_wr_eff _ _ _ _ _ _ _ _ _ (eff_refl B s) IB); [lia..|]. intros s1 E1.
  apply wp_bind. apply (wp_wr_eff _ _ _ _ _ _ _ _ _ E1 IB); [lia..|]. clear s1 E1. intros s1 E1.
  set (FB1 := fupd (fupd (F 1%nat) i i r) i (i - 1) 0).
  assert (HS1 : St (updv F 1 FB1) s1).
  { apply (St_eff F 1 _ _ s s1 ltac:(lia) HS E1). intros a q Ha Hq. unfold FB1, fupd. rewrite VFB by lia. auto. }
  assert (VFA1 : forall r q, (r < n)%nat -> (q < n)%nat -> val A s1 r q = F 0%nat r q) by (intros; apply (proj1 HS1 0%nat); auto; lia).
  apply wp_bind. eapply wp_conseq; [apply (rot_cols_eff A i (i - 1) ihi); auto; lia| |intros ? ? []]. intros [] s2 E2. cbv beta in E2.
  assert (HS2 : St (updv (updv F 1 FB1) 0 (gcol i (i - 1) c sn (F 0%nat))) s2).
  { apply (St_eff _ 0 _ _ s1 s2 ltac:(lia) HS1 E2). intros a q Ha Hq. destruct (Nat.ltb_spec a ihi) as [L|L].
    - unfold gcol. rewrite !VFA1 by lia. auto.
    - rewrite VFA1 by lia. unfold gcol. destruct (Z1 a ltac:(lia) ltac:(lia)) as [Y1 Y2]. destruct (Nat.eqb_spec q i) as [->|]; [|destruct (Nat.eqb_spec q (i - 1)) as [->|]]; rewrite ?Y1, ?Y2; auto; ring. }
  assert (VFB2 : forall r q, (r < n)%nat -> (q < n)%nat -> val B s2 r q = FB1 r q) by (intros; apply (proj1 HS2 1%nat); auto; lia).
  apply wp_bind. eapply wp_conseq; [apply (rot_cols_eff B i (i - 1) i); auto; lia| |intros ? ? []]. intros [] s3 E3. cbv beta in E3.
  assert (HS3 : St (updv (updv (updv F 1 FB1) 0 (gcol i (i - 1) c sn (F 0%nat))) 1 (gcol i (i - 1) c sn (F 1%nat))) s3).
  { apply (St_eff _ 1 _ _ s2 s3 ltac:(lia) HS2 E3). intros a q Ha Hq.
    destruct (Nat.ltb_spec a i) as [L|L].
    - assert (G : forall q, (q < n)%nat -> val B s2 a q = F 1%nat a q). { intros q' Hq'. rewrite VFB2 by lia. unfold FB1, fupd. destruct (Nat.eqb_spec a i); [lia|]. auto. }
      unfold gcol. rewrite !G by lia. auto.
    - rewrite VFB2 by lia. unfold FB1, fupd, gcol. destruct (Nat.eqb_spec a i) as [->|N]; cbn [andb].
      + destruct (Nat.eqb_spec q (i - 1)) as [->|N1]; [destruct (Nat.eqb_spec (i - 1) i); [lia|]; rewrite <- R4; auto|].
        destruct (Nat.eqb_spec q i) as [->|N2]; auto.
      + destruct (Z2 a ltac:(lia) ltac:(lia)) as [Y1 Y2]. destruct (Nat.eqb_spec q i) as [->|]; [|destruct (Nat.eqb_spec q (i - 1)) as [->|]]; rewrite ?Y1, ?Y2; auto; ring. }
  assert (FZ : Fright i c sn F 1%nat i (i - 1)%nat = 0).
  { cbn [Fright]. unfold gcol. destruct (Nat.eqb_spec (i - 1) i); [lia|]. rewrite Nat.eqb_refl. auto. }
  case_eq wantz; intros Hw.
  - eapply wp_conseq; [apply (rot_cols_eff Z i (i - 1) n); auto; lia| |intros ? ? []]. intros [] s4 E4. cbv beta in E4. exists c, sn. split; [auto|]. split; [auto|]. split; [|auto].
    eapply St_ext; [|apply (St_eff _ 3 (gcol i (i - 1) c sn (F 3%nat)) _ s3 s4 ltac:(lia) HS3 E4)].
    + intros [|[|[|[|k]]]] a q Hk Ha Hq; try lia; cbn [Fright]; unfold updv; cbn [Nat.eqb]; auto. rewrite Hw. auto.
    + assert (VFZ : forall r q, (r < n)%nat -> (q < n)%nat -> val Z s3 r q = F 3%nat r q) by (intros; apply (proj1 HS3 3%nat); auto; lia).
      intros a q Ha Hq. destruct (Nat.ltb_spec a n); [|lia]. unfold gcol. rewrite !VFZ by lia. auto.
  - apply wp_ret. exists c, sn. split; [auto|]. split; [auto|]. split; [|auto]. eapply St_ext; [|exact HS3].
    intros [|[|[|[|k]]]] a q Hk Ha Hq; try lia; cbn [Fright]; unfold updv; cbn [Nat.eqb]; auto. rewrite Hw. auto.
Qed.
Lemma gg_zero_run F s : St F s -> wp (gg_zero n B) (fun _ s' => St (updv F 1 (fun r q => if (q <? r)%nat then 0 else F 1%nat r q)) s') noX s.
Proof.
  intros HS. destruct VB as (IB & RB & CB). unfold gg_zero.
  apply (wp_forup (fun j s' => eff B (fun r q => if (q <? r)%nat && (q <? j)%nat then 0 else val B s r q) s s')); [lia| | |].
  - apply (eff_ext _ _ _ _ _ (eff_refl _ _)). intros r q _ _. cbn [Nat.ltb Nat.leb]. rewrite andb_false_r. auto.
  - intros j s1 Hj E1. destruct (Nat.le_gt_cases (j + 1) n) as [L|L]; [|lia].
    apply (wp_forup (fun i s' => eff B (fun r q => if (q <? r)%nat && ((q <? j)%nat || (q =? j)%nat && (r <? i)%nat) then 0 else val B s r q) s s')); [lia| | |].
    + apply (eff_ext _ _ _ _ _ E1). intros r q Hr Hq. destruct (Nat.ltb_spec q r), (Nat.ltb_spec q j), (Nat.eqb_spec q j), (Nat.ltb_spec r (j + 1)); cbn [andb orb]; auto; lia.
    + intros i s2 Hi E2. apply (wp_wr_eff _ _ _ _ _ _ _ _ _ E2 IB); [lia..|]. intros s3 E3. apply (eff_ext _ _ _ _ _ E3). intros r q Hr Hq. unfold fupd.
      destruct (Nat.eqb_spec r i), (Nat.eqb_spec q j), (Nat.ltb_spec q r), (Nat.ltb_spec q j), (Nat.ltb_spec r i), (Nat.ltb_spec r (S i)); cbn [andb orb]; auto; lia.
    + intros s2 E2. apply (eff_ext _ _ _ _ _ E2). intros r q Hr Hq. destruct (Nat.ltb_spec q r), (Nat.ltb_spec q j), (Nat.eqb_spec q j), (Nat.ltb_spec r n), (Nat.ltb_spec q (S j)); cbn [andb orb]; auto; lia.
  - intros s1 E1. apply (St_eff F 1 _ _ s s1 ltac:(lia) HS E1). intros r q Hr Hq.
    assert (V : val B s r q = F 1%nat r q) by (apply (proj1 HS 1%nat); lia). rewrite V. destruct (Nat.ltb_spec q r), (Nat.ltb_spec q n); cbn [andb]; auto; lia.
Qed.

(** ** The invariant *)
Variables A0 B0 Q0 Z0 : mat.
Hypothesis HinA : hess_input n ilo ihi A0.
Definition two (U M V : mat) : mat := mmul n (ctr U) (mmul n M V).
Lemma two_l U M V G r q : (r < n)%nat -> mmul n (ctr G) (two U M V) r q = two (mmul n U G) M V r q.
Proof.
  intros Hr. unfold two. rewrite mmul_assoc. apply mmul_ext; auto. intros l Hl. symmetry. apply ctr_mmul.
Qed.
Lemma two_r U M V G r q : mmul n (two U M V) G r q = two U M (mmul n V G) r q.
Proof.
  unfold two. rewrite <- mmul_assoc. apply mmul_ext; auto. intros l Hl. symmetry. apply mmul_assoc.
Qed.
Definition Inv (j i : nat) (F : nat -> mat) : Prop := exists U V, unitary n U /\ unitary n V /\
  (forall r q, (r < n)%nat -> (q < n)%nat -> F 0%nat r q = two U A0 V r q) /\
  (forall r q, (r < n)%nat -> (q < n)%nat -> F 1%nat r q = two U B0 V r q) /\
  (forall r q, (r < n)%nat -> (q < n)%nat -> F 2%nat r q = if wantq then mmul n Q0 U r q else Q0 r q) /\
  (forall r q, (r < n)%nat -> (q < n)%nat -> F 3%nat r q = if wantz then mmul n Z0 V r q else Z0 r q) /\
  (forall r q, (r < n)%nat -> (q < r)%nat -> F 1%nat r q = 0) /\
  (forall r q, (r < n)%nat -> (q < r)%nat -> (q < ilo \/ ihi <= r)%nat -> F 0%nat r q = A0 r q) /\
  (forall r q, (r < ihi)%nat -> (ilo <= q < j)%nat -> (q + 1 < r)%nat -> F 0%nat r q = 0) /\
  (forall r, (i <= r < ihi)%nat -> F 0%nat r j = 0).
Lemma grow_ext j1 j2 c s M M' r q : (forall a, (a < n)%nat -> M a q = M' a q) -> (j1 < n)%nat -> (j2 < n)%nat -> (r < n)%nat -> grow j1 j2 c s M r q = grow j1 j2 c s M' r q.
Proof. intros H H1 H2 Hr. unfold grow. rewrite !H by auto. auto. Qed.
Lemma gcol_ext j1 j2 c s M M' r q : (forall b, (b < n)%nat -> M r b = M' r b) -> (j1 < n)%nat -> (j2 < n)%nat -> (q < n)%nat -> gcol j1 j2 c s M r q = gcol j1 j2 c s M' r q.
Proof. intros H H1 H2 Hr. unfold gcol. rewrite !H by auto. auto. Qed.
Lemma gg_step F s i j : St F s -> Inv j (S i) F -> (ilo <= j)%nat -> (j + 2 <= i < ihi)%nat ->
  wp (gg_left rotg wantq n A B Q i j;; gg_right rotg wantz n ihi A B Z i) (fun _ s' => exists F', St F' s' /\ Inv j i F') noX s.
Proof.
  intros HS (U & V & UU & UV & I0 & I1 & I2 & I3 & J1 & J2 & J3 & J4) Hj Hi.
  assert (LO : forall r q, (r < n)%nat -> (ilo < r < ihi)%nat -> (q < ilo)%nat -> F 0%nat r q = 0). { intros r q Hr Hr' Hq. rewrite J2 by lia. apply HinA; auto; lia. }
  assert (HIr : forall r q, (r < n)%nat -> (ihi <= r)%nat -> (ilo < q < ihi)%nat -> F 0%nat r q = 0). { intros r q Hr Hr' Hq. rewrite J2 by lia. apply HinA; auto; lia. }
  apply wp_bind. eapply wp_conseq; [apply (gg_left_run F s i j HS); [lia|lia| |]| |intros ? ? []].
  { intros q Hq. destruct (Nat.lt_ge_cases q ilo); split; try (apply LO; lia); apply J3; lia. }
  { intros q Hq. split; apply J1; lia. }
  intros [] s1 (c & sn & C1 & C2 & HS1 & Z1). cbv beta.
  set (G := givens (i - 1) i c (conj sn)). assert (UG : unitary n G). { apply givens_unitary; auto; try lia. rewrite conj_conj. rewrite <- C2. ring. }
  set (F1 := Fleft i c sn F) in *.
  assert (K0 : forall r q, (r < n)%nat -> (q < n)%nat -> F1 0%nat r q = two (mmul n U G) A0 V r q).
  { intros r q Hr Hq. rewrite <- two_l by auto. unfold G. rewrite mmul_givens_l by (auto; lia). unfold F1; cbn [Fleft]. apply grow_ext; auto; lia. }
  assert (K1 : forall r q, (r < n)%nat -> (q < n)%nat -> F1 1%nat r q = two (mmul n U G) B0 V r q).
  { intros r q Hr Hq. rewrite <- two_l by auto. unfold G. rewrite mmul_givens_l by (auto; lia). unfold F1; cbn [Fleft]. apply grow_ext; auto; lia. }
  assert (K2 : forall r q, (r < n)%nat -> (q < n)%nat -> F1 2%nat r q = if wantq then mmul n Q0 (mmul n U G) r q else Q0 r q).
  { intros r q Hr Hq. unfold F1; cbn [Fleft]. destruct wantq; [|auto]. rewrite mmul_assoc. unfold G. rewrite mmul_givens by (auto; lia). apply gcol_ext; auto; lia. }
  assert (L1 : forall r q, (r < n)%nat -> (q < r)%nat -> (r <> i \/ q <> (i - 1)%nat) -> F1 1%nat r q = 0).
  { intros r q Hr Hq Hx. unfold F1; cbn [Fleft]. unfold grow. destruct (Nat.eqb_spec r (i - 1)); [|destruct (Nat.eqb_spec r i)]; [| |apply J1; auto]; rewrite !J1 by lia; ring. }
  assert (L2 : forall r q, (r < n)%nat -> (q < r)%nat -> (q < ilo \/ ihi <= r)%nat -> F1 0%nat r q = A0 r q).
  { intros r q Hr Hq Hx. unfold F1; cbn [Fleft]. unfold grow. destruct (Nat.eqb_spec r (i - 1)) as [->|]; [|destruct (Nat.eqb_spec r i) as [->|]]; [| |apply J2; auto];
    rewrite (HinA _ q) by lia; rewrite !LO by lia; ring. }
  assert (L3 : forall r q, (r < ihi)%nat -> (ilo <= q < j)%nat -> (q + 1 < r)%nat -> F1 0%nat r q = 0).
  { intros r q Hr Hq Hx. unfold F1; cbn [Fleft]. unfold grow. destruct (Nat.eqb_spec r (i - 1)) as [->|]; [|destruct (Nat.eqb_spec r i) as [->|]]; [| |apply J3; auto]; rewrite !J3 by lia; ring. }
  assert (L4 : forall r, (i <= r < ihi)%nat -> F1 0%nat r j = 0).
  { intros r Hr. destruct (Nat.eq_dec r i) as [->|N]; [exact Z1|]. unfold F1; cbn [Fleft]. unfold grow. destruct (Nat.eqb_spec r (i - 1)); [lia|]. destruct (Nat.eqb_spec r i); [lia|]. apply J4. lia. }
  assert (HIr1 : forall r q, (r < n)%nat -> (ihi <= r)%nat -> (ilo < q < ihi)%nat -> F1 0%nat r q = 0). { intros r q Hr Hr' Hq. rewrite L2 by lia. apply HinA; auto; lia. }
  eapply wp_conseq; [apply (gg_right_run F1 s1 i HS1); [lia|lia| |]| |intros ? ? []].
  { intros r Hr Hr'. split; apply HIr1; lia. }
  { intros r Hr Hr'. split; apply L1; lia. }
  intros [] s2 (c' & sn' & C1' & C2' & HS2 & Z2). cbv beta. exists (Fright i c' sn' F1). split; [exact HS2|].
  set (H := givens i (i - 1) c' sn'). assert (UH : unitary n H). { apply givens_unitary; auto; lia. }
  exists (mmul n U G), (mmul n V H). split; [apply unitary_mul; auto|]. split; [apply unitary_mul; auto|].
  split; [|split; [|split; [|split; [|split; [|split; [|split]]]]]].
  - intros r q Hr Hq. rewrite <- two_r by auto. unfold H. rewrite mmul_givens by lia. cbn [Fright]. apply gcol_ext; auto; lia.
  - intros r q Hr Hq. rewrite <- two_r by auto. unfold H. rewrite mmul_givens by lia. cbn [Fright]. apply gcol_ext; auto; lia.
  - intros r q Hr Hq. cbn [Fright]. auto.
  - intros r q Hr Hq. cbn [Fright]. unfold F1; cbn [Fleft]. destruct wantz; [|auto]. rewrite mmul_assoc. unfold H. rewrite mmul_givens by (auto; lia). apply gcol_ext; auto; lia.
  - intros r q Hr Hq. destruct (Nat.eq_dec r i) as [->|N].
    + destruct (Nat.eq_dec q (i - 1)) as [->|N']; [exact Z2|]. cbn [Fright]. unfold gcol. destruct (Nat.eqb_spec q i); [lia|]. destruct (Nat.eqb_spec q (i - 1)); [lia|]. apply L1; lia.
    + cbn [Fright]. unfold gcol. destruct (Nat.eqb_spec q i); [|destruct (Nat.eqb_spec q (i - 1))]; [| |apply L1; auto]; rewrite !L1 by lia; ring.
  - intros r q Hr Hq Hx. cbn [Fright]. unfold gcol. destruct (Nat.eqb_spec q i) as [->|]; [|destruct (Nat.eqb_spec q (i - 1)) as [->|]]; [| |apply L2; auto];
    rewrite (HinA r) by lia; rewrite !HIr1 by lia; ring.
  - intros r q Hr Hq Hx. cbn [Fright]. unfold gcol. destruct (Nat.eqb_spec q i); [lia|]. destruct (Nat.eqb_spec q (i - 1)); [lia|]. apply L3; auto.
  - intros r Hr. cbn [Fright]. unfold gcol. destruct (Nat.eqb_spec j i); [lia|]. destruct (Nat.eqb_spec j (i - 1)); [lia|]. apply L4; auto.
Qed.
Lemma gg_loop F s : St F s -> Inv ilo ihi F ->
  wp (for_ j in ilo upto (ihi - 2) do fordown (j + 2) ihi (fun i => gg_left rotg wantq n A B Q i j;; gg_right rotg wantz n ihi A B Z i))
    (fun _ s' => exists F', St F' s' /\ Inv (ihi - 2) ihi F') noX s.
Proof.
  intros HS HI. destruct (Nat.le_gt_cases ilo (ihi - 2)) as [L|L].
  - apply (wp_forup (fun j s => exists F, St F s /\ Inv j ihi F)); [lia|exists F; auto| |auto].
    clear F s HS HI. intros j s Hj (F & HS & HI).
    apply (wp_fordown (fun i s => exists F, St F s /\ Inv j i F)); [lia|exists F; auto| |].
    + clear F s HS HI. intros i s Hi (F & HS & HI). apply (gg_step F); auto; lia.
    + clear F s HS HI. intros s (F & HS & HI). exists F. split; [auto|]. destruct HI as (U & V & UU & UV & I0 & I1 & I2 & I3 & J1 & J2 & J3 & J4).
      exists U, V. repeat (split; [assumption|]). split; [|intros; lia].
      intros r q Hr Hq Hx. destruct (Nat.eq_dec q j) as [->|N]; [apply J4; lia|apply J3; lia].
  - replace (ihi - 2)%nat with (ilo - (ilo - (ihi - 2)))%nat at 1 by lia. unfold forup, foldup. replace (ilo - (ilo - (ihi - 2)) - ilo)%nat with 0%nat by lia. cbn.
    exists F. split; auto. destruct HI as (U & V & UU & UV & I0 & I1 & I2 & I3 & J1 & J2 & J3 & J4). exists U, V. repeat (split; [assumption|]). split; intros; [|lia]. apply J3; lia.
Qed.
End G.
End P.
