(** * The algebra of the blocked bidiagonal reduction *)
From Coq Require Import Bool Arith ZArith Lia Reals Lra Ring Field.
From Verif.Core Require Import Scalar RealLaws.
From Verif.Spec Require Import LinAlg Norms Householder Reduce.
From Verif.Proof Require Import SumLemmas PotrfProof BlockAlg LarfProof LarfgProof QRProof QGenProof QFactProof ReduceMath ReduceProof HessProof BidProof.
Local Open Scope T_scope.

Section P.
Context {E : Env} {FL : FieldLaws E} {CL : ConjLaws E} {OL : ROrdLaws E} {QL : EqbLaws E} {XL : CplxLaws E} {RL : RLaws E} {NL : FinLaws E}.
Add Field Tf : fth.

Section G.
Variables (M N : nat) (X0 : mat).
Hypothesis HMN : (N <= M)%nat.
Definition gH1 (X : mat) (t1 : nat -> T) (j : nat) : mat := refl (t1 j) (qvec X j).
Definition gH2 (X : mat) (t2 : nat -> T) (j : nat) : mat := refl (t2 j) (subvec N (ctr X) j).
(** [t] steps have been done: X0 = P X Z^H *)
Definition bidinv (t : nat) (X : mat) (t1 t2 : nat -> T) : Prop :=
  let P := mprod M (gH1 X t1) t in let Z := mprod N (gH2 X t2) (Nat.min t (N - 1)) in
  unitary M P /\ unitary N Z /\
  (forall r c, (r < M)%nat -> (c < N)%nat -> X0 r c = mmul N (mmul M P (masked (bel t) X)) (ctr Z) r c) /\
  (forall j, (j < t)%nat -> conj (X j j) = X j j /\ ((j + 1 < N)%nat -> conj (X j (j + 1)%nat) = X j (j + 1)%nat)).
Lemma bidinv_0 t1 t2 : bidinv 0 X0 t1 t2.
Proof.
  unfold bidinv. cbn [Nat.min mprod]. repeat apply Logic.conj; auto; try apply unitary_id.
  - intros r c Hr Hc. rewrite ctr_idm_r by auto. rewrite mmul_id_l by auto. unfold masked, bel. destruct (Nat.ltb_spec c 0), (Nat.ltb_spec r 0); cbn [andb orb]; auto; lia.
  - intros j Hj. lia.
Qed.
Lemma bidinv_ext t X Y t1 t2 u1 u2 : (t <= N)%nat -> (forall r c, (r < M)%nat -> (c < N)%nat -> X r c = Y r c) -> (forall k, (k < t)%nat -> t1 k = u1 k) -> (forall k, (k < t)%nat -> (k + 1 < N)%nat -> t2 k = u2 k) ->
  bidinv t X t1 t2 -> bidinv t Y u1 u2.
Proof.
  intros Ht EX E1 E2 (I1 & I2 & I3 & I4).
  assert (EP : forall r c, (r < M)%nat -> (c < M)%nat -> mprod M (gH1 X t1) t r c = mprod M (gH1 Y u1) t r c).
  { intros r c Hr Hc. apply mprod_ext; auto. intros k r' c' Hk Hr' Hc'. unfold gH1. rewrite E1 by auto. apply refl_ext; apply (qvec_ext' M); auto; intros q Hq; apply EX; lia. }
  assert (EZ : forall r c, (r < N)%nat -> (c < N)%nat -> mprod N (gH2 X t2) (Nat.min t (N - 1)) r c = mprod N (gH2 Y u2) (Nat.min t (N - 1)) r c).
  { intros r c Hr Hc. apply mprod_ext; auto. intros k r' c' Hk Hr' Hc'. unfold gH2. rewrite E2 by lia. apply refl_ext; apply subvec_ext; intros q Hq; unfold ctr; f_equal; apply EX; lia. }
  repeat apply Logic.conj.
  - eapply unitary_ext; [exact EP|exact I1].
  - eapply unitary_ext; [exact EZ|exact I2].
  - intros r c Hr Hc. rewrite I3 by auto. apply mmul_ext; intros l Hl; [|unfold ctr; f_equal; auto]. apply mmul_ext; intros k Hk; auto. unfold masked. rewrite EX by auto. auto.
  - intros k Hk. rewrite <- !EX by lia. destruct (I4 k Hk) as [K1 K2]. split; auto. intros Hk1. rewrite <- !EX by lia. auto.
Qed.
Variable bt : R.
Hypothesis Hnorm : (fro2 M N X0 <= bt * bt)%R.
Lemma bidinv_col j X t1 t2 : (j < N)%nat -> bidinv j X t1 t2 -> (vsq (M - j) (fun r => X (j + r)%nat j) <= bt * bt)%R.
Proof.
  intros Hj (I1 & I2 & I3 & _). eapply Rle_trans; [|exact Hnorm]. rewrite <- (two_sided_fro M N _ _ _ _ I1 I2 I3). eapply Rle_trans; [|apply (fro2_col M N _ j); auto].
  eapply Rle_trans; [|apply (vsq_tail j M); lia]. right. apply vsq_ext. intros r Hr. unfold masked, bel.
  destruct (Nat.ltb_spec j j), (Nat.ltb_spec (j + r) j); try lia. reflexivity.
Qed.
Section J.
Variables (j : nat) (X1 X4 : mat) (t1 t2 : nat -> T) (tj : T).
Hypothesis Hj : (j < N)%nat.
Hypothesis HB : bidinv j X1 t1 t2.
Let H1 := refl tj (embw j M (hvec Forward (M - j) (fun r => X4 (j + r)%nat j))).
Hypothesis R1 : refc Forward (M - j) (fun r => X1 (j + r)%nat j) tj (fun r => X4 (j + r)%nat j).
Hypothesis O1 : forall r c, (r < M)%nat -> (c < N)%nat -> (c < j \/ r < j)%nat -> X4 r c = X1 r c.
Hypothesis A1 : forall r c, (r < M)%nat -> (c < N)%nat -> (j < c)%nat -> X4 r c = mmul M (ctr H1) X1 r c.
Lemma bid_half : unitary M H1 /\ unitary M (mmul M (mprod M (gH1 X1 t1) j) H1) /\ unitary N (mprod N (gH2 X1 t2) (Nat.min j (N - 1))) /\
  (forall r c, (r < M)%nat -> (c < N)%nat -> X0 r c = mmul N (mmul M (mmul M (mprod M (gH1 X1 t1) j) H1) (masked (bel1 j) X4)) (ctr (mprod N (gH2 X1 t2) (Nat.min j (N - 1)))) r c).
Proof.
  destruct HB as (I1 & I2 & I3 & I4).
  destruct (b_left M N j X1 X4 tj) as [U1 U2]; auto.
  { intros r Hr. apply O1; lia. }
  repeat apply Logic.conj; auto.
  { apply unitary_mul; auto. }
  intros r c Hr Hc. apply (left_sided M N _ _ H1 (masked (bel j) X1) (masked (bel1 j) X4) X0); auto.
Qed.
Lemma bid_row : (j + 1 < N)%nat -> (vsq (N - (j + 1)) (fun c => conj (X4 j (j + 1 + c)%nat)) <= bt * bt)%R.
Proof.
  intros Hj'. destruct bid_half as (U1 & U2 & U3 & U4). eapply Rle_trans; [|exact Hnorm].
  rewrite <- (two_sided_fro M N _ _ _ _ U2 U3 U4). rewrite <- (fro2_ctr N M). eapply Rle_trans; [|apply (fro2_col N M _ j); lia].
  eapply Rle_trans; [|apply (vsq_tail (j + 1) N); lia]. right. apply vsq_ext. intros r Hr. unfold ctr, masked, bel1, bel.
  destruct (Nat.ltb_spec (j + 1 + r) j), (Nat.ltb_spec j j), (Nat.eqb_spec (j + 1 + r) j); cbn [andb orb]; try lia. reflexivity.
Qed.
Lemma bid_EP (X6 : mat) (u1 : nat -> T) : (forall r c, (r < M)%nat -> (c <= j)%nat -> X6 r c = X4 r c) -> (forall k, (k < j)%nat -> u1 k = t1 k) -> u1 j = tj ->
  forall r c, (r < M)%nat -> (c < M)%nat -> mprod M (gH1 X6 u1) (S j) r c = mmul M (mprod M (gH1 X1 t1) j) H1 r c.
Proof.
  intros Ec Eu Ej r c Hr Hc. cbn [mprod]. apply mmul_ext; intros l Hl.
  - apply mprod_ext; auto. intros u r' c' Hu Hr' Hc'. unfold gH1. rewrite Eu by lia. apply refl_ext; apply (qvec_ext' M); auto; intros q Hq; rewrite Ec by lia; apply O1; lia.
  - unfold gH1, H1. rewrite Ej. apply refl_ext; rewrite (qvec_embw M) by lia; apply (qvec_ext' M); auto; intros q Hq; apply Ec; lia.
Qed.
Lemma bid_last (X6 : mat) (u1 u2 : nat -> T) : (j + 1 = N)%nat -> (forall r c, (r < M)%nat -> (c < N)%nat -> X6 r c = X4 r c) -> (forall k, (k < j)%nat -> u1 k = t1 k) -> u1 j = tj ->
  (forall k, (k < j)%nat -> u2 k = t2 k) -> bidinv (S j) X6 u1 u2.
Proof.
  intros HjN EX Eu Ej Eu2. destruct bid_half as (U1 & U2 & U3 & U4). assert (EP := bid_EP X6 u1 ltac:(intros; apply EX; lia) Eu Ej).
  destruct HB as (I1 & I2 & I3 & I4).
  assert (EZ : forall r c, (r < N)%nat -> (c < N)%nat -> mprod N (gH2 X6 u2) (Nat.min (S j) (N - 1)) r c = mprod N (gH2 X1 t2) (Nat.min j (N - 1)) r c).
  { intros r c Hr Hc. replace (Nat.min (S j) (N - 1)) with j by lia. replace (Nat.min j (N - 1)) with j by lia. apply mprod_ext; auto.
    intros u r' c' Hu Hr' Hc'. unfold gH2. rewrite Eu2 by lia. apply refl_ext; apply subvec_ext; intros q Hq; unfold ctr; f_equal; rewrite EX by lia; apply O1; lia. }
  unfold bidinv. repeat apply Logic.conj.
  - eapply unitary_ext; [|exact U2]. intros; symmetry; apply EP; auto.
  - eapply unitary_ext; [|exact U3]. intros; symmetry; apply EZ; auto.
  - intros r c Hr Hc. rewrite U4 by auto. apply mmul_ext; intros l Hl; [|unfold ctr; f_equal; symmetry; apply EZ; auto]. apply mmul_ext; intros k Hk; [symmetry; apply EP; auto|].
    unfold masked. rewrite EX by auto. assert (Eb : bel1 j k l = bel (S j) k l); [|rewrite Eb; auto].
    unfold bel1, bel. destruct (Nat.ltb_spec l j), (Nat.ltb_spec l k), (Nat.ltb_spec k j), (Nat.ltb_spec (k + 1) l), (Nat.eqb_spec l j), (Nat.ltb_spec j k), (Nat.ltb_spec l (S j)), (Nat.ltb_spec k (S j)); cbn [andb orb]; auto; lia.
  - destruct R1 as [R1' _ _]. cbn [hpos] in R1'. rewrite Nat.add_0_r in R1'. intros k Hk. destruct (Nat.eq_dec k j) as [->|Hne].
    + rewrite EX by lia. split; [exact R1'|lia].
    + destruct (I4 k ltac:(lia)) as [K1 K2]. rewrite EX by lia. rewrite O1 by lia. split; auto. intros Hk'. rewrite EX by lia. rewrite O1 by lia. auto.
Qed.
Lemma bid_next (X6 : mat) (u1 u2 : nat -> T) : (j + 1 < N)%nat ->
  refc Forward (N - (j + 1)) (fun c => ctr X4 (j + 1 + c)%nat j) (u2 j) (fun c => ctr X6 (j + 1 + c)%nat j) ->
  (forall r c, (r < M)%nat -> (c < N)%nat -> (c <= j \/ r < j)%nat -> X6 r c = X4 r c) ->
  (forall r c, (r < M)%nat -> (c < N)%nat -> (j < r)%nat -> (j < c)%nat -> X6 r c = X4 r c - u2 j * sum N (fun q => X4 r q * subvec N (ctr X6) j q) * conj (subvec N (ctr X6) j c)) ->
  (forall k, (k < j)%nat -> u1 k = t1 k) -> u1 j = tj -> (forall k, (k < j)%nat -> u2 k = t2 k) -> bidinv (S j) X6 u1 u2.
Proof.
  intros Hj' R2 O2 A2 Eu Ej Eu2. destruct bid_half as (U1 & U2 & U3 & U4). assert (EP := bid_EP X6 u1 ltac:(intros; apply O2; lia) Eu Ej).
  destruct HB as (I1 & I2 & I3 & I4).
  destruct (b_right M N j X4 X6 (u2 j)) as [V1 V2]; auto.
  { intros c Hc. apply O2; lia. }
  { intros r c Hr Hc Hjr. set (u := hvec Forward _ _). transitivity (mmul N (refl (conj (u2 j)) (embw (j + 1) N u)) (ctr X4) c r); [|apply mmul_ext; auto; intros; symmetry; apply ctr_refl].
    assert (Es : forall q, (q < N)%nat -> embw (j + 1) N u q = subvec N (ctr X6) j q) by (intros; apply (subvec_embw N (ctr X6) j); lia).
    rewrite refl_l by auto. rewrite Es by auto. rewrite (sum_ext N _ (fun q => conj (X4 r q * subvec N (ctr X6) j q))) by (intros q Hq; rewrite Es by auto; unfold ctr; rewrite conj_mul; ring).
    rewrite <- sum_conj. change (ctr X6 c r) with (conj (X6 r c)). change (ctr X4 c r) with (conj (X4 r c)). destruct (Nat.le_gt_cases c j) as [Hcj|Hcj].
    - rewrite O2 by lia. assert (K : subvec N (ctr X6) j c = 0). { unfold subvec. destruct (Nat.eqb_spec c (j + 1)), (Nat.ltb_spec (j + 1) c); cbn [andb]; auto; lia. } rewrite K. ring.
    - rewrite A2 by auto. set (S0 := sum N _). set (sv := subvec N (ctr X6) j c). transitivity (conj (X4 r c + - (u2 j * S0 * conj sv))); [f_equal; ring|]. rewrite conj_add, conj_opp, !conj_mul, conj_conj. ring. }
  set (H2 := refl (u2 j) _) in V1, V2.
  assert (EZ : forall r c, (r < N)%nat -> (c < N)%nat -> mprod N (gH2 X6 u2) (Nat.min (S j) (N - 1)) r c = mmul N (mprod N (gH2 X1 t2) (Nat.min j (N - 1))) H2 r c).
  { intros r c Hr Hc. replace (Nat.min (S j) (N - 1)) with (S j) by lia. replace (Nat.min j (N - 1)) with j by lia. cbn [mprod]. apply mmul_ext; intros l Hl.
    - apply mprod_ext; auto. intros u r' c' Hu Hr' Hc'. unfold gH2. rewrite Eu2 by lia. apply refl_ext; apply subvec_ext; intros q Hq; unfold ctr; f_equal; rewrite O2 by lia; apply O1; lia.
    - unfold gH2, H2. apply refl_ext; rewrite <- subvec_embw by lia; auto. }
  unfold bidinv. repeat apply Logic.conj.
  - eapply unitary_ext; [|exact U2]. intros; symmetry; apply EP; auto.
  - eapply unitary_ext; [|apply (unitary_mul N _ _ U3 V1)]. intros; symmetry; apply EZ; auto.
  - intros r c Hr Hc. rewrite (right_sided M N _ _ H2 _ (masked (bel (S j)) X6) X0 V1 U4) by auto.
    apply mmul_ext; intros l Hl; [|unfold ctr; f_equal; symmetry; apply EZ; auto]. apply mmul_ext; intros k Hk; [symmetry; apply EP; auto|auto].
  - destruct R1 as [R1' _ _]. cbn [hpos] in R1'. rewrite Nat.add_0_r in R1'. destruct R2 as [R2' _ _]. cbn [hpos] in R2'. rewrite Nat.add_0_r in R2'. unfold ctr in R2'. rewrite conj_conj in R2'.
    intros k Hk. destruct (Nat.eq_dec k j) as [->|Hne].
    + rewrite (O2 j j) by lia. split; [exact R1'|]. intros _. symmetry. exact R2'.
    + destruct (I4 k ltac:(lia)) as [K1 K2]. rewrite ?O2 by lia. rewrite ?O1 by lia. split; auto.
Qed.
End J.

(** ** The matrix of which only the current block's rows and columns have been brought up to date:
    o: start of the block; i: number of steps done in it; Yv, Xv: the vectors accumulated *)
Definition vt (o i : nat) (X Yv Xv : mat) : mat := fun r c =>
  if ((o + i <=? r) && (o + i <=? c))%nat then X r c - sum i (fun l => qvec X (o + l) r * conj (Yv c l)) - sum i (fun l => Xv r l * conj (subvec N (ctr X) (o + l) c)) else X r c.
Lemma vt_0 o X Yv Xv r c : vt o 0 X Yv Xv r c = X r c.
Proof. unfold vt. cbn [sum]. destruct (_ && _)%bool; auto. ring. Qed.
Section V.
Variables (o i : nat) (X Yv Xv X' Yv' Xv' : mat) (t1 t2 u1 u2 : nat -> T).
Let j := (o + i)%nat.
Let X1 := vt o i X Yv Xv.
Hypothesis Hj : (j < N)%nat.
Hypothesis HB : bidinv j X1 t1 t2.
Hypothesis R1 : refc Forward (M - j) (fun r => X1 (j + r)%nat j) (u1 j) (fun r => X' (j + r)%nat j).
Hypothesis EX : forall r c, (r < M)%nat -> (c < N)%nat -> ~ (c = j /\ (j <= r)%nat) -> ~ (r = j /\ (j < c)%nat) -> X' r c = X r c.
Hypothesis Eu1 : forall k, (k < j)%nat -> u1 k = t1 k.
Hypothesis Eu2 : forall k, (k < j)%nat -> u2 k = t2 k.
Definition v4 : mat := fun r c => if ((j <=? r) && (j <=? c))%nat then (if (c =? j)%nat then X' r c else X1 r c - qvec X' j r * conj (Yv' c i)) else X1 r c.
Hypothesis Ey : forall c, (j < c < N)%nat -> Yv' c i = u1 j * sum M (fun r => conj (X1 r c) * qvec X' j r).
Lemma v4_R1 : refc Forward (M - j) (fun r => X1 (j + r)%nat j) (u1 j) (fun r => v4 (j + r)%nat j).
Proof.
  eapply refc_ext; [lia|exact R1|auto|]. intros r Hr. unfold v4. destruct (Nat.leb_spec j (j + r)), (Nat.leb_spec j j); try lia. cbn [andb]. rewrite Nat.eqb_refl. reflexivity.
Qed.
Lemma v4_O1 r c : (r < M)%nat -> (c < N)%nat -> (c < j \/ r < j)%nat -> v4 r c = X1 r c.
Proof. intros Hr Hc Ho. unfold v4. destruct (Nat.leb_spec j r), (Nat.leb_spec j c); cbn [andb]; auto; lia. Qed.
Lemma v4_A1 r c : (r < M)%nat -> (c < N)%nat -> (j < c)%nat -> v4 r c = mmul M (ctr (refl (u1 j) (embw j M (hvec Forward (M - j) (fun r => v4 (j + r)%nat j))))) X1 r c.
Proof.
  intros Hr Hc Hjc. set (u := hvec Forward _ _). transitivity (mmul M (refl (conj (u1 j)) (embw j M u)) X1 r c); [|apply mmul_ext; auto; intros; symmetry; apply ctr_refl].
  assert (Es : forall q, (q < M)%nat -> embw j M u q = qvec X' j q).
  { intros q Hq. unfold u. rewrite (qvec_embw M) by lia. apply (qvec_ext' M); auto. intros k Hk. unfold v4. destruct (Nat.leb_spec j k), (Nat.leb_spec j j); try lia. cbn [andb]. rewrite Nat.eqb_refl. reflexivity. }
  rewrite refl_l by auto. rewrite Es by auto. rewrite (sum_ext M _ (fun q => conj (conj (X1 q c) * qvec X' j q))) by (intros q Hq; rewrite Es by auto; rewrite conj_mul, conj_conj; ring).
  rewrite <- sum_conj. unfold v4. destruct (Nat.leb_spec j c); [|lia]. destruct (Nat.eqb_spec c j); [lia|]. rewrite Ey by lia. set (S0 := sum M _).
  destruct (Nat.leb_spec j r); cbn [andb].
  - rewrite conj_mul. ring.
  - assert (K : qvec X' j r = 0) by (unfold qvec; destruct (Nat.ltb_spec r j); [auto|lia]). rewrite K. ring.
Qed.
Lemma vt_row : (j + 1 < N)%nat -> (vsq (N - (j + 1)) (fun c => conj (X1 j (j + 1 + c)%nat - conj (Yv' (j + 1 + c)%nat i))) <= bt * bt)%R.
Proof.
  intros Hj'. eapply Rle_trans; [|apply (bid_row j X1 v4 t1 t2 (u1 j) Hj HB v4_R1 v4_O1 v4_A1 Hj')]. right. apply vsq_ext. intros c Hc. f_equal. unfold v4.
  destruct (Nat.leb_spec j j), (Nat.leb_spec j (j + 1 + c)), (Nat.eqb_spec (j + 1 + c) j); try lia. cbn [andb].
  assert (K : qvec X' j j = 1) by (unfold qvec; rewrite Nat.ltb_irrefl, Nat.eqb_refl; auto). rewrite K. ring.
Qed.
Lemma vt_last : (j + 1 = N)%nat -> bidinv (S j) (vt o (S i) X' Yv' Xv') u1 u2.
Proof.
  intros HjN. apply (bid_last j X1 v4 t1 t2 (u1 j) Hj HB v4_R1 v4_O1 v4_A1); auto.
  intros r c Hr Hc. unfold v4, vt. fold j. destruct (Nat.leb_spec (o + S i) c); [lia|]. rewrite andb_false_r.
  destruct (Nat.leb_spec j r), (Nat.leb_spec j c); cbn [andb]; [destruct (Nat.eqb_spec c j); [auto|lia]|..]; (unfold X1, vt; fold j; destruct (Nat.leb_spec j r), (Nat.leb_spec j c); try lia; cbn [andb]; apply EX; auto; lia).
Qed.
Hypothesis Hj' : (j + 1 < N)%nat.
Hypothesis R2 : refc Forward (N - (j + 1)) (fun c => conj (X1 j (j + 1 + c)%nat - conj (Yv' (j + 1 + c)%nat i))) (u2 j) (fun c => conj (X' j (j + 1 + c)%nat)).
Hypothesis Ex : forall r, (j < r < M)%nat -> Xv' r i = u2 j * sum N (fun c => (X1 r c - qvec X' j r * conj (Yv' c i)) * subvec N (ctr X') j c).
Hypothesis EY : forall c l, (j < c < N)%nat -> (l < i)%nat -> Yv' c l = Yv c l.
Hypothesis EXv : forall r l, (j < r < M)%nat -> (l < i)%nat -> Xv' r l = Xv r l.
Lemma vt_next : bidinv (S j) (vt o (S i) X' Yv' Xv') u1 u2.
Proof.
  set (X6 := vt o (S i) X' Yv' Xv').
  assert (E6 : forall r c, (r <= j \/ c <= j)%nat -> X6 r c = X' r c).
  { intros r c Ho. unfold X6, vt. destruct (Nat.leb_spec (o + S i) r), (Nat.leb_spec (o + S i) c); cbn [andb]; auto. unfold j in *. lia. }
  assert (Es6 : forall c, subvec N (ctr X6) j c = subvec N (ctr X') j c).
  { intros c. apply subvec_ext. intros q Hq. unfold ctr. f_equal. apply E6. lia. }
  assert (E1 : forall r c, (r < j \/ c < j)%nat -> X1 r c = X r c).
  { intros r c Ho. unfold X1, vt. fold j. destruct (Nat.leb_spec j r), (Nat.leb_spec j c); cbn [andb]; auto. lia. }
  apply (bid_next j X1 v4 t1 t2 (u1 j) Hj HB v4_R1 v4_O1 v4_A1); auto.
  - eapply refc_ext; [lia|exact R2| |].
    + intros c Hc. unfold ctr, v4. destruct (Nat.leb_spec j j), (Nat.leb_spec j (j + 1 + c)), (Nat.eqb_spec (j + 1 + c) j); try lia. cbn [andb].
      assert (K : qvec X' j j = 1) by (unfold qvec; rewrite Nat.ltb_irrefl, Nat.eqb_refl; auto). rewrite K. f_equal. ring.
    + intros c Hc. unfold ctr. rewrite E6 by lia. reflexivity.
  - intros r c Hr Hc Ho. rewrite E6 by lia. unfold v4. destruct (Nat.leb_spec j r), (Nat.leb_spec j c); cbn [andb].
    + destruct (Nat.eqb_spec c j); [auto|lia].
    + rewrite E1 by lia. apply EX; lia.
    + rewrite E1 by lia. apply EX; lia.
    + rewrite E1 by lia. apply EX; lia.
  - intros r c Hr Hc Hjr Hjc. rewrite Es6. rewrite (sum_ext N _ (fun c => (X1 r c - qvec X' j r * conj (Yv' c i)) * subvec N (ctr X') j c)).
    2:{ intros q Hq. rewrite Es6. unfold v4. destruct (Nat.leb_spec j r), (Nat.leb_spec j q); cbn [andb]; try lia.
        - destruct (Nat.eqb_spec q j) as [->|]; auto. assert (K : subvec N (ctr X') j j = 0). { unfold subvec. destruct (Nat.eqb_spec j (j + 1)), (Nat.ltb_spec (j + 1) j); cbn [andb]; auto; lia. } rewrite K. ring.
        - assert (K : subvec N (ctr X') j q = 0). { unfold subvec. destruct (Nat.eqb_spec q (j + 1)), (Nat.ltb_spec (j + 1) q); cbn [andb]; auto; lia. } rewrite K. ring. }
    rewrite <- Ex by lia. unfold v4. destruct (Nat.leb_spec j r), (Nat.leb_spec j c), (Nat.eqb_spec c j); try lia. cbn [andb].
    unfold X6, X1, vt. fold j. destruct (Nat.leb_spec (o + S i) r), (Nat.leb_spec (o + S i) c); try (unfold j in *; lia). destruct (Nat.leb_spec j r), (Nat.leb_spec j c); try lia. cbn [andb sum]. fold j.
    rewrite EX by lia.
    rewrite (sum_ext i (fun l => qvec X' (o + l) r * conj (Yv' c l)) (fun l => qvec X (o + l) r * conj (Yv c l))).
    2:{ intros l Hl. rewrite EY by lia. f_equal. apply (qvec_ext' M); auto. intros q Hq. apply EX; unfold j in *; lia. }
    rewrite (sum_ext i (fun l => Xv' r l * conj (subvec N (ctr X') (o + l) c)) (fun l => Xv r l * conj (subvec N (ctr X) (o + l) c))).
    2:{ intros l Hl. rewrite EXv by lia. f_equal. f_equal. apply subvec_ext. intros q Hq. unfold ctr. f_equal. apply EX; unfold j in *; lia. }
    ring.
Qed.
End V.
End G.
End P.
