(** * gebd2: reduction to bidiagonal form *)
From Coq Require Import Bool Arith ZArith Lia Reals Lra Ring Field.
From Verif.Core Require Import Scalar Prog View Slice Loops WorkEff RealLaws.
From Verif.Spec Require Import LinAlg Outcome Norms Householder Reduce.
From Verif.Model Require Import Gemm Blas1 Blas2 Blas3 Legacy LaAux Norms Work Householder QGen QFact BlockQ Reduce.
From Verif.Proof Require Import SumLemmas Tactics SliceTac LegacyProof PotrfProof BlockAlg LarfProof LarfgProof QRProof QGenProof QFactProof ReduceMath ReduceProof HessProof.
Local Open Scope T_scope.

Section P.
Context {E : Env} {FL : FieldLaws E} {CL : ConjLaws E} {OL : ROrdLaws E} {QL : EqbLaws E} {XL : CplxLaws E} {RL : RLaws E} {NL : FinLaws E}.
Add Field Tf : fth.

Definition flip (sm : storev_t) : storev_t := match sm with Columnwise => Rowwise | Rowwise => Columnwise end.
Lemma xof_flip sm (A : mat) r c : xof (flip sm) A r c = ctr (xof sm A) r c.
Proof. destruct sm; cbn [flip xof]; auto. symmetry. apply ctr_ctr. Qed.
Lemma xof_unflip sm (A : mat) r c : xof sm A r c = ctr (xof (flip sm) A) r c.
Proof. destruct sm; cbn [flip xof]; auto. symmetry. apply ctr_ctr. Qed.
Lemma xof_same sm A s4 s6 r c : (forall r c, (r < nr A)%nat -> (c < nc A)%nat -> val A s6 r c = val A s4 r c) -> (r < dM sm A)%nat -> (c < dN sm A)%nat ->
  xof sm (val A s6) r c = xof sm (val A s4) r c.
Proof. unfold dM, dN. intros K Hr Hc. destruct sm; cbn [xof]; [|unfold ctr; f_equal]; auto. Qed.
Lemma qvec_embw M (A : mat) i r : (i < M)%nat -> (r < M)%nat -> embw i M (hvec Forward (M - i) (fun r => A (i + r)%nat i)) r = qvec A i r.
Proof.
  intros H Hr. unfold embw, hvec, qvec. cbn [hpos]. destruct (Nat.leb_spec i r), (Nat.ltb_spec r M), (Nat.eqb_spec r i), (Nat.ltb_spec r i); cbn [andb]; try lia; auto.
  - destruct (Nat.eqb_spec (r - i) 0); [auto|lia].
  - destruct (Nat.eqb_spec (r - i) 0); [lia|]. f_equal. lia.
Qed.
Lemma qvec_ext' M (A B : mat) i r : (r < M)%nat -> (forall q, (i < q < M)%nat -> A q i = B q i) -> qvec A i r = qvec B i r.
Proof. intros Hr H. unfold qvec. destruct (Nat.ltb_spec r i); auto. destruct (Nat.eqb_spec r i); auto. apply H. lia. Qed.
Lemma ctr_idm_r n (B : mat) r c : (c < n)%nat -> mmul n B (ctr idm) r c = B r c.
Proof. intros Hc. transitivity (mmul n B idm r c); [apply mmul_ext; auto; intros; apply ctr_idm|apply mmul_id_r; auto]. Qed.
(** one-sided versions of [two_sided] *)
Lemma left_sided m n P Z HL (Y Y' A0 : mat) : unitary m HL ->
  (forall r c, (r < m)%nat -> (c < n)%nat -> A0 r c = mmul n (mmul m P Y) (ctr Z) r c) ->
  (forall r c, (r < m)%nat -> (c < n)%nat -> Y' r c = mmul m (ctr HL) Y r c) ->
  forall r c, (r < m)%nat -> (c < n)%nat -> A0 r c = mmul n (mmul m (mmul m P HL) Y') (ctr Z) r c.
Proof.
  intros UL H0 H1 r c Hr Hc. rewrite H0 by auto. apply mmul_ext; auto. intros l Hl. rewrite <- mmul_assoc. apply mmul_ext; auto. intros k Hk.
  transitivity (mmul m HL (mmul m (ctr HL) Y) k l); [symmetry; apply uni_cancel; auto|]. apply mmul_ext; auto. intros; symmetry; apply H1; auto.
Qed.
Lemma right_sided m n P Z HR (Y Y' A0 : mat) : unitary n HR ->
  (forall r c, (r < m)%nat -> (c < n)%nat -> A0 r c = mmul n (mmul m P Y) (ctr Z) r c) ->
  (forall r c, (r < m)%nat -> (c < n)%nat -> Y' r c = mmul n Y HR r c) ->
  forall r c, (r < m)%nat -> (c < n)%nat -> A0 r c = mmul n (mmul m P Y') (ctr (mmul n Z HR)) r c.
Proof.
  intros UR H0 H1 r c Hr Hc. rewrite H0 by auto.
  transitivity (mmul n (mmul m P Y') (mmul n (ctr HR) (ctr Z)) r c); [|apply mmul_ext; auto; intros; symmetry; apply ctr_mmul].
  rewrite mmul_assoc. apply mmul_ext; auto. intros l Hl.
  transitivity (mmul n (mmul m P (mmul n Y HR)) (ctr HR) r l).
  2:{ apply mmul_ext; auto. intros k Hk. apply mmul_ext; auto. intros; symmetry; apply H1; auto. }
  transitivity (mmul n (mmul n (mmul m P Y) HR) (ctr HR) r l); [|apply mmul_ext; auto; intros; symmetry; apply mmul_assoc]. symmetry. apply uni_cancel'; auto.
Qed.

Section M.
Variables (M N j : nat) (X1 X4 X6 : mat) (tau1 tau2 : T).
Hypotheses (HMN : (N <= M)%nat) (Hj : (j < N)%nat).
Definition bel (t r c : nat) : bool := (((c <? t) && (c <? r)) || ((r <? t) && (r + 1 <? c)))%nat.
Let el1 (r c : nat) : bool := (bel j r c || ((c =? j) && (j <? r)))%nat.
Let H1 := refl tau1 (embw j M (hvec Forward (M - j) (fun r => X4 (j + r)%nat j))).
Hypothesis R1 : refc Forward (M - j) (fun r => X1 (j + r)%nat j) tau1 (fun r => X4 (j + r)%nat j).
Hypothesis O1 : forall r c, (r < M)%nat -> (c < N)%nat -> (c < j)%nat -> X4 r c = X1 r c.
Hypothesis O1' : forall r, (r < j)%nat -> X4 r j = X1 r j.
Hypothesis A1 : forall r c, (r < M)%nat -> (c < N)%nat -> (j < c)%nat -> X4 r c = mmul M (ctr H1) X1 r c.
Lemma b_left : unitary M H1 /\ forall r c, (r < M)%nat -> (c < N)%nat -> masked el1 X4 r c = mmul M (ctr H1) (masked (bel j) X1) r c.
Proof.
  apply left_step with (c := j); auto; try lia.
  - intros r c Hr Hc Ho. unfold masked, el1. destruct (Nat.eqb_spec c j) as [->|Hne]; cbn [andb].
    + destruct (Nat.ltb_spec j r); [lia|]. rewrite orb_false_r. destruct (bel j r j); auto. apply O1'. lia.
    + rewrite orb_false_r. destruct (bel j r c); auto. destruct (Nat.le_gt_cases c j); [apply O1; auto; lia|]. rewrite A1 by auto.
      transitivity (mmul M (refl (conj tau1) (embw j M (hvec Forward (M - j) (fun r => X4 (j + r)%nat j)))) X1 r c); [apply mmul_ext; auto; intros; apply ctr_refl|].
      rewrite embw_l by lia. destruct (Nat.leb_spec j r), (Nat.ltb_spec r M); cbn [andb]; auto; lia.
  - intros r Hr. unfold el1, bel. cbn [hpos]. rewrite Nat.eqb_refl. destruct (Nat.ltb_spec j j), (Nat.ltb_spec r j), (Nat.ltb_spec j r), (Nat.eqb_spec (r - j) 0); cbn [andb orb negb]; split; auto; lia.
  - intros c Hc Hne. destruct (Nat.le_gt_cases c j) as [Hcj|Hcj].
    + left. intros r Hr. assert (Eb : bel j r c = true). { unfold bel. destruct (Nat.ltb_spec c j), (Nat.ltb_spec c r); try lia; reflexivity. }
      unfold masked, el1. rewrite Eb. auto.
    + right. intros r Hr. split; [apply A1; auto; lia|]. unfold el1, bel. destruct (Nat.ltb_spec c j), (Nat.ltb_spec r j), (Nat.eqb_spec c j); cbn [andb orb]; split; auto; lia.
Qed.
Hypothesis Hj' : (j + 1 < N)%nat.
Let H2 := refl tau2 (embw (j + 1) N (hvec Forward (N - (j + 1)) (fun r => ctr X6 (j + 1 + r)%nat j))).
Hypothesis R2 : refc Forward (N - (j + 1)) (fun r => ctr X4 (j + 1 + r)%nat j) tau2 (fun r => ctr X6 (j + 1 + r)%nat j).
Hypothesis O2 : forall r c, (r < M)%nat -> (c < N)%nat -> (r < j)%nat -> X6 r c = X4 r c.
Hypothesis O2' : forall c, (c <= j)%nat -> X6 j c = X4 j c.
Hypothesis A2 : forall r c, (r < M)%nat -> (c < N)%nat -> (j < r)%nat -> ctr X6 c r = mmul N (ctr H2) (ctr X4) c r.
Lemma b_right : unitary N H2 /\ forall r c, (r < M)%nat -> (c < N)%nat -> masked (bel (S j)) X6 r c = mmul N (masked el1 X4) H2 r c.
Proof.
  assert (MC : forall el X r c, masked (fun r c => el c r) (ctr X) r c = ctr (masked el X) r c).
  { intros el X r c. unfold masked, ctr. destruct (el c r); auto. rewrite conj_0. auto. }
  destruct (left_step N M Forward (j + 1) N j (fun r c => el1 c r) (fun r c => bel (S j) c r) (ctr X4) (ctr X6) tau2) as [U1 U2]; auto; try lia.
  - intros c r Hc Hr Ho. unfold masked, ctr. destruct (Nat.lt_trichotomy r j) as [Hl|[He|Hg]].
    + assert (Eb : bel (S j) r c = el1 r c).
      { unfold el1, bel. destruct (Nat.ltb_spec c (S j)), (Nat.ltb_spec c j), (Nat.ltb_spec c r), (Nat.ltb_spec r (S j)), (Nat.ltb_spec r j), (Nat.ltb_spec (r + 1) c), (Nat.eqb_spec c j), (Nat.ltb_spec j r); cbn [andb orb]; auto; lia. }
      rewrite Eb. destruct (el1 r c); auto. rewrite O2 by auto. auto.
    + subst r. assert (Eb : bel (S j) j c = el1 j c).
      { unfold el1, bel. destruct (Nat.ltb_spec c (S j)), (Nat.ltb_spec c j), (Nat.ltb_spec j (S j)), (Nat.ltb_spec j j), (Nat.ltb_spec (j + 1) c), (Nat.eqb_spec c j); cbn [andb orb]; auto; lia. }
      rewrite Eb. destruct (el1 j c); auto. rewrite O2' by lia. auto.
    + assert (Eb : bel (S j) r c = el1 r c).
      { unfold el1, bel. destruct (Nat.ltb_spec c (S j)), (Nat.ltb_spec c j), (Nat.ltb_spec c r), (Nat.ltb_spec r (S j)), (Nat.ltb_spec r j), (Nat.ltb_spec (r + 1) c), (Nat.eqb_spec c j), (Nat.ltb_spec j r); cbn [andb orb]; auto; lia. }
      rewrite Eb. destruct (el1 r c); auto. assert (K := A2 r c Hr Hc Hg).
      assert (K2 : mmul N (ctr H2) (ctr X4) c r = ctr X4 c r).
      { transitivity (mmul N (refl (conj tau2) (embw (j + 1) N (hvec Forward (N - (j + 1)) (fun r => ctr X6 (j + 1 + r)%nat j)))) (ctr X4) c r); [apply mmul_ext; auto; intros; apply ctr_refl|].
        rewrite embw_l by lia. destruct (Nat.leb_spec (j + 1) c), (Nat.ltb_spec c N); cbn [andb]; auto; lia. }
      rewrite K2 in K. exact K.
  - intros r Hr. unfold el1, bel. cbn [hpos]. destruct (Nat.ltb_spec r j), (Nat.ltb_spec j j), (Nat.ltb_spec j r), (Nat.eqb_spec r j), (Nat.ltb_spec r (S j)), (Nat.ltb_spec j (S j)), (Nat.ltb_spec (j + 1) r), (Nat.eqb_spec (r - (j + 1)) 0); cbn [andb orb negb]; split; auto; lia.
  - intros r Hr Hne. destruct (Nat.le_gt_cases r j) as [Hcj|Hcj].
    + left. intros c Hc. assert (Eb : bel j r c = true). { unfold bel. destruct (Nat.ltb_spec r j), (Nat.ltb_spec (r + 1) c); try lia; cbn [andb]; apply orb_true_r. }
      assert (Eb' : bel (S j) r c = true). { unfold bel. destruct (Nat.ltb_spec r (S j)), (Nat.ltb_spec (r + 1) c); try lia; cbn [andb]; apply orb_true_r. }
      unfold masked, el1. rewrite Eb, Eb'. auto.
    + right. intros c Hc. split; [apply A2; auto; lia|]. unfold el1, bel. destruct (Nat.ltb_spec c j), (Nat.ltb_spec r j), (Nat.eqb_spec c j), (Nat.ltb_spec c (S j)), (Nat.ltb_spec r (S j)); cbn [andb orb]; split; auto; lia.
  - split; auto. intros r c Hr Hc. rewrite <- (ctr_ctr (masked (bel (S j)) X6)). unfold ctr at 1. rewrite <- (MC (bel (S j)) X6 c r).
    rewrite U2 by auto. rewrite (mmul_ext N (ctr H2) _ (ctr H2) (ctr (masked el1 X4))) by (auto; intros; apply MC).
    transitivity (ctr (mmul N (ctr H2) (ctr (masked el1 X4))) r c); [reflexivity|]. rewrite ctr_mmul. apply mmul_ext; intros; apply ctr_ctr.
Qed.
End M.

Section G.
Variables (h : hconst) (st bt hsm : R) (sm : storev_t) (A tau1 tau2 : view) (work : lmat) (s : state).
Hypothesis Hh : hconst_ok h st bt hsm.
Hypothesis HI : vinj A.
Hypothesis HIt1 : vinj tau1.
Hypothesis HIt2 : vinj tau2.
Hypothesis Ht1 : nc tau1 = 1%nat.
Hypothesis Ht2 : nc tau2 = 1%nat.
Hypothesis HD1 : disj A tau1.
Hypothesis HD2 : disj A tau2.
Hypothesis HD12 : disj tau1 tau2.
Let M' := dM sm A.
Let N' := dN sm A.
Hypothesis HMN : (N' <= M')%nat.
Hypothesis Hlen1 : (N' <= nr tau1)%nat.
Hypothesis Hlen2 : (N' <= nr tau2)%nat.
Hypothesis HwA : disj (lview work) A.
Hypothesis Hwt1 : disj (lview work) tau1.
Hypothesis Hwt2 : disj (lview work) tau2.
Let X (s1 : state) : mat := xof sm (val A s1).
Hypothesis Hnorm : (fro2 M' N' (X s) <= bt * bt)%R.
Hypothesis Hwork : (N' <= 1 \/ M' <= 1 \/ lok work /\ contiguous work = true /\ N' - 1 <= lm work * ln work /\ (N' <= 2 \/ M' - 1 <= lm work * ln work))%nat.
Definition fslc (sm : storev_t) (a b d0 d1 : nat) : M view := match sm with Columnwise => slc A a b d0 d1 | Rowwise => slc A d0 d1 a b end.
Definition bstep (j : nat) : M unit :=
  v <- fln sm A j M' j;;
  t <- larfg h Forward sm v;;
  wrv tau1 j t;;
  if (j <? N' - 1)%nat then
    A11 <- fslc sm j M' (j + 1) N';;
    t <- rdv tau1 j;;
    fcall sm Forward work v t A11;;
    w <- fln (flip sm) A (j + 1) N' j;;
    t <- larfg h Forward (flip sm) w;;
    wrv tau2 j t;;
    if (j <? M' - 1)%nat then
      B11 <- fslc (flip sm) (j + 1) N' (j + 1) M';;
      t <- rdv tau2 j;;
      fcall (flip sm) Forward work w t B11
    else ret tt
  else wrv tau2 j 0.
Definition bH1 (s1 : state) (j : nat) : mat := refl (vval tau1 s1 j) (qvec (X s1) j).
Definition bH2 (s1 : state) (j : nat) : mat := refl (vval tau2 s1 j) (subvec N' (ctr (X s1)) j).
Definition binv (t : nat) (s1 : state) : Prop :=
  let P := mprod M' (bH1 s1) t in let Z := mprod N' (bH2 s1) (Nat.min t (N' - 1)) in
  unitary M' P /\ unitary N' Z /\
  (forall r c, (r < M')%nat -> (c < N')%nat -> X s r c = mmul N' (mmul M' P (masked (bel t) (X s1))) (ctr Z) r c) /\
  (forall j, (j < t)%nat -> conj (X s1 j j) = X s1 j j /\ ((j + 1 < N')%nat -> conj (X s1 j (j + 1)%nat) = X s1 j (j + 1)%nat)) /\
  (forall l, ~ inview A l -> ~ inview tau1 l -> ~ inview tau2 l -> ~ inview (lview work) l -> mem s1 l = mem s l) /\ imem s1 = imem s.
Lemma wp_fslc sm' a b d0 d1 (B : Type) (K : view -> M B) (Q : B -> state -> Prop) X0 s1 : (a <= b <= dM sm' A)%nat -> (d0 <= d1 <= dN sm' A)%nat ->
  wp (K (fsub sm' A a b d0 d1)) Q X0 s1 -> wp (v <- fslc sm' a b d0 d1;; K v) Q X0 s1.
Proof. intros Hab Hd HK. apply wp_bind. unfold fslc, fsub, dM, dN in *. destruct sm'; apply wp_slc; auto; lia. Qed.
Lemma dM_flip : dM (flip sm) A = N'.
Proof. unfold N', dM, dN. destruct sm; reflexivity. Qed.
Lemma dN_flip : dN (flip sm) A = M'.
Proof. unfold M', dM, dN. destruct sm; reflexivity. Qed.
Lemma binv_0 : binv 0 s.
Proof.
  unfold binv. cbn [Nat.min mprod]. repeat apply Logic.conj; auto; try apply unitary_id.
  - intros r c Hr Hc. rewrite ctr_idm_r by auto. rewrite mmul_id_l by auto. unfold masked, bel. destruct (Nat.ltb_spec c 0), (Nat.ltb_spec r 0); cbn [andb orb]; auto; lia.
  - intros j Hj. lia.
Qed.
Lemma vfr tau s3 s4 : nc tau = 1%nat -> disj A tau -> disj (lview work) tau ->
  (forall l, ~ inview A l -> ~ inview (lview work) l -> mem s4 l = mem s3 l) -> forall j, (j < nr tau)%nat -> vval tau s4 j = vval tau s3 j.
Proof. intros K1 K2 K3 K j Hj. apply K; (apply nin; [apply disj_sym; assumption|auto|lia]). Qed.
Lemma binv_col j s1 : (j < N')%nat -> binv j s1 -> (vsq (M' - j) (fun r => X s1 (j + r)%nat j) <= bt * bt)%R.
Proof.
  intros Hj (I1 & I2 & I3 & _). eapply Rle_trans; [|exact Hnorm]. rewrite <- (two_sided_fro M' N' _ _ _ _ I1 I2 I3). eapply Rle_trans; [|apply (fro2_col M' N' _ j); auto].
  eapply Rle_trans; [|apply (vsq_tail j M'); lia]. right. apply vsq_ext. intros r Hr. unfold masked, bel.
  destruct (Nat.ltb_spec j j), (Nat.ltb_spec (j + r) j); try lia. reflexivity.
Qed.
(** the state after the left transformation of step [j] *)
Definition bel1 (j r c : nat) : bool := (bel j r c || ((c =? j) && (j <? r)))%nat.
Record bhalf (j : nat) (s1 s4 : state) : Prop := {
  bh_R : refc Forward (M' - j) (fun r => X s1 (j + r)%nat j) (vval tau1 s4 j) (fun r => X s4 (j + r)%nat j);
  bh_O : forall r c, (r < M')%nat -> (c < N')%nat -> (c < j \/ r < j)%nat -> X s4 r c = X s1 r c;
  bh_A : forall r c, (r < M')%nat -> (c < N')%nat -> (j < c)%nat ->
    X s4 r c = mmul M' (ctr (refl (vval tau1 s4 j) (embw j M' (hvec Forward (M' - j) (fun r => X s4 (j + r)%nat j))))) (X s1) r c;
  bh_t1 : forall k, (k < nr tau1)%nat -> k <> j -> vval tau1 s4 k = vval tau1 s1 k;
  bh_t2 : forall k, (k < nr tau2)%nat -> vval tau2 s4 k = vval tau2 s1 k;
  bh_f : forall l, ~ inview A l -> ~ inview tau1 l -> ~ inview (lview work) l -> mem s4 l = mem s1 l;
  bh_i : imem s4 = imem s1 }.
Lemma bhalf_gen j s1 s3 s4 : (j < N')%nat -> generated sm Forward A tau1 j M' j j s1 s3 -> applied sm Forward A tau1 work j M' j (j + 1) N' j s3 s4 -> bhalf j s1 s4.
Proof.
  intros Hj (G1 & G2 & G3 & G4 & G5) (A1 & A2 & A3).
  assert (Et : forall k, (k < nr tau1)%nat -> vval tau1 s4 k = vval tau1 s3 k) by (apply vfr; auto).
  assert (Ec : forall r c, (r < M')%nat -> (c <= j)%nat -> X s4 r c = X s3 r c).
  { intros r c Hr Hc. unfold X at 1. rewrite A1 by (unfold M', N' in *; lia). destruct (Nat.leb_spec (j + 1) c); [lia|]. reflexivity. }
  assert (EH : forall r q, (r < M')%nat -> refl (vval tau1 s4 j) (embw j M' (hvec Forward (M' - j) (fun r => X s4 (j + r)%nat j))) r q = refl (vval tau1 s3 j) (embw j M' (hvec Forward (M' - j) (fun r => X s3 (j + r)%nat j))) r q).
  { intros r q Hr. rewrite Et by lia. apply refl_ext; apply embw_vec_ext; intros k Hk; apply hvec_ext; apply Ec; lia. }
  constructor.
  - rewrite Et by lia. eapply refc_ext; [unfold M', N' in *; lia|exact G1|auto|]. intros r Hr. symmetry. apply Ec; lia.
  - intros r c Hr Hc Ho. unfold X at 1. rewrite A1 by auto. destruct (Nat.leb_spec (j + 1) c); cbn [andb]; [|apply G2; auto; lia].
    destruct (Nat.ltb_spec c N'); [|lia]. change (dM sm A) with M'.
    transitivity (mmul M' (refl (conj (vval tau1 s3 j)) (embw j M' (hvec Forward (M' - j) (fun r => X s3 (j + r)%nat j)))) (X s3) r c); [apply mmul_ext; auto; intros; apply ctr_refl|].
    rewrite embw_l by (auto; lia). destruct (Nat.leb_spec j r); [lia|]. apply G2; auto; lia.
  - intros r c Hr Hc Hjc. unfold X at 1. rewrite A1 by auto. destruct (Nat.leb_spec (j + 1) c); [|lia]. destruct (Nat.ltb_spec c N'); [|lia]. cbn [andb].
    change (dM sm A) with M'. apply mmul_ext; intros l Hl; [unfold ctr; f_equal; symmetry; apply EH; auto|]. apply G2; auto; lia.
  - intros k Hk Hne. rewrite Et by auto. apply G3; auto.
  - intros k Hk. rewrite (vfr tau2 s3 s4) by auto. apply G4; (apply nin; [first [apply disj_sym; assumption|assumption]|auto|lia]).
  - intros l K1 K2 K3. rewrite A2 by auto. apply G4; auto.
  - congruence.
Qed.
Lemma bhalf_last j s1 s3 : (j + 1 = N')%nat -> generated sm Forward A tau1 j M' j j s1 s3 -> bhalf j s1 s3.
Proof.
  intros Hj (G1 & G2 & G3 & G4 & G5). constructor; auto.
  - intros r c Hr Hc Ho. apply G2; auto; lia.
  - intros r c Hr Hc Hjc. lia.
  - intros k Hk. apply G4; (apply nin; [first [apply disj_sym; assumption|assumption]|auto|lia]).
Qed.
(** the state after both transformations *)
Lemma bhalf_inv j s1 s4 : (j < N')%nat -> binv j s1 -> bhalf j s1 s4 ->
  let H1 := refl (vval tau1 s4 j) (embw j M' (hvec Forward (M' - j) (fun r => X s4 (j + r)%nat j))) in
  let P := mprod M' (bH1 s1) j in let Z := mprod N' (bH2 s1) (Nat.min j (N' - 1)) in
  unitary M' H1 /\ unitary M' (mmul M' P H1) /\ unitary N' Z /\
  (forall r c, (r < M')%nat -> (c < N')%nat -> X s r c = mmul N' (mmul M' (mmul M' P H1) (masked (bel1 j) (X s4))) (ctr Z) r c).
Proof.
  intros Hj (I1 & I2 & I3 & I4 & I5 & I6) [R1 O1 A1 _ _ _ _] H1 P Z.
  destruct (b_left M' N' j (X s1) (X s4) (vval tau1 s4 j)) as [U1 U2]; auto.
  { intros r Hr. apply O1; unfold M', N' in *; lia. }
  repeat apply Logic.conj; auto.
  { apply unitary_mul; auto. }
  intros r c Hr Hc. apply (left_sided M' N' P Z H1 (masked (bel j) (X s1)) (masked (bel1 j) (X s4)) (X s)); auto.
Qed.
Lemma bin_last j s1 s4 : (j + 1 = N')%nat -> binv j s1 -> bhalf j s1 s4 -> forall s6, (forall l, ~ inview tau2 l -> mem s6 l = mem s4 l) -> imem s6 = imem s4 ->
  (forall k, (k < j)%nat -> vval tau2 s6 k = vval tau2 s4 k) -> binv (S j) s6.
Proof.
  intros Hj HB HH s6 Hf Hi Ht. destruct (bhalf_inv j s1 s4 ltac:(lia) HB HH) as (U1 & U2 & U3 & U4).
  destruct HB as (I1 & I2 & I3 & I4 & I5 & I6). destruct HH as [R1 O1 A1 T1 T2 F1 F2].
  assert (EX : forall r c, (r < M')%nat -> (c < N')%nat -> X s6 r c = X s4 r c).
  { intros r c Hr Hc. apply (xof_same sm A); auto. intros r' c' Hr' Hc'. apply Hf. apply nin; auto. }
  assert (ET : forall k, (k < nr tau1)%nat -> vval tau1 s6 k = vval tau1 s4 k).
  { intros k Hk. apply Hf. apply nin; auto; lia. }
  assert (EP : forall r c, (r < M')%nat -> (c < M')%nat -> mprod M' (bH1 s6) (S j) r c = mmul M' (mprod M' (bH1 s1) j) (refl (vval tau1 s4 j) (embw j M' (hvec Forward (M' - j) (fun r => X s4 (j + r)%nat j)))) r c).
  { intros r c Hr Hc. cbn [mprod]. apply mmul_ext; intros l Hl.
    - apply mprod_ext; auto. intros u r' c' Hu Hr' Hc'. unfold bH1. rewrite ET by lia. rewrite T1 by lia. apply refl_ext; apply (qvec_ext' M'); auto; intros q Hq; rewrite EX by lia; apply O1; lia.
    - unfold bH1. rewrite ET by lia. apply refl_ext; rewrite (qvec_embw M') by lia; apply (qvec_ext' M'); auto; intros q Hq; apply EX; lia. }
  assert (EZ : forall r c, (r < N')%nat -> (c < N')%nat -> mprod N' (bH2 s6) (Nat.min (S j) (N' - 1)) r c = mprod N' (bH2 s1) (Nat.min j (N' - 1)) r c).
  { intros r c Hr Hc. replace (Nat.min (S j) (N' - 1)) with j by lia. replace (Nat.min j (N' - 1)) with j by lia. apply mprod_ext; auto.
    intros u r' c' Hu Hr' Hc'. unfold bH2. rewrite Ht by lia. rewrite T2 by lia. apply refl_ext; apply subvec_ext; intros q Hq; unfold ctr; f_equal; rewrite EX by lia; apply O1; lia. }
  unfold binv. repeat apply Logic.conj.
  - eapply unitary_ext; [|exact U2]. intros; symmetry; apply EP; auto.
  - eapply unitary_ext; [|exact U3]. intros; symmetry; apply EZ; auto.
  - intros r c Hr Hc. rewrite U4 by auto. apply mmul_ext; intros l Hl; [|unfold ctr; f_equal; symmetry; apply EZ; auto]. apply mmul_ext; intros k Hk; [symmetry; apply EP; auto|].
    unfold masked. rewrite EX by auto. assert (Eb : bel1 j k l = bel (S j) k l); [|rewrite Eb; auto].
    unfold bel1, bel. destruct (Nat.ltb_spec l j), (Nat.ltb_spec l k), (Nat.ltb_spec k j), (Nat.ltb_spec (k + 1) l), (Nat.eqb_spec l j), (Nat.ltb_spec j k), (Nat.ltb_spec l (S j)), (Nat.ltb_spec k (S j)); cbn [andb orb]; auto; lia.
  - destruct R1 as [R1 _ _]. cbn [hpos] in R1. rewrite Nat.add_0_r in R1. intros k Hk. destruct (Nat.eq_dec k j) as [->|Hne].
    + rewrite EX by lia. split; [exact R1|lia].
    + destruct (I4 k ltac:(lia)) as [K1 K2]. rewrite EX by lia. rewrite O1 by lia. split; auto. intros Hk'. rewrite EX by lia. rewrite O1 by lia. auto.
  - intros l K1 K2 K3 K4. rewrite Hf by auto. rewrite F1 by auto. auto.
  - congruence.
Qed.
Lemma bin_next j s1 s4 s5 s6 : (j + 1 < N')%nat -> binv j s1 -> bhalf j s1 s4 -> generated (flip sm) Forward A tau2 (j + 1) N' j j s4 s5 ->
  applied (flip sm) Forward A tau2 work (j + 1) N' j (j + 1) M' j s5 s6 -> binv (S j) s6.
Proof.
  intros Hj HB HH (G1 & G2 & G3 & G4 & G5) (B1 & B2 & B3). destruct (bhalf_inv j s1 s4 ltac:(lia) HB HH) as (U1 & U2 & U3 & U4).
  destruct HB as (I1 & I2 & I3 & I4 & I5 & I6). destruct HH as [R1 O1 A1 T1 T2 F1 F2].
  rewrite dM_flip, dN_flip in G2. rewrite dM_flip, dN_flip in B1.
  assert (EF : forall s0 r c, xof (flip sm) (val A s0) r c = ctr (X s0) r c) by (intros; apply xof_flip).
  assert (G2' : forall r c, (r < M')%nat -> (c < N')%nat -> (r <> j \/ (c <= j)%nat) -> X s5 r c = X s4 r c).
  { intros r c Hr Hc Ho. assert (K := G2 c r Hc Hr ltac:(lia)). rewrite !EF in K. unfold ctr in K. rewrite <- (conj_conj (X s5 r c)), K. apply conj_conj. }
  assert (Et2 : forall k, (k < nr tau2)%nat -> vval tau2 s6 k = vval tau2 s5 k) by (apply vfr; auto).
  assert (Et1 : forall k, (k < nr tau1)%nat -> vval tau1 s6 k = vval tau1 s4 k).
  { intros k Hk. rewrite (vfr tau1 s5 s6) by auto. apply G4; (apply nin; [first [apply disj_sym; assumption|assumption]|auto|lia]). }
  (* rows up to j, columns up to j *)
  assert (Er : forall r c, (r <= j)%nat -> (c < N')%nat -> X s6 r c = X s5 r c).
  { intros r c Hr Hc. assert (K := B1 c r Hc ltac:(unfold M', N' in *; lia)). destruct (Nat.leb_spec (j + 1) r); [lia|]. cbn [andb] in K. rewrite !EF in K. unfold ctr in K.
    rewrite <- (conj_conj (X s6 r c)), K. apply conj_conj. }
  assert (EH : forall r c, refl (vval tau2 s6 j) (embw (j + 1) N' (hvec Forward (N' - (j + 1)) (fun r => ctr (X s6) (j + 1 + r)%nat j))) r c =
     refl (vval tau2 s5 j) (embw (j + 1) N' (hvec Forward (N' - (j + 1)) (fun r => xof (flip sm) (val A s5) (j + 1 + r)%nat j))) r c).
  { intros r c. rewrite Et2 by lia. apply refl_ext; apply embw_vec_ext; intros k Hk; apply hvec_ext; rewrite EF; unfold ctr; rewrite Er by lia; auto. }
  assert (Ap : forall r c, (r < M')%nat -> (c < N')%nat -> (j < r)%nat -> ctr (X s6) c r = mmul N' (ctr (refl (vval tau2 s6 j) (embw (j + 1) N' (hvec Forward (N' - (j + 1)) (fun r => ctr (X s6) (j + 1 + r)%nat j))))) (ctr (X s4)) c r).
  { intros r c Hr Hc Hjr. rewrite <- EF. rewrite B1 by auto. destruct (Nat.leb_spec (j + 1) r); [|lia]. destruct (Nat.ltb_spec r M'); [|lia]. cbn [andb].
    apply mmul_ext; intros l Hl; [unfold ctr at 1 2; f_equal; symmetry; apply EH|]. rewrite EF. unfold ctr. rewrite G2' by lia. auto. }
  assert (Ec : forall r c, (r < M')%nat -> (c <= j)%nat -> X s6 r c = X s4 r c).
  { intros r c Hr Hc. destruct (Nat.le_gt_cases r j); [rewrite Er by lia; apply G2'; lia|].
    assert (K := Ap r c Hr ltac:(lia) ltac:(lia)). set (u := hvec Forward _ _) in K.
    assert (K2 : mmul N' (ctr (refl (vval tau2 s6 j) (embw (j + 1) N' u))) (ctr (X s4)) c r = ctr (X s4) c r).
    { transitivity (mmul N' (refl (conj (vval tau2 s6 j)) (embw (j + 1) N' u)) (ctr (X s4)) c r); [apply mmul_ext; auto; intros; apply ctr_refl|].
      rewrite embw_l by lia. destruct (Nat.leb_spec (j + 1) c); [lia|]. reflexivity. }
    rewrite K2 in K. unfold ctr in K. rewrite <- (conj_conj (X s6 r c)), K. apply conj_conj. }
  assert (Er' : forall r c, (r < j)%nat -> (c < N')%nat -> X s6 r c = X s1 r c).
  { intros r c Hr Hc. rewrite Er by lia. rewrite G2' by lia. apply O1; lia. }
  destruct (b_right M' N' j (X s4) (X s6) (vval tau2 s6 j)) as [V1 V2]; auto; try lia.
  { rewrite Et2 by lia. eapply refc_ext; [lia|exact G1| |].
    - intros r Hr. apply EF.
    - intros r Hr. cbv beta. rewrite EF. unfold ctr. rewrite Er by lia. auto. }
  { intros r c Hr Hc Hl. rewrite Er by lia. apply G2'; lia. }
  { intros c Hc. apply Ec; lia. }
  assert (EP : forall r c, (r < M')%nat -> (c < M')%nat -> mprod M' (bH1 s6) (S j) r c = mmul M' (mprod M' (bH1 s1) j) (refl (vval tau1 s4 j) (embw j M' (hvec Forward (M' - j) (fun r => X s4 (j + r)%nat j)))) r c).
  { intros r c Hr Hc. cbn [mprod]. apply mmul_ext; intros l Hl.
    - apply mprod_ext; auto. intros u r' c' Hu Hr' Hc'. unfold bH1. rewrite Et1 by lia. rewrite T1 by lia. apply refl_ext; apply (qvec_ext' M'); auto; intros q Hq; rewrite Ec by lia; apply O1; lia.
    - unfold bH1. rewrite Et1 by lia. apply refl_ext; rewrite (qvec_embw M') by lia; apply (qvec_ext' M'); auto; intros q Hq; apply Ec; lia. }
  set (H2 := refl (vval tau2 s6 j) _) in V1, V2.
  assert (EZ : forall r c, (r < N')%nat -> (c < N')%nat -> mprod N' (bH2 s6) (Nat.min (S j) (N' - 1)) r c = mmul N' (mprod N' (bH2 s1) (Nat.min j (N' - 1))) H2 r c).
  { intros r c Hr Hc. replace (Nat.min (S j) (N' - 1)) with (S j) by lia. replace (Nat.min j (N' - 1)) with j by lia. cbn [mprod]. apply mmul_ext; intros l Hl.
    - apply mprod_ext; auto. intros u r' c' Hu Hr' Hc'. unfold bH2. rewrite Et2 by lia. rewrite G3 by lia. rewrite T2 by lia. apply refl_ext; apply subvec_ext; intros q Hq; unfold ctr; f_equal; apply Er'; lia.
    - unfold bH2, H2. apply refl_ext; rewrite <- subvec_embw by lia; auto. }
  unfold binv. repeat apply Logic.conj.
  - eapply unitary_ext; [|exact U2]. intros; symmetry; apply EP; auto.
  - eapply unitary_ext; [|apply (unitary_mul N' _ _ U3 V1)]. intros; symmetry; apply EZ; auto.
  - intros r c Hr Hc. rewrite (right_sided M' N' _ _ H2 _ (masked (bel (S j)) (X s6)) (X s) V1 U4) by auto.
    apply mmul_ext; intros l Hl; [|unfold ctr; f_equal; symmetry; apply EZ; auto]. apply mmul_ext; intros k Hk; [symmetry; apply EP; auto|auto].
  - destruct R1 as [R1 _ _]. cbn [hpos] in R1. rewrite Nat.add_0_r in R1. destruct G1 as [G1 _ _]. cbn [hpos] in G1. rewrite Nat.add_0_r in G1. rewrite EF in G1. unfold ctr in G1. rewrite !conj_conj in G1.
    intros k Hk. destruct (Nat.eq_dec k j) as [->|Hne].
    + rewrite Ec by lia. split; [exact R1|]. intros _. rewrite Er by lia. symmetry. exact G1.
    + destruct (I4 k ltac:(lia)) as [K1 K2]. rewrite Er' by lia. split; auto. intros Hk'. rewrite Er' by lia. auto.
  - intros l K1 K2 K3 K4. rewrite B2 by auto. rewrite G4 by auto. rewrite F1 by auto. auto.
  - congruence.
Qed.
Lemma binv_row j s1 s4 : (j + 1 < N')%nat -> binv j s1 -> bhalf j s1 s4 -> (vsq (N' - (j + 1)) (fun r => xof (flip sm) (val A s4) (j + 1 + r)%nat j) <= bt * bt)%R.
Proof.
  intros Hj HB HH. destruct (bhalf_inv j s1 s4 ltac:(lia) HB HH) as (U1 & U2 & U3 & U4). eapply Rle_trans; [|exact Hnorm].
  rewrite <- (two_sided_fro M' N' _ _ _ _ U2 U3 U4). rewrite <- (fro2_ctr N' M'). eapply Rle_trans; [|apply (fro2_col N' M' _ j); lia].
  eapply Rle_trans; [|apply (vsq_tail (j + 1) N'); lia]. right. apply vsq_ext. intros r Hr. rewrite xof_flip. unfold ctr, masked, bel1, bel.
  destruct (Nat.ltb_spec (j + 1 + r) j), (Nat.ltb_spec j j), (Nat.eqb_spec (j + 1 + r) j); cbn [andb orb]; try lia. reflexivity.
Qed.
Lemma bstep_run j s1 : (j < N')%nat -> binv j s1 -> wp (bstep j) (fun _ s' => binv (S j) s') noX s1.
Proof.
  intros Hj HB. assert (Hcol := binv_col j s1 Hj HB).
  unfold bstep. apply (fgen_run h st bt hsm sm Forward A tau1 Hh HI HIt1 Ht1 HD1 j M' j j s1 unit (fun v => 
    if (j <? N' - 1)%nat then
    A11 <- fslc sm j M' (j + 1) N';;
    t <- rdv tau1 j;;
    fcall sm Forward work v t A11;;
    w <- fln (flip sm) A (j + 1) N' j;;
    t <- larfg h Forward (flip sm) w;;
    wrv tau2 j t;;
    if (j <? M' - 1)%nat then
      B11 <- fslc (flip sm) (j + 1) N' (j + 1) M';;
      t <- rdv tau2 j;;
      fcall (flip sm) Forward work w t B11
    else ret tt
  else wrv tau2 j 0)); try lia; auto.
  intros s3 HG. destruct (Nat.ltb_spec j (N' - 1)).
  - apply wp_fslc; [unfold M', N' in *; lia..|]. apply wp_bind. unfold rdv at 1. apply wp_rd; [lia|lia|]. change (val tau1 s3 j 0) with (vval tau1 s3 j).
    apply wp_bind. eapply wp_use.
    { apply (fcall_run sm Forward A tau1 work HI Ht1 HwA j M' j (j + 1) N' j s3); try (unfold M', N' in *; lia).
      destruct Hwork as [|[|(W1 & W2 & W3 & _)]]; [lia..|]. right. right. apply wk_ok_contig; auto. lia. }
    intros u0 s4 HL. cbv beta in HL. clear u0. assert (HH := bhalf_gen j s1 s3 s4 Hj HG HL).
    apply (fgen_run h st bt hsm (flip sm) Forward A tau2 Hh HI HIt2 Ht2 HD2 (j + 1) N' j j s4 unit (fun w => 
      if (j <? M' - 1)%nat then
      B11 <- fslc (flip sm) (j + 1) N' (j + 1) M';;
      t <- rdv tau2 j;;
      fcall (flip sm) Forward work w t B11
    else ret tt)); rewrite ?dM_flip, ?dN_flip; try (unfold M', N' in *; lia); auto.
    { apply (binv_row j s1); auto. lia. }
    intros s5 HG5. destruct (Nat.ltb_spec j (M' - 1)); [|lia].
    apply wp_fslc; rewrite ?dM_flip, ?dN_flip; [unfold M', N' in *; lia..|]. apply wp_bind. unfold rdv at 1. apply wp_rd; [lia|lia|]. change (val tau2 s5 j 0) with (vval tau2 s5 j).
    eapply wp_conseq; [apply (fcall_run (flip sm) Forward A tau2 work HI Ht2 HwA (j + 1) N' j (j + 1) M' j s5); rewrite ?dM_flip, ?dN_flip; try (unfold M', N' in *; lia)| |auto].
    { destruct Hwork as [|[|(W1 & W2 & W3 & [W4|W4])]]; [lia..|]. right. right. apply wk_ok_contig; auto. lia. }
    intros u0 s6 HA6. apply (bin_next j s1 s4 s5 s6); auto. lia.
  - unfold wrv. apply wp_wr; [lia|lia|]. apply (bin_last j s1 s3); auto; try lia.
    + apply bhalf_last; auto. lia.
    + intros l Hl. unfold setm. cbn [mem]. destruct (Z.eqb_spec l (ad tau2 j 0)) as [->|]; auto. exfalso. apply Hl. exists j, 0%nat. repeat split; first [lia|reflexivity].
    + intros k Hk. unfold vval, val, setm. cbn [mem]. destruct (Z.eqb_spec (ad tau2 k 0) (ad tau2 j 0)) as [e|]; auto. apply HIt2 in e; lia.
Qed.
Lemma bloop_run : wp (for_ j in 0 upto N' do bstep j) (fun _ s' => binv N' s') noX s.
Proof.
  apply (wp_forup (fun j s' => binv j s')); [lia|apply binv_0|intros j s1 Hr HJ; apply bstep_run; auto; lia|auto].
Qed.
End G.

Section Top.
Variables (h : hconst) (st bt hsm : R) (A tauv tauw : view) (work : lmat) (s : state).
Let m := nr A.
Let n := nc A.
Hypothesis Hh : hconst_ok h st bt hsm.
Hypothesis HI : vinj A.
Hypothesis HIv : vinj tauv.
Hypothesis HIw : vinj tauw.
Hypothesis Hv1 : nc tauv = 1%nat.
Hypothesis Hw1 : nc tauw = 1%nat.
Hypothesis HDv : disj A tauv.
Hypothesis HDw : disj A tauw.
Hypothesis HDvw : disj tauv tauw.
Hypothesis Hlenv : (Nat.min m n <= nr tauv)%nat.
Hypothesis Hlenw : (Nat.min m n <= nr tauw)%nat.
Hypothesis HwA : disj (lview work) A.
Hypothesis Hwv : disj (lview work) tauv.
Hypothesis Hww : disj (lview work) tauw.
Hypothesis Hnorm : (fro2 m n (val A s) <= bt * bt)%R.
Hypothesis Hwork : (m <= 1 \/ n <= 1 \/ lok work /\ contiguous work = true /\ n - 1 <= lm work * ln work /\ (n <= 2 \/ m - 1 <= lm work * ln work))%nat.
Definition bpost (s' : state) : Prop :=
  bid_reduction m n (val A s) (val A s') (vval tauv s') (vval tauw s') /\
  (forall l, ~ inview A l -> ~ inview tauv l -> ~ inview tauw l -> ~ inview (lview work) l -> mem s' l = mem s l) /\ imem s' = imem s.
Lemma bpost_tall s' : (n <= m)%nat -> binv Columnwise A tauv tauw work s n s' -> bpost s'.
Proof.
  intros Hmn (I1 & I2 & I3 & I4 & I5 & I6). change (dM Columnwise A) with m in *. change (dN Columnwise A) with n in *. cbn [xof] in *.
  replace (Nat.min n (n - 1)) with (n - 1)%nat in * by lia.
  assert (EP : mprod m (bH1 Columnwise A tauv s') n = bidq m n (val A s') (vval tauv s')) by (unfold bidq; destruct (Nat.leb_spec n m); [reflexivity|lia]).
  assert (EZ : mprod n (bH2 Columnwise A tauw s') (n - 1) = bidz m n (val A s') (vval tauw s')) by (unfold bidz; destruct (Nat.leb_spec n m); [reflexivity|lia]).
  assert (EB : forall r c, (r < m)%nat -> (c < n)%nat -> masked (bel n) (val A s') r c = bidpart m n (val A s') r c).
  { intros r c Hr Hc. unfold masked, bel, bidpart. destruct (Nat.leb_spec n m); [|lia].
    destruct (Nat.ltb_spec c n), (Nat.ltb_spec c r), (Nat.ltb_spec r n), (Nat.ltb_spec (r + 1) c), (Nat.eqb_spec r c), (Nat.eqb_spec c (r + 1)); cbn [andb orb]; auto; lia. }
  split; [|auto]. unfold bid_reduction. cbv zeta. rewrite EP in I1, I3. rewrite EZ in I2, I3. repeat apply Logic.conj; auto.
  - intros i j Hi Hj. rewrite I3 by auto. apply mmul_ext; auto. intros k Hk. apply mmul_ext; auto.
  - intros i j Hi Hj. unfold bidpart. destruct (Nat.leb_spec n m); [|lia]. destruct (Nat.eqb_spec i j) as [->|]; cbn [orb]; [apply I4; auto|].
    destruct (Nat.eqb_spec j (i + 1)) as [->|]; [|apply conj_0]. apply I4; lia.
Qed.
Lemma bpost_wide s' : (m < n)%nat -> binv Rowwise A tauw tauv work s m s' -> bpost s'.
Proof.
  intros Hmn (I1 & I2 & I3 & I4 & I5 & I6). change (dM Rowwise A) with n in *. change (dN Rowwise A) with m in *. cbn [xof] in *.
  replace (Nat.min m (m - 1)) with (m - 1)%nat in * by lia.
  assert (EP : mprod n (bH1 Rowwise A tauw s') m = bidz m n (val A s') (vval tauw s')) by (unfold bidz; destruct (Nat.leb_spec n m); [lia|reflexivity]).
  assert (EZ : forall r c, (r < m)%nat -> (c < m)%nat -> mprod m (bH2 Rowwise A tauv s') (m - 1) r c = bidq m n (val A s') (vval tauv s') r c).
  { intros r c Hr Hc. unfold bidq. destruct (Nat.leb_spec n m); [lia|]. apply mprod_ext; auto. intros i r' c' Hi Hr' Hc'. unfold bH2. apply refl_ext; apply subvec_ext; intros; apply ctr_ctr. }
  assert (EB : forall r c, (r < n)%nat -> (c < m)%nat -> masked (bel m) (ctr (val A s')) r c = ctr (bidpart m n (val A s')) r c).
  { intros r c Hr Hc. unfold masked, bel, bidpart, ctr. destruct (Nat.leb_spec n m); [lia|].
    destruct (Nat.ltb_spec c m), (Nat.ltb_spec c r), (Nat.ltb_spec r m), (Nat.ltb_spec (r + 1) c), (Nat.eqb_spec c r), (Nat.eqb_spec c (r + 1)); cbn [andb orb]; auto; try lia; rewrite conj_0; auto. }
  split; [|split; auto]. unfold bid_reduction. cbv zeta. rewrite EP in I1, I3. repeat apply Logic.conj; auto.
  - eapply unitary_ext; [exact EZ|exact I2].
  - intros i j Hi Hj. set (B := bidpart m n (val A s')) in *. set (Z := bidz m n (val A s') (vval tauw s')) in *. set (Q := bidq m n (val A s') (vval tauv s')) in *.
    rewrite <- (ctr_ctr (val A s)). unfold ctr at 1. rewrite I3 by auto.
    transitivity (ctr (mmul m (mmul n Z (ctr B)) (ctr Q)) i j).
    { match goal with |- conj ?x = ctr ?F ?a ?b => change (conj x = conj (F b a)) end. f_equal. apply mmul_ext; intros l Hl; [|unfold ctr; f_equal; auto]. apply mmul_ext; auto. }
    rewrite ctr_mmul. transitivity (mmul m Q (mmul n B (ctr Z)) i j); [|apply mmul_assoc].
    apply mmul_ext; intros l Hl; [apply ctr_ctr|]. rewrite ctr_mmul. apply mmul_ext; intros; auto. apply ctr_ctr.
  - intros i j Hi Hj. unfold bidpart. destruct (Nat.leb_spec n m); [lia|]. destruct (Nat.eqb_spec i j) as [->|]; cbn [orb].
    + destruct (I4 j Hi) as [K _]. unfold ctr in K. rewrite conj_conj in K. auto.
    + destruct (Nat.eqb_spec i (j + 1)) as [->|]; [|apply conj_0]. destruct (I4 j ltac:(lia)) as [_ K]. specialize (K ltac:(lia)). unfold ctr in K. rewrite conj_conj in K. auto.
Qed.
Lemma gebd2_work_run : runs (gebd2_work h A tauv tauw work) s (fun r s' => r = 0%Z /\ bpost s').
Proof.
  unfold runs, gebd2_work. change (nr A) with m. change (nc A) with n. cbv zeta.
  apply wp_bind. apply wp_check; [apply negb_true_iff; apply Nat.ltb_ge; auto|]. apply wp_bind. apply wp_check; [apply negb_true_iff; apply Nat.ltb_ge; auto|].
  destruct (Nat.leb_spec n 0) as [Hn|Hn].
  { apply wp_ret. split; auto. apply bpost_tall; [unfold m, n in *; lia|]. replace n with 0%nat by lia. apply binv_0; auto; unfold dM, dN; change (nr A) with m; change (nc A) with n; try lia. }
  apply wp_bind. destruct (Nat.leb_spec n m) as [Hmn|Hmn].
  - eapply wp_conseq; [apply (bloop_run h st bt hsm Columnwise A tauv tauw work s); auto; unfold dM, dN; change (nr A) with m; change (nc A) with n|intros u0 s' HL; cbv beta in HL|auto].
    + lia.
    + lia.
    + destruct Hwork as [|[|(W1 & W2 & W3 & W4)]]; [auto|auto|]. right. right. repeat apply Logic.conj; auto; lia.
    + apply wp_ret. split; auto. apply bpost_tall; auto.
  - eapply wp_conseq; [apply (bloop_run h st bt hsm Rowwise A tauw tauv work s); auto; unfold dM, dN; change (nr A) with m; change (nc A) with n|intros u0 s' HL; cbv beta in HL|auto].
    + apply disj_sym; auto.
    + lia.
    + lia.
    + lia.
    + cbn [xof]. rewrite fro2_ctr. auto.
    + destruct Hwork as [|[|(W1 & W2 & W3 & W4)]]; [auto|auto|]. right. right. repeat apply Logic.conj; auto; lia.
    + apply wp_ret. split; auto. apply bpost_wide; auto.
Qed.
End Top.
End P.
