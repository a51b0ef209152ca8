(** * gehd2: reduction to Hessenberg form *)
From Coq Require Import Bool Arith ZArith Lia Reals Lra Ring Field.
From Verif.Core Require Import Scalar Prog View Slice Loops WorkEff RealLaws.
From Verif.Spec Require Import LinAlg Outcome Norms Householder Reduce.
From Verif.Model Require Import Gemm Blas1 Blas2 Blas3 Legacy LaAux Norms Work Householder QGen QFact BlockQ Reduce.
From Verif.Proof Require Import SumLemmas Tactics SliceTac LegacyProof PotrfProof BlockAlg LarfProof LarfgProof QRProof QGenProof QFactProof ReduceMath ReduceProof.
Local Open Scope T_scope.

Section P.
Context {E : Env} {FL : FieldLaws E} {CL : ConjLaws E} {OL : ROrdLaws E} {QL : EqbLaws E} {XL : CplxLaws E} {RL : RLaws E} {NL : FinLaws E}.
Add Field Tf : fth.

(** the stored vector as a vector embedded in a window *)
Lemma subvec_embw ihi (A : mat) i r : (i + 1 < ihi)%nat ->
  embw (i + 1) ihi (hvec Forward (ihi - (i + 1)) (fun r => A (i + 1 + r)%nat i)) r = subvec ihi A i r.
Proof.
  intros H. unfold embw, hvec, subvec. cbn [hpos]. destruct (Nat.leb_spec (i + 1) r), (Nat.ltb_spec r ihi), (Nat.eqb_spec r (i + 1)), (Nat.ltb_spec (i + 1) r); cbn [andb]; try lia; auto.
  - destruct (Nat.eqb_spec (r - (i + 1)) 0); [auto|lia].
  - destruct (Nat.eqb_spec (r - (i + 1)) 0); [lia|]. f_equal. lia.
Qed.
Lemma subvec_ext hi A B i r : (forall q, (i + 1 < q < hi)%nat -> A q i = B q i) -> subvec hi A i r = subvec hi B i r.
Proof. intros H. unfold subvec. destruct (_ =? _)%nat; auto. destruct (Nat.ltb_spec (i + 1) r), (Nat.ltb_spec r hi); cbn [andb]; auto. Qed.
Lemma embw_vec_ext a b (u v : nat -> T) r : (forall q, (q < b - a)%nat -> u q = v q) -> embw a b u r = embw a b v r.
Proof. intros H. unfold embw. destruct (Nat.leb_spec a r), (Nat.ltb_spec r b); cbn [andb]; auto. apply H. lia. Qed.
Lemma hvec_ext d n (u v : nat -> T) q : u q = v q -> hvec d n u q = hvec d n v q.
Proof. intros H. unfold hvec. destruct (_ =? _)%nat; auto. Qed.

(** ** One step, in matrices: reflector from column i, applied from the right to rows < ihi, then from the left to columns > i *)
Section M.
Variables (n ilo ihi i t : nat) (A0 X1 X3 X4 X5 : mat) (tau : T).
Hypotheses (Hi : i = (ilo + t)%nat) (Hlt : (i + 1 < ihi)%nat) (Hn : (ihi <= n)%nat).
Let a := (i + 1)%nat.
Let el (t r c : nat) : bool := ((ilo <=? c) && (c <? ilo + t) && (c + 1 <? r) && (r <? ihi))%nat.
Let u3 := hvec Forward (ihi - a) (fun r => X3 (a + r)%nat i).
Let H := refl tau (embw a ihi u3).
Hypothesis HR : refc Forward (ihi - a) (fun r => X1 (a + r)%nat i) tau (fun r => X3 (a + r)%nat i).
Hypothesis H3 : forall r j, (r < n)%nat -> (j < n)%nat -> (j <> i \/ ~ (a <= r < ihi)%nat) -> X3 r j = X1 r j.
Hypothesis H4 : forall r j, (r < n)%nat -> (j < n)%nat -> X4 r j = if (r <? ihi)%nat then mmul n X3 H r j else X3 r j.
Hypothesis H5 : forall r j, (r < n)%nat -> (j < n)%nat -> X5 r j = if (a <=? j)%nat then mmul n (ctr (refl tau (embw a ihi (hvec Forward (ihi - a) (fun r => X4 (a + r)%nat i))))) X4 r j else X4 r j.
Hypothesis Hrow : forall r c, (r < n)%nat -> (c < n)%nat -> (ihi <= r)%nat -> X1 r c = A0 r c.
Hypothesis Hcol : forall r c, (r < n)%nat -> (c < n)%nat -> (c < ilo)%nat -> X1 r c = A0 r c.
Hypothesis Hin : hess_input n ilo ihi A0.
Let Xm : mat := fun r j => if ((a <=? j) && (j <? ihi) && (r <? ihi))%nat then mmul n X1 H r j else X1 r j.

Lemma h_E4 r j : (r < n)%nat -> (j < n)%nat -> (j <> i \/ ~ (a <= r < ihi)%nat) -> X4 r j = Xm r j.
Proof.
  intros Hr Hj Hd. rewrite H4 by auto. unfold Xm. destruct (Nat.ltb_spec r ihi); [|rewrite andb_false_r; apply H3; auto].
  unfold H. rewrite embw_r by (unfold a; lia). destruct ((a <=? j) && (j <? ihi))%nat eqn:Eb; cbn [andb].
  - rewrite embw_r by (unfold a; lia). rewrite Eb. apply mmul_ext; auto. intros l Hl. apply H3; unfold a in *; try lia.
  - apply H3; auto.
Qed.
Lemma h_X4c r : (a <= r < ihi)%nat -> X4 r i = X3 r i.
Proof.
  intros Hr. rewrite H4 by lia. destruct (Nat.ltb_spec r ihi); [|lia]. unfold H. rewrite embw_r by (unfold a; lia).
  destruct (Nat.leb_spec a i); [unfold a in *; lia|]. cbn [andb]. auto.
Qed.
Lemma h_X5c r : (a <= r < ihi)%nat -> X5 r i = X3 r i.
Proof. intros Hr. rewrite H5 by lia. destruct (Nat.leb_spec a i); [unfold a in *; lia|]. apply h_X4c; auto. Qed.
Lemma h_H5 : forall r j, (r < n)%nat -> (j < n)%nat -> X5 r j = if (a <=? j)%nat then mmul n (ctr H) X4 r j else X4 r j.
Proof.
  intros r j Hr Hj. rewrite H5 by auto. destruct (a <=? j)%nat; auto. apply mmul_ext; auto. intros l Hl. unfold ctr, H. f_equal.
  apply refl_ext; apply embw_vec_ext; intros q Hq; apply hvec_ext; apply h_X4c; lia.
Qed.
Lemma h_out r j : (r < n)%nat -> (j < n)%nat -> ~ (a <= r < ihi)%nat -> X5 r j = Xm r j.
Proof.
  intros Hr Hj Ho. rewrite h_H5 by auto. assert (K := h_E4 r j Hr Hj (or_intror Ho)). destruct (a <=? j)%nat; auto. rewrite <- K.
  transitivity (mmul n (refl (conj tau) (embw a ihi u3)) X4 r j); [apply mmul_ext; auto; intros; apply ctr_refl|].
  rewrite embw_l by (unfold a; lia). destruct (Nat.leb_spec a r), (Nat.ltb_spec r ihi); cbn [andb]; auto; lia.
Qed.
Lemma h_left : unitary n H /\ forall r j, (r < n)%nat -> (j < n)%nat -> masked (el (S t)) X5 r j = mmul n (ctr H) (masked (el t) Xm) r j.
Proof.
  assert (HH : forall r c, (r < n)%nat -> (c < n)%nat -> refl tau (embw a ihi (hvec Forward (ihi - a) (fun r => X5 (a + r)%nat i))) r c = H r c).
  { intros r c Hr Hc. unfold H. apply refl_ext; apply embw_vec_ext; intros q Hq; apply hvec_ext; apply h_X5c; lia. }
  destruct (left_step n n Forward a ihi i (el t) (el (S t)) Xm X5 tau) as [U1 U2].
  - unfold a; lia.
  - lia.
  - eapply refc_ext; [unfold a; lia|exact HR| |].
    + intros q Hq. unfold Xm. destruct (Nat.leb_spec a i); [unfold a in *; lia|]. auto.
    + intros q Hq. symmetry. apply h_X5c. lia.
  - intros r j Hr Hj Ho. unfold masked. replace (el (S t) r j) with (el t r j). { destruct (el t r j); auto. apply h_out; auto. }
    unfold el, a in *. destruct (Nat.leb_spec ilo j), (Nat.ltb_spec j (ilo + t)), (Nat.ltb_spec j (ilo + S t)), (Nat.ltb_spec (j + 1) r), (Nat.ltb_spec r ihi); cbn [andb]; try reflexivity; lia.
  - intros r Hr. cbn [hpos]. unfold el, a in *. split; destruct (Nat.leb_spec ilo i), (Nat.ltb_spec i (ilo + t)), (Nat.ltb_spec i (ilo + S t)), (Nat.ltb_spec (i + 1) r), (Nat.ltb_spec r ihi), (Nat.eqb_spec (r - (i + 1)) 0); cbn [andb negb]; try reflexivity; lia.
  - intros j Hj Hne. destruct (Nat.le_gt_cases j i) as [Hji|Hji].
    + left. intros r Hr. assert (Hj1 : (j < i)%nat) by lia. destruct (Nat.le_gt_cases ilo j) as [Hl|Hl].
      * assert (Ee : forall q, (t <= q)%nat -> el q r j = true).
        { intros q Hq. unfold el, a in *. destruct (Nat.leb_spec ilo j), (Nat.ltb_spec j (ilo + q)), (Nat.ltb_spec (j + 1) r), (Nat.ltb_spec r ihi); cbn [andb]; try reflexivity; lia. }
        unfold masked. rewrite !Ee by lia. auto.
      * assert (Ee : forall q, el q r j = false). { intros q. unfold el. destruct (Nat.leb_spec ilo j); [lia|]. reflexivity. }
        unfold masked. rewrite !Ee. rewrite h_H5 by (unfold a in *; lia). destruct (Nat.leb_spec a j); [unfold a in *; lia|]. rewrite h_E4 by (unfold a in *; lia || auto; lia).
        assert (K : Xm r j = 0). { unfold Xm. destruct (Nat.leb_spec a j); [unfold a in *; lia|]. cbn [andb]. rewrite Hcol by (unfold a in *; lia). apply Hin; unfold a in *; try lia. }
        auto.
    + right. intros r Hr. split.
      * rewrite h_H5 by (unfold a in *; lia). destruct (Nat.leb_spec a j); [|unfold a in *; lia]. apply mmul_ext; intros l Hl; [unfold ctr; f_equal; symmetry; apply HH; lia|apply h_E4; auto].
      * unfold el. split; destruct (Nat.leb_spec ilo j), (Nat.ltb_spec j (ilo + t)), (Nat.ltb_spec j (ilo + S t)); cbn [andb]; try reflexivity; lia.
  - split.
    + eapply unitary_ext; [exact HH|exact U1].
    + intros r j Hr Hj. rewrite U2 by auto. apply mmul_ext; auto. intros l Hl. unfold ctr. f_equal. apply HH; auto.
Qed.
Lemma h_right r j : (r < n)%nat -> (j < n)%nat -> masked (el t) Xm r j = mmul n (masked (el t) X1) H r j.
Proof.
  intros Hr Hj. unfold H. rewrite embw_r by (unfold a; lia). 
  assert (Ee : forall c, (a <= c)%nat -> el t r c = false).
  { intros c Hc. unfold el, a in *. destruct (Nat.leb_spec ilo c), (Nat.ltb_spec c (ilo + t)); cbn [andb]; try reflexivity; lia. }
  destruct (Nat.leb_spec a j); cbn [andb]; [destruct (Nat.ltb_spec j ihi); cbn [andb]|].
  - unfold masked at 1. rewrite Ee by auto. unfold Xm. destruct (Nat.leb_spec a j), (Nat.ltb_spec j ihi); try lia. cbn [andb]. destruct (Nat.ltb_spec r ihi).
    + unfold H. rewrite embw_r by (unfold a; lia). destruct (Nat.leb_spec a j), (Nat.ltb_spec j ihi); try lia. cbn [andb]. apply mmul_ext; auto. intros l Hl. unfold masked. rewrite Ee by lia. auto.
    + rewrite Hrow by (auto; lia). rewrite Hin by (auto; unfold a in *; lia). symmetry. apply mmul_0_l. intros l Hl. unfold masked. rewrite Ee by lia.
      rewrite Hrow by (auto; lia). apply Hin; auto; unfold a in *; lia.
  - unfold masked, Xm. destruct (Nat.ltb_spec j ihi); [lia|]. rewrite andb_false_r. auto.
  - unfold masked, Xm. destruct (Nat.leb_spec a j); [lia|]. auto.
Qed.
Lemma h_step (P P' : mat) : (forall r c, (r < n)%nat -> (c < n)%nat -> A0 r c = mmul n (mmul n P (masked (el t) X1)) (ctr P) r c) -> unitary n P ->
  (forall r c, (r < n)%nat -> (c < n)%nat -> P' r c = mmul n P H r c) ->
  unitary n P' /\ (forall r c, (r < n)%nat -> (c < n)%nat -> A0 r c = mmul n (mmul n P' (masked (el (S t)) X5)) (ctr P') r c).
Proof.
  intros HA UP HP. destruct h_left as [UH HL]. split.
  - eapply unitary_ext; [|apply (unitary_mul n P H UP UH)]. intros; symmetry; apply HP; auto.
  - assert (HY : forall r c, (r < n)%nat -> (c < n)%nat -> masked (el (S t)) X5 r c = mmul n (mmul n (ctr H) (masked (el t) X1)) H r c).
    { intros r c Hr Hc. rewrite HL by auto. rewrite <- mmul_assoc. apply mmul_ext; auto. intros; apply h_right; auto. }
    intros r c Hr Hc. rewrite (two_sided n n P P H H (masked (el t) X1) (masked (el (S t)) X5) A0 UH UH HA HY r c Hr Hc).
    apply mmul_ext; intros l Hl.
    + apply mmul_ext; auto. intros k Hk. symmetry. apply HP; auto.
    + unfold ctr. f_equal. symmetry. apply HP; auto.
Qed.
End M.

Section G.
Variables (h : hconst) (st bt hsm : R) (ilo ihi n : nat) (A tau : view) (work : lmat) (s : state).
Hypothesis Hh : hconst_ok h st bt hsm.
Hypothesis HA1 : nr A = n.
Hypothesis HA2 : nc A = n.
Hypothesis HI : vinj A.
Hypothesis HIt : vinj tau.
Hypothesis Ht1 : nc tau = 1%nat.
Hypothesis Hlen : (n - 1 <= nr tau)%nat.
Hypothesis HD : disj A tau.
Hypothesis HwA : disj (lview work) A.
Hypothesis Hwt : disj (lview work) tau.
Hypothesis Hihi : (0 < ihi <= n)%nat.
Hypothesis Hin : hess_input n ilo ihi (val A s).
Hypothesis Hnorm : (fro2 n n (val A s) <= bt * bt)%R.
Hypothesis Hwork : (ihi <= ilo + 2 \/ lok work /\ contiguous work = true /\ Nat.max ihi (n - ilo - 1) <= lm work * ln work)%nat.
Definition hel (t r c : nat) : bool := ((ilo <=? c) && (c <? ilo + t) && (c + 1 <? r) && (r <? ihi))%nat.
Definition hH (s1 : state) (u : nat) : mat := refl (vval tau s1 (ilo + u)%nat) (subvec ihi (val A s1) (ilo + u)%nat).
Definition hinv (t : nat) (s1 : state) : Prop :=
  unitary n (mprod n (hH s1) t) /\
  (forall r c, (r < n)%nat -> (c < n)%nat -> val A s r c = mmul n (mmul n (mprod n (hH s1) t) (masked (hel t) (val A s1))) (ctr (mprod n (hH s1) t)) r c) /\
  (forall u, (u < t)%nat -> conj (val A s1 (ilo + u + 1)%nat (ilo + u)%nat) = val A s1 (ilo + u + 1)%nat (ilo + u)%nat) /\
  (forall r c, (r < n)%nat -> (c < n)%nat -> (ihi <= r)%nat -> val A s1 r c = val A s r c) /\
  (forall r c, (r < n)%nat -> (c < n)%nat -> (c < ilo)%nat -> val A s1 r c = val A s r c) /\
  (forall j, (j < nr tau)%nat -> ~ (ilo <= j < ilo + t)%nat -> vval tau s1 j = vval tau s j) /\
  (forall l, ~ inview A l -> ~ inview tau l -> ~ inview (lview work) l -> mem s1 l = mem s l) /\ imem s1 = imem s.
Lemma hinv_0 : hinv 0 s.
Proof.
  repeat apply Logic.conj; auto.
  - apply unitary_id.
  - intros r c Hr Hc. cbn [mprod]. rewrite (mmul_ext n _ (ctr idm) (mmul n idm (masked (hel 0) (val A s))) idm) by (auto; intros; apply ctr_idm).
    rewrite mmul_id_r, mmul_id_l by auto. unfold masked, hel. destruct (Nat.leb_spec ilo c), (Nat.ltb_spec c (ilo + 0)); cbn [andb]; auto; lia.
  - intros u Hu. lia.
Qed.
Lemma hess_step_run t s1 : (ilo + t < ihi - 1)%nat -> hinv t s1 -> let i := (ilo + t)%nat in
  wp (v <- slcol A (i + 1) ihi i;;
    t <- larfg h Forward Columnwise v;;
    wrv tau i t;;
    C0 <- slc A 0 ihi (i + 1) ihi;;
    t <- rdv tau i;;
    larf_work Right Forward Columnwise v t C0 work;;
    C1 <- slc A (i + 1) ihi (i + 1) n;;
    t <- rdv tau i;;
    larf_work Left Forward Columnwise v (conj t) C1 work) (fun _ s' => hinv (S t) s') noX s1.
Proof.
  intros Hlt (I1 & I2 & I3 & I4 & I5 & I6 & I7 & I8) i. assert (Hi : i = (ilo + t)%nat) by reflexivity. clearbody i.
  assert (Hv : (vsq n (fun r => val A s1 r i) <= bt * bt)%R).
  { eapply Rle_trans; [|exact Hnorm]. rewrite <- (two_sided_fro n n _ _ _ _ I1 I1 I2). eapply Rle_trans; [|apply (fro2_col n n _ i); lia].
    right. apply vsq_ext. intros r Hr. unfold masked, hel. destruct (Nat.ltb_spec i (ilo + t)); [lia|]. rewrite andb_false_r. auto. }
  assert (HW : forall d, (d <= Nat.max ihi (n - ilo - 1))%nat -> (ihi - (i + 1) <= 1 \/ d = 0 \/ wk_ok work d)%nat).
  { intros d Hd. destruct Hwork as [|(W1 & W2 & W3)]; [left; lia|]. right. right. apply wk_ok_contig; auto. lia. }
  apply (fgen_run h st bt hsm Columnwise Forward A tau Hh HI HIt Ht1 HD (i + 1) ihi i i s1 unit
    (fun v => C0 <- slc A 0 ihi (i + 1) ihi;; t <- rdv tau i;; larf_work Right Forward Columnwise v t C0 work;;
      C1 <- slc A (i + 1) ihi (i + 1) n;; t <- rdv tau i;; larf_work Left Forward Columnwise v (conj t) C1 work)).
  - unfold dM. lia.
  - unfold dN. lia.
  - lia.
  - eapply Rle_trans; [|exact Hv]. eapply Rle_trans; [|apply (vsq_head ihi n); lia]. apply (vsq_tail (i + 1) ihi (fun r => val A s1 r i)). lia.
  - intros s3 (G1 & G2 & G3 & G4 & G5). unfold lnv. cbn [xof] in G1, G2. unfold dM, dN in G2. rewrite HA1, HA2 in G2.
    apply wp_bind, wp_slc; [lia..|]. apply wp_bind. unfold rdv at 1. apply wp_rd; [lia|lia|]. change (val tau s3 i 0) with (vval tau s3 i).
    assert (Wl : disj (lview work) (vcol A (i + 1) ihi i)).
    { eapply disj_inc; [| |exact HwA]; intros l; [auto|]. apply inview_vcol; lia. }
    apply wp_bind. eapply wp_use.
    { apply (larf_part_r Forward Columnwise (vcol A (i + 1) ihi i) (vval tau s3 i) A work s3 (i + 1) ihi 0 ihi); auto; try lia.
      - split; reflexivity.
      - intros p q p' q' Hp Hq Hp' Hq' e. cbn [nr nc ad vcol subv] in *. apply HI in e; lia.
      - apply HW. lia. }
    intros r0 s4 HL. cbv beta in HL. destruct HL as (L1 & L2 & L3). clear r0. cbn [hst] in L1.
    apply wp_bind, wp_slc; [lia..|]. apply wp_bind. unfold rdv. apply wp_rd; [lia|lia|]. change (val tau s4 i 0) with (vval tau s4 i).
    eapply wp_conseq; [apply (fcall_run Columnwise Forward A tau work HI Ht1 HwA (i + 1) ihi i (i + 1) n i s4)| |auto]; try (unfold dM, dN; lia).
    { destruct (HW (n - (i + 1))%nat ltac:(lia)) as [|[|]]; auto. }
    intros r0 s5 (A1 & A2 & A3). clear r0. cbn [xof] in A1. unfold dM, dN in A1. rewrite HA1, HA2 in A1. rewrite HA1, HA2 in L1.
    assert (Et4 : forall j, (j < nr tau)%nat -> vval tau s4 j = vval tau s3 j).
    { intros j Hj. apply L2; (apply nin; [first [apply disj_sym; assumption|assumption]|auto|lia]). }
    assert (Et5 : forall j, (j < nr tau)%nat -> vval tau s5 j = vval tau s3 j).
    { intros j Hj. rewrite <- Et4 by auto. apply A2; (apply nin; [first [apply disj_sym; assumption|assumption]|auto|lia]). }
    rewrite Et4 in A1 by lia.
    set (X1 := val A s1) in *. set (X3 := val A s3) in *. set (X4 := val A s4) in *. set (X5 := val A s5) in *.
    assert (H4 : forall r j, (r < n)%nat -> (j < n)%nat -> X4 r j = if (r <? ihi)%nat then mmul n X3 (refl (vval tau s3 i) (embw (i + 1) ihi (hvec Forward (ihi - (i + 1)) (fun r => X3 (i + 1 + r)%nat i)))) r j else X3 r j).
    { intros r j Hr Hj. rewrite L1 by auto. reflexivity. }
    assert (H5 : forall r j, (r < n)%nat -> (j < n)%nat -> X5 r j = if (i + 1 <=? j)%nat then mmul n (ctr (refl (vval tau s3 i) (embw (i + 1) ihi (hvec Forward (ihi - (i + 1)) (fun r => X4 (i + 1 + r)%nat i))))) X4 r j else X4 r j).
    { intros r j Hr Hj. rewrite A1 by auto. destruct (Nat.ltb_spec j n); [|lia]. rewrite andb_true_r. reflexivity. }
    clear A1 L1.
    (* elements that do not change *)
    assert (Kold : forall r c, (r < n)%nat -> (c < n)%nat -> (c < i)%nat -> X5 r c = X1 r c).
    { intros r c Hr Hc Hci. rewrite H5 by auto. destruct (Nat.leb_spec (i + 1) c); [lia|]. rewrite H4 by auto. rewrite embw_r by lia.
      destruct (Nat.leb_spec (i + 1) c); [lia|]. cbn [andb]. destruct (r <? ihi)%nat; apply G2; auto; lia. }
    assert (Kcol : forall r, (i + 1 <= r < ihi)%nat -> X5 r i = X3 r i).
    { intros r Hr. apply (h_X5c n ilo ihi i t X3 X4 X5 (vval tau s3 i)); auto; lia. }
    assert (KH : forall r c, (r < n)%nat -> (c < n)%nat -> hH s5 t r c = refl (vval tau s3 i) (embw (i + 1) ihi (hvec Forward (ihi - (i + 1)) (fun r => X3 (i + 1 + r)%nat i))) r c).
    { intros r c Hr Hc. unfold hH. rewrite <- Hi. rewrite Et5 by lia. apply refl_ext; rewrite <- subvec_embw by lia; apply embw_vec_ext; intros q Hq; apply hvec_ext; apply Kcol; lia. }
    assert (KP : forall r c, (r < n)%nat -> (c < n)%nat -> mprod n (hH s5) t r c = mprod n (hH s1) t r c).
    { intros r c Hr Hc. apply mprod_ext; auto. intros u r' c' Hu Hr' Hc'. unfold hH. rewrite Et5 by lia. rewrite G3 by lia.
      apply refl_ext; apply subvec_ext; intros q Hq; apply Kold; lia. }
    destruct (h_step n ilo ihi i t (val A s) X1 X3 X4 X5 (vval tau s3 i) Hi ltac:(lia) ltac:(lia) G1 G2 H4 H5 I4 I5 Hin (mprod n (hH s1) t) (mprod n (hH s5) (S t)) I2 I1) as [N1 N2].
    { intros r c Hr Hc. cbn [mprod]. apply mmul_ext; intros l Hl; [apply KP; auto|apply KH; auto]. }
    repeat apply Logic.conj.
    + exact N1.
    + exact N2.
    + intros u Hu. destruct (Nat.eq_dec u t) as [->|Hne].
      * rewrite <- Hi. change (val A s5) with X5. rewrite Kcol by lia. destruct G1 as [R1 _ _]. cbn [hpos] in R1. rewrite Nat.add_0_r in R1. exact R1.
      * change (val A s5) with X5. rewrite Kold by lia. apply I3. lia.
    + intros r c Hr Hc Hge. change (val A s5) with X5. rewrite <- I4 by auto. rewrite (h_out n ilo ihi i t X1 X3 X4 X5 (vval tau s3 i)) by (auto; lia).
      destruct (Nat.ltb_spec r ihi); [lia|]. rewrite andb_false_r. reflexivity.
    + intros r c Hr Hc Hl. change (val A s5) with X5. rewrite Kold by lia. apply I5; auto.
    + intros j Hj Hne. rewrite Et5 by auto. rewrite G3 by lia. apply I6; auto; lia.
    + intros l K1 K2 K3. rewrite A2 by auto. rewrite L2 by auto. rewrite G4 by auto. auto.
    + congruence.
Qed.
Lemma gehd2_work_run : runs (gehd2_work h ilo ihi A tau work) s (fun r s' => r = 0%Z /\ hinv (ihi - 1 - ilo) s').
Proof.
  unfold runs, gehd2_work. rewrite HA1, HA2. cbv zeta. apply wp_bind. apply wp_check; [apply Nat.eqb_refl|].
  apply wp_bind. apply wp_check. { destruct (Nat.eqb_spec n 0), (Nat.ltb_spec (nr tau) (n - 1)); try lia; reflexivity. }
  destruct (Nat.leb_spec n 0); [lia|]. apply wp_bind, wp_assert; [apply Nat.ltb_lt; lia|]. apply wp_bind.
  destruct (Nat.le_gt_cases (ihi - 1) ilo) as [Hz|Hz].
  - replace (ihi - 1 - ilo)%nat with 0%nat by lia. unfold forup, foldup. replace (ihi - 1 - ilo)%nat with 0%nat by lia. cbn [forn]. do 2 apply wp_ret. split; [reflexivity|]. apply hinv_0.
  - apply (wp_forup (fun i s' => hinv (i - ilo) s')).
    + lia.
    + rewrite Nat.sub_diag. apply hinv_0.
    + intros i s1 Hr HJ. assert (K := hess_step_run (i - ilo) s1 ltac:(lia) HJ). cbv zeta in K. replace (ilo + (i - ilo))%nat with i in K by lia.
      replace (S i - ilo)%nat with (S (i - ilo)) by lia. exact K.
    + intros s1 HJ. apply wp_ret. split; auto.
Qed.
End G.
End P.
