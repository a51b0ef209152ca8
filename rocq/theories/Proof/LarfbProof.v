(** * larfb: applying a block reflector *)
From Coq Require Import Bool Arith ZArith Lia Ring Field.
From Verif.Core Require Import Scalar Prog View Slice Loops WorkEff.
From Verif.Spec Require Import LinAlg Outcome Householder Parts.
From Verif.Model Require Import Gemm Blas1 Blas2 Blas3 Legacy LaAux Norms Work Householder QGen QFact BlockQ.
From Verif.Proof Require Import SumLemmas SliceTac LegacyProof BlockAlg PotrfProof Blas1Proof GemmProof TrmmProof ExactBlas LowOps LaAuxProof LarfProof QRProof WorkProof QGenProof.
Local Open Scope T_scope.

(** a workspace object that reshape(work, m, n) accepts *)
Definition wkm_ok (work : lmat) (m n : nat) : Prop := lok work /\ exists w r, reshape work m n = Some (w, r).
Lemma wkm_ok_contig work m n : lok work -> contiguous work = true -> (m * n <= lm work * ln work)%nat -> wkm_ok work m n.
Proof.
  intros H Hc Hk. split; auto. unfold reshape. destruct (Nat.ltb_spec (lm work * ln work) (m * n)); [lia|]. rewrite Hc. eauto.
Qed.
Section P.
Context {E : Env} {FL : FieldLaws E} {CL : ConjLaws E}.
Add Field Tf : fth.

Lemma mul1 (x : T) : 1 * x = x.
Proof. ring. Qed.
Lemma addC (x y : T) : x + y = y + x.
Proof. ring. Qed.
Lemma disj_sub_r A B i0 i1 j0 j1 : (i1 <= nr B)%nat -> (j1 <= nc B)%nat -> disj A B -> disj A (subv B i0 i1 j0 j1).
Proof. intros H1 H2 HD i j i' j' Hi Hj Hi' Hj'. cbn [nr nc ad subv] in *. apply HD; lia. Qed.
Lemma disj_sub_l A B i0 i1 j0 j1 : (i1 <= nr A)%nat -> (j1 <= nc A)%nat -> disj A B -> disj (subv A i0 i1 j0 j1) B.
Proof. intros H1 H2 HD i j i' j' Hi Hj Hi' Hj'. cbn [nr nc ad subv] in *. apply HD; lia. Qed.
Lemma disj_sym A B : disj A B -> disj B A.
Proof. intros HD i j i' j' Hi Hj Hi' Hj' e. symmetry in e. revert e. apply HD; auto. Qed.
Lemma nin_disj A B l : disj A B -> inview A l -> ~ inview B l.
Proof. intros HD (i & j & Hi & Hj & e) (i' & j' & Hi' & Hj' & e'). apply (HD i j i' j'); auto. congruence. Qed.

Lemma lacpy_all A B s X : nr A = nr B -> nc A = nc B -> vinj B -> disj A B -> wp (lacpy General A B) (fun _ s' => eff B (val A s) s s') X s.
Proof.
  intros Hr Hc HI HD. apply wp_noX. eapply wp_conseq; [apply (lacpy_run General A B s); auto; lia| |auto].
  intros u0 s' HS. cbv beta in HS. destruct HS as (H1 & H2 & H3). split; [|split; auto].
  - intros i j Hi Hj. apply H1; auto. repeat split; lia.
  - intros l Hl. apply H2. intros (i & j & Hi & Hj & _ & e). apply Hl. exists i, j. auto.
Qed.
Lemma addloop A W s m n : nr A = m -> nc A = n -> nr W = m -> nc W = n -> vinj A -> disj W A ->
  wp (for_ j in 0 upto n do for_ i in 0 upto m do (c <- rd A i j;; w <- rd W i j;; wr A i j (c + w))) (fun _ s' => eff A (fun i j => val A s i j + val W s i j) s s') noX s.
Proof.
  intros A1 A2 W1 W2 HI HD.
  eapply wp_conseq; [apply (part_loop A (fun _ => 0%nat) (fun _ => m) _ (fun i j x => x + val W s i j) n s); [lia|intros; lia| |apply eff_refl]| |auto].
  - intros i j s1 F Hj Hi He. apply wp_bind. apply (wp_rd_eff A F s); auto; [lia..|]. apply wp_bind. apply wp_rd; [lia..|].
    assert (e : val W s1 i j = val W s i j) by (apply (val_frame A F W s s1 He); [|lia..]; intros l Hl; apply (nin_disj W A); auto).
    rewrite e. apply (wp_wr_eff A F s); auto; lia.
  - intros u0 s' He. cbv beta in He. apply (eff_ext _ _ _ _ _ He). intros i j Hi Hj. cbv beta. destruct (Nat.ltb_spec j n), (Nat.leb_spec 0 i), (Nat.ltb_spec i m); cbn [andb]; try lia. auto.
Qed.

(** the contents of the scratch matrix W and of the matrix C *)
Section B.
Variables (C W : view) (s0 : state).
Hypothesis HIC : vinj C.
Hypothesis HIW : vinj W.
Hypothesis HWC : disj W C.
Definition stt (FW FC : mat) (s : state) : Prop :=
  (forall i j, (i < nr W)%nat -> (j < nc W)%nat -> val W s i j = FW i j) /\ effw C FC (inview W) s0 s.
Lemma stt_W FW FC G s s' : stt FW FC s -> eff W G s s' -> stt G FC s'.
Proof.
  intros (H1 & H2) (K1 & K2 & K3). split; auto. apply (effw_work C FC (inview W) s0 s); auto. intros l Hl. apply (nin_disj C W); auto. apply disj_sym; auto.
Qed.
Lemma stt_C FW FC G s s' a b c d : stt FW FC s -> (b <= nr C)%nat -> (d <= nc C)%nat -> eff (subv C a b c d) G s s' ->
  stt FW (fun i j => if inbox a b c d i j then G (i - a)%nat (j - c)%nat else FC i j) s'.
Proof.
  intros (H1 & H2) Hb Hd He. split.
  - intros i j Hi Hj. rewrite (val_frame _ _ W s s' He); auto. intros l Hl K. apply (nin_disj W C l); auto. revert K. apply inview_subv; auto.
  - eapply effw_eff; [exact H2|]. apply (eff_sub C a b c d FC G s s s'); auto. eapply effw_here; eauto.
Qed.
Lemma stt_ext FW FC FW' FC' s : stt FW FC s -> (forall i j, (i < nr W)%nat -> (j < nc W)%nat -> FW i j = FW' i j) -> (forall i j, (i < nr C)%nat -> (j < nc C)%nat -> FC i j = FC' i j) -> stt FW' FC' s.
Proof. intros (H1 & H2) K1 K2. split; [intros; rewrite H1; auto|]. eapply effw_ext; eauto. Qed.
Lemma stt_val FW FC s V : stt FW FC s -> disj V C -> disj V W -> forall i j, (i < nr V)%nat -> (j < nc V)%nat -> val V s i j = val V s0 i j.
Proof.
  intros (_ & _ & H & _) D1 D2 i j Hi Hj. unfold val. apply H; intros (p & q & Hp & Hq & e); symmetry in e; [apply (D1 i j p q)|apply (D2 i j p q)]; auto.
Qed.
Lemma stt_valC FW FC s a b c d i j : stt FW FC s -> (a + i < nr C)%nat -> (c + j < nc C)%nat -> val (subv C a b c d) s i j = FC (a + i)%nat (c + j)%nat.
Proof. intros (_ & H & _) Hi Hj. apply H; auto. Qed.

Variables (V1 V2 Tm : view) (uV uT : uplo_t) (opA opB trans : op_t) (k a1 b1 a2 b2 nq : nat) (U : nat -> nat -> T).
Hypothesis D1 : disj V1 C.
Hypothesis D2 : disj V2 C.
Hypothesis DT : disj Tm C.
Hypothesis W1 : disj V1 W.
Hypothesis W2 : disj V2 W.
Hypothesis WT : disj Tm W.
Hypothesis HuV : uplo2 uV = true.
Hypothesis HuT : uplo2 uT = true.
Hypothesis HoA : op3 opA = true.
Hypothesis HoB : op3 opB = true.
Hypothesis Hot : op3 trans = true.
Hypothesis HV1 : nr V1 = k /\ nc V1 = k.
Hypothesis HTm : nr Tm = k /\ nc Tm = k.
Hypothesis Hrg : (a1 = 0 /\ b1 = k /\ a2 = k /\ b2 = nq \/ a1 = nq - k /\ b1 = nq /\ a2 = 0 /\ b2 = nq - k)%nat.
Hypothesis Hkq : (k <= nq)%nat.
Hypothesis HA2 : if is_nt opA then nr V2 = k /\ nc V2 = (nq - k)%nat else nr V2 = (nq - k)%nat /\ nc V2 = k.
Hypothesis HB2 : if is_nt opB then nr V2 = (nq - k)%nat /\ nc V2 = k else nr V2 = k /\ nc V2 = (nq - k)%nat.
Hypothesis HU1 : forall a l, (a < k)%nat -> (l < k)%nat -> opm opA (trim uV Unit (val V1 s0)) a l = conj (U a (a1 + l)%nat) /\ opm opB (trim uV Unit (val V1 s0)) l a = U a (a1 + l)%nat.
Hypothesis HU2 : forall a l, (a < k)%nat -> (l < nq - k)%nat -> opm opA (val V2 s0) a l = conj (U a (a2 + l)%nat) /\ opm opB (val V2 s0) l a = U a (a2 + l)%nat.
Let T' := opm trans (trim uT NonUnit (val Tm s0)).

Lemma sum2 f : sum k (fun l => f (a1 + l)%nat) + sum (nq - k) (fun l => f (a2 + l)%nat) = sum nq f.
Proof.
  destruct Hrg as [(-> & -> & -> & ->)|(-> & -> & -> & ->)].
  - rewrite (sum_split_at k nq) by auto. auto.
  - rewrite (sum_split_at (nq - k) nq) by lia. replace (nq - (nq - k))%nat with k by lia. rewrite addC. auto.
Qed.
(** U^H C and C U *)
Definition yl (F : mat) : mat := fun a j => sum nq (fun l => conj (U a l) * F l j).
Definition yr (F : mat) : mat := fun i a => sum nq (fun l => F i l * U a l).
Lemma opm_val o V s FW FC : stt FW FC s -> disj V C -> disj V W -> forall i j, (match o with NoTrans | Conj => i < nr V /\ j < nc V | _ => j < nr V /\ i < nc V end)%nat -> opm o (val V s) i j = opm o (val V s0) i j.
Proof. intros H K1 K2 i j Hij. destruct o; cbn [opm]; rewrite (stt_val FW FC s V H K1 K2) by tauto; auto. Qed.
Lemma opm_tri o u d V s FW FC : stt FW FC s -> disj V C -> disj V W -> nr V = k -> nc V = k -> forall i j, (i < k)%nat -> (j < k)%nat -> opm o (trim u d (val V s)) i j = opm o (trim u d (val V s0)) i j.
Proof. intros H K1 K2 K3 K4 i j Hi Hj. unfold opm, trim. destruct o; rewrite (stt_val FW FC s V H K1 K2) by lia; auto. Qed.

Lemma larfb_left_run s n rest X : nr C = nq -> nc C = n -> nr W = k -> nc W = n -> s = s0 -> rest = (k <? nq)%nat ->
  wp (larfb_left uV uT opA opB trans k n rest V1 V2 Tm (subv C a1 b1 0 n) (subv C a2 b2 0 n) W) (fun _ s' =>
    effw C (mmul nq (blkrefl k T' U) (val C s0)) (inview W) s0 s') X s.
Proof.
  intros HC1 HC2 Hw1 Hw2 -> Hrest. apply wp_noX. unfold larfb_left.
  assert (Hb : (b1 <= nq /\ b2 <= nq /\ b1 - a1 = k /\ b2 - a2 = nq - k)%nat) by lia. destruct Hb as (Hb1 & Hb2 & Hk1 & Hk2).
  assert (Z0 : stt (val W s0) (val C s0) s0) by (split; [auto|apply effw_refl]).
  apply wp_bind. eapply wp_conseq; [apply (lacpy_all (subv C a1 b1 0 n) W s0 noX); cbn [nr nc subv]; auto; try lia; apply disj_sub_l; [lia..|apply disj_sym; auto]| |auto].
  intros u0 s1 He. cbv beta in He. clear u0. assert (Z1 := stt_W _ _ _ _ _ Z0 He). clear Z0 He.
  assert (Z1' : stt (fun i j => val C s0 (a1 + i)%nat j) (val C s0) s1) by (apply (stt_ext _ _ _ _ _ Z1); auto). clear Z1.
  apply wp_bind. eapply wp_conseq; [apply (trmm_run Left uV opA Unit 1 V1 W s1 k n); auto; cbn [sel]; tauto| |auto].
  intros u0 s2 He. cbv beta iota in He. clear u0. assert (Z2 := stt_W _ _ _ _ _ Z1' He). clear He.
  assert (Z2' : stt (fun i j => sum k (fun l => conj (U i (a1 + l)%nat) * val C s0 (a1 + l)%nat j)) (val C s0) s2).
  { apply (stt_ext _ _ _ _ _ Z2); auto. intros i j Hi Hj. cbv beta. rewrite mul1. unfold mmul. apply sum_ext. intros l Hl.
    rewrite (opm_tri opA uV Unit V1 s1 _ _ Z1') by (tauto || lia). rewrite (proj1 (HU1 i l ltac:(lia) Hl)). f_equal. apply Z1'; lia. }
  clear Z2 Z1'. apply wp_bind.
  apply wp_conseq with (X := noX) (Q := fun _ s3 => stt (yl (val C s0)) (val C s0) s3); [|intros u0 s3 Z3; cbv beta in Z3|auto].
  { destruct rest.
    - eapply wp_conseq; [apply (gemm_run opA NoTrans 1 V2 (subv C a2 b2 0 n) (Sc 1) W s2 k n (nq - k)); auto; cbn [is_nt op_eqb nr nc subv]; try lia;
        [apply disj_sub_l; [lia..|apply disj_sym; auto]]| |auto].
      intros u0 s3 He. cbv beta in He. assert (Z3 := stt_W _ _ _ _ _ Z2' He). apply (stt_ext _ _ _ _ _ Z3); auto. intros i j Hi Hj. cbv beta.
      rewrite gemm_val_exact by auto. cbn [cval]. rewrite (proj1 Z2') by auto. unfold yl. rewrite <- sum2. rewrite addC, !mul1. f_equal.
      unfold mmul. apply sum_ext. intros l Hl. rewrite (opm_val opA V2 s2 _ _ Z2' D2 W2) by (destruct opA; try discriminate; cbn [is_nt op_eqb] in HA2; lia).
      rewrite (proj1 (HU2 i l ltac:(lia) Hl)). f_equal. cbn [opm]. rewrite (stt_valC _ _ _ _ _ _ _ _ _ Z2') by lia. auto.
    - apply wp_ret. apply (stt_ext _ _ _ _ _ Z2'); auto. intros i j Hi Hj. unfold yl. rewrite <- sum2. symmetry in Hrest. apply Nat.ltb_ge in Hrest. replace (nq - k)%nat with 0%nat by lia. cbn [sum]. ring. }
  clear Z2' u0 s1 s2.
  apply wp_bind. eapply wp_conseq; [apply (trmm_run Left uT trans NonUnit 1 Tm W s3 k n); auto; cbn [sel]; tauto| |auto].
  intros u0 s4 He. cbv beta iota in He. clear u0. assert (Z4 := stt_W _ _ _ _ _ Z3 He). clear He.
  assert (Z4' : stt (mmul k T' (yl (val C s0))) (val C s0) s4).
  { apply (stt_ext _ _ _ _ _ Z4); auto. intros i j Hi Hj. cbv beta. rewrite mul1. unfold mmul. apply sum_ext. intros l Hl.
    rewrite (opm_tri trans uT NonUnit Tm s3 _ _ Z3) by (tauto || lia). f_equal. apply Z3; lia. }
  clear Z4 Z3. set (Z := mmul k T' (yl (val C s0))) in *. apply wp_bind.
  apply wp_conseq with (X := noX) (Q := fun _ s5 => stt Z (fun i j => if inbox a2 b2 0 n i j then val C s0 i j - sum k (fun a => U a i * Z a j) else val C s0 i j) s5); [|intros u0 s5 Z5; cbv beta in Z5|auto].
  { destruct rest.
    - eapply wp_conseq; [apply (gemm_run opB NoTrans (- (1)) V2 W (Sc 1) (subv C a2 b2 0 n) s4 (nq - k) n k); auto; cbn [is_nt op_eqb nr nc subv]; try lia;
        [apply vinj_subv; auto; lia|apply disj_sub_r; [lia..|auto]|apply disj_sub_r; [lia..|auto]]| |auto].
      intros u0 s5 He. cbv beta in He. assert (Z5 := stt_C _ _ _ _ _ a2 b2 0%nat n Z4' ltac:(lia) ltac:(lia) He). apply (stt_ext _ _ _ _ _ Z5); auto. intros i j Hi Hj. cbv beta.
      destruct (inbox_spec a2 b2 0 n i j); auto.
      rewrite gemm_val_exact by auto. cbn [cval]. rewrite (stt_valC _ _ _ _ _ _ _ _ _ Z4') by lia. rewrite !mul1. replace (a2 + (i - a2))%nat with i by lia. replace (0 + (j - 0))%nat with j by lia.
      transitivity (val C s0 i j - mmul k (opm opB (val V2 s4)) (opm NoTrans (val W s4)) (i - a2)%nat (j - 0)%nat); [ring|]. f_equal.
      unfold mmul. apply sum_ext. intros l Hl. rewrite (opm_val opB V2 s4 _ _ Z4' D2 W2) by (destruct opB; try discriminate; cbn [is_nt op_eqb] in HB2; lia).
      rewrite (proj2 (HU2 l (i - a2)%nat Hl ltac:(lia))). replace (a2 + (i - a2))%nat with i by lia. f_equal. cbn [opm]. rewrite (proj1 Z4') by lia. f_equal. lia.
    - apply wp_ret. apply (stt_ext _ _ _ _ _ Z4'); auto. intros i j Hi Hj. destruct (inbox_spec a2 b2 0 n i j); auto. symmetry in Hrest. apply Nat.ltb_ge in Hrest. lia. }
  clear Z4' u0 s3 s4.
  apply wp_bind. eapply wp_conseq; [apply (trmm_run Left uV opB Unit (- (1)) V1 W s5 k n); auto; cbn [sel]; tauto| |auto].
  intros u0 s6 He. cbv beta iota in He. clear u0. assert (Z6 := stt_W _ _ _ _ _ Z5 He). clear He.
  eapply wp_conseq; [apply (addloop (subv C a1 b1 0 n) W s6 k n); cbn [nr nc subv]; auto; try lia; [apply vinj_subv; auto; lia|apply disj_sub_r; [lia..|auto]]| |auto].
  intros u0 s7 He. cbv beta in He. assert (Z7 := stt_C _ _ _ _ _ a1 b1 0%nat n Z6 ltac:(lia) ltac:(lia) He). destruct Z7 as (_ & Z7). apply (effw_ext _ _ _ _ _ _ Z7).
  intros i j Hi Hj. cbv beta.
  assert (HR : mmul nq (blkrefl k T' U) (val C s0) i j = val C s0 i j - sum k (fun a => U a i * Z a j)).
  { unfold mmul at 1, blkrefl. rewrite (sum_ext nq _ (fun l => idm i l * val C s0 l j - sum k (fun a => sum k (fun b => U a i * T' a b * conj (U b l))) * val C s0 l j)) by (intros; ring).
    rewrite sum_minus. f_equal; [apply (mmul_id_l nq (val C s0) i j); lia|].
    rewrite (sum_ext nq _ (fun l => sum k (fun a => U a i * sum k (fun b => T' a b * (conj (U b l) * val C s0 l j))))).
    - rewrite sum_swap. apply sum_ext. intros a Ha. rewrite sum_scal_l. f_equal. rewrite sum_swap. unfold Z, mmul. apply sum_ext. intros b Hb. rewrite sum_scal_l. reflexivity.
    - intros l Hl. rewrite <- sum_scal_r. apply sum_ext. intros a Ha. rewrite <- sum_scal_l, <- sum_scal_r. apply sum_ext. intros; ring. }
  rewrite HR. destruct (inbox_spec a1 b1 0 n i j).
  - rewrite (stt_valC _ _ _ _ _ _ _ _ _ Z6) by lia. rewrite (proj1 Z6) by lia. cbv beta. replace (a1 + (i - a1))%nat with i by lia. replace (0 + (j - 0))%nat with j by lia.
    destruct (inbox_spec a2 b2 0 n i j); [lia|]. transitivity (val C s0 i j - mmul k (opm opB (trim uV Unit (val V1 s5))) (val W s5) (i - a1)%nat (j - 0)%nat); [ring|]. f_equal.
    unfold mmul. apply sum_ext. intros l Hl. rewrite (opm_tri opB uV Unit V1 s5 _ _ Z5) by (tauto || lia). rewrite (proj2 (HU1 l (i - a1)%nat Hl ltac:(lia))). replace (a1 + (i - a1))%nat with i by lia. f_equal.
    rewrite (proj1 Z5) by lia. f_equal. lia.
  - destruct (inbox_spec a2 b2 0 n i j); auto. lia.
Qed.
Lemma larfb_right_run s m rest X : nc C = nq -> nr C = m -> nr W = m -> nc W = k -> s = s0 -> rest = (k <? nq)%nat ->
  wp (larfb_right uV uT opA opB trans m k rest V1 V2 Tm (subv C 0 m a1 b1) (subv C 0 m a2 b2) W) (fun _ s' =>
    effw C (mmul nq (val C s0) (blkrefl k T' U)) (inview W) s0 s') X s.
Proof.
  intros HC1 HC2 Hw1 Hw2 -> Hrest. apply wp_noX. unfold larfb_right.
  assert (Hb : (b1 <= nq /\ b2 <= nq /\ b1 - a1 = k /\ b2 - a2 = nq - k)%nat) by lia. destruct Hb as (Hb1 & Hb2 & Hk1 & Hk2).
  assert (Z0 : stt (val W s0) (val C s0) s0) by (split; [auto|apply effw_refl]).
  apply wp_bind. eapply wp_conseq; [apply (lacpy_all (subv C 0 m a1 b1) W s0 noX); cbn [nr nc subv]; auto; try lia; apply disj_sub_l; [lia..|apply disj_sym; auto]| |auto].
  intros u0 s1 He. cbv beta in He. clear u0. assert (Z1 := stt_W _ _ _ _ _ Z0 He). clear Z0 He.
  assert (Z1' : stt (fun i j => val C s0 i (a1 + j)%nat) (val C s0) s1) by (apply (stt_ext _ _ _ _ _ Z1); auto). clear Z1.
  apply wp_bind. eapply wp_conseq; [apply (trmm_run Right uV opB Unit 1 V1 W s1 m k); auto; cbn [sel]; tauto| |auto].
  intros u0 s2 He. cbv beta iota in He. clear u0. assert (Z2 := stt_W _ _ _ _ _ Z1' He). clear He.
  assert (Z2' : stt (fun i j => sum k (fun l => val C s0 i (a1 + l)%nat * U j (a1 + l)%nat)) (val C s0) s2).
  { apply (stt_ext _ _ _ _ _ Z2); auto. intros i j Hi Hj. cbv beta. rewrite mul1. unfold mmul. apply sum_ext. intros l Hl.
    rewrite (opm_tri opB uV Unit V1 s1 _ _ Z1') by (tauto || lia). rewrite (proj2 (HU1 j l ltac:(lia) Hl)). f_equal. apply Z1'; lia. }
  clear Z2 Z1'. apply wp_bind.
  apply wp_conseq with (X := noX) (Q := fun _ s3 => stt (yr (val C s0)) (val C s0) s3); [|intros u0 s3 Z3; cbv beta in Z3|auto].
  { destruct rest.
    - eapply wp_conseq; [apply (gemm_run NoTrans opB 1 (subv C 0 m a2 b2) V2 (Sc 1) W s2 m k (nq - k)); auto; cbn [is_nt op_eqb nr nc subv]; try lia;
        [apply disj_sub_l; [lia..|apply disj_sym; auto]]| |auto].
      intros u0 s3 He. cbv beta in He. assert (Z3 := stt_W _ _ _ _ _ Z2' He). apply (stt_ext _ _ _ _ _ Z3); auto. intros i j Hi Hj. cbv beta.
      rewrite gemm_val_exact by auto. cbn [cval]. rewrite (proj1 Z2') by auto. unfold yr. rewrite <- sum2. rewrite addC, !mul1. f_equal.
      unfold mmul. apply sum_ext. intros l Hl. rewrite (opm_val opB V2 s2 _ _ Z2' D2 W2) by (destruct opB; try discriminate; cbn [is_nt op_eqb] in HB2; lia).
      rewrite (proj2 (HU2 j l ltac:(lia) Hl)). f_equal. cbn [opm]. rewrite (stt_valC _ _ _ _ _ _ _ _ _ Z2') by lia. auto.
    - apply wp_ret. apply (stt_ext _ _ _ _ _ Z2'); auto. intros i j Hi Hj. unfold yr. rewrite <- sum2. symmetry in Hrest. apply Nat.ltb_ge in Hrest. replace (nq - k)%nat with 0%nat by lia. cbn [sum]. ring. }
  clear Z2' u0 s1 s2.
  apply wp_bind. eapply wp_conseq; [apply (trmm_run Right uT trans NonUnit 1 Tm W s3 m k); auto; cbn [sel]; tauto| |auto].
  intros u0 s4 He. cbv beta iota in He. clear u0. assert (Z4 := stt_W _ _ _ _ _ Z3 He). clear He.
  assert (Z4' : stt (mmul k (yr (val C s0)) T') (val C s0) s4).
  { apply (stt_ext _ _ _ _ _ Z4); auto. intros i j Hi Hj. cbv beta. rewrite mul1. unfold mmul. apply sum_ext. intros l Hl.
    rewrite (opm_tri trans uT NonUnit Tm s3 _ _ Z3) by (tauto || lia). f_equal. apply Z3; lia. }
  clear Z4 Z3. set (Z := mmul k (yr (val C s0)) T') in *. apply wp_bind.
  apply wp_conseq with (X := noX) (Q := fun _ s5 => stt Z (fun i j => if inbox 0 m a2 b2 i j then val C s0 i j - sum k (fun b => Z i b * conj (U b j)) else val C s0 i j) s5); [|intros u0 s5 Z5; cbv beta in Z5|auto].
  { destruct rest.
    - eapply wp_conseq; [apply (gemm_run NoTrans opA (- (1)) W V2 (Sc 1) (subv C 0 m a2 b2) s4 m (nq - k) k); auto; cbn [is_nt op_eqb nr nc subv]; try lia;
        [apply vinj_subv; auto; lia|apply disj_sub_r; [lia..|auto]|apply disj_sub_r; [lia..|auto]]| |auto].
      intros u0 s5 He. cbv beta in He. assert (Z5 := stt_C _ _ _ _ _ 0%nat m a2 b2 Z4' ltac:(lia) ltac:(lia) He). apply (stt_ext _ _ _ _ _ Z5); auto. intros i j Hi Hj. cbv beta.
      destruct (inbox_spec 0 m a2 b2 i j); auto.
      rewrite gemm_val_exact by auto. cbn [cval]. rewrite (stt_valC _ _ _ _ _ _ _ _ _ Z4') by lia. rewrite !mul1. replace (a2 + (j - a2))%nat with j by lia. replace (0 + (i - 0))%nat with i by lia.
      transitivity (val C s0 i j - mmul k (opm NoTrans (val W s4)) (opm opA (val V2 s4)) (i - 0)%nat (j - a2)%nat); [ring|]. f_equal.
      unfold mmul. apply sum_ext. intros l Hl. rewrite (opm_val opA V2 s4 _ _ Z4' D2 W2) by (destruct opA; try discriminate; cbn [is_nt op_eqb] in HA2; lia).
      rewrite (proj1 (HU2 l (j - a2)%nat Hl ltac:(lia))). replace (a2 + (j - a2))%nat with j by lia. f_equal. cbn [opm]. rewrite (proj1 Z4') by lia. f_equal. lia.
    - apply wp_ret. apply (stt_ext _ _ _ _ _ Z4'); auto. intros i j Hi Hj. destruct (inbox_spec 0 m a2 b2 i j); auto. symmetry in Hrest. apply Nat.ltb_ge in Hrest. lia. }
  clear Z4' u0 s3 s4.
  apply wp_bind. eapply wp_conseq; [apply (trmm_run Right uV opA Unit (- (1)) V1 W s5 m k); auto; cbn [sel]; tauto| |auto].
  intros u0 s6 He. cbv beta iota in He. clear u0. assert (Z6 := stt_W _ _ _ _ _ Z5 He). clear He.
  eapply wp_conseq; [apply (addloop (subv C 0 m a1 b1) W s6 m k); cbn [nr nc subv]; auto; try lia; [apply vinj_subv; auto; lia|apply disj_sub_r; [lia..|auto]]| |auto].
  intros u0 s7 He. cbv beta in He. assert (Z7 := stt_C _ _ _ _ _ 0%nat m a1 b1 Z6 ltac:(lia) ltac:(lia) He). destruct Z7 as (_ & Z7). apply (effw_ext _ _ _ _ _ _ Z7).
  intros i j Hi Hj. cbv beta.
  assert (HR : mmul nq (val C s0) (blkrefl k T' U) i j = val C s0 i j - sum k (fun b => Z i b * conj (U b j))).
  { unfold mmul at 1, blkrefl. rewrite (sum_ext nq _ (fun l => val C s0 i l * idm l j - val C s0 i l * sum k (fun a => sum k (fun b => U a l * T' a b * conj (U b j))))) by (intros; ring).
    rewrite sum_minus. f_equal; [apply (mmul_id_r nq (val C s0) i j); lia|].
    rewrite (sum_ext nq _ (fun l => sum k (fun b => sum k (fun a => val C s0 i l * U a l * T' a b) * conj (U b j)))).
    - rewrite sum_swap. apply sum_ext. intros b Hb. rewrite sum_scal_r. f_equal. rewrite sum_swap. unfold Z, mmul. apply sum_ext. intros a Ha. rewrite sum_scal_r. reflexivity.
    - intros l Hl. rewrite sum_swap. rewrite <- sum_scal_l. apply sum_ext. intros b Hb. rewrite <- sum_scal_l, <- sum_scal_r. apply sum_ext. intros; ring. }
  rewrite HR. destruct (inbox_spec 0 m a1 b1 i j).
  - rewrite (stt_valC _ _ _ _ _ _ _ _ _ Z6) by lia. rewrite (proj1 Z6) by lia. cbv beta. replace (a1 + (j - a1))%nat with j by lia. replace (0 + (i - 0))%nat with i by lia.
    destruct (inbox_spec 0 m a2 b2 i j); [lia|]. transitivity (val C s0 i j - mmul k (val W s5) (opm opA (trim uV Unit (val V1 s5))) (i - 0)%nat (j - a1)%nat); [ring|]. f_equal.
    unfold mmul. apply sum_ext. intros l Hl. rewrite (opm_tri opA uV Unit V1 s5 _ _ Z5) by (tauto || lia). rewrite (proj1 (HU1 l (j - a1)%nat Hl ltac:(lia))). replace (a1 + (j - a1))%nat with j by lia. f_equal.
    rewrite (proj1 Z5) by lia. f_equal. lia.
  - destruct (inbox_spec 0 m a2 b2 i j); auto. lia.
Qed.
End B.

Lemma wp_wk_mat work m n (Q : view * lmat -> state -> Prop) X s : wkm_ok work m n -> (contiguous work = true \/ (m <> 0 /\ n <> 0)%nat) ->
  (forall w r, nr w = m -> nc w = n -> vinj w -> (forall l, inview w l -> inview (lview work) l) -> Q (w, r) s) -> wp (wk_mat work m n) Q X s.
Proof.
  intros (Ho & w & r & Hr) Hmn HQ. unfold wk_mat. rewrite Hr. apply wp_ret. destruct (reshape_ok work m n w r Ho Hr) as (H1 & H2 & H3 & H4 & H5 & H6).
  destruct (H5 Hmn) as [L1 L2]. apply HQ; auto; [apply lview_inj; auto|]. intros l Hl. apply H4. auto.
Qed.
Lemma wp_wk_matc work m n (Q : view * lmat -> state -> Prop) X s : lok work -> contiguous work = true -> (m * n <= lm work * ln work)%nat ->
  (forall w r, nr w = m -> nc w = n -> vinj w -> disj w (lview r) -> lok r -> contiguous r = true -> (lm r * ln r = lm work * ln work - m * n)%nat ->
     (forall l, inview w l -> inview (lview work) l) -> (forall l, inview (lview r) l -> inview (lview work) l) -> Q (w, r) s) -> wp (wk_mat work m n) Q X s.
Proof.
  intros Hok Hc Hk HQ. unfold wk_mat. destruct (reshape work m n) as [[w r]|] eqn:Er.
  2:{ unfold reshape in Er. rewrite Hc in Er. destruct (Nat.ltb_spec (lm work * ln work) (m * n)); [lia|discriminate]. }
  apply wp_ret. destruct (reshape_ok work m n w r Hok Er) as (H1 & H2 & H3 & H4 & H5 & H6). destruct (H5 (or_introl Hc)) as [L1 L2].
  unfold reshape in Er. rewrite Hc in Er. destruct (Nat.ltb_spec (lm work * ln work) (m * n)); [lia|]. injection Er as <- <-.
  apply HQ; auto; [apply lview_inj; auto|destruct (is_col _); apply contig_new0|destruct (is_col (lay work)); cbn; lia|..]; intros l Hl; apply H4; auto.
Qed.

Definition rapply (side : side_t) (nq : nat) (G C : mat) : mat := match side with Left => mmul nq G C | Right => mmul nq C G end.
Lemma rvec_conj_l dir sm nq k V : sm = Columnwise -> forall a r, rvec dir sm nq k V a r = if (r =? rpos dir nq k a)%nat then 1 else if (match dir with Forward => r <? a | Backward => nq - k + a <? r end)%nat then 0 else V r a.
Proof. intros ->. reflexivity. Qed.
Lemma larfb_work_run side trans dir sm V Tm C work s :
  let m := nr C in let n := nc C in let k := nr Tm in let nq := sel side m n in
  match trans with NoTrans | ConjTrans => True | Trans => cplx = false | Conj => False end ->
  match sm with Columnwise => nr V = nq /\ nc V = k | Rowwise => nr V = k /\ nc V = nq end ->
  nc Tm = k -> (k <= nq)%nat -> vinj C -> disj V C -> disj Tm C ->
  (m = 0 \/ n = 0 \/ k = 0 \/ wkm_ok work (sel side k m) (sel side n k))%nat ->
  disj V (lview work) -> disj Tm (lview work) -> disj C (lview work) ->
  runs (larfb_work side trans dir sm V Tm C work) s (fun z s' => z = 0%Z /\
    effw C (rapply side nq (blkrefl k (opm trans (trim (tupl dir) NonUnit (val Tm s))) (rvec dir sm nq k (val V s))) (val C s)) (inview (lview work)) s s').
Proof.
  intros m n k nq Ht HV HTc Hk HIC HVC HTC Hwk WV WT WC. unfold runs, larfb_work. cbv zeta.
  apply wp_bind, wp_check; [destruct trans; auto; try contradiction; apply negb_true_iff; auto|].
  change (nr C) with m. change (nc C) with n. change (nr Tm) with k.
  apply wp_bind, wp_check.
  { unfold nq in HV. destruct sm, HV as [v1 v2]; rewrite ?v1, ?v2, Nat.eqb_refl; destruct side; cbn [andb sel]; apply Nat.eqb_refl. }
  apply wp_bind, wp_check; [rewrite HTc; apply Nat.eqb_refl|].
  destruct (Nat.leb_spec m 0) as [e|Hm]; [|destruct (Nat.leb_spec n 0) as [e|Hn]; [|destruct (Nat.leb_spec k 0) as [e|Hk0]]]; cbn [orb].
  1, 2: apply wp_ret; split; auto; apply (effw_ext _ _ _ _ _ _ (effw_refl C _ s)); intros i j Hi Hj; unfold m, n in *; lia.
  { apply wp_ret; split; auto; apply (effw_ext _ _ _ _ _ _ (effw_refl C _ s)). intros i j Hi Hj. replace k with 0%nat by lia. unfold rapply, nq, m, n.
    destruct side; cbn [sel]; [transitivity (mmul (nr C) idm (val C s) i j); [symmetry; apply mmul_id_l; auto|]|transitivity (mmul (nc C) (val C s) idm i j); [symmetry; apply mmul_id_r; auto|]];
    apply mmul_ext; auto; intros l Hl; unfold blkrefl; cbn [sum]; ring. }
  destruct Hwk as [|[|[|Hwk]]]; [lia..|].
  apply wp_bind. replace (match side with Left => wk_mat work k n | Right => wk_mat work m k end) with (wk_mat work (sel side k m) (sel side n k)) by (destruct side; auto).
  apply wp_wk_mat; auto; [right; destruct side; cbn [sel]; lia|]. intros W r Wr Wc WI Win. cbn [fst].
  assert (DW : forall A, disj A (lview work) -> disj A W).
  { intros A HD i j i' j' Hi Hj Hi' Hj' e. apply (nin_disj A (lview work) (ad A i j) HD); [exists i, j; auto|]. apply Win. exists i', j'. auto. }
  change (sel side m n) with nq. apply wp_bind. unfold larfb_ranges.
  set (a1 := match dir with Forward => 0%nat | Backward => (nq - k)%nat end). set (b1 := match dir with Forward => k | Backward => nq end).
  set (a2 := match dir with Forward => k | Backward => 0%nat end). set (b2 := match dir with Forward => nq | Backward => (nq - k)%nat end).
  assert (Hrg : (a1 = 0 /\ b1 = k /\ a2 = k /\ b2 = nq \/ a1 = nq - k /\ b1 = nq /\ a2 = 0 /\ b2 = nq - k)%nat) by (destruct dir; unfold a1, b1, a2, b2; auto).
  apply wp_conseq with (X := noX) (Q := fun ab s' => ab = ((a1, b1), (a2, b2)) /\ s' = s); [destruct dir; [apply wp_ret; auto|replace (k <=? nq)%nat with true by (symmetry; apply Nat.leb_le; auto); apply wp_ret; auto]| |auto].
  intros ab s' Hab. cbv beta in Hab. destruct Hab as (-> & ->). cbn [fst snd].
  set (U := rvec dir sm nq k (val V s)).
  set (V1 := match sm with Columnwise => subv V a1 b1 0 (nc V) | Rowwise => subv V 0 (nr V) a1 b1 end).
  set (V2 := match sm with Columnwise => subv V a2 b2 0 (nc V) | Rowwise => subv V 0 (nr V) a2 b2 end).
  apply wp_bind. apply wp_conseq with (X := noX) (Q := fun v s' => v = V1 /\ s' = s); [destruct sm, HV; apply wp_slc; (lia || auto)| |auto]. intros v s' (-> & ->).
  apply wp_bind. apply wp_conseq with (X := noX) (Q := fun v s' => v = V2 /\ s' = s); [destruct sm, HV; apply wp_slc; (lia || auto)| |auto]. intros v s' (-> & ->).
  assert (DV1 : forall A, disj V A -> disj V1 A) by (intros A HD; unfold V1; destruct sm, HV; apply disj_sub_l; auto; lia).
  assert (DV2 : forall A, disj V A -> disj V2 A) by (intros A HD; unfold V2; destruct sm, HV; apply disj_sub_l; auto; lia).
  set (uV := match sm, dir with Columnwise, Forward | Rowwise, Backward => Lower | _, _ => Upper end).
  set (opA := match sm with Columnwise => ConjTrans | Rowwise => NoTrans end). set (opB := match sm with Columnwise => NoTrans | Rowwise => ConjTrans end).
  assert (HU1 : forall a l, (a < k)%nat -> (l < k)%nat -> opm opA (trim uV Unit (val V1 s)) a l = conj (U a (a1 + l)%nat) /\ opm opB (trim uV Unit (val V1 s)) l a = U a (a1 + l)%nat).
  { intros a l Ha Hl. assert (K : (match sm with Columnwise => trim uV Unit (val V1 s) l a | Rowwise => conj (trim uV Unit (val V1 s) a l) end) = U a (a1 + l)%nat).
    { unfold U, rvec, uV, V1, a1, b1, rpos, trim, intri. destruct sm, dir; cbn [Nat.add].
      - destruct (Nat.eqb_spec l a); auto. destruct (Nat.leb_spec a l), (Nat.ltb_spec l a); try lia; auto.
      - destruct (Nat.eqb_spec l a), (Nat.eqb_spec (nq - k + l) (nq - k + a)); try lia; auto. destruct (Nat.leb_spec l a), (Nat.ltb_spec (nq - k + a) (nq - k + l)); try lia; auto.
      - destruct (Nat.eqb_spec a l), (Nat.eqb_spec l a); try lia; [apply conj_1|]. destruct (Nat.leb_spec a l), (Nat.ltb_spec l a); try lia; auto. apply conj_0.
      - destruct (Nat.eqb_spec a l), (Nat.eqb_spec (nq - k + l) (nq - k + a)); try lia; [apply conj_1|]. destruct (Nat.leb_spec l a), (Nat.ltb_spec (nq - k + a) (nq - k + l)); try lia; auto. apply conj_0. }
    rewrite <- K. unfold opA, opB. destruct sm; cbn [opm]; split; auto. rewrite conj_conj. auto. }
  assert (HU2 : forall a l, (a < k)%nat -> (l < nq - k)%nat -> opm opA (val V2 s) a l = conj (U a (a2 + l)%nat) /\ opm opB (val V2 s) l a = U a (a2 + l)%nat).
  { intros a l Ha Hl. assert (K : (match sm with Columnwise => val V2 s l a | Rowwise => conj (val V2 s a l) end) = U a (a2 + l)%nat).
    { unfold U, rvec, V2, a2, b2, rpos. destruct sm, dir; cbn [Nat.add].
      1, 3: destruct (Nat.eqb_spec (k + l) a), (Nat.ltb_spec (k + l) a); try lia; auto.
      all: destruct (Nat.eqb_spec l (nq - k + a)), (Nat.ltb_spec (nq - k + a) l); try lia; auto. }
    rewrite <- K. unfold opA, opB. destruct sm; cbn [opm]; split; auto. rewrite conj_conj. auto. }
  assert (HV1s : nr V1 = k /\ nc V1 = k) by (unfold V1; destruct sm, HV; cbn [nr nc subv]; lia).
  assert (HA2 : if is_nt opA then nr V2 = k /\ nc V2 = (nq - k)%nat else nr V2 = (nq - k)%nat /\ nc V2 = k) by (unfold V2, opA; destruct sm, HV; cbn [nr nc subv is_nt op_eqb]; lia).
  assert (HB2 : if is_nt opB then nr V2 = (nq - k)%nat /\ nc V2 = k else nr V2 = k /\ nc V2 = (nq - k)%nat) by (unfold V2, opB; destruct sm, HV; cbn [nr nc subv is_nt op_eqb]; lia).
  assert (Hot : op3 trans = true) by (destruct trans; auto; contradiction).
  assert (HuV : uplo2 uV = true) by (unfold uV; destruct sm, dir; auto). assert (HuT : uplo2 (tupl dir) = true) by (destruct dir; auto).
  assert (HoA : op3 opA = true) by (unfold opA; destruct sm; auto). assert (HoB : op3 opB = true) by (unfold opB; destruct sm; auto).
  destruct side; cbn [sel] in *.
  - apply wp_bind, wp_slc; [unfold nq, m, n in *; lia..|]. apply wp_bind, wp_slc; [unfold nq, m, n in *; lia..|]. apply wp_bind.
    apply wp_conseq with (X := noX) (Q := fun _ s' => effw C (mmul nq (blkrefl k (opm trans (trim (tupl dir) NonUnit (val Tm s))) U) (val C s)) (inview W) s s').
    + assert (Z := larfb_left_run C W s HIC WI (disj_sym _ _ (DW C WC)) V1 V2 Tm uV (tupl dir) opA opB trans k a1 b1 a2 b2 nq U (DV1 _ HVC) (DV2 _ HVC) HTC (DV1 _ (DW _ WV)) (DV2 _ (DW _ WV)) (DW _ WT) HuV HuT HoA HoB Hot HV1s (Logic.conj eq_refl HTc) Hrg Hk HA2 HB2 HU1 HU2 s n (k <? nq)%nat noX eq_refl eq_refl Wr Wc eq_refl eq_refl).
      revert Z. unfold uV, opA, opB, nq. destruct sm, dir; auto.
    + intros u0 s' He. cbv beta in He. apply wp_ret. split; auto. cbn [rapply]. destruct He as (H1 & H2 & H3). split; [|split]; auto.
    + auto.
  - apply wp_bind, wp_slc; [unfold nq, m, n in *; lia..|]. apply wp_bind, wp_slc; [unfold nq, m, n in *; lia..|]. apply wp_bind.
    apply wp_conseq with (X := noX) (Q := fun _ s' => effw C (mmul nq (val C s) (blkrefl k (opm trans (trim (tupl dir) NonUnit (val Tm s))) U)) (inview W) s s').
    + assert (Z := larfb_right_run C W s HIC WI (disj_sym _ _ (DW C WC)) V1 V2 Tm uV (tupl dir) opA opB trans k a1 b1 a2 b2 nq U (DV1 _ HVC) (DV2 _ HVC) HTC (DV1 _ (DW _ WV)) (DV2 _ (DW _ WV)) (DW _ WT) HuV HuT HoA HoB Hot HV1s (Logic.conj eq_refl HTc) Hrg Hk HA2 HB2 HU1 HU2 s m (k <? nq)%nat noX eq_refl eq_refl Wr Wc eq_refl eq_refl).
      revert Z. unfold uV, opA, opB, nq. destruct sm, dir; auto.
    + intros u0 s' He. cbv beta in He. apply wp_ret. split; auto. cbn [rapply]. destruct He as (H1 & H2 & H3). split; [|split]; auto.
    + auto.
Qed.
End P.
