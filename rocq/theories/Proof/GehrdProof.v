(** * lahr2, gehrd: proofs *)
From Coq Require Import Bool Arith ZArith Lia Reals Lra Ring Field.
From Verif.Core Require Import Scalar Prog View Slice Loops WorkEff RealLaws.
From Verif.Spec Require Import LinAlg Outcome Norms Householder Reduce.
From Verif.Model Require Import Gemm Blas1 Blas2 Blas3 Legacy LaAux Norms Work Householder QGen QFact BlockQ Reduce Gehrd.
From Verif.Proof Require Import SumLemmas Tactics SliceTac LegacyProof PotrfProof BlockAlg LowOps ExactBlas Blas1Proof Blas2Proof TrmvProof GemmProof TrmmProof LaAuxProof LarfProof LarfgProof QRProof QGenProof QFactProof LarftProof LarfbProof ReduceMath ReduceProof GehrdMath.
Local Open Scope T_scope.

Section A.
Context {E : Env} {FL : FieldLaws E} {CL : ConjLaws E} {QL : EqbLaws E}.
Add Field Tf : fth.

(** ** Two vectors that change *)
Section V2.
Variables (b w : view) (s0 : state).
Hypothesis Hb : nc b = 1%nat.
Hypothesis Hw : nc w = 1%nat.
Hypothesis Ib : vinj b.
Hypothesis Iw : vinj w.
Hypothesis Dbw : disj b w.
Definition S2 (fb fw : nat -> T) (s : state) : Prop :=
  (forall r, (r < nr b)%nat -> vval b s r = fb r) /\ (forall a, (a < nr w)%nat -> vval w s a = fw a) /\
  (forall l, ~ inview b l -> ~ inview w l -> mem s l = mem s0 l) /\ imem s = imem s0.
Lemma S2_0 : S2 (vval b s0) (vval w s0) s0.
Proof. repeat apply Logic.conj; auto. Qed.
Lemma S2_w fb fw g s s' : S2 fb fw s -> veff w g s s' -> S2 fb g s'.
Proof.
  intros (H1 & H2 & H3 & H4) (G1 & G2 & G3). split; [|split; [exact G1|split; [|congruence]]].
  - intros r Hr. rewrite <- H1 by auto. apply G2. apply nin; auto. lia.
  - intros l K1 K2. rewrite G2 by auto. auto.
Qed.
Lemma S2_b fb fw g s s' : S2 fb fw s -> veff b g s s' -> S2 g fw s'.
Proof.
  intros (H1 & H2 & H3 & H4) (G1 & G2 & G3). split; [exact G1|split; [|split; [|congruence]]].
  - intros r Hr. rewrite <- H2 by auto. apply G2. apply nin; [apply disj_sym; auto|auto|lia].
  - intros l K1 K2. rewrite G2 by auto. auto.
Qed.
Lemma S2_bs fb fw i j g s s' : S2 fb fw s -> (j <= nr b)%nat -> veff (Slice.vsub b i j) g s s' -> S2 (fun r => if ((i <=? r) && (r <? j))%nat then g (r - i)%nat else fb r) fw s'.
Proof.
  intros HS Hj HG. apply (S2_b fb fw _ s s' HS). apply veff_eff in HG; [|reflexivity]. destruct HS as (H1 & _).
  apply veff_eff; auto. eapply eff_ext; [apply (eff_vsub b i j (val b s) _ s s s' Ib Hj Hb (eff_refl b s) HG)|].
  intros r c Hr Hc. replace c with 0%nat by lia. cbv beta. unfold inbox. destruct (Nat.leb_spec i r), (Nat.ltb_spec r j), (Nat.leb_spec 0 0), (Nat.ltb_spec 0 1); try lia; cbn [andb]; auto; apply H1; auto.
Qed.
Lemma S2_fr fb fw s V : S2 fb fw s -> disj V b -> disj V w -> forall i j, (i < nr V)%nat -> (j < nc V)%nat -> val V s i j = val V s0 i j.
Proof. intros (_ & _ & H3 & _) D1 D2 i j Hi Hj. apply H3; apply nin; auto. Qed.
Lemma S2_ext fb fw gb gw s : (forall r, (r < nr b)%nat -> fb r = gb r) -> (forall r, (r < nr w)%nat -> fw r = gw r) -> S2 fb fw s -> S2 gb gw s.
Proof. intros K1 K2 (H1 & H2 & H3 & H4). repeat apply Logic.conj; auto; intros; [rewrite H1|rewrite H2]; auto. Qed.
End V2.

(** b := (I - V T^H V^H) b, with w as workspace *)
Section Upd.
Variables (b w V1 V2 T2 : view) (m i : nat) (s0 : state).
Hypothesis Hb : nr b = m /\ nc b = 1%nat.
Hypothesis Hw : nr w = i /\ nc w = 1%nat.
Hypothesis HV1 : nr V1 = i /\ nc V1 = i.
Hypothesis HV2 : nr V2 = (m - i)%nat /\ nc V2 = i.
Hypothesis HT2 : nr T2 = i /\ nc T2 = i.
Hypothesis Him : (0 < i < m)%nat.
Hypothesis Ib : vinj b.
Hypothesis Iw : vinj w.
Hypothesis Dbw : disj b w.
Hypothesis D1 : disj V1 b /\ disj V1 w.
Hypothesis D2 : disj V2 b /\ disj V2 w.
Hypothesis D3 : disj T2 b /\ disj T2 w.
Definition uV : mat := fun r a => if (r <? i)%nat then trim Lower Unit (val V1 s0) r a else val V2 s0 (r - i)%nat a.
Definition uw1 (q : nat) : T := sum m (fun x => conj (uV x q) * vval b s0 x).
Definition uw2 (a : nat) : T := sum i (fun q => conj (trim Upper NonUnit (val T2 s0) q a) * uw1 q).
Lemma sub_disj V x a c : disj V x -> (c <= nr x)%nat -> nc x = 1%nat -> disj V (Slice.vsub x a c).
Proof. intros H Hc Hn p q r t K1 K2 K3 K4. cbn [nr nc ad Slice.vsub] in *. apply H; auto; lia. Qed.
Lemma sub_disj' V x a c : disj x V -> (c <= nr x)%nat -> nc x = 1%nat -> disj (Slice.vsub x a c) V.
Proof. intros H Hc Hn p q r t K1 K2 K3 K4. cbn [nr nc ad Slice.vsub] in *. apply H; auto; lia. Qed.
Lemma uV_split (f : nat -> T) q : sum m (fun x => conj (uV x q) * f x) = sum i (fun x => conj (trim Lower Unit (val V1 s0) x q) * f x) + sum (m - i) (fun x => conj (val V2 s0 x q) * f (i + x)%nat).
Proof.
  rewrite (sum_split_at i m) by lia. f_equal; apply sum_ext; intros x Hx; unfold uV.
  - destruct (Nat.ltb_spec x i); [auto|lia].
  - destruct (Nat.ltb_spec (i + x) i); [lia|]. replace (i + x - i)%nat with x by lia. auto.
Qed.
Lemma lahr2_upd_run (PT2 : M view) (K : M unit) (Q : unit -> state -> Prop) : PT2 = ret T2 ->
  (forall s', (forall r, (r < m)%nat -> vval b s' r = vval b s0 r - sum i (fun a => uV r a * uw2 a)) ->
     (forall l, ~ inview b l -> ~ inview w l -> mem s' l = mem s0 l) -> imem s' = imem s0 -> wp K Q noX s') ->
  wp (copy (Slice.vsub b 0 i) w;;
      trmv Lower ConjTrans Unit V1 w;;
      gemv ConjTrans 1 V2 (Slice.vsub b i m) (Sc 1) w;;
      T2' <- PT2;;
      trmv Upper ConjTrans NonUnit T2' w;;
      gemv NoTrans (- one) V2 w (Sc 1) (Slice.vsub b i m);;
      trmv Lower NoTrans Unit V1 w;;
      axpy (- one) w (Slice.vsub b 0 i);; K) Q noX s0.
Proof.
  intros HP HQ. destruct Hb as [Hb1 Hb2], Hw as [Hw1 Hw2], HV1 as [HV11 HV12], HV2 as [HV21 HV22], HT2 as [HT21 HT22], D1 as [D11 D12], D2 as [D21 D22], D3 as [D31 D32].
  assert (K0 := S2_0 b w s0).
  (* w := b1 *)
  apply wp_bind. eapply wp_use; [apply (copy_run (Slice.vsub b 0 i) w s0); auto; [cbn [nr Slice.vsub]; lia|apply sub_disj'; auto; lia]|].
  intros u0 s1 HL. cbv beta in HL. clear u0. apply (S2_w b w s0 Hb2 Hw2 Dbw _ _ _ _ _ K0) in HL.
  apply (S2_ext b w s0 _ _ (vval b s0) (vval b s0)) in HL; [|auto|intros r Hr; cbn [nr Slice.vsub]; destruct (Nat.ltb_spec r (i - 0)); [reflexivity|lia]].
  rename HL into K1. pose proof (S2_fr b w s0 _ _ s1 V1 K1 D11 D12) as F1.
  (* w := V1^H w *)
  apply wp_bind. eapply wp_use; [apply (trmv_run Lower ConjTrans Unit V1 w s1 i); auto|].
  intros u0 s2 HL. cbv beta in HL. clear u0. apply (S2_w b w s0 Hb2 Hw2 Dbw _ _ _ _ _ K1) in HL.
  apply (S2_ext b w s0 _ _ (vval b s0) (fun q => sum i (fun x => conj (trim Lower Unit (val V1 s0) x q) * vval b s0 x))) in HL; [|auto|].
  2:{ intros q Hq. unfold mvmul. apply sum_ext. intros x Hx. cbn [opm]. f_equal; [|apply K1; lia]. f_equal. unfold trim. destruct (_ =? _)%nat; auto. destruct (intri _ _ _); auto. apply F1; lia. }
  rename HL into K2. pose proof (S2_fr b w s0 _ _ s2 V2 K2 D21 D22) as F2.
  (* w := w + V2^H b2 *)
  apply wp_bind. eapply wp_use; [apply (gemv_run ConjTrans 1 V2 (Slice.vsub b i m) (Sc 1) w s2 i (m - i)); cbn [notransb nr nc Slice.vsub]; auto; [lia|apply sub_disj'; auto; lia]|].
  intros u0 s3 HL. cbv beta in HL. clear u0. apply (S2_w b w s0 Hb2 Hw2 Dbw _ _ _ _ _ K2) in HL.
  apply (S2_ext b w s0 _ _ (vval b s0) uw1) in HL; [|auto|].
  2:{ intros q Hq. rewrite gemv_val_exact. cbn [cval]. destruct K2 as (K21 & K22 & _). rewrite K22 by auto. unfold uw1. rewrite uV_split. unfold mvmul. cbn [opm].
      rewrite (sum_ext (m - i) _ (fun x => conj (val V2 s0 x q) * vval b s0 (i + x)%nat)); [ring|]. intros x Hx. rewrite F2 by lia. f_equal. change (vval (Slice.vsub b i m) s2 x) with (vval b s2 (i + x)%nat). apply K21. lia. }
  rename HL into K3. pose proof (S2_fr b w s0 _ _ s3 T2 K3 D31 D32) as F3.
  (* w := T^H w *)
  apply wp_bind. rewrite HP. apply wp_ret. apply wp_bind. eapply wp_use; [apply (trmv_run Upper ConjTrans NonUnit T2 w s3 i); auto|].
  intros u0 s4 HL. cbv beta in HL. clear u0. apply (S2_w b w s0 Hb2 Hw2 Dbw _ _ _ _ _ K3) in HL.
  apply (S2_ext b w s0 _ _ (vval b s0) uw2) in HL; [|auto|].
  2:{ intros q Hq. unfold mvmul, uw2. apply sum_ext. intros x Hx. cbn [opm]. f_equal; [|apply K3; lia]. f_equal. unfold trim. rewrite F3 by lia. auto. }
  rename HL into K4. pose proof (S2_fr b w s0 _ _ s4 V2 K4 D21 D22) as F4.
  (* b2 := b2 - V2 w *)
  apply wp_bind. eapply wp_use; [apply (gemv_run NoTrans (- one) V2 w (Sc 1) (Slice.vsub b i m) s4 (m - i) i); cbn [notransb nr nc Slice.vsub]; auto; [lia|apply vinj_vsub; auto; lia|apply sub_disj; auto; lia|apply sub_disj; [apply disj_sym; auto|lia|auto]]|].
  intros u0 s5 HL. cbv beta in HL. clear u0. apply (S2_bs b w s0 Hb2 Hw2 Ib Dbw _ _ i m _ _ _ K4) in HL; [|lia].
  apply (S2_ext b w s0 _ _ (fun r => if (i <=? r)%nat then vval b s0 r - sum i (fun a => uV r a * uw2 a) else vval b s0 r) uw2) in HL; [| |auto].
  2:{ intros r Hr. destruct (Nat.ltb_spec r m); [|lia]. rewrite andb_true_r. destruct (Nat.leb_spec i r); auto. rewrite gemv_val_exact. cbn [cval]. destruct K4 as (K41 & K42 & _).
      change (vval (Slice.vsub b i m) s4 (r - i)%nat) with (vval b s4 (i + (r - i))%nat). replace (i + (r - i))%nat with r by lia. rewrite K41 by auto. unfold mvmul. cbn [opm].
      rewrite (sum_ext i _ (fun a => uV r a * uw2 a)); [ring|]. intros a Ha. rewrite F4 by lia. unfold uV. destruct (Nat.ltb_spec r i); [lia|]. f_equal. apply K42. lia. }
  rename HL into K5. pose proof (S2_fr b w s0 _ _ s5 V1 K5 D11 D12) as F5.
  (* w := V1 w *)
  apply wp_bind. eapply wp_use; [apply (trmv_run Lower NoTrans Unit V1 w s5 i); auto|].
  intros u0 s6 HL. cbv beta in HL. clear u0. apply (S2_w b w s0 Hb2 Hw2 Dbw _ _ _ _ _ K5) in HL.
  match type of HL with S2 _ _ _ ?fb _ _ => apply (S2_ext b w s0 _ _ fb (fun r => sum i (fun a => uV r a * uw2 a))) in HL; [|auto|] end.
  2:{ intros r Hr. unfold mvmul. apply sum_ext. intros a Ha. cbn [opm]. unfold uV. destruct (Nat.ltb_spec r i); [|lia]. f_equal; [|apply K5; lia]. unfold trim. destruct (_ =? _)%nat; auto. destruct (intri _ _ _); auto. apply F5; lia. }
  rename HL into K6.
  (* b1 := b1 - w *)
  apply wp_bind. eapply wp_use; [apply (axpy_run (- one) w (Slice.vsub b 0 i) s6); auto; [cbn [nr Slice.vsub]; lia|apply vinj_vsub; auto; lia|apply sub_disj; [apply disj_sym; auto|lia|auto]]|].
  intros u0 s7 HL. cbv beta in HL. clear u0. apply (S2_bs b w s0 Hb2 Hw2 Ib Dbw _ _ 0 i _ _ _ K6) in HL; [|lia].
  destruct HL as (L1 & _ & L3 & L4). apply HQ; auto. intros r Hr. rewrite L1 by lia. cbn [Nat.leb andb]. rewrite Nat.sub_0_r. destruct K6 as (K61 & K62 & _). destruct (Nat.ltb_spec r i).
  - destruct (Nat.ltb_spec r (nr w)); [|lia]. change (vval (Slice.vsub b 0 i) s6 r) with (vval b s6 r). rewrite K61, K62 by lia. destruct (Nat.leb_spec i r); [lia|]. ring.
  - destruct (Nat.leb_spec i r); [auto|lia].
Qed.
End Upd.

(** y := ti (A2 v - Y2 (A3^H v)),  t := - ti T2 (A3^H v) *)
Section Ref.
Variables (y t A2 v A3 Y2 T2 tv : view) (m i q ix : nat) (ti : T) (s0 : state).
Hypothesis Htv : nc tv = 1%nat /\ (ix < nr tv)%nat /\ vval tv s0 ix = ti.
Hypothesis D6 : disj tv y /\ disj tv t.
Hypothesis Hy : nr y = m /\ nc y = 1%nat.
Hypothesis Ht : nr t = i /\ nc t = 1%nat.
Hypothesis HA2 : nr A2 = m /\ nc A2 = q.
Hypothesis Hv : nr v = q /\ nc v = 1%nat.
Hypothesis HA3 : nr A3 = q /\ nc A3 = i.
Hypothesis HY2 : nr Y2 = m /\ nc Y2 = i.
Hypothesis HT2 : nr T2 = i /\ nc T2 = i.
Hypothesis Hq : (0 < q)%nat.
Hypothesis Iy : vinj y.
Hypothesis It : vinj t.
Hypothesis Dyt : disj y t.
Hypothesis D1 : disj A2 y /\ disj A2 t.
Hypothesis D2 : disj v y /\ disj v t.
Hypothesis D3 : disj A3 y /\ disj A3 t.
Hypothesis D4 : disj Y2 y /\ disj Y2 t.
Hypothesis D5 : disj T2 y /\ disj T2 t.
Definition rd_ (l : nat) : T := sum q (fun x => conj (val A3 s0 x l) * vval v s0 x).
Lemma lahr2_ref_run (Pt PA3 PY2 PT2 : M view) (B : Type) (K : T -> M B) (Q : B -> state -> Prop) : Pt = ret t -> PA3 = ret A3 -> PY2 = ret Y2 -> PT2 = ret T2 ->
  (forall s', (forall r, (r < m)%nat -> vval y s' r = ti * (sum q (fun c => val A2 s0 r c * vval v s0 c) - sum i (fun l => val Y2 s0 r l * rd_ l))) ->
     (forall a, (a < i)%nat -> vval t s' a = sum i (fun l => trim Upper NonUnit (val T2 s0) a l * (- ti * rd_ l))) ->
     (forall l, ~ inview y l -> ~ inview t l -> mem s' l = mem s0 l) -> imem s' = imem s0 -> wp (K ti) Q noX s') ->
  wp (gemv NoTrans 1 A2 v SZ y;;
      t' <- Pt;;
      A3' <- PA3;;
      gemv ConjTrans 1 A3' v SZ t';;
      Y2' <- PY2;;
      gemv NoTrans (- one) Y2' t' (Sc 1) y;;
      ti' <- rdv tv ix;;
      scal ti' y;;
      scal (- ti') t';;
      T2' <- PT2;;
      trmv Upper NoTrans NonUnit T2' t';;
      K ti') Q noX s0.
Proof.
  intros HPt HPA3 HPY2 HPT2 HQ. destruct Htv as (Htv1 & Htv2 & Htv3), D6 as [D61 D62]. destruct Hy as [Hy1 Hy2], Ht as [Ht1 Ht2], HA2 as [HA21 HA22], Hv as [Hv1 Hv2], HA3 as [HA31 HA32], HY2 as [HY21 HY22], HT2 as [HT21 HT22].
  destruct D1 as [D11 D12], D2 as [D21 D22], D3 as [D31 D32], D4 as [D41 D42], D5 as [D51 D52].
  assert (K0 := S2_0 y t s0).
  apply wp_bind. eapply wp_use; [apply (gemv_run NoTrans 1 A2 v SZ y s0 m q); cbn [notransb]; auto|].
  intros u0 s1 HL. cbv beta in HL. clear u0. apply (S2_b y t s0 Hy2 Ht2 Dyt _ _ _ _ _ K0) in HL.
  apply (S2_ext y t s0 _ _ (fun r => sum q (fun c => val A2 s0 r c * vval v s0 c)) (vval t s0)) in HL; [| |auto].
  2:{ intros r Hr. rewrite gemv_val_exact. cbn [cval]. unfold mvmul. cbn [opm]. ring. }
  rename HL into K1. pose proof (S2_fr y t s0 _ _ s1 A3 K1 D31 D32) as F1. pose proof (S2_fr y t s0 _ _ s1 v K1 D21 D22) as F1v.
  apply wp_bind. rewrite HPt. apply wp_ret. apply wp_bind. rewrite HPA3. apply wp_ret.
  apply wp_bind. eapply wp_use; [apply (gemv_run ConjTrans 1 A3 v SZ t s1 i q); cbn [notransb]; auto|].
  intros u0 s2 HL. cbv beta in HL. clear u0. apply (S2_w y t s0 Hy2 Ht2 Dyt _ _ _ _ _ K1) in HL.
  match type of HL with S2 _ _ _ ?fb _ _ => apply (S2_ext y t s0 _ _ fb rd_) in HL; [|auto|] end.
  2:{ intros r Hr. rewrite gemv_val_exact. cbn [cval]. unfold mvmul, rd_. cbn [opm]. rewrite (sum_ext q _ (fun x => conj (val A3 s0 x r) * vval v s0 x)); [ring|]. intros x Hx. rewrite F1 by lia. f_equal. apply F1v; lia. }
  rename HL into K2. pose proof (S2_fr y t s0 _ _ s2 Y2 K2 D41 D42) as F2.
  apply wp_bind. rewrite HPY2. apply wp_ret.
  apply wp_bind. eapply (wp_use _ _ (fun _ s' => S2 y t s0 (fun r => sum q (fun c => val A2 s0 r c * vval v s0 c) - sum i (fun l => val Y2 s0 r l * rd_ l)) rd_ s')).
  { destruct (Nat.eq_dec i 0) as [Hz|Hz].
    - unfold runs, gemv. cbn [notransb]. rewrite HY21, HY22, Hy1, Ht1, !Nat.eqb_refl. apply wp_bind, wp_check; auto. apply wp_bind, wp_check; auto. rewrite Hz at 1. rewrite orb_true_r.
      apply wp_ret. eapply S2_ext; [| |exact K2]; auto. intros r Hr. rewrite Hz. cbn [sum]. ring.
    - eapply wp_conseq; [apply (gemv_run NoTrans (- one) Y2 t (Sc 1) y s2 m i); cbn [notransb]; auto; [lia|apply disj_sym; auto]| |auto].
      intros u0 s3 HL. cbv beta in HL. apply (S2_b y t s0 Hy2 Ht2 Dyt _ _ _ _ _ K2) in HL. eapply S2_ext; [| |exact HL]; auto.
      intros r Hr. cbv beta. rewrite gemv_val_exact. cbn [cval]. destruct K2 as (K21 & K22 & _). rewrite K21 by auto. unfold mvmul. cbn [opm]. rewrite (sum_ext i _ (fun l => val Y2 s0 r l * rd_ l)); [ring|].
      intros l Hl. rewrite F2 by lia. f_equal. apply K22. lia. }
  intros u0 s3 K3. cbv beta in K3. clear u0.
  apply wp_bind. unfold rdv. apply wp_rd; [auto|lia|]. replace (val tv s3 ix 0) with ti by (rewrite <- Htv3; symmetry; apply (S2_fr y t s0 _ _ s3 tv K3 D61 D62 ix 0%nat); lia).
  apply wp_bind. eapply wp_use; [apply (scal_run ti y s3); auto|].
  intros u0 s4 HL. cbv beta in HL. clear u0. apply (S2_b y t s0 Hy2 Ht2 Dyt _ _ _ _ _ K3) in HL.
  apply (S2_ext y t s0 _ _ (fun r => ti * (sum q (fun c => val A2 s0 r c * vval v s0 c) - sum i (fun l => val Y2 s0 r l * rd_ l))) rd_) in HL; [| |auto].
  2:{ intros r Hr. destruct K3 as (K31 & _). rewrite K31 by auto. ring. }
  rename HL into K4.
  apply wp_bind. eapply wp_use; [apply (scal_run (- ti) t s4); auto|].
  intros u0 s5 HL. cbv beta in HL. clear u0. apply (S2_w y t s0 Hy2 Ht2 Dyt _ _ _ _ _ K4) in HL.
  match type of HL with S2 _ _ _ ?fb _ _ => apply (S2_ext y t s0 _ _ fb (fun l => - ti * rd_ l)) in HL; [|auto|] end.
  2:{ intros r Hr. destruct K4 as (_ & K42 & _). rewrite K42 by auto. ring. }
  rename HL into K5. pose proof (S2_fr y t s0 _ _ s5 T2 K5 D51 D52) as F5.
  apply wp_bind. rewrite HPT2. apply wp_ret.
  apply wp_bind. eapply wp_use; [apply (trmv_run Upper NoTrans NonUnit T2 t s5 i); auto|].
  intros u0 s6 HL. cbv beta in HL. clear u0. apply (S2_w y t s0 Hy2 Ht2 Dyt _ _ _ _ _ K5) in HL. destruct HL as (L1 & L2 & L3 & L4).
  apply HQ; auto.
  - intros r Hr. apply L1. lia.
  - intros a Ha. rewrite L2 by lia. unfold mvmul. apply sum_ext. intros l Hl. cbn [opm]. destruct K5 as (_ & K52 & _). rewrite K52 by lia. f_equal. unfold trim. rewrite F5 by lia. auto.
Qed.
End Ref.
End A.
