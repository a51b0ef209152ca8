(** * gehd2, unghr, gebd2: proofs *)
From Coq Require Import Bool Arith ZArith Lia Reals Lra Ring Field.
From Verif.Core Require Import Scalar Prog View Slice Loops WorkEff RealLaws.
From Verif.Spec Require Import LinAlg Outcome Norms Householder Reduce.
From Verif.Model Require Import Gemm Blas1 Blas2 Blas3 Legacy LaAux Norms Work Householder QGen QFact BlockQ Reduce.
From Verif.Proof Require Import SumLemmas Tactics SliceTac LegacyProof PotrfProof BlockAlg LarfProof LarfgProof QRProof QGenProof QFactProof ReduceMath.
Local Open Scope T_scope.

Section P.
Context {E : Env} {FL : FieldLaws E} {CL : ConjLaws E} {OL : ROrdLaws E} {QL : EqbLaws E} {XL : CplxLaws E} {RL : RLaws E} {NL : FinLaws E}.
Add Field Tf : fth.

(** the line of A that holds a reflector: column [c] (Columnwise) or row [c] (Rowwise), window [a,b) *)
Definition lnv (sm : storev_t) (A : view) (a b c : nat) : view := match sm with Columnwise => vcol A a b c | Rowwise => vrow A c a b end.
Definition fln (sm : storev_t) (A : view) (a b c : nat) : M view := match sm with Columnwise => slcol A a b c | Rowwise => slrow A c a b end.
Definition dM (sm : storev_t) (A : view) : nat := match sm with Columnwise => nr A | Rowwise => nc A end.
Definition dN (sm : storev_t) (A : view) : nat := match sm with Columnwise => nc A | Rowwise => nr A end.
Lemma lnv_val sm A a b c s1 r : hst sm (vval (lnv sm A a b c) s1) r = xof sm (val A s1) (a + r)%nat c.
Proof. unfold lnv. destruct sm; reflexivity. Qed.
Lemma lnv_dim sm A a b c : nr (lnv sm A a b c) = (b - a)%nat /\ nc (lnv sm A a b c) = 1%nat.
Proof. unfold lnv. destruct sm; split; reflexivity. Qed.
Lemma lnv_inview sm A a b c l : (a < b <= dM sm A)%nat -> (c < dN sm A)%nat -> inview (lnv sm A a b c) l -> inview A l.
Proof. intros. unfold lnv, dM, dN in *. destruct sm; [eapply inview_vcol; [| |eassumption]|eapply inview_vrow; [| |eassumption]]; lia. Qed.
Lemma lnv_off sm A a b c s1 s2 : vinj A -> (a < b <= dM sm A)%nat -> (c < dN sm A)%nat -> (forall l, ~ inview (lnv sm A a b c) l -> mem s2 l = mem s1 l) ->
  forall r j, (r < dM sm A)%nat -> (j < dN sm A)%nat -> (j <> c \/ ~ (a <= r < b)%nat) -> xof sm (val A s2) r j = xof sm (val A s1) r j.
Proof.
  intros HI Hab Hc Hf r j Hr Hj Hn. unfold lnv, dM, dN in *. destruct sm; cbn [xof]; [|unfold ctr; f_equal]; apply Hf; intros (p & q & Hp & Hq & e); cbn [nr nc ad vcol vrow] in *; apply HI in e; lia.
Qed.
Lemma lnv_vinj sm A a b c : vinj A -> (a < b <= dM sm A)%nat -> (c < dN sm A)%nat -> vinj (lnv sm A a b c).
Proof. intros. unfold lnv, dM, dN in *. destruct sm; [apply vinj_vcol|apply vinj_vrow]; auto; lia. Qed.
Lemma wp_fln sm A a b c (B : Type) (K : view -> M B) (Q : B -> state -> Prop) X s1 : (a < b <= dM sm A)%nat -> (c < dN sm A)%nat ->
  wp (K (lnv sm A a b c)) Q X s1 -> wp (v <- fln sm A a b c;; K v) Q X s1.
Proof. intros Hab Hc HK. apply wp_bind. unfold fln, lnv, dM, dN in *. destruct sm; [apply wp_slcol|apply wp_slrow]; auto; lia. Qed.
Lemma tau_x sm A tau s2 i t r j : nc tau = 1%nat -> disj A tau -> (i < nr tau)%nat -> (r < dM sm A)%nat -> (j < dN sm A)%nat -> xof sm (val A (setm s2 (ad tau i 0) t)) r j = xof sm (val A s2) r j.
Proof.
  intros Ht1 HD Hi Hr Hj. unfold dM, dN in *. destruct sm; cbn [xof]; [|unfold ctr; f_equal]; unfold val, setm; cbn [mem];
    (match goal with |- context[Z.eqb ?x ?y] => destruct (Z.eqb_spec x y) as [e|]; [exfalso|reflexivity] end); apply HD in e; auto; lia.
Qed.
Lemma eff_x sm A F W s3 s4 : effw A F W s3 s4 -> forall r j, (r < dM sm A)%nat -> (j < dN sm A)%nat -> xof sm (val A s4) r j = xof sm F r j.
Proof. intros (L1 & _) r j Hr Hj. unfold dM, dN in *. destruct sm; cbn [xof]; [|unfold ctr; f_equal]; apply L1; auto. Qed.

(** ** Generating a reflector, and applying it, as separate program steps *)
Section G.
Variables (h : hconst) (st bt hsm : R) (sm : storev_t) (dir : direction_t) (A tau : view) (work : lmat).
Hypothesis Hh : hconst_ok h st bt hsm.
Hypothesis HI : vinj A.
Hypothesis HIt : vinj tau.
Hypothesis Ht1 : nc tau = 1%nat.
Hypothesis HD : disj A tau.
Let M' := dM sm A.
Let N' := dN sm A.
Hypothesis HwA : disj (lview work) A.
Hypothesis Hwt : disj (lview work) tau.
Let X (s1 : state) : mat := xof sm (val A s1).

(** what holds after the reflector of line [c], window [a,b), has been generated *)
Definition generated (a b c i : nat) (s1 s3 : state) : Prop :=
  refc dir (b - a) (fun r => X s1 (a + r)%nat c) (vval tau s3 i) (fun r => X s3 (a + r)%nat c) /\
  (forall r j, (r < M')%nat -> (j < N')%nat -> (j <> c \/ ~ (a <= r < b)%nat) -> X s3 r j = X s1 r j) /\
  (forall j, (j < nr tau)%nat -> j <> i -> vval tau s3 j = vval tau s1 j) /\
  (forall l, ~ inview A l -> ~ inview tau l -> mem s3 l = mem s1 l) /\ imem s3 = imem s1.
Lemma fgen_run a b c i s1 (B : Type) (K : view -> M B) (Q : B -> state -> Prop) : (a < b <= M')%nat -> (c < N')%nat -> (i < nr tau)%nat ->
  (vsq (b - a) (fun r => X s1 (a + r)%nat c) <= bt * bt)%R ->
  (forall s3, generated a b c i s1 s3 -> wp (K (lnv sm A a b c)) Q noX s3) ->
  wp (v <- fln sm A a b c;; t <- larfg h dir sm v;; wrv tau i t;; K v) Q noX s1.
Proof.
  intros Hab Hc Hi Hv HQ.
  apply wp_fln; auto. destruct (lnv_dim sm A a b c) as [Nv Nv1].
  assert (IL := fun l => lnv_inview sm A a b c l Hab Hc).
  apply wp_bind. eapply wp_use.
  { apply (larfg_reflects h st bt hsm dir sm (lnv sm A a b c) s1); auto; [lia|apply lnv_vinj; auto|].
    left. rewrite Nv. rewrite <- (vsq_hst sm). rewrite (vsq_ext _ _ (fun r => X s1 (a + r)%nat c)) by (intros; apply lnv_val).
    exact Hv. }
  intros t s2 HL. cbv beta in HL. destruct HL as ((A1 & A2 & A3) & HR). rewrite Nv in HR.
  apply wp_bind. unfold wrv. apply wp_wr; [auto|lia|]. apply HQ.
  assert (Ka := fun r j => tau_x sm A tau s2 i t r j Ht1 HD Hi).
  set (s3 := setm s2 (ad tau i 0) t) in *.
  assert (Kt : vval tau s3 i = t) by (unfold vval, val, s3, setm; cbn [mem]; rewrite Z.eqb_refl; auto).
  unfold generated. rewrite Kt. repeat apply Logic.conj.
  - eapply refc_ext; [lia|exact (reflects_refc _ _ _ _ _ _ HR)| |].
    + intros r Hr. apply lnv_val.
    + intros r Hr. rewrite lnv_val. symmetry. apply Ka; unfold M', N' in *; lia.
  - intros r j Hr Hj Hn. unfold X. rewrite Ka by auto. apply (lnv_off sm A a b c s1 s2 HI Hab Hc A2 r j Hr Hj Hn).
  - intros j Hj Hne. unfold vval, val, s3, setm. cbn [mem]. destruct (Z.eqb_spec (ad tau j 0) (ad tau i 0)) as [e|]; [apply HIt in e; lia|].
    apply A2. intros K0. apply IL in K0; auto. destruct K0 as (r & q & Hr & Hq & e). symmetry in e. apply HD in e; auto; lia.
  - intros l Hl Hl'. unfold s3, setm. cbn [mem]. destruct (Z.eqb_spec l (ad tau i 0)) as [->|]; [exfalso; apply Hl'; exists i, 0%nat; repeat split; first [lia|reflexivity]|].
    apply A2. intros K'. apply Hl. eapply IL; eauto.
  - exact A3.
Qed.

(** what holds after the reflector of line [c] has been applied to lines [d0,d1) *)
Definition applied (a b c d0 d1 i : nat) (s3 s4 : state) : Prop :=
  (forall r j, (r < M')%nat -> (j < N')%nat -> X s4 r j = if ((d0 <=? j) && (j <? d1))%nat then
     mmul M' (ctr (refl (vval tau s3 i) (embw a b (hvec dir (b - a) (fun r => X s3 (a + r)%nat c))))) (X s3) r j else X s3 r j) /\
  (forall l, ~ inview A l -> ~ inview (lview work) l -> mem s4 l = mem s3 l) /\ imem s4 = imem s3.
Definition fsub (a b d0 d1 : nat) : view := match sm with Columnwise => subv A a b d0 d1 | Rowwise => subv A d0 d1 a b end.
Definition fcall (v : view) (t : T) (C : view) : M unit :=
  match sm with Columnwise => larf_work Left dir Columnwise v (conj t) C work | Rowwise => larf_work Right dir Rowwise v t C work end.
Lemma fcall_run a b c d0 d1 i s3 : (a < b <= M')%nat -> (c < N')%nat -> (d0 <= d1 <= N')%nat -> ~ (d0 <= c < d1)%nat -> (i < nr tau)%nat ->
  (b - a <= 1 \/ d1 - d0 = 0 \/ wk_ok work (d1 - d0))%nat ->
  wp (fcall (lnv sm A a b c) (vval tau s3 i) (fsub a b d0 d1)) (fun _ s4 => applied a b c d0 d1 i s3 s4) noX s3.
Proof.
  intros Hab Hc Hd Hdc Hi HWk. unfold fcall, fsub.
  assert (Wl : disj (lview work) (lnv sm A a b c)).
  { eapply disj_inc; [| |exact HwA]; intros l; [auto|]. apply lnv_inview; auto. }
  assert (Hdl : disj (lnv sm A a b c) (fsub a b d0 d1)).
  { unfold lnv, fsub, M', N', dM, dN in *. clear Wl. intros p q p' q' Hp Hq Hp' Hq' e. destruct sm; cbn [nr nc ad vcol vrow subv] in *; apply HI in e; lia. }
  assert (ES := lnv_val sm A a b c s3). destruct (lnv_dim sm A a b c) as [Nv Nv1]. unfold fsub in Hdl.
  unfold applied. set (v := lnv sm A a b c) in *. clearbody v. unfold X, M', N', dM, dN in *. destruct sm; cbn [xof] in *.
  - eapply wp_conseq; [apply (larf_part_l dir Columnwise v (conj (vval tau s3 i)) A work s3 a b d0 d1)| |auto]; auto; try lia.
    + split; auto.
    + intros r0 s4 HL. cbv beta in HL. destruct HL as (L1 & L2 & L3). split; [|split; auto]. intros r j Hr Hj. rewrite L1 by auto. destruct (_ && _)%bool; auto.
      apply mmul_ext; intros l Hl; auto. rewrite ctr_refl. apply refl_ext; unfold embw; destruct (_ && _)%bool; auto; unfold hvec; destruct (_ =? _)%nat; auto; apply ES.
  - eapply wp_conseq; [apply (larf_part_r dir Rowwise v (vval tau s3 i) A work s3 a b d0 d1)| |auto]; auto; try lia.
    + split; auto.
    + intros r0 s4 HL. cbv beta in HL. destruct HL as (L1 & L2 & L3). split; [|split; auto]. intros r j Hr Hj. unfold ctr at 1. rewrite L1 by auto. destruct (_ && _)%bool; auto.
      rewrite <- (conj_conj (mmul (nc A) (ctr _) _ r j)). f_equal. symmetry.
      transitivity (ctr (mmul (nc A) (ctr (refl (vval tau s3 i) (embw a b (hvec dir (b - a) (fun r0 => ctr (val A s3) (a + r0)%nat c))))) (ctr (val A s3))) j r); [reflexivity|].
      rewrite ctr_mmul. apply mmul_ext; intros l Hl; rewrite ctr_ctr; auto. apply refl_ext; unfold embw; destruct (_ && _)%bool; auto; unfold hvec; destruct (_ =? _)%nat; auto; symmetry; apply ES.
Qed.
End G.

End P.
