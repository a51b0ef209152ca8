(** * Blocked bidiagonal reduction: the whole of gebrd *)
From Coq Require Import Bool Arith ZArith Lia Reals Lra Ring Field.
From Verif.Core Require Import Scalar Prog View Slice Loops WorkEff RealLaws.
From Verif.Spec Require Import LinAlg Outcome Norms Householder Reduce Parts.
From Verif.Model Require Import Gemm Blas1 Blas2 Blas3 Legacy LaAux Norms Work Householder QGen QFact BlockQ Reduce Drivers Gebrd.
From Verif.Proof Require Import SumLemmas SliceTac LegacyProof BlockAlg PotrfProof LaAuxProof LarfProof LarfgProof QRProof WorkProof QGenProof QFactProof LarfbProof ReduceMath ReduceProof HessProof BidProof GebrdMath GebrdProof.
Local Open Scope T_scope.

Section P.
Context {E : Env} {FL : FieldLaws E} {CL : ConjLaws E} {OL : ROrdLaws E} {QL : EqbLaws E} {XL : CplxLaws E} {RL : RLaws E} {NL : FinLaws E}.
Lemma bidinv_tall m n X0 X t1 t2 : (n <= m)%nat -> bidinv m n X0 n X t1 t2 -> bid_reduction m n X0 X t1 t2.
Proof.
  intros Hmn (I1 & I2 & I3 & I4). replace (Nat.min n (n - 1)) with (n - 1)%nat in * by lia.
  assert (EP : mprod m (gH1 X t1) n = bidq m n X t1) by (unfold bidq; destruct (Nat.leb_spec n m); [reflexivity|lia]).
  assert (EZ : mprod n (gH2 n X t2) (n - 1) = bidz m n X t2) by (unfold bidz; destruct (Nat.leb_spec n m); [reflexivity|lia]).
  assert (EB : forall r c, (r < m)%nat -> (c < n)%nat -> masked (bel n) X r c = bidpart m n X r c).
  { intros r c Hr Hc. unfold masked, bel, bidpart. destruct (Nat.leb_spec n m); [|lia].
    destruct (Nat.ltb_spec c n), (Nat.ltb_spec c r), (Nat.ltb_spec r n), (Nat.ltb_spec (r + 1) c), (Nat.eqb_spec r c), (Nat.eqb_spec c (r + 1)); cbn [andb orb]; auto; lia. }
  unfold bid_reduction. cbv zeta. rewrite EP in I1, I3. rewrite EZ in I2, I3. repeat apply Logic.conj; auto.
  - intros i j Hi Hj. rewrite I3 by auto. apply mmul_ext; auto. intros k Hk. apply mmul_ext; auto.
  - intros i j Hi Hj. unfold bidpart. destruct (Nat.leb_spec n m); [|lia]. destruct (Nat.eqb_spec i j) as [->|]; cbn [orb]; [apply I4; auto|].
    destruct (Nat.eqb_spec j (i + 1)) as [->|]; [|apply conj_0]. apply I4; lia.
Qed.
Lemma bidinv_wide m n X0 X tv tw : (m < n)%nat -> bidinv n m (ctr X0) m (ctr X) tw tv -> bid_reduction m n X0 X tv tw.
Proof.
  intros Hmn (I1 & I2 & I3 & I4). replace (Nat.min m (m - 1)) with (m - 1)%nat in * by lia.
  assert (EP : mprod n (gH1 (ctr X) tw) m = bidz m n X tw) by (unfold bidz; destruct (Nat.leb_spec n m); [lia|reflexivity]).
  assert (EZ : forall r c, (r < m)%nat -> (c < m)%nat -> mprod m (gH2 m (ctr X) tv) (m - 1) r c = bidq m n X tv r c).
  { intros r c Hr Hc. unfold bidq. destruct (Nat.leb_spec n m); [lia|]. apply mprod_ext; auto. intros i r' c' Hi Hr' Hc'. unfold gH2. apply refl_ext; apply subvec_ext; intros; apply ctr_ctr. }
  assert (EB : forall r c, (r < n)%nat -> (c < m)%nat -> masked (bel m) (ctr X) r c = ctr (bidpart m n X) r c).
  { intros r c Hr Hc. unfold masked, bel, bidpart, ctr. destruct (Nat.leb_spec n m); [lia|].
    destruct (Nat.ltb_spec c m), (Nat.ltb_spec c r), (Nat.ltb_spec r m), (Nat.ltb_spec (r + 1) c), (Nat.eqb_spec c r), (Nat.eqb_spec c (r + 1)); cbn [andb orb]; auto; try lia; rewrite conj_0; auto. }
  unfold bid_reduction. cbv zeta. rewrite EP in I1, I3. repeat apply Logic.conj; auto.
  - eapply unitary_ext; [exact EZ|exact I2].
  - intros i j Hi Hj. set (B := bidpart m n X) in *. set (Z := bidz m n X tw) in *. set (Q := bidq m n X tv) in *.
    rewrite <- (ctr_ctr X0). change (ctr (ctr X0) i j) with (conj (ctr X0 j i)). rewrite I3 by auto.
    transitivity (ctr (mmul m (mmul n Z (ctr B)) (ctr Q)) i j).
    { match goal with |- conj ?x = ctr ?F ?a ?b => change (conj x = conj (F b a)) end. f_equal. apply mmul_ext; intros l Hl; [|unfold ctr; f_equal; auto]. apply mmul_ext; auto. }
    rewrite ctr_mmul. transitivity (mmul m Q (mmul n B (ctr Z)) i j); [|apply mmul_assoc].
    apply mmul_ext; intros l Hl; [apply ctr_ctr|]. rewrite ctr_mmul. apply mmul_ext; intros; auto. apply ctr_ctr.
  - intros i j Hi Hj. unfold bidpart. destruct (Nat.leb_spec n m); [lia|]. destruct (Nat.eqb_spec i j) as [->|]; cbn [orb].
    + destruct (I4 j Hi) as [K _]. unfold ctr in K. rewrite conj_conj in K. auto.
    + destruct (Nat.eqb_spec i (j + 1)) as [->|]; [|apply conj_0]. destruct (I4 j ltac:(lia)) as [_ K]. specialize (K ltac:(lia)). unfold ctr in K. rewrite conj_conj in K. auto.
Qed.

Lemma gebrd_work_run h st bt hsm m n nbo A tauv tauw work s : hconst_ok h st bt hsm -> nr A = m -> nc A = n -> nc tauv = 1%nat -> nc tauw = 1%nat ->
  (Nat.min m n <= nr tauv)%nat -> (Nat.min m n <= nr tauw)%nat -> vinj A -> vinj tauv -> vinj tauw -> disj A tauv -> disj A tauw -> disj tauv tauw ->
  disj (lview work) A -> disj (lview work) tauv -> disj (lview work) tauw -> (fro2 m n (val A s) <= bt * bt)%R ->
  lok work -> contiguous work = true -> ((m + n) * Nat.min nbo (Nat.min m n) <= lm work * ln work)%nat -> (0 < nbo \/ Nat.min m n = 0)%nat ->
  runs (gebrd_work h nbo A tauv tauw work) s (fun r s' => r = 0%Z /\
    bid_reduction m n (val A s) (val A s') (vval tauv s') (vval tauw s') /\
    (forall l, ~ inview A l -> ~ inview tauv l -> ~ inview tauw l -> ~ inview (lview work) l -> mem s' l = mem s l) /\ imem s' = imem s).
Proof.
  intros Hh HA1 HA2 Hv1 Hw1 Hlv Hlw IA Iv Iw DAv DAw Dvw WA Wv Ww HN W1 W2 W3 Hnb.
  unfold runs, gebrd_work, gebrd_nb. cbv zeta. rewrite HA1, HA2. set (nb := Nat.min nbo (Nat.min m n)) in *.
  rewrite Nat.mul_add_distr_r in W3. apply wp_bind.
  apply wp_wk_matc; [auto|auto|lia|]. intros X r1 X1 X2 X3 X4 X5 X6 X7 X8 X9. apply wp_bind. cbn [fst snd].
  apply wp_wk_matc; [auto|auto|lia|]. intros Y r2 Y1 Y2 Y3 Y4 Y5 Y6 Y7 Y8 Y9. cbn [fst snd].
  assert (DXY : disj X Y) by (eapply disj_inc; [|exact Y8|exact X4]; auto).
  apply wp_bind. eapply wp_use; [apply laset_run; [reflexivity|exact X3]|]. intros u0 s1 HL. cbv beta in HL. destruct HL as (_ & A1 & A2).
  apply wp_bind. eapply wp_use; [apply laset_run; [reflexivity|exact Y3]|]. intros u1 s2 HL. cbv beta in HL. destruct HL as (_ & B1 & B2).
  assert (F : forall l, ~ inview X l -> ~ inview Y l -> mem s2 l = mem s l).
  { intros l K1 K2. rewrite B1 by (intros (i & j & Hi & Hj & _ & ->); apply K2; exists i, j; auto). apply A1. intros (i & j & Hi & Hj & _ & ->); apply K1; exists i, j; auto. }
  assert (EA : forall r c, (r < m)%nat -> (c < n)%nat -> val A s r c = val A s2 r c).
  { intros r c Hr Hc. unfold val. symmetry. apply F; intros (i & j & Hi & Hj & K).
    - assert (KK : inview (lview work) (ad A r c)) by (apply X8; exists i, j; auto). destruct KK as (a & b & Ha & Hb & KK). apply (WA a b r c); auto; lia.
    - assert (KK : inview (lview work) (ad A r c)) by (apply X9, Y8; exists i, j; auto). destruct KK as (a & b & Ha & Hb & KK). apply (WA a b r c); auto; lia. }
  assert (DAX : disj A X) by (apply disj_sym; eapply disj_inc; [exact X8| |exact WA]; auto).
  assert (DAY : disj A Y) by (apply disj_sym; eapply disj_inc; [intros l Hl; apply X9, Y8, Hl| |exact WA]; auto).
  assert (DXv : disj X tauv) by (eapply disj_inc; [exact X8| |exact Wv]; auto).
  assert (DXw : disj X tauw) by (eapply disj_inc; [exact X8| |exact Ww]; auto).
  assert (DYv : disj Y tauv) by (eapply disj_inc; [intros l Hl; apply X9, Y8, Hl| |exact Wv]; auto).
  assert (DYw : disj Y tauw) by (eapply disj_inc; [intros l Hl; apply X9, Y8, Hl| |exact Ww]; auto).
  assert (FR : forall s3, fr A tauv tauw X Y s2 s3 -> (forall l, ~ inview A l -> ~ inview tauv l -> ~ inview tauw l -> ~ inview (lview work) l -> mem s3 l = mem s l) /\ imem s3 = imem s).
  { intros s3 [F1 F2]. split; [|congruence]. intros l K1 K2 K3 K4. assert (~ inview X l) by auto. assert (~ inview Y l) by auto. rewrite F1 by auto. auto. }
  apply wp_bind.
  match goal with |- wp ?P ?R noX s2 => assert (WU : wp P (fun _ s3 => bid_reduction m n (val A s) (val A s3) (vval tauv s3) (vval tauw s3) /\ fr A tauv tauw X Y s2 s3) noX s2) end.
  { destruct (Nat.le_gt_cases n m) as [Hmn|Hmn].
    - assert (G0 : gT A tauv tauw X Y s2 m n (val A s) 0 s2).
      { split; [|split; auto]. apply (bidinv_ext m n (val A s) Hmn 0 (val A s) (val A s2) (vval tauv s2) (vval tauw s2)); [lia|exact EA|auto|auto|apply bidinv_0; auto]. }
      eapply wp_conseq with (Q := fun _ s3 => gT A tauv tauw X Y s2 m n (val A s) n s3) (X := noX); [|intros u2 s3 [G1 G2]; split; auto; apply bidinv_tall; auto|auto].
      destruct (Nat.eq_dec n 0) as [->|Hn].
      { rewrite Nat.min_0_r. cbn [gebrd_loop]. rewrite HA1, HA2, Nat.min_0_r. cbn [Nat.ltb Nat.leb]. apply wp_ret. auto. }
      eapply loopT_run with (nb := nb); eauto; lia.
    - assert (G0 : gW A tauv tauw X Y s2 m n (ctr (val A s)) 0 s2).
      { split; [|split; auto]. apply (bidinv_ext n m (ctr (val A s)) ltac:(lia) 0 (ctr (val A s)) (ctr (val A s2)) (vval tauw s2) (vval tauv s2)); [lia| |auto|auto|apply bidinv_0; lia]. intros r c Hr Hc. unfold ctr. f_equal. auto. }
      eapply wp_conseq with (Q := fun _ s3 => gW A tauv tauw X Y s2 m n (ctr (val A s)) m s3) (X := noX); [|intros u2 s3 [G1 G2]; split; auto; apply bidinv_wide; auto|auto].
      destruct (Nat.eq_dec m 0) as [->|Hm].
      { cbn [Nat.min]. cbn [gebrd_loop]. rewrite HA1, HA2. cbn [Nat.min Nat.ltb Nat.leb]. apply wp_ret. auto. }
      eapply loopW_run with (nb := nb); eauto; try lia. rewrite fro2_ctr. auto. }
  eapply wp_use; [exact WU|]. intros u2 s3 HL. cbv beta in HL. destruct HL as [H1 H2]. apply wp_ret. split; auto.
Qed.
End P.
