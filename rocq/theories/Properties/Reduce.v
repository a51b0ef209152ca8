(** * C44-C46: reduction to Hessenberg, bidiagonal and tridiagonal form *)
From Coq Require Import Bool Arith ZArith Lia Reals Lra Ring Field.
From Verif.Core Require Import Scalar Prog View Slice Loops WorkEff Instances RealLaws.
From Verif.Spec Require Import LinAlg Outcome Norms Householder Reduce.
From Verif.Model Require Import Gemm Blas1 Blas2 Blas3 Legacy LaAux Norms Work Householder QGen QFact BlockQ Reduce.
From Verif.Proof Require Import SumLemmas SliceTac LegacyProof BlockAlg PotrfProof LarfProof LarfgProof QRProof WorkProof QGenProof QFactProof ReduceMath ReduceProof HessProof BidProof TridProof UnghrProof.
From Verif.Properties Require Import ExTac Work BlockQ.
From Verif.Properties Require Householder.
Local Open Scope T_scope.

(** the sizes the queries report *)
Definition hess_size (n ilo ihi : nat) : nat :=
  if (ilo + 1 <? ihi)%nat then wsize (wminmax (larf_worksize Right ihi (ihi - (ilo + 1))) (larf_worksize Left (ihi - (ilo + 1)) (n - (ilo + 1)))) else 0.
Definition bid_size (m n : nat) : nat :=
  if (1 <? n)%nat then if (1 <? m)%nat then wsize (wminmax (larf_worksize Left m (n - 1)) (larf_worksize Right (m - 1) (n - 1))) else wsize (larf_worksize Left m (n - 1)) else 0.
Definition unghr_size (nbo ilo ihi : nat) : nat :=
  let nh := (ihi - 1 - ilo)%nat in if (0 <? nh)%nat then ungq_bsize nbo Forward Columnwise nh nh nh else 0.

Section R.
Context {E : Env} {FL : FieldLaws E} {CL : ConjLaws E} {OL : ROrdLaws E} {QL : EqbLaws E} {XL : CplxLaws E} {RL : RLaws E} {NL : FinLaws E}.
Add Field Tf : fth.

(** what a caller of gehd2 sees: A0 = Q H Q^H, rows from [ihi] on and columns before [ilo] are unchanged, and so is
    tau outside ilo, ..., ihi-2 *)
Definition gehd2_result (n ilo ihi : nat) (A tau : view) (P : Z -> Prop) (s : state) (r : Z) (s' : state) : Prop :=
  r = 0%Z /\ hess_reduction n ilo ihi (val A s) (val A s') (vval tau s') /\
  (forall i j, (i < n)%nat -> (j < n)%nat -> (ihi <= i \/ j < ilo)%nat -> val A s' i j = val A s i j) /\
  (forall j, (j < nr tau)%nat -> (j < ilo \/ ihi <= j + 1)%nat -> vval tau s' j = vval tau s j) /\
  only_changes (fun l => inview A l \/ inview tau l \/ P l) s s'.
Lemma hinv_result ilo ihi n A tau work s s' : (ihi <= n)%nat -> hinv ilo ihi n A tau work s (ihi - 1 - ilo) s' -> gehd2_result n ilo ihi A tau (inview (lview work)) s 0%Z s'.
Proof.
  intros Hi (I1 & I2 & I3 & I4 & I5 & I6 & I7 & I8). split; auto. split; [|split; [|split; [|split; auto]]].
  4: { intros a Ha. apply I7; tauto. }
  - split; [exact I1|]. split.
    + intros i j Hr Hc. rewrite I2 by auto. apply mmul_ext; auto. intros l Hl. apply mmul_ext; auto. intros k Hk.
      unfold masked, hel, hesspart. destruct (Nat.leb_spec ilo l), (Nat.ltb_spec (l + 1) k), (Nat.ltb_spec k ihi), (Nat.ltb_spec l (ilo + (ihi - 1 - ilo))); cbn [andb]; auto; lia.
    + intros i H1 H2. specialize (I3 (i - ilo)%nat ltac:(lia)). replace (ilo + (i - ilo))%nat with i in I3 by lia. exact I3.
  - intros i j Hr Hc [H|H]; auto.
  - intros j Hj H. apply I6; auto. lia.
Qed.

Theorem gehd2_work_correct (h : hconst) (st bt hsm : R) (ilo ihi n : nat) (A tau : view) (work : lmat) (s : state) :
  hconst_ok h st bt hsm -> shape A n n -> nc tau = 1%nat -> (n - 1 <= nr tau)%nat -> vinj A -> vinj tau -> disj A tau ->
  disj (lview work) A -> disj (lview work) tau -> (0 < ihi <= n)%nat -> hess_input n ilo ihi (val A s) -> (fro2 n n (val A s) <= bt * bt)%R ->
  (ihi <= ilo + 2 \/ lok work /\ contiguous work = true /\ Nat.max ihi (n - ilo - 1) <= lm work * ln work)%nat ->
  returns (gehd2_work h ilo ihi A tau work) s (gehd2_result n ilo ihi A tau (inview (lview work)) s).
Proof.
  intros Hh [HS1 HS2] Ht Hl HI HIt HD W1 W2 Hi Hin HN HW. apply runs_inv.
  eapply wp_conseq; [apply (gehd2_work_run h st bt hsm ilo ihi n A tau work s); auto| |auto].
  intros r s' HL. cbv beta in HL. destruct HL as [-> HL]. apply hinv_result; auto; lia.
Qed.

Lemma hess_size_ok n ilo ihi : (ihi <= n)%nat -> (ihi <= ilo + 2 \/ Nat.max ihi (n - ilo - 1) <= hess_size n ilo ihi)%nat.
Proof.
  intros Hn. destruct (Nat.le_gt_cases ihi (ilo + 2)); auto. right. unfold hess_size. destruct (Nat.ltb_spec (ilo + 1) ihi); [|lia].
  match goal with |- context[wminmax ?a ?b] => destruct (minmax_size a b) as [S1 S2] end. apply Nat.max_lub; [etransitivity; [|exact S1]|etransitivity; [|exact S2]].
  - unfold larf_worksize, larf_worksize1, wsize. destruct (Nat.ltb_spec 0 (ihi - (ilo + 1))); [|lia]. destruct (Nat.ltb_spec 0 ihi); [|lia]. destruct (Nat.ltb_spec 0 (ihi - (ilo + 1) - 1)); [|lia]. cbn. lia.
  - unfold larf_worksize, larf_worksize1, wsize. destruct (Nat.ltb_spec 0 (ihi - (ilo + 1))); [|lia]. destruct (Nat.ltb_spec 0 (n - (ilo + 1))); [|lia]. destruct (Nat.ltb_spec 0 (ihi - (ilo + 1) - 1)); [|lia]. cbn. lia.
Qed.

(** a workspace allocated at [p] *)
Lemma alloc_gen p l (w : winfo) sz (K : lmat -> M Z) (Q : Z -> state -> Prop) s : wsize w = sz ->
  (forall s1 work, lok work -> contiguous work = true -> (lm work * ln work)%nat = sz -> (forall a, inview (lview work) a <-> block p sz a) ->
     (forall A, fresh p sz A -> disj (lview work) A) ->
     (forall a, ~ block p sz a -> mem s1 a = mem s a) -> imem s1 = imem s -> wp (K work) Q noX s1) ->
  wp (work <- new_work p l w;; K work) Q noX s.
Proof.
  intros Ew HK. apply wp_bind. apply wp_new_work. rewrite Ew. intros s1 K1 K2. set (work := new_lmat0 _ _ p l).
  apply HK; auto.
  - apply lok_new0.
  - apply contig_new0.
  - intros a. unfold work. rewrite new_inview. unfold wsize in Ew. rewrite Ew. reflexivity.
  - intros A HA. apply fresh_disj. unfold wsize in Ew. rewrite Ew. auto.
Qed.

Theorem gehd2_correct (p : Z) (l : layout_t) (h : hconst) (st bt hsm : R) (ilo ihi n : nat) (A tau : view) (s : state) :
  hconst_ok h st bt hsm -> shape A n n -> nc tau = 1%nat -> (n - 1 <= nr tau)%nat -> vinj A -> vinj tau -> disj A tau ->
  (0 < ihi <= n)%nat -> hess_input n ilo ihi (val A s) -> (fro2 n n (val A s) <= bt * bt)%R ->
  fresh p (hess_size n ilo ihi) A -> fresh p (hess_size n ilo ihi) tau ->
  returns (gehd2 p l h ilo ihi A tau) s (gehd2_result n ilo ihi A tau (block p (hess_size n ilo ihi)) s).
Proof.
  intros Hh [HS1 HS2] Ht Hl HI HIt HD Hi Hin HN F1 F2. apply runs_inv. unfold runs, gehd2, gehd2_worksize. cbv zeta. rewrite HS1, HS2.
  apply wp_bind, wp_check; [apply Nat.eqb_refl|].
  apply wp_bind, wp_check. { destruct (Nat.eqb_spec n 0), (Nat.ltb_spec (nr tau) (n - 1)); try lia; reflexivity. }
  destruct (Nat.leb_spec n 0); [lia|]. apply wp_bind.
  eapply wp_use with (Q := fun w s1 => wsize w = hess_size n ilo ihi /\ s1 = s).
  { unfold hess_size. destruct (Nat.ltb_spec (ilo + 1) ihi).
    - destruct (Nat.ltb_spec 0 n); [|lia]. cbn [andb]. apply wp_bind, wp_slcol; [lia..|]. apply wp_bind, wp_slc; [lia..|]. apply wp_bind; apply wp_rd; [lia|lia|].
      apply wp_bind, wp_slc; [lia..|]. apply wp_ret. cbn [nr nc subv]. rewrite Nat.sub_0_r. auto.
    - apply wp_ret. auto. }
  intros w s0 HL. cbv beta in HL. destruct HL as [Ew ->]. apply (alloc_gen p l w _ _ _ s Ew). intros s1 work W1 W2 W3 W4 W5 M1 M2.
  assert (EA : forall i j, (i < n)%nat -> (j < n)%nat -> val A s1 i j = val A s i j) by (intros; eapply fresh_val; eauto; lia).
  assert (ET : forall j, (j < nr tau)%nat -> vval tau s1 j = vval tau s j) by (intros; eapply fresh_val; eauto; lia).
  eapply wp_conseq; [apply (gehd2_work_run h st bt hsm ilo ihi n A tau work s1); auto| |auto].
  - intros i j Hr Hc Hb. rewrite EA by auto. apply Hin; auto.
  - rewrite (fro2_ext n n _ (val A s)) by auto. auto.
  - rewrite W3. destruct (hess_size_ok n ilo ihi); auto. lia.
  - intros r s' HL. cbv beta in HL. destruct HL as [-> HL]. apply hinv_result in HL; [|lia]. destruct HL as (_ & (L1 & L2 & L3) & L4 & L5 & L6 & L7).
    split; auto. split; [|split; [|split; [|split; [|congruence]]]].
    + split; [exact L1|]. split; [|exact L3]. intros i j Hr Hc. rewrite <- EA by auto. apply L2; auto.
    + intros i j Hr Hc Hb. rewrite L4 by auto. auto.
    + intros j Hj Hb. rewrite L5 by auto. auto.
    + intros a Ha. rewrite L6; [apply M1; tauto|]. rewrite W4. tauto.
Qed.

(** unghr overwrites A with the matrix Q that its subdiagonal columns and tau stand for *)
Theorem unghr_work_correct_partial (nbo ilo ihi n : nat) (A tau : view) (work : lmat) (s : state) :
  shape A n n -> nc tau = 1%nat -> (n <= nr tau + 1)%nat -> vinj A -> disj tau A -> (ilo < n)%nat -> (0 < ihi <= n)%nat -> (ilo <= ihi)%nat -> (0 < nbo)%nat ->
  disj (lview work) A -> disj (lview work) tau ->
  (let nh := ihi - 1 - ilo in nh = 0 \/ lok work /\ contiguous work = true /\ ungq_need (Nat.min nbo nh) Forward nh nh <= lm work * ln work)%nat ->
  returns (unghr_work nbo ilo ihi A tau work) s (fun r s' => r = 0%Z /\
    (forall i j, (i < n)%nat -> (j < n)%nat -> val A s' i j = hessq n ilo ihi (val A s) (vval tau s) i j) /\
    only_changes (fun l => inview A l \/ inview (lview work) l) s s').
Proof.
  intros [HS1 HS2] Ht Hl HI HD H1 H2 H3 Hb W1 W2 HW. apply runs_inv.
  eapply wp_conseq; [apply (unghr_work_run nbo ilo ihi n A tau work s); auto| |auto].
  intros r s' HL. cbv beta in HL. destruct HL as [-> (L1 & L2 & L3)]. rewrite HS1, HS2 in L1. repeat split; auto.
Qed.
Theorem unghr_correct_partial (p : Z) (l : layout_t) (nbo ilo ihi n : nat) (A tau : view) (s : state) :
  shape A n n -> nc tau = 1%nat -> (n <= nr tau + 1)%nat -> vinj A -> disj tau A -> (ilo < n)%nat -> (0 < ihi <= n)%nat -> (ilo <= ihi)%nat -> (0 < nbo)%nat ->
  fresh p (unghr_size nbo ilo ihi) A -> fresh p (unghr_size nbo ilo ihi) tau ->
  returns (unghr p l nbo ilo ihi A tau) s (fun r s' => r = 0%Z /\
    (forall i j, (i < n)%nat -> (j < n)%nat -> val A s' i j = hessq n ilo ihi (val A s) (vval tau s) i j) /\
    only_changes (fun l => inview A l \/ block p (unghr_size nbo ilo ihi) l) s s').
Proof.
  intros [HS1 HS2] Ht Hl HI HD H1 H2 H3 Hb F1 F2. apply runs_inv. unfold runs, unghr, unghr_worksize. cbv zeta.
  set (nh := (ihi - 1 - ilo)%nat). replace (if (ilo + 1 <? ihi)%nat then nh else 0%nat) with nh by (unfold nh; destruct (Nat.ltb_spec (ilo + 1) ihi); lia).
  apply wp_bind. eapply wp_use with (Q := fun w s1 => wsize w = unghr_size nbo ilo ihi /\ s1 = s).
  { unfold unghr_size. fold nh. destruct (Nat.ltb_spec 0 nh).
    - destruct (Nat.ltb_spec (ilo + 1) ihi); [|unfold nh in *; lia]. cbn [andb]. apply wp_bind, wp_slc; [lia..|]. apply wp_bind, wp_slvec; [unfold nh in *; lia..|].
      apply ungq_query; try (cbn; unfold nh in *; lia); try (split; cbn; auto; unfold nh; lia).
    - apply wp_ret. auto. }
  intros w s0 HL. cbv beta in HL. destruct HL as [Ew ->]. apply (alloc_gen p l w _ _ _ s Ew). intros s1 work W1 W2 W3 W4 W5 M1 M2.
  assert (EA : forall i j, (i < n)%nat -> (j < n)%nat -> val A s1 i j = val A s i j) by (intros; eapply fresh_val; eauto; lia).
  assert (ET : forall j, (j < nr tau)%nat -> vval tau s1 j = vval tau s j) by (intros; eapply fresh_val; eauto; lia).
  eapply wp_conseq; [apply (unghr_work_run nbo ilo ihi n A tau work s1); auto| |auto].
  - fold nh. rewrite W3. destruct (Nat.eq_dec nh 0); auto. right. repeat apply Logic.conj; auto. unfold unghr_size. fold nh. destruct (Nat.ltb_spec 0 nh); [|lia].
    pose proof (ungq_bsize_ok nbo Forward Columnwise nh nh nh ltac:(cbn; lia)) as K. rewrite Nat.min_id in K. exact K.
  - intros r s' HL. cbv beta in HL. destruct HL as [-> (L1 & L2 & L3)]. rewrite HS1, HS2 in L1. split; auto. split; [|split; [|congruence]].
    + intros i j Hi Hj. rewrite L1 by auto. apply mprod_ext; auto. intros t r c Ht' _ _. rewrite ET by lia. apply refl_ext; apply subvec_ext; intros q Hq; apply EA; lia.
    + intros a Ha. rewrite L2; [apply M1; tauto|tauto|]. rewrite W4. tauto.
Qed.

(** gehd2 followed by unghr: A0 = Q H Q^H, with the matrix Q that unghr has left in A, and it is unitary *)
Theorem gehd2_unghr_correct (p1 p2 : Z) (l1 l2 : layout_t) (h : hconst) (st bt hsm : R) (nbo ilo ihi n : nat) (A tau : view) (s : state) :
  hconst_ok h st bt hsm -> shape A n n -> nc tau = 1%nat -> (n - 1 <= nr tau)%nat -> vinj A -> vinj tau -> disj A tau ->
  (ilo < n)%nat -> (0 < ihi <= n)%nat -> (ilo <= ihi)%nat -> (0 < nbo)%nat -> hess_input n ilo ihi (val A s) -> (fro2 n n (val A s) <= bt * bt)%R ->
  fresh p1 (hess_size n ilo ihi) A -> fresh p1 (hess_size n ilo ihi) tau -> fresh p2 (unghr_size nbo ilo ihi) A -> fresh p2 (unghr_size nbo ilo ihi) tau ->
  exists s1, gehd2 p1 l1 h ilo ihi A tau s = Ok 0%Z s1 /\ exists s2, unghr p2 l2 nbo ilo ihi A tau s1 = Ok 0%Z s2 /\
    unitary n (val A s2) /\
    (forall i j, (i < n)%nat -> (j < n)%nat -> val A s i j = mmul n (mmul n (val A s2) (hesspart ilo ihi (val A s1))) (ctr (val A s2)) i j).
Proof.
  intros Hh HS Ht Hl HI HIt HD H1 H2 H3 Hb Hin HN F1 F2 G1 G2.
  destruct (gehd2_correct p1 l1 h st bt hsm ilo ihi n A tau s) as (r & s1 & K & -> & (L1 & L2 & L3) & _); auto.
  exists s1. split; auto.
  destruct (unghr_correct_partial p2 l2 nbo ilo ihi n A tau s1) as (r & s2 & K2 & -> & J1 & J2); auto; [lia|apply disj_sym; auto|].
  exists s2. split; auto. set (Q := hessq n ilo ihi (val A s1) (vval tau s1)) in *. split.
  - apply (unitary_ext n Q); auto. intros; symmetry; auto.
  - intros i j Hi Hj. rewrite L2 by auto. apply mmul_ext; auto; intros k Hk; [|unfold ctr; f_equal; symmetry; auto].
    apply mmul_ext; auto. intros q Hq. symmetry. auto.
Qed.

(** ** Bidiagonal form *)
Definition gebd2_result (m n : nat) (A tauv tauw : view) (P : Z -> Prop) (s : state) (r : Z) (s' : state) : Prop :=
  r = 0%Z /\ bid_reduction m n (val A s) (val A s') (vval tauv s') (vval tauw s') /\
  only_changes (fun l => inview A l \/ inview tauv l \/ inview tauw l \/ P l) s s'.
Theorem gebd2_work_correct (h : hconst) (st bt hsm : R) (m n : nat) (A tauv tauw : view) (work : lmat) (s : state) :
  hconst_ok h st bt hsm -> shape A m n -> nc tauv = 1%nat -> nc tauw = 1%nat -> (Nat.min m n <= nr tauv)%nat -> (Nat.min m n <= nr tauw)%nat ->
  vinj A -> vinj tauv -> vinj tauw -> disj A tauv -> disj A tauw -> disj tauv tauw ->
  disj (lview work) A -> disj (lview work) tauv -> disj (lview work) tauw -> (fro2 m n (val A s) <= bt * bt)%R ->
  (m <= 1 \/ n <= 1 \/ lok work /\ contiguous work = true /\ n - 1 <= lm work * ln work /\ (n <= 2 \/ m - 1 <= lm work * ln work))%nat ->
  returns (gebd2_work h A tauv tauw work) s (gebd2_result m n A tauv tauw (inview (lview work)) s).
Proof.
  intros Hh [<- <-] Hv Hw Hlv Hlw HI HIv HIw D1 D2 D3 W1 W2 W3 HN HW. apply runs_inv.
  eapply wp_conseq; [apply (gebd2_work_run h st bt hsm A tauv tauw work s); auto| |auto].
  intros r s' HL. cbv beta in HL. destruct HL as [-> (L1 & L2 & L3)]. split; auto. split; auto. split; auto. intros a Ha. apply L2; tauto.
Qed.
Lemma bid_size_ok m n : (m <= 1 \/ n <= 1 \/ n - 1 <= bid_size m n /\ (n <= 2 \/ m - 1 <= bid_size m n))%nat.
Proof.
  destruct (Nat.le_gt_cases m 1); auto. destruct (Nat.le_gt_cases n 1); auto. right. right. unfold bid_size. destruct (Nat.ltb_spec 1 n); [|lia]. destruct (Nat.ltb_spec 1 m); [|lia].
  match goal with |- context[wminmax ?a ?b] => destruct (minmax_size a b) as [S1 S2] end. split; [|destruct (Nat.le_gt_cases n 2); auto; right]; [etransitivity; [|exact S1]|etransitivity; [|exact S2]].
  - unfold larf_worksize, larf_worksize1, wsize. destruct (Nat.ltb_spec 0 m); [|lia]. destruct (Nat.ltb_spec 0 (m - 1)); [|lia]. destruct (Nat.ltb_spec 0 (n - 1)); [|lia]. cbn. lia.
  - unfold larf_worksize, larf_worksize1, wsize. destruct (Nat.ltb_spec 0 (n - 1)); [|lia]. destruct (Nat.ltb_spec 0 (m - 1)); [|lia]. destruct (Nat.ltb_spec 0 (n - 1 - 1)); [|lia]. cbn. lia.
Qed.
(** Missing, because false of the code (gebd2_empty_refuted): m = 0, more than one column and an empty tauv *)
Theorem gebd2_correct_partial (p : Z) (l : layout_t) (h : hconst) (st bt hsm : R) (m n : nat) (A tauv tauw : view) (s : state) :
  hconst_ok h st bt hsm -> shape A m n -> nc tauv = 1%nat -> nc tauw = 1%nat -> (Nat.min m n <= nr tauv)%nat -> (Nat.min m n <= nr tauw)%nat ->
  vinj A -> vinj tauv -> vinj tauw -> disj A tauv -> disj A tauw -> disj tauv tauw -> (fro2 m n (val A s) <= bt * bt)%R ->
  (0 < nr tauv \/ n <= 1)%nat ->
  fresh p (bid_size m n) A -> fresh p (bid_size m n) tauv -> fresh p (bid_size m n) tauw ->
  returns (gebd2 p l h A tauv tauw) s (gebd2_result m n A tauv tauw (block p (bid_size m n)) s).
Proof.
  intros Hh HS Hv Hw Hlv Hlw HI HIv HIw D1 D2 D3 HN Hne F1 F2 F3. pose proof HS as [Hm Hn]. apply runs_inv. unfold runs, gebd2, gebd2_worksize. cbv zeta. rewrite Hm, Hn.
  destruct (Nat.leb_spec n 0) as [Hz|Hz].
  { apply wp_ret. split; auto. split; [|split; auto]. unfold bid_reduction. replace n with 0%nat by lia. unfold bidq, bidz. cbn [Nat.leb mprod Nat.sub].
    split; [apply unitary_id|]. split; [apply unitary_id|]. split; intros; lia. }
  apply wp_bind.
  eapply wp_use with (Q := fun w s1 => wsize w = bid_size m n /\ s1 = s).
  { unfold bid_size. destruct (Nat.ltb_spec 1 n).
    - apply wp_bind; apply wp_rd; [lia|lia|]. destruct (Nat.ltb_spec 1 m); [apply wp_bind; apply wp_rd; [lia|lia|]|]; apply wp_ret; auto.
    - apply wp_ret. auto. }
  intros w s0 HL. cbv beta in HL. destruct HL as [Ew ->]. apply (alloc_gen p l w _ _ _ s Ew). intros s1 work W1 W2 W3 W4 W5 M1 M2.
  assert (EA : forall i j, (i < m)%nat -> (j < n)%nat -> val A s1 i j = val A s i j) by (intros; eapply fresh_val; eauto; lia).
  eapply wp_conseq; [apply (gebd2_work_run h st bt hsm A tauv tauw work s1); auto; rewrite ?Hm, ?Hn; auto| |auto].
  - rewrite (fro2_ext m n _ (val A s)) by auto. auto.
  - rewrite W3. destruct (bid_size_ok m n) as [|[|[]]]; auto 10.
  - intros r s' HL. cbv beta in HL. destruct HL as [-> (L1 & L2 & L3)]. rewrite Hm, Hn in L1. destruct L1 as (B1 & B2 & B3 & B4).
    split; auto. split; [|split; [|congruence]].
    + split; [exact B1|]. split; [exact B2|]. split; [|exact B4]. intros i j Hi Hj. rewrite <- EA by auto. apply B3; auto.
    + intros a Ha. rewrite L2; [apply M1; tauto|tauto|tauto|tauto|]. rewrite W4. tauto.
Qed.

(** ** Tridiagonal form.  The matrix reduced is the Hermitian one that the chosen triangle stands for; the other
    triangle is not touched *)
Theorem hetd2_correct (h : hconst) (st bt hsm : R) (u : uplo_t) (n : nat) (A tau : view) (s : state) :
  hconst_ok h st bt hsm -> u = Upper \/ u = Lower -> shape A n n -> nc tau = 1%nat -> (0 < n)%nat -> (n - 1 <= nr tau)%nat -> vinj A -> vinj tau -> disj A tau ->
  (fro2 n n (herm u (val A s)) <= bt * bt)%R ->
  returns (hetd2 h u A tau) s (fun r s' => r = 0%Z /\ trid_reduction u n (herm u (val A s)) (val A s') (vval tau s') /\
    only_changes (fun l => cells A (in_triangle u) l \/ cells tau (fun i _ => i < n - 1)%nat l) s s').
Proof.
  intros Hh Hu [HS1 HS2] Ht Hn Hl HI HIt HD HN. apply runs_inv.
  eapply wp_conseq; [apply (hetd2_run h st bt hsm u n A tau s); auto| |auto].
  intros r s' HL. cbv beta in HL. destruct HL as [-> (L1 & L2 & L3 & L4 & L5)]. split; auto. split; auto. split; auto.
  intros a Ha.
  destruct (inview_dec A a) as [(i & j & Hi & Hj & ->)|NA]; [|destruct (inview_dec tau a) as [(i & j & Hi & Hj & ->)|NT]; [|auto]].
  - apply L2; try lia. destruct (intri u i j) eqn:Ei; auto. exfalso. apply Ha. left. exists i, j. repeat apply Logic.conj; auto. destruct Hu as [->| ->]; cbn in Ei |- *; apply Nat.leb_le in Ei; auto.
  - replace j with 0%nat by lia. apply L3. split; auto. destruct (Nat.lt_ge_cases i (n - 1)); auto. exfalso. apply Ha. right. exists i, j. repeat apply Logic.conj; auto.
Qed.
End R.

(** ** What the code does not do *)
(** The unsigned [n - 1] of the length check wraps around: gehd2 and hetd2 reject the empty matrix *)
Theorem gehd2_empty_refuted {E : Env} p l h ilo ihi A tau s : check_input = true -> shape A 0 0 -> rejects (gehd2 p l h ilo ihi A tau) s.
Proof. intros Hc [H1 H2]. unfold rejects, gehd2, bind, check. rewrite H1, H2, Hc. reflexivity. Qed.
Theorem hetd2_empty_refuted {E : Env} h u A tau s : check_input = true -> shape A 0 0 -> rejects (hetd2 h u A tau) s.
Proof. intros Hc [H1 H2]. unfold rejects, hetd2, bind, check. rewrite H1, H2, Hc. destruct u; reflexivity. Qed.
(** With ihi = 0, which the documentation allows for ilo = 0, [ihi - 1] wraps around and the loop leaves the matrix *)
Theorem gehd2_ihi0_refuted {E : Env} h A tau work s n : shape A n n -> (0 < n)%nat -> (n - 1 <= nr tau)%nat -> gehd2_work h 0 0 A tau work s = UB.
Proof.
  intros [H1 H2] Hn Ht. unfold gehd2_work, bind, check. cbv zeta. rewrite H1, H2, Nat.eqb_refl. destruct (Nat.eqb_spec n 0); [lia|]. destruct (Nat.ltb_spec (nr tau) (n - 1)); [lia|].
  cbn [negb orb]. rewrite !andb_false_r. unfold ret at 1 2. destruct (Nat.leb_spec n 0); [lia|]. reflexivity.
Qed.
Theorem unghr_ihi0_refuted {E : Env} p l nbo A tau s n : shape A n n -> (n <= nr tau + 1)%nat -> unghr p l nbo 0 0 A tau s = UB.
Proof.
  intros [H1 H2] Ht. unfold unghr, unghr_worksize, bind. cbn [Nat.ltb Nat.leb Nat.add andb]. unfold ret at 1. destruct (new_work p l (winfo_v 0) s) eqn:En; try (cbn in En; discriminate).
  unfold unghr_work, bind, check. cbv zeta. rewrite H1, H2, Nat.min_id. destruct (Nat.ltb_spec (nr tau + 1) n); [lia|]. cbn [negb]. rewrite andb_false_r. reflexivity.
Qed.
(** ilo = ihi = n, which the documentation allows, makes unghr write to column n: here for a 1-by-1 matrix *)
Theorem unghr_ilo_n_refuted {E : Env} p l nbo A tau s : shape A 1 1 -> unghr p l nbo 1 1 A tau s = UB.
Proof.
  intros [H1 H2]. unfold unghr, unghr_worksize, bind. cbn [Nat.ltb Nat.leb Nat.add Nat.sub andb]. unfold ret at 1. destruct (new_work p l (winfo_v 0) s) as [w s1| | |] eqn:En; try (cbn in En; discriminate).
  unfold unghr_work, bind, check. cbv zeta. rewrite H1, H2. cbn [Nat.min]. replace (nr tau + 1 <? 1)%nat with false by (symmetry; apply Nat.ltb_ge; lia). cbn [negb]. rewrite andb_false_r. unfold ret at 1.
  cbn [assert_ Nat.ltb Nat.leb]. unfold ret at 1. unfold fordown, folddown. cbn [Nat.sub Nat.add fornd]. unfold ret at 1.
  unfold forup, foldup. cbn [Nat.sub Nat.add forn bind ret]. unfold wr, inb. rewrite H1, H2. reflexivity.
Qed.
(** On a matrix without rows and tauv of the right length 0, gebd2 evaluates tauv[0] to query the workspace *)
Theorem gebd2_empty_refuted {E : Env} p l h A tauv tauw s n : shape A 0 n -> isvec tauv 0 -> (1 < n)%nat -> gebd2 p l h A tauv tauw s = UB.
Proof.
  intros [Hm Hn] [Ht _] H1. unfold gebd2, gebd2_worksize, bind. rewrite Hn. destruct (Nat.leb_spec n 0); [lia|]. destruct (Nat.ltb_spec 1 n); [|lia]. unfold rdv, rd, inb. rewrite Ht. reflexivity.
Qed.
Example gebd2_empty_example (s : @state RE) : gebd2 (E:=RE) 100 ColMajor (Householder.ex_h RE) (lview (mklmat 0 3 0 1 ColMajor)) (vview (mklvec 0 20 1 Forward)) (vview (mklvec 0 30 1 Forward)) s = UB.
Proof. apply (gebd2_empty_refuted (E:=RE) _ _ _ _ _ _ s 3); try split; try reflexivity; auto. Qed.

(** ** Concrete cases: the 3-by-3 matrix with elements 0, ..., 8 *)
Definition exG : view := lview (mklmat 3 3 0 3 ColMajor).
Definition exGt : view := vview (mklvec 3 20 1 Forward).
Definition exGw : view := vview (mklvec 3 30 1 Forward).
#[local] Hint Unfold exG exGt exGw : exv.
Definition exG_s : @state RE := mkst RE (fun l => IZR l) (fun _ => 0%Z).
Lemma exG_fresh k : fresh 100 k exG /\ fresh 100 k exGt /\ fresh 100 k exGw.
Proof.
  repeat apply Logic.conj; intros l (i & j & Hi & Hj & ->); left; unfold exG, exGt, exGw in *; cbn in Hi, Hj; (destruct i as [|[|[|]]]; [| | |lia]); (destruct j as [|[|[|]]]; [| | |lia]); try (exfalso; lia); cbn; lia.
Qed.
Lemma exG_norm (F : nat -> nat -> R) : (forall i j, (i < 3)%nat -> (j < 3)%nat -> (-8 <= F i j <= 8)%R) -> (fro2 (E:=RE) 3 3 F <= 1000 * 1000)%R.
Proof.
  intros H. unfold fro2, vsq. cbn [rsum]. unfold modulus. cbn.
  assert (K : forall i j, (i < 3)%nat -> (j < 3)%nat -> (Rabs (F i j) * Rabs (F i j) <= 64)%R). { intros i j Hi Hj. specialize (H i j Hi Hj). unfold Rabs. destruct Rcase_abs; nra. }
  pose proof (K 0%nat 0%nat ltac:(lia) ltac:(lia)). pose proof (K 0%nat 1%nat ltac:(lia) ltac:(lia)). pose proof (K 0%nat 2%nat ltac:(lia) ltac:(lia)).
  pose proof (K 1%nat 0%nat ltac:(lia) ltac:(lia)). pose proof (K 1%nat 1%nat ltac:(lia) ltac:(lia)). pose proof (K 1%nat 2%nat ltac:(lia) ltac:(lia)).
  pose proof (K 2%nat 0%nat ltac:(lia) ltac:(lia)). pose proof (K 2%nat 1%nat ltac:(lia) ltac:(lia)). pose proof (K 2%nat 2%nat ltac:(lia) ltac:(lia)). lra.
Qed.
Lemma exG_val i j : (i < 3)%nat -> (j < 3)%nat -> (-8 <= val (E:=RE) exG exG_s i j <= 8)%R.
Proof. intros Hi Hj. (destruct i as [|[|[|]]]; [| | |lia]); (destruct j as [|[|[|]]]; [| | |lia]); cbn; lra. Qed.
Example gehd2_unghr_example : exists s1, gehd2 (E:=RE) 100 ColMajor (Householder.ex_h RE) 0 3 exG exGt exG_s = Ok 0%Z s1 /\ exists s2, unghr (E:=RE) 100 ColMajor 2 0 3 exG exGt s1 = Ok 0%Z s2 /\
  unitary (E:=RE) 3 (val exG s2) /\ (forall i j, (i < 3)%nat -> (j < 3)%nat -> val exG exG_s i j = mmul (E:=RE) 3 (mmul (E:=RE) 3 (val exG s2) (hesspart (E:=RE) 0 3 (val exG s1))) (ctr (E:=RE) (val exG s2)) i j).
Proof.
  apply (gehd2_unghr_correct (E:=RE) 100 100 ColMajor ColMajor (Householder.ex_h RE) (1/8) 1000 (1/1000) 2 0 3 3 exG exGt exG_s); auto; try (cbn; lia); try apply exG_fresh; try (exv; fail).
  - apply (Householder.ex_h_ok RE).
  - intros i j Hi Hj K. lia.
  - apply exG_norm, exG_val.
Qed.
Example gebd2_example : returns (gebd2 (E:=RE) 100 ColMajor (Householder.ex_h RE) exG exGt exGw) exG_s (gebd2_result (E:=RE) 3 3 exG exGt exGw (block 100 (bid_size 3 3)) exG_s).
Proof.
  apply (gebd2_correct_partial (E:=RE) 100 ColMajor (Householder.ex_h RE) (1/8) 1000 (1/1000)); auto; try (cbn; lia); try apply exG_fresh; try (exv; fail).
  - apply (Householder.ex_h_ok RE).
  - apply exG_norm, exG_val.
Qed.
Example hetd2_example u : u = Upper \/ u = Lower -> returns (hetd2 (E:=RE) (Householder.ex_h RE) u exG exGt) exG_s (fun r s' => r = 0%Z /\
  trid_reduction (E:=RE) u 3 (herm (E:=RE) u (val exG exG_s)) (val exG s') (vval exGt s') /\
  only_changes (fun l => cells exG (in_triangle u) l \/ cells exGt (fun i _ => i < 3 - 1)%nat l) exG_s s').
Proof.
  intros Hu. apply (hetd2_correct (E:=RE) (Householder.ex_h RE) (1/8) 1000 (1/1000)); auto; try (cbn; lia); try (exv; fail).
  - apply (Householder.ex_h_ok RE).
  - apply exG_norm. intros i j Hi Hj. unfold herm. destruct (i =? j)%nat; [apply exG_val; auto|]. destruct (intri u i j); apply exG_val; auto.
Qed.
