(** * C44-C46: generating and applying the unitary matrices of the reductions: ungtr, ungbr, unmhr *)
From Coq Require Import Bool Arith ZArith Lia Reals Lra Ring Field.
From Verif.Core Require Import Scalar Prog View Slice Loops WorkEff Instances RealLaws.
From Verif.Spec Require Import LinAlg Outcome Norms Householder Reduce.
From Verif.Model Require Import Gemm Blas1 Blas2 Blas3 Legacy LaAux Norms Work Householder QGen QFact BlockQ Reduce ReduceQ.
From Verif.Proof Require Import SumLemmas SliceTac LegacyProof BlockAlg PotrfProof LarfProof LarfgProof QRProof WorkProof QGenProof QFactProof ReduceMath ReduceProof HessProof BidProof TridProof UnghrProof UngtrProof.
From Verif.Properties Require Import ExTac Work BlockQ Reduce.
From Verif.Properties Require QGen Householder.
Local Open Scope T_scope.

(** the sizes the queries report *)
Definition ungtr_size (nbo : nat) (u : uplo_t) (n : nat) : nat :=
  ungq_bsize nbo (match u with Upper => Backward | _ => Forward end) Columnwise (n - 1) (n - 1) (n - 1).
Definition ungbr_q_size (nbo k m n : nat) : nat :=
  if (k <=? m)%nat then ungq_bsize nbo Forward Columnwise m n k else ungq_bsize nbo Forward Columnwise (m - 1) (m - 1) (m - 1).
Definition ungbr_p_size (nbo k m n : nat) : nat :=
  if (k <? n)%nat then ungq_bsize nbo Forward Rowwise m n k else ungq_bsize nbo Forward Rowwise (n - 1) (n - 1) (n - 1).

Section R.
Context {E : Env} {FL : FieldLaws E} {CL : ConjLaws E} {OL : ROrdLaws E} {QL : EqbLaws E} {XL : CplxLaws E} {RL : RLaws E} {NL : FinLaws E}.
Add Field Tf : fth.

(** ** ungtr overwrites the reflectors hetd2 has left in a triangle of Q with the matrix they stand for *)
Theorem ungtr_correct (p : Z) (l : layout_t) (nbo : nat) (u : uplo_t) (n : nat) (Q tau : view) (s : state) :
  u = Upper \/ u = Lower -> shape Q n n -> isvec tau (n - 1) -> vinj Q -> disj tau Q -> (0 < nbo)%nat ->
  fresh p (ungtr_size nbo u n) Q -> fresh p (ungtr_size nbo u n) tau ->
  returns (ungtr p l nbo u Q tau) s (fun r s' => r = 0%Z /\
    (forall i j, (i < n)%nat -> (j < n)%nat -> val Q s' i j = tridq u n (val Q s) (vval tau s) i j) /\
    only_changes (fun a => inview Q a \/ block p (ungtr_size nbo u n) a) s s').
Proof.
  intros Hu [H1 H2] Ht HI HD Hb F1 F2. apply runs_inv. destruct (Nat.eq_dec n 0) as [Hz|Hz].
  { unfold runs, ungtr. rewrite H2, Hz. cbn [Nat.eqb]. apply wp_ret. split; auto. split; [intros; lia|split; auto]. }
  destruct Hu as [->| ->]; (eapply wp_conseq; [first [apply (ungtr_upper p l nbo n Q tau s)|apply (ungtr_lower p l nbo n Q tau s)]; auto; lia| |auto]);
    intros r s' HL; cbv beta in HL; destruct HL as [-> (L1 & L2 & L3)]; rewrite H1, H2 in L1; (split; [auto|]); split; auto; split; auto; intros a Ha; apply L2; intros K; apply Ha; auto.
Qed.

(** hetd2 and then ungtr, in the same matrix: A0 = Q T Q^H with the matrix Q that ungtr has left, and Q is unitary *)
Theorem hetd2_ungtr_correct (p : Z) (l : layout_t) (h : hconst) (st bt hsm : R) (nbo : nat) (u : uplo_t) (n : nat) (A tau : view) (s : state) :
  hconst_ok h st bt hsm -> u = Upper \/ u = Lower -> shape A n n -> isvec tau (n - 1) -> (0 < n)%nat -> vinj A -> vinj tau -> disj A tau ->
  (fro2 n n (herm u (val A s)) <= bt * bt)%R -> (0 < nbo)%nat -> fresh p (ungtr_size nbo u n) A -> fresh p (ungtr_size nbo u n) tau ->
  exists s1, hetd2 h u A tau s = Ok 0%Z s1 /\ exists s2, ungtr p l nbo u A tau s1 = Ok 0%Z s2 /\
    unitary n (val A s2) /\
    (forall i j, (i < n)%nat -> (j < n)%nat -> herm u (val A s) i j = mmul n (mmul n (val A s2) (tridpart u (val A s1))) (ctr (val A s2)) i j) /\
    (forall i j, (i < n)%nat -> (j < n)%nat -> conj (tridpart u (val A s1) i j) = tridpart u (val A s1) i j).
Proof.
  intros Hh Hu HS Ht Hn HI HIt HD HN Hb F1 F2. destruct Ht as [Ht Hc].
  destruct (hetd2_correct h st bt hsm u n A tau s) as (r & s1 & K & -> & (L1 & L2 & L3) & _); auto; [lia|].
  exists s1. split; auto.
  destruct (ungtr_correct p l nbo u n A tau s1) as (r & s2 & K2 & -> & J1 & J2); auto; [split; auto|apply disj_sym; auto|].
  exists s2. split; auto. set (Q := tridq u n (val A s1) (vval tau s1)) in *. split; [|split; auto].
  - apply (unitary_ext n Q); auto. intros; symmetry; auto.
  - intros i j Hi Hj. rewrite L2 by auto. apply mmul_ext; auto; intros k Hk; [|unfold ctr; f_equal; symmetry; auto].
    apply mmul_ext; auto. intros q Hq. symmetry. auto.
Qed.

(** ** ungbr: the matrices Q and Z^H of the bidiagonal reduction *)
Lemma ungq_query0 nbo dir sm A tau s : shape A 0 0 -> isvec tau 0 -> wp (ungq_worksize nbo dir sm A tau) (fun w s1 => wsize w = ungq_bsize nbo dir sm 0 0 0 /\ s1 = s) noX s.
Proof.
  intros [Hm Hn] [Hk Hc]. unfold ungq_worksize. cbv zeta. rewrite Hm, Hn, Hk, Nat.min_0_r. cbn [Nat.min Nat.ltb Nat.leb].
  destruct sm; (apply wp_bind, wp_slc; [lia..|]; apply wp_bind, wp_ret; apply wp_bind, wp_slvec; [lia..|];
    apply wp_bind; unfold ungq_level2_worksize; cbn [nr nc subv Nat.sub]; rewrite ?Hm, ?Hn; cbn [Nat.sub Nat.ltb Nat.leb]; apply wp_ret; apply wp_ret; unfold ungq_bsize; cbv zeta; rewrite Nat.min_0_r; split; reflexivity).
Qed.
Lemma ungq_query1 nbo dir sm A tau s q : shape A q q -> isvec tau q -> (0 < nbo)%nat -> wp (ungq_worksize nbo dir sm A tau) (fun w s1 => wsize w = ungq_bsize nbo dir sm q q q /\ s1 = s) noX s.
Proof.
  intros HS Ht Hb. destruct (Nat.eq_dec q 0) as [->|Hq]; [apply ungq_query0; auto|]. apply ungq_query; auto; [|lia]. destruct sm; lia.
Qed.
Definition ungbr_q_result (k m n : nat) (A tau : view) (P : Z -> Prop) (s : state) (r : Z) (s' : state) : Prop :=
  r = 0%Z /\ (forall i j, (i < m)%nat -> (j < n)%nat -> (j < m)%nat -> val A s' i j = bidq m k (val A s) (vval tau s) i j) /\
  (forall i j, (i < m)%nat -> (j < n)%nat -> (m <= j)%nat -> val A s' i j = val A s i j) /\
  only_changes (fun a => inview A a \/ P a) s s'.
Definition ungbr_p_result (k m n : nat) (A tau : view) (P : Z -> Prop) (s : state) (r : Z) (s' : state) : Prop :=
  r = 0%Z /\ (forall i j, (i < m)%nat -> (j < n)%nat -> (i < n)%nat -> val A s' i j = ctr (bidz k n (val A s) (vval tau s)) i j) /\
  (forall i j, (i < m)%nat -> (j < n)%nat -> (n <= i)%nat -> val A s' i j = val A s i j) /\
  only_changes (fun a => inview A a \/ P a) s s'.
(** Missing, because false of the code (ungbr_q_k0_refuted, ungbr_q_empty_refuted): k = 0, m = 0 *)
Theorem ungbr_q_work_correct_partial (nbo k m n : nat) (A tau : view) (work : lmat) (s : state) :
  shape A m n -> isvec tau (Nat.min m k) -> vinj A -> disj tau A -> (0 < nbo)%nat -> disj (lview work) A -> disj (lview work) tau ->
  (0 < k)%nat -> (0 < m)%nat -> (k <= m /\ k <= n <= m \/ m < k /\ m <= n)%nat ->
  (if k <=? m then lok work /\ contiguous work = true /\ ungq_need (Nat.min nbo k) Forward n k <= lm work * ln work
   else m = 1 \/ lok work /\ contiguous work = true /\ ungq_need (Nat.min nbo (m - 1)) Forward (m - 1) (m - 1) <= lm work * ln work)%nat ->
  returns (ungbr_q_work nbo k A tau work) s (ungbr_q_result k m n A tau (inview (lview work)) s).
Proof.
  intros [H1 H2] [Ht Hc] HI HD Hb W1 W2 Hk Hm Hd HW. apply runs_inv. eapply wp_conseq; [apply (ungbr_q_run nbo k m n A tau work s); auto| |auto].
  intros r s' HL. cbv beta in HL. destruct HL as [-> (L1 & L2 & L3)]. rewrite H1, H2 in L1. split; auto. split; [|split; [|split; auto]].
  - intros i j Hi Hj Hjm. rewrite L1 by auto. destruct (Nat.ltb_spec j m); [auto|lia].
  - intros i j Hi Hj Hjm. rewrite L1 by auto. destruct (Nat.ltb_spec j m); [lia|auto].
Qed.
Theorem ungbr_p_work_correct_partial (nbo k m n : nat) (A tau : view) (work : lmat) (s : state) :
  shape A m n -> isvec tau (Nat.min k n) -> vinj A -> disj tau A -> (0 < nbo)%nat -> disj (lview work) A -> disj (lview work) tau ->
  (0 < k)%nat -> (0 < n)%nat -> (k < n /\ k <= m <= n \/ n <= k /\ n <= m)%nat ->
  (if k <? n then lok work /\ contiguous work = true /\ ungq_need (Nat.min nbo k) Forward m k <= lm work * ln work
   else n = 1 \/ lok work /\ contiguous work = true /\ ungq_need (Nat.min nbo (n - 1)) Forward (n - 1) (n - 1) <= lm work * ln work)%nat ->
  returns (ungbr_p_work nbo k A tau work) s (ungbr_p_result k m n A tau (inview (lview work)) s).
Proof.
  intros [H1 H2] [Ht Hc] HI HD Hb W1 W2 Hk Hm Hd HW. apply runs_inv. eapply wp_conseq; [apply (ungbr_p_run nbo k m n A tau work s); auto| |auto].
  intros r s' HL. cbv beta in HL. destruct HL as [-> (L1 & L2 & L3)]. rewrite H1, H2 in L1. split; auto. split; [|split; [|split; auto]].
  - intros i j Hi Hj Hjm. rewrite L1 by auto. destruct (Nat.ltb_spec i n); [auto|lia].
  - intros i j Hi Hj Hjm. rewrite L1 by auto. destruct (Nat.ltb_spec i n); [lia|auto].
Qed.
(** the matrices depend on the stored vectors only *)
Lemma bidq_ext m k F G a b : (forall i j, (i < m)%nat -> (j < k)%nat -> (j < m)%nat -> (j < i)%nat -> F i j = G i j) -> (forall j, (j < Nat.min m k)%nat -> a j = b j) ->
  forall i j, (i < m)%nat -> (j < m)%nat -> bidq m k F a i j = bidq m k G b i j.
Proof.
  intros H Ha i j Hi Hj. unfold bidq. destruct (Nat.leb_spec k m); apply mprod_ext; auto; intros t r c Ht Hr Hc; rewrite Ha by lia; apply refl_ext; unfold qvec, subvec; bcase; apply H; lia.
Qed.
Lemma bidz_ext k n F G a b : (forall i j, (i < k)%nat -> (i < n)%nat -> (j < n)%nat -> (i < j)%nat -> F i j = G i j) -> (forall j, (j < Nat.min k n)%nat -> a j = b j) ->
  forall i j, (i < n)%nat -> (j < n)%nat -> bidz k n F a i j = bidz k n G b i j.
Proof.
  intros H Ha i j Hi Hj. unfold bidz. destruct (Nat.leb_spec n k); apply mprod_ext; auto; intros t r c Ht Hr Hc; rewrite Ha by lia; apply refl_ext; unfold qvec, suprow, subvec, ctr; bcase; f_equal; apply H; lia.
Qed.
Theorem ungbr_q_correct_partial (p : Z) (l : layout_t) (nbo k m n : nat) (A tau : view) (s : state) :
  shape A m n -> isvec tau (Nat.min m k) -> vinj A -> disj tau A -> (0 < nbo)%nat -> (0 < k)%nat -> (0 < m)%nat -> (k <= m /\ k <= n <= m \/ m < k /\ m <= n)%nat ->
  fresh p (ungbr_q_size nbo k m n) A -> fresh p (ungbr_q_size nbo k m n) tau ->
  returns (ungbr_q p l nbo k A tau) s (ungbr_q_result k m n A tau (block p (ungbr_q_size nbo k m n)) s).
Proof.
  intros HS Ht HI HD Hb Hk Hm Hd F1 F2. pose proof HS as [H1 H2]. destruct Ht as [Ht Hc]. apply runs_inv. unfold runs, ungbr_q. apply wp_bind.
  eapply wp_use with (Q := fun w s1 => wsize w = ungbr_q_size nbo k m n /\ s1 = s).
  { unfold ungbr_q_worksize, ungbr_q_size. cbv zeta. rewrite H1. destruct (Nat.leb_spec k m).
    - apply ungq_query; auto; [split; auto|]; lia.
    - apply wp_bind, wp_assert; [apply Nat.ltb_lt; lia|]. apply wp_bind, wp_slc; [lia..|]. apply wp_bind, wp_slvec; [lia..|].
      apply ungq_query1; auto; split; cbn; auto; lia. }
  intros w s0 HL. cbv beta in HL. destruct HL as [Ew ->]. apply (alloc_gen p l w _ _ _ s Ew). intros s1 work W1 W2 W3 W4 W5 M1 M2.
  assert (EA : forall i j, (i < m)%nat -> (j < n)%nat -> val A s1 i j = val A s i j) by (intros; eapply fresh_val; eauto; lia).
  assert (ET : forall j, (j < nr tau)%nat -> vval tau s1 j = vval tau s j) by (intros; eapply fresh_val; eauto; lia).
  eapply wp_use; [apply runs_returns; apply (ungbr_q_work_correct_partial nbo k m n A tau work s1); auto; [split; auto|]|].
  - rewrite W3. unfold ungbr_q_size. destruct (Nat.leb_spec k m).
    + repeat apply Logic.conj; auto. replace n with (Nat.min m n) at 1 by lia. apply ungq_bsize_ok. lia.
    + destruct (Nat.eq_dec m 1); auto. right. repeat apply Logic.conj; auto. replace (m - 1)%nat with (Nat.min (m - 1) (m - 1)) at 2 by lia. apply ungq_bsize_ok. lia.
  - intros r s' HL. cbv beta in HL. destruct HL as (-> & L1 & L2 & L3 & L4). split; auto. split; [|split; [|split; [|congruence]]].
    + intros i j Hi Hj Hjm. rewrite L1 by auto. apply bidq_ext; auto; intros; [apply EA; lia|apply ET; lia].
    + intros i j Hi Hj Hjm. rewrite L2 by auto. auto.
    + intros a Ha. rewrite L3; [apply M1; tauto|]. rewrite W4. tauto.
Qed.
Theorem ungbr_p_correct_partial (p : Z) (l : layout_t) (nbo k m n : nat) (A tau : view) (s : state) :
  shape A m n -> isvec tau (Nat.min k n) -> vinj A -> disj tau A -> (0 < nbo)%nat -> (0 < k)%nat -> (0 < n)%nat -> (k < n /\ k <= m <= n \/ n <= k /\ n <= m)%nat ->
  fresh p (ungbr_p_size nbo k m n) A -> fresh p (ungbr_p_size nbo k m n) tau ->
  returns (ungbr_p p l nbo k A tau) s (ungbr_p_result k m n A tau (block p (ungbr_p_size nbo k m n)) s).
Proof.
  intros HS Ht HI HD Hb Hk Hm Hd F1 F2. pose proof HS as [H1 H2]. destruct Ht as [Ht Hc]. apply runs_inv. unfold runs, ungbr_p. apply wp_bind.
  eapply wp_use with (Q := fun w s1 => wsize w = ungbr_p_size nbo k m n /\ s1 = s).
  { unfold ungbr_p_worksize, ungbr_p_size. cbv zeta. rewrite H2. destruct (Nat.leb_spec n k); destruct (Nat.ltb_spec k n); try lia.
    - apply wp_bind, wp_assert; [apply Nat.ltb_lt; lia|]. apply wp_bind, wp_slc; [lia..|]. apply wp_bind, wp_slvec; [lia..|].
      apply ungq_query1; auto; split; cbn; auto; lia.
    - apply ungq_query; auto; [split; auto|]; lia. }
  intros w s0 HL. cbv beta in HL. destruct HL as [Ew ->]. apply (alloc_gen p l w _ _ _ s Ew). intros s1 work W1 W2 W3 W4 W5 M1 M2.
  assert (EA : forall i j, (i < m)%nat -> (j < n)%nat -> val A s1 i j = val A s i j) by (intros; eapply fresh_val; eauto; lia).
  assert (ET : forall j, (j < nr tau)%nat -> vval tau s1 j = vval tau s j) by (intros; eapply fresh_val; eauto; lia).
  eapply wp_use; [apply runs_returns; apply (ungbr_p_work_correct_partial nbo k m n A tau work s1); auto; [split; auto|]|].
  - rewrite W3. unfold ungbr_p_size. destruct (Nat.ltb_spec k n).
    + repeat apply Logic.conj; auto. replace m with (Nat.min m n) at 1 by lia. apply ungq_bsize_ok. lia.
    + destruct (Nat.eq_dec n 1); auto. right. repeat apply Logic.conj; auto. replace (n - 1)%nat with (Nat.min (n - 1) (n - 1)) at 2 by lia. apply ungq_bsize_ok. lia.
  - intros r s' HL. cbv beta in HL. destruct HL as (-> & L1 & L2 & L3 & L4). split; auto. split; [|split; [|split; [|congruence]]].
    + intros i j Hi Hj Hjm. rewrite L1 by auto. unfold ctr. f_equal. apply bidz_ext; auto; intros; [apply EA; lia|apply ET; lia].
    + intros i j Hi Hj Hjm. rewrite L2 by auto. auto.
    + intros a Ha. rewrite L3; [apply M1; tauto|]. rewrite W4. tauto.
Qed.
(** What the caller of gebd2 gets: F, tauv, tauw describe a reduction of the m-by-n matrix A0 (as gebd2_result says), the
    vectors stored below and above the diagonal of F have been copied to the m-by-m matrix U and the n-by-n matrix V.
    Then ungbr_q and ungbr_p leave unitary matrices with A0 = U B V *)
Theorem ungbr_factors (p1 p2 : Z) (l1 l2 : layout_t) (nb1 nb2 m n : nat) (A0 F : mat) (U V tauv tauw : view) (s : state) :
  bid_reduction m n A0 F (vval tauv s) (vval tauw s) -> (0 < m)%nat -> (0 < n)%nat ->
  shape U m m -> shape V n n -> isvec tauv (Nat.min m n) -> isvec tauw (Nat.min m n) ->
  (forall i j, (i < m)%nat -> (j < n)%nat -> (j < i)%nat -> val U s i j = F i j) -> (forall i j, (i < m)%nat -> (j < n)%nat -> (i < j)%nat -> val V s i j = F i j) ->
  vinj U -> vinj V -> disj tauv U -> disj tauw U -> disj tauw V -> disj V U -> (0 < nb1)%nat -> (0 < nb2)%nat ->
  (let z := ungbr_q_size nb1 n m m in fresh p1 z U /\ fresh p1 z V /\ fresh p1 z tauv /\ fresh p1 z tauw) ->
  (let z := ungbr_p_size nb2 m n n in fresh p2 z U /\ fresh p2 z V /\ fresh p2 z tauw) ->
  exists s1, ungbr_q p1 l1 nb1 n U tauv s = Ok 0%Z s1 /\ exists s2, ungbr_p p2 l2 nb2 m V tauw s1 = Ok 0%Z s2 /\
    unitary m (val U s2) /\ unitary n (val V s2) /\
    (forall i j, (i < m)%nat -> (j < n)%nat -> A0 i j = mmul n (mmul m (val U s2) (bidpart m n F)) (val V s2) i j).
Proof.
  intros (B1 & B2 & B3 & _) Hm Hn SU SV Tv Tw EU EV IU IV D1 D2 D3 D4 Hb1 Hb2 Fr1 Fr2. cbv zeta in Fr1, Fr2. destruct Fr1 as (F1 & F2 & F3 & F4), Fr2 as (F5 & F6 & F7).
  pose proof SU as [U1 U2]. pose proof SV as [V1 V2]. pose proof Tv as [Tv1 Tv2]. pose proof Tw as [Tw1 Tw2].
  destruct (ungbr_q_correct_partial p1 l1 nb1 n m m U tauv s) as (r & s1 & K1 & -> & L1 & _ & L3 & L4); auto; [lia|].
  exists s1. split; auto.
  assert (KV : forall i j, (i < n)%nat -> (j < n)%nat -> val V s1 i j = val V s i j).
  { intros i j Hi Hj. apply L3. intros [K|K].
    - revert K. apply nin; try lia. auto.
    - assert (G := F2 (ad V i j) ltac:(exists i, j; repeat split; lia)). unfold block in K; lia. }
  assert (KW : forall j, (j < Nat.min m n)%nat -> vval tauw s1 j = vval tauw s j).
  { intros j Hj. apply L3. intros [K|K].
    - revert K. apply nin; try lia. auto.
    - assert (G := F4 (ad tauw j 0%nat) ltac:(exists j, 0%nat; repeat split; lia)). unfold block in K; lia. }
  destruct (ungbr_p_correct_partial p2 l2 nb2 m n n V tauw s1) as (r & s2 & K2 & -> & J1 & _ & J3 & J4); auto; [lia|].
  exists s2. split; auto.
  assert (QU : forall i j, (i < m)%nat -> (j < m)%nat -> val U s2 i j = bidq m n F (vval tauv s) i j).
  { intros i j Hi Hj. transitivity (val U s1 i j).
    - apply J3. intros [K|K].
      + revert K. apply nin; try lia. apply disj_sym; auto.
      + assert (G := F5 (ad U i j) ltac:(exists i, j; repeat split; lia)). unfold block in K; lia.
    - rewrite L1 by auto. apply bidq_ext; auto. }
  assert (QV : forall i j, (i < n)%nat -> (j < n)%nat -> val V s2 i j = ctr (bidz m n F (vval tauw s)) i j).
  { intros i j Hi Hj. rewrite J1 by auto. unfold ctr. f_equal. apply bidz_ext; auto; intros; rewrite KV by lia; apply EV; lia. }
  split; [|split].
  - apply (unitary_ext m (bidq m n F (vval tauv s))); auto. intros; symmetry; auto.
  - apply (unitary_ext n (ctr (bidz m n F (vval tauw s)))); [intros; symmetry; auto|]. apply unitary_ctr. auto.
  - intros i j Hi Hj. rewrite B3 by auto. apply mmul_ext; auto; intros k Hk; [|symmetry; auto]. apply mmul_ext; auto. intros q Hq. symmetry. auto.
Qed.

(** ** unmhr multiplies by op(Q), for the matrix Q of a Hessenberg reduction *)
Theorem unmhr_work_correct (side : side_t) (trans : op_t) (ilo ihi m n : nat) (A tau C : view) (work : lmat) (s : state) :
  let nq := sel side m n in shape C m n -> QGen.op_ok trans -> (ilo < ihi <= nq)%nat -> (ihi <= nr A /\ ihi - 1 <= nc A)%nat -> (nc tau = 1 /\ ihi - 1 <= nr tau)%nat ->
  vinj C -> disj A C -> disj tau C -> disj (lview work) A -> disj (lview work) tau -> disj (lview work) C ->
  (ihi - 1 - ilo <= 1 \/ lok work /\ contiguous work = true /\ sel side n m <= lm work * ln work)%nat ->
  let Q := hessq nq ilo ihi (val A s) (vval tau s) in
  returns (unmhr_work side trans ilo ihi A tau C work) s (fun r s' => r = 0%Z /\
    (forall i j, (i < m)%nat -> (j < n)%nat -> val C s' i j = match side with Left => mmul m (opm trans Q) (val C s) i j | Right => mmul n (val C s) (opm trans Q) i j end) /\
    only_changes (fun a => inview C a \/ inview (lview work) a) s s').
Proof.
  intros nq HS Ho Hb HA Ht HI D1 D2 D3 D4 D5 HW Q. apply runs_inv. eapply wp_conseq; [apply (unmhr_run side trans ilo ihi m n A tau C work s); auto| |auto].
  intros r s' HL. cbv beta in HL. destruct HL as [-> (L1 & L2 & L3)]. destruct HS as [H1 H2]. rewrite H1, H2 in L1. split; auto. split; [|split; auto].
  intros i j Hi Hj. rewrite L1 by auto. destruct side; reflexivity.
Qed.
(** Missing, because false of the code (unmhr_trivial_refuted): ihi = ilo + 1, when Q is the identity *)
Theorem unmhr_correct_partial (p : Z) (l : layout_t) (side : side_t) (trans : op_t) (ilo ihi m n : nat) (A tau C : view) (s : state) :
  let nq := sel side m n in shape C m n -> QGen.op_ok trans -> (ilo + 1 < ihi <= nq)%nat -> (ihi <= nr A /\ ihi - 1 <= nc A)%nat -> (nc tau = 1 /\ ihi - 1 <= nr tau)%nat ->
  vinj C -> disj A C -> disj tau C ->
  let z := wsize (larf_worksize side (match side with Left => ihi - 1 - ilo | Right => m end)%nat (match side with Left => n | Right => ihi - 1 - ilo end)%nat) in
  fresh p z A -> fresh p z tau -> fresh p z C ->
  let Q := hessq nq ilo ihi (val A s) (vval tau s) in
  returns (unmhr p l side trans ilo ihi A tau C) s (fun r s' => r = 0%Z /\
    (forall i j, (i < m)%nat -> (j < n)%nat -> val C s' i j = match side with Left => mmul m (opm trans Q) (val C s) i j | Right => mmul n (val C s) (opm trans Q) i j end) /\
    only_changes (fun a => inview C a \/ block p z a) s s').
Proof.
  intros nq HS Ho Hb HA Ht HI D1 D2 z F1 F2 F3 Q. pose proof HS as [H1 H2]. apply runs_inv. unfold runs, unmhr, unmhr_worksize, unmhr_slices. apply wp_bind.
  eapply wp_use with (Q := fun w s1 => wsize w = z /\ s1 = s).
  { apply wp_bind. apply wp_bind, wp_assert; [apply Nat.ltb_lt; lia|]. apply wp_bind, wp_slc; [lia..|]. apply wp_bind, wp_slvec; [lia..|].
    unfold z. unfold nq in Hb. destruct side; cbn [sel] in Hb; rewrite ?H1, ?H2; (apply wp_bind, wp_slc; [lia..|]; apply wp_ret; cbn [fst snd];
      unfold unmq_level2_worksize; cbn [sel nr nc subv rslice]; apply wp_bind, wp_slcol; [cbn; lia..|]; apply wp_bind; apply wp_rd; [cbn; lia|cbn; lia|]; apply wp_ret).
    - rewrite Nat.sub_0_r. replace (ihi - (ilo + 1))%nat with (ihi - 1 - ilo)%nat by lia. auto.
    - rewrite Nat.sub_0_r. replace (ihi - (ilo + 1))%nat with (ihi - 1 - ilo)%nat by lia. auto. }
  intros w s0 HL. cbv beta in HL. destruct HL as [Ew ->]. apply (alloc_gen p l w _ _ _ s Ew). intros s1 work W1 W2 W3 W4 W5 M1 M2.
  assert (EA : forall i j, (i < nr A)%nat -> (j < nc A)%nat -> val A s1 i j = val A s i j) by (intros; eapply fresh_val; eauto).
  assert (EC : forall i j, (i < m)%nat -> (j < n)%nat -> val C s1 i j = val C s i j) by (intros; eapply fresh_val; eauto; lia).
  assert (ET : forall j, (j < nr tau)%nat -> vval tau s1 j = vval tau s j) by (intros; eapply fresh_val; eauto; lia).
  eapply wp_use; [apply runs_returns; apply (unmhr_work_correct side trans ilo ihi m n A tau C work s1); auto; [unfold nq in *; lia|]|].
  - destruct (Nat.le_gt_cases (ihi - 1 - ilo) 1) as [|Hs1]; [left; auto|right]. repeat apply Logic.conj; auto. rewrite W3. unfold z, larf_worksize. destruct side; cbn [sel] in *.
    + destruct (Nat.ltb_spec 0 (ihi - 1 - ilo)); [|lia]. unfold larf_worksize1. destruct (Nat.ltb_spec 0 (ihi - 1 - ilo - 1)); [|lia]. destruct (Nat.ltb_spec 0 n); [|lia]. cbn. lia.
    + destruct (Nat.ltb_spec 0 (ihi - 1 - ilo)); [|lia]. unfold larf_worksize1. destruct (Nat.ltb_spec 0 m); [|lia]. destruct (Nat.ltb_spec 0 (ihi - 1 - ilo - 1)); [|lia]. cbn. lia.
  - intros r s' HL. cbv beta zeta in HL. destruct HL as (-> & L1 & L2 & L3). split; auto. split; [|split; [|congruence]].
    + assert (EQ : forall a b, (a < nq)%nat -> (b < nq)%nat -> opm trans (hessq nq ilo ihi (val A s1) (vval tau s1)) a b = opm trans Q a b).
      { apply opm_ext. intros a b Ha Hb'. unfold Q, hessq. apply mprod_ext; auto. intros t r c Ht' Hr Hc. rewrite ET by lia. apply refl_ext; unfold subvec; bcase; apply EA; lia. }
      intros i j Hi Hj. rewrite L1 by auto. unfold nq in EQ. destruct side; cbn [sel] in EQ; apply mmul_ext; auto.
    + intros a Ha. rewrite L2; [apply M1; tauto|]. rewrite W4. tauto.
Qed.
End R.

(** ** What the code does not do *)
(** ihi = ilo + 1 is allowed and Q is then the identity, but the workspace query evaluates a column of an empty slice;
    ilo = ihi is allowed as well, and the range of the slice is then reversed *)
Theorem unmhr_trivial_refuted {E : Env} p l side trans ilo m n A tau C s : shape C m n -> (ilo + 1 <= sel side m n)%nat -> (ilo + 1 <= nr A)%nat -> (ilo <= nc A)%nat -> (ilo <= nr tau)%nat -> nc tau = 1%nat ->
  unmhr p l side trans ilo (ilo + 1) A tau C s = UB.
Proof.
  intros [H1 H2] Hb HA1 HA2 Ht Hc. unfold unmhr, unmhr_worksize, unmhr_slices. apply ub_first. apply ub_bind. apply wp_bind, wp_assert; [apply Nat.ltb_lt; lia|].
  apply wp_bind, wp_slc; [lia..|]. apply wp_bind, wp_slvec; [lia..|]. apply wp_bind.
  apply wp_conseq with (X := noX) (Q := fun _ s1 => s1 = s); [destruct side; cbn [sel] in Hb; apply wp_slc; auto; lia| |auto].
  intros Cs s1 ->. apply wp_ret. cbn [fst snd]. unfold unmq_level2_worksize. apply ub_first. cbn [rslice]. unfold slcol. apply ub_first. unfold assert_. cbn [nc subv].
  replace (ilo + 1 - 1 - ilo)%nat with 0%nat by lia. cbn [Nat.ltb Nat.leb]. rewrite andb_false_r. reflexivity.
Qed.
Theorem unmhr_ilo_ihi_refuted {E : Env} p l side trans ilo A tau C s : unmhr p l side trans ilo ilo A tau C s = UB.
Proof.
  unfold unmhr, unmhr_worksize, unmhr_slices, slc, bind, assert_. destruct (0 <? ilo)%nat; [|reflexivity]. unfold ret at 1.
  replace (ilo + 1 <=? ilo)%nat with false by (symmetry; apply Nat.leb_gt; lia). rewrite ?andb_false_l, ?andb_false_r. reflexivity.
Qed.
(** k = 0 (Q = I): ungq divides by zero *)
Theorem ungbr_q_k0_refuted {E : Env} {FL : FieldLaws E} {CL : ConjLaws E} p l nbo A tau s m n : shape A m n -> isvec tau 0 -> vinj A -> (0 < n <= m)%nat -> ungbr_q p l nbo 0 A tau s = UB.
Proof.
  intros [H1 H2] Ht HI Hn. assert (K : ungq p l nbo Forward Columnwise A tau s = UB) by (apply (ungq_no_reflectors_refuted p l nbo Forward Columnwise A tau s m n 0); auto; try lia; split; auto).
  unfold ungq in K. rewrite H1, H2 in K. destruct (Nat.leb_spec m 0); [lia|]. destruct (Nat.leb_spec n 0); [lia|]. cbn [orb] in K.
  unfold ungbr_q, ungbr_q_worksize, ungbr_q_work. cbn [Nat.leb]. unfold bind in *. destruct (ungq_worksize nbo Forward Columnwise A tau s) as [w s1| | |]; try discriminate; auto.
  destruct (new_work p l w s1) as [wk s2| | |]; try discriminate; auto. rewrite K. reflexivity.
Qed.
(** no rows (m = 0 < k): [m - 1] wraps around *)
Theorem ungbr_q_empty_refuted {E : Env} p l nbo k A tau s : nr A = 0%nat -> (0 < k)%nat -> ungbr_q p l nbo k A tau s = UB.
Proof. intros H Hk. unfold ungbr_q, ungbr_q_worksize, bind. rewrite H. destruct (Nat.leb_spec k 0); [lia|reflexivity]. Qed.
(** no columns: the same in ungbr_p, even for k = 0 *)
Theorem ungbr_p_empty_refuted {E : Env} p l nbo k A tau s : nc A = 0%nat -> ungbr_p p l nbo k A tau s = UB.
Proof. intros H. unfold ungbr_p, ungbr_p_worksize, bind. rewrite H. reflexivity. Qed.

(** ** Concrete cases *)
#[local] Hint Unfold exG exGt exGw : exv.
Definition exGt2 : view := vview (mklvec 2 20 1 Forward).
#[local] Hint Unfold exGt2 : exv.
Lemma exGt2_fresh k : fresh 100 k exGt2.
Proof. intros l (i & j & Hi & Hj & ->). left. unfold exGt2 in *. cbn in Hi, Hj. (destruct i as [|[|]]; [| |lia]); (destruct j as [|]; [|lia]); cbn; lia. Qed.
Example hetd2_ungtr_example u : u = Upper \/ u = Lower ->
  exists s1, hetd2 (E:=RE) (Householder.ex_h RE) u exG exGt2 exG_s = Ok 0%Z s1 /\ exists s2, ungtr (E:=RE) 100 ColMajor 2 u exG exGt2 s1 = Ok 0%Z s2 /\
    unitary (E:=RE) 3 (val exG s2) /\
    (forall i j, (i < 3)%nat -> (j < 3)%nat -> herm (E:=RE) u (val exG exG_s) i j = mmul (E:=RE) 3 (mmul (E:=RE) 3 (val exG s2) (tridpart (E:=RE) u (val exG s1))) (ctr (E:=RE) (val exG s2)) i j) /\
    (forall i j, (i < 3)%nat -> (j < 3)%nat -> @conj RE (tridpart (E:=RE) u (val exG s1) i j) = tridpart (E:=RE) u (val exG s1) i j).
Proof.
  intros Hu. apply (hetd2_ungtr_correct (E:=RE) 100 ColMajor (Householder.ex_h RE) (1/8) 1000 (1/1000)); auto; try (cbn; lia); try apply exG_fresh; try apply exGt2_fresh; try (exv; fail).
  - apply (Householder.ex_h_ok RE).
  - apply exG_norm. intros i j Hi Hj. unfold herm. destruct (i =? j)%nat; [apply exG_val; auto|]. destruct (intri u i j); apply exG_val; auto.
Qed.
(** a 2-by-2 reduction described by F = diag, with zero reflectors, and 2-by-2 matrices U and V for Q and Z^H *)
Definition exU : view := lview (mklmat 2 2 0 2 ColMajor).
Definition exV : view := lview (mklmat 2 2 4 2 ColMajor).
Definition exTv : view := vview (mklvec 2 8 1 Forward).
Definition exTw : view := vview (mklvec 2 10 1 Forward).
#[local] Hint Unfold exU exV exTv exTw : exv.
Definition exB_s : @state RE := mkst RE (fun l => if Z.eqb l 6 then 1%R else if Z.eqb l 8 then 2%R else 0%R) (fun _ => 0%Z).
Definition exB (i j : nat) : R := match i, j with 0%nat, 0%nat => 3%R | 0%nat, 1%nat => 1%R | 1%nat, 1%nat => 5%R | _, _ => 0%R end.
Lemma exUV_fresh k : fresh 100 k exU /\ fresh 100 k exV /\ fresh 100 k exTv /\ fresh 100 k exTw.
Proof.
  repeat apply Logic.conj; intros l (i & j & Hi & Hj & ->); left; unfold exU, exV, exTv, exTw in *; cbn in Hi, Hj; (destruct i as [|[|]]; [| |lia]); (destruct j as [|[|]]; [| |lia]); try (exfalso; lia); cbn; lia.
Qed.
(** A0 = diag(-1,1) B: the first reflector is diag(-1,1), the others are the identity *)
Example ungbr_example : exists s1, ungbr_q (E:=RE) 100 ColMajor 1 2 exU exTv exB_s = Ok 0%Z s1 /\ exists s2, ungbr_p (E:=RE) 100 ColMajor 1 2 exV exTw s1 = Ok 0%Z s2 /\
  unitary (E:=RE) 2 (val exU s2) /\ unitary (E:=RE) 2 (val exV s2) /\
  (forall i j, (i < 2)%nat -> (j < 2)%nat -> (if (i =? 0)%nat then - exB i j else exB i j)%R = mmul (E:=RE) 2 (mmul (E:=RE) 2 (val exU s2) (bidpart (E:=RE) 2 2 exB)) (val exV s2) i j).
Proof.
  apply (ungbr_factors (E:=RE) 100 100 ColMajor ColMajor 1 1 2 2 (fun i j => if (i =? 0)%nat then (- exB i j)%R else exB i j) exB exU exV exTv exTw exB_s); auto; try (cbn; lia); try (exv; fail);
    try (cbv zeta; repeat apply Logic.conj; apply exUV_fresh).
  - repeat apply Logic.conj; intros i j Hi Hj; repeat apply Logic.conj; (destruct i as [|[|]]; [| |lia]); (destruct j as [|[|]]; [| |lia]); unfold bidq, bidz, bidpart, exB; cbn; unfold refl, qvec, suprow, subvec, idm, mmul, ctr; cbn; ring.
  - intros i j Hi Hj Hij. (destruct i as [|[|]]; [| |lia]); (destruct j as [|[|]]; [| |lia]); try lia. reflexivity.
  - intros i j Hi Hj Hij. (destruct i as [|[|]]; [| |lia]); (destruct j as [|[|]]; [| |lia]); try lia. reflexivity.
Qed.
Definition exC : view := lview (mklmat 3 2 40 3 ColMajor).
#[local] Hint Unfold exC : exv.
Lemma exC_fresh k : fresh 100 k exC.
Proof. intros l (i & j & Hi & Hj & ->); left; unfold exC in *; cbn in Hi, Hj; (destruct i as [|[|[|]]]; [| | |lia]); (destruct j as [|[|]]; [| |lia]); cbn; lia. Qed.
Example unmhr_example : returns (unmhr (E:=RE) 100 ColMajor Left Trans 0 3 exG exGt2 exC) exG_s (fun r s' => r = 0%Z /\
  (forall i j, (i < 3)%nat -> (j < 2)%nat -> val exC s' i j = mmul (E:=RE) 3 (opm (E:=RE) Trans (hessq (E:=RE) 3 0 3 (val exG exG_s) (vval exGt2 exG_s))) (val exC exG_s) i j) /\
  only_changes (fun a => inview exC a \/ block 100 2 a) exG_s s').
Proof.
  apply (unmhr_correct_partial (E:=RE) 100 ColMajor Left Trans 0 3 3 2 exG exGt2 exC exG_s); auto; try (cbn; lia); try (apply exG_fresh); try apply exGt2_fresh; try apply exC_fresh; try (exv; fail).
Qed.
