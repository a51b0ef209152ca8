(** * C53: blocked reduction to Hessenberg form (gehrd), and the driver hessenberg *)
From Coq Require Import Bool Arith ZArith Lia Reals Lra Ring Field.
From Verif.Core Require Import Scalar Prog View Slice Loops WorkEff Instances RealLaws.
From Verif.Spec Require Import LinAlg Outcome Norms Householder Reduce Parts.
From Verif.Model Require Import Gemm Blas1 Blas2 Blas3 Legacy LaAux Norms Work Householder QGen QFact BlockQ Reduce Drivers Gehrd.
From Verif.Proof Require Import SumLemmas SliceTac LegacyProof BlockAlg PotrfProof LaAuxProof LarfProof LarfgProof QRProof WorkProof QGenProof QFactProof LarfbProof ReduceMath ReduceProof HessProof UnghrProof GehrdRun.
From Verif.Properties Require Import ExTac Work BlockQ Reduce.
From Verif.Properties Require Householder.
Local Open Scope T_scope.

(** the size that gehrd_worksize reports *)
Definition gehrd_size (nbo nxo n ilo ihi : nat) : nat :=
  let nb := gehrd_nb nbo ilo ihi in
  let w := if gehrd_blocked nbo nxo ilo ihi then wminmax (winfo_m (n + nb) nb) (wtranspose (larfb_worksize Left nb (ihi - (ilo + 1)) (n - (ilo + nb)))) else winfo_v 0 in
  let w2 := if (ilo + 1 <? ihi)%nat then wminmax (larf_worksize Right ihi (ihi - (ilo + 1))) (larf_worksize Left (ihi - (ilo + 1)) (n - (ilo + 1))) else winfo_v 0 in
  wsize (wminmax w w2).
(** what the blocked code needs beyond the unblocked one: a positive block size, a tau as long as [ihi], and room for
    the n-by-nb matrix Y and the nb-by-nb matrix T.  The code blocks when more than max(nb, nx_switch) columns are to
    be reduced, nb being the smaller of opts.nb and their number *)
Definition blocks (nbo nxo ilo ihi : nat) : Prop := (Nat.max (Nat.min nbo (ihi - ilo - 1)) nxo < ihi - ilo - 1)%nat.
Lemma blocks_spec nbo nxo ilo ihi : gehrd_blocked nbo nxo ilo ihi = true <-> blocks nbo nxo ilo ihi.
Proof. unfold gehrd_blocked, blocks, gehrd_nb. destruct (Nat.ltb_spec ilo ihi); cbn [andb]; [rewrite Nat.ltb_lt; lia|]. split; [discriminate|lia]. Qed.
Lemma blocks_nb nbo nxo ilo ihi : blocks nbo nxo ilo ihi -> gehrd_nb nbo ilo ihi = nbo /\ (ilo + nbo + 1 < ihi)%nat.
Proof. unfold blocks, gehrd_nb. intros H. destruct (Nat.ltb_spec ilo ihi); lia. Qed.

Section R.
Context {E : Env} {FL : FieldLaws E} {CL : ConjLaws E} {OL : ROrdLaws E} {QL : EqbLaws E} {XL : CplxLaws E} {RL : RLaws E} {NL : FinLaws E}.

(** with a workspace supplied by the caller *)
Theorem gehrd_work_correct (h : hconst) (st bt hsm : R) (nbo nxo ilo ihi n : nat) (A tau : view) (work : lmat) (s : state) :
  hconst_ok h st bt hsm -> shape A n n -> nc tau = 1%nat -> (n - 1 <= nr tau)%nat -> vinj A -> vinj tau -> disj A tau ->
  disj (lview work) A -> disj (lview work) tau -> (ilo < n)%nat -> (0 < ihi <= n)%nat -> hess_input n ilo ihi (val A s) -> (fro2 n n (val A s) <= bt * bt)%R ->
  (ihi <= ilo + 2 \/ lok work /\ contiguous work = true /\ Nat.max ihi (n - ilo - 1) <= lm work * ln work)%nat ->
  (blocks nbo nxo ilo ihi -> 0 < nbo /\ ihi <= nr tau /\ (n + nbo) * nbo <= lm work * ln work)%nat ->
  returns (gehrd_work h nbo nxo ilo ihi A tau work) s (gehd2_result n ilo ihi A tau (inview (lview work)) s).
Proof.
  intros Hh HS Ht Hl HI HIt HD W1 W2 Hlo Hi Hin HN HW Hb. apply runs_inv.
  eapply wp_conseq; [apply (gehrd_work_run h st bt hsm ilo ihi n A tau work s); auto| |auto].
  - intros K. apply blocks_spec in K. destruct (Hb K) as (B1 & B2 & B3). apply blocks_nb in K. destruct K as [-> K]. repeat apply Logic.conj; auto. lia.
  - intros r s' HL. cbv beta in HL. destruct HL as [-> HL]. apply hinv_result; auto; lia.
Qed.

Lemma gehrd_query nbo nxo ilo ihi n A tau s : shape A n n -> nc tau = 1%nat -> (n - 1 <= nr tau)%nat -> (ilo < n)%nat -> (0 < ihi <= n)%nat ->
  wp (gehrd_worksize nbo nxo ilo ihi A tau) (fun w s1 => wsize w = gehrd_size nbo nxo n ilo ihi /\ s1 = s) noX s.
Proof.
  intros [HS1 HS2] Ht Hl Hlo Hi. unfold gehrd_worksize, gehd2_worksize. cbv zeta. rewrite HS2. destruct (Nat.ltb_spec 0 n); [|lia]. rewrite andb_true_r. apply wp_bind.
  eapply wp_use with (Q := fun w s1 => w = (if gehrd_blocked nbo nxo ilo ihi then wminmax (winfo_m (n + gehrd_nb nbo ilo ihi) (gehrd_nb nbo ilo ihi)) (wtranspose (larfb_worksize Left (gehrd_nb nbo ilo ihi) (ihi - (ilo + 1)) (n - (ilo + gehrd_nb nbo ilo ihi)))) else winfo_v 0) /\ s1 = s).
  { destruct (gehrd_blocked nbo nxo ilo ihi) eqn:Eb; [|apply wp_ret; auto]. apply blocks_spec, blocks_nb in Eb. destruct Eb as [Eb1 Eb2].
    apply wp_bind, wp_slc; [lia..|]. apply wp_bind, wp_slc; [lia..|]. apply wp_bind, wp_slc; [lia..|]. apply wp_ret. cbn [nr nc subv]. auto. }
  intros w s1 HL. cbv beta in HL. destruct HL as [-> ->]. apply wp_bind.
  eapply wp_use with (Q := fun w s1 => w = (if (ilo + 1 <? ihi)%nat then wminmax (larf_worksize Right ihi (ihi - (ilo + 1))) (larf_worksize Left (ihi - (ilo + 1)) (n - (ilo + 1))) else winfo_v 0) /\ s1 = s).
  { destruct (Nat.ltb_spec (ilo + 1) ihi); [|apply wp_ret; auto]. apply wp_bind, wp_slcol; [lia..|]. apply wp_bind, wp_slc; [lia..|]. apply wp_bind; apply wp_rd; [lia|lia|].
    apply wp_bind, wp_slc; [lia..|]. apply wp_ret. cbn [nr nc subv]. rewrite Nat.sub_0_r. auto. }
  intros w2 s1 HL. cbv beta in HL. destruct HL as [-> ->]. apply wp_ret. split; auto.
Qed.
Lemma gehrd_size_ok nbo nxo n ilo ihi : (ihi <= n)%nat -> (ihi <= ilo + 2 \/ Nat.max ihi (n - ilo - 1) <= gehrd_size nbo nxo n ilo ihi)%nat.
Proof.
  intros Hn. destruct (hess_size_ok n ilo ihi Hn) as [|K]; auto. destruct (Nat.le_gt_cases ihi (ilo + 2)); auto. right. etransitivity; [exact K|]. unfold hess_size, gehrd_size. cbv zeta.
  match goal with |- context[wsize (wminmax ?a ?b)] => match b with (if _ then _ else _) => destruct (minmax_size a b) as [S1 S2] end end.
  etransitivity; [|exact S2]. destruct (Nat.ltb_spec (ilo + 1) ihi); [reflexivity|lia].
Qed.
Lemma gehrd_size_blk nbo nxo n ilo ihi : blocks nbo nxo ilo ihi -> ((n + nbo) * nbo <= gehrd_size nbo nxo n ilo ihi)%nat.
Proof.
  intros Hb. destruct (blocks_nb _ _ _ _ Hb) as [Eb Eb2]. apply blocks_spec in Hb. unfold gehrd_size. cbv zeta. rewrite Hb, Eb.
  match goal with |- (_ <= wsize (wminmax ?a ?b))%nat => destruct (minmax_size a b) as [S1 _] end. etransitivity; [|exact S1].
  match goal with |- (_ <= wsize (wminmax ?a ?b))%nat => destruct (minmax_size a b) as [S2 _] end. etransitivity; [|exact S2]. unfold wsize, winfo_m. cbn. lia.
Qed.

(** allocating its own workspace: the queried size suffices, whatever the options *)
Theorem gehrd_correct (p : Z) (l : layout_t) (h : hconst) (st bt hsm : R) (nbo nxo ilo ihi n : nat) (A tau : view) (s : state) :
  hconst_ok h st bt hsm -> shape A n n -> nc tau = 1%nat -> (n - 1 <= nr tau)%nat -> vinj A -> vinj tau -> disj A tau ->
  (ilo < n)%nat -> (0 < ihi <= n)%nat -> hess_input n ilo ihi (val A s) -> (fro2 n n (val A s) <= bt * bt)%R ->
  (blocks nbo nxo ilo ihi -> 0 < nbo /\ ihi <= nr tau)%nat ->
  fresh p (gehrd_size nbo nxo n ilo ihi) A -> fresh p (gehrd_size nbo nxo n ilo ihi) tau ->
  returns (gehrd p l h nbo nxo ilo ihi A tau) s (gehd2_result n ilo ihi A tau (block p (gehrd_size nbo nxo n ilo ihi)) s).
Proof.
  intros Hh HS Ht Hl HI HIt HD Hlo Hi Hin HN Hb F1 F2. pose proof HS as [HS1 HS2]. apply runs_inv. unfold runs, gehrd. cbv zeta. rewrite HS2.
  destruct (Nat.leb_spec n 0); [lia|]. apply wp_bind. eapply wp_use; [apply (gehrd_query nbo nxo ilo ihi n A tau s); auto|].
  intros w s0 HL. cbv beta in HL. destruct HL as [Ew ->]. apply (alloc_gen p l w _ _ _ s Ew). intros s1 work W1 W2 W3 W4 W5 M1 M2.
  assert (EA : forall i j, (i < n)%nat -> (j < n)%nat -> val A s1 i j = val A s i j) by (intros; eapply fresh_val; eauto; lia).
  assert (ET : forall j, (j < nr tau)%nat -> vval tau s1 j = vval tau s j) by (intros; eapply fresh_val; eauto; lia).
  eapply wp_conseq; [apply (gehrd_work_run h st bt hsm ilo ihi n A tau work s1); auto| |auto].
  - intros i j Hr Hc K. rewrite EA by auto. apply Hin; auto.
  - rewrite (fro2_ext n n _ (val A s)) by auto. auto.
  - rewrite W3. destruct (gehrd_size_ok nbo nxo n ilo ihi); auto. lia.
  - intros K. apply blocks_spec in K. destruct (Hb K) as (B1 & B2). pose proof (gehrd_size_blk _ _ n _ _ K) as B3. apply blocks_nb in K. destruct K as [-> K]. rewrite W3. repeat apply Logic.conj; auto. lia.
  - intros r s' HL. cbv beta in HL. destruct HL as [-> HL]. apply hinv_result in HL; [|lia]. destruct HL as (_ & (L1 & L2 & L3) & L4 & L5 & L6 & L7).
    split; auto. split; [|split; [|split; [|split; [|congruence]]]].
    + split; [exact L1|]. split; [|exact L3]. intros i j Hr Hc. rewrite <- EA by auto. apply L2; auto.
    + intros i j Hr Hc K. rewrite L4 by auto. auto.
    + intros j Hj K. rewrite L5 by auto. auto.
    + intros a Ha. rewrite L6; [apply M1; tauto|]. rewrite W4. tauto.
Qed.

(** the driver: either variant, under the hypotheses of that variant *)
Definition hessenberg_size (v : variant_t) (nbo nxo n ilo ihi : nat) : nat := match v with Level2 => hess_size n ilo ihi | Blocked => gehrd_size nbo nxo n ilo ihi end.
Theorem hessenberg_work_correct (v : variant_t) (h : hconst) (st bt hsm : R) (nbo nxo ilo ihi n : nat) (A tau : view) (work : lmat) (s : state) :
  hconst_ok h st bt hsm -> shape A n n -> nc tau = 1%nat -> (n - 1 <= nr tau)%nat -> vinj A -> vinj tau -> disj A tau ->
  disj (lview work) A -> disj (lview work) tau -> (ilo < n)%nat -> (0 < ihi <= n)%nat -> hess_input n ilo ihi (val A s) -> (fro2 n n (val A s) <= bt * bt)%R ->
  (ihi <= ilo + 2 \/ lok work /\ contiguous work = true /\ Nat.max ihi (n - ilo - 1) <= lm work * ln work)%nat ->
  (v = Blocked -> blocks nbo nxo ilo ihi -> 0 < nbo /\ ihi <= nr tau /\ (n + nbo) * nbo <= lm work * ln work)%nat ->
  returns (hessenberg_work v h nbo nxo ilo ihi A tau work) s (gehd2_result n ilo ihi A tau (inview (lview work)) s).
Proof.
  intros Hh HS Ht Hl HI HIt HD W1 W2 Hlo Hi Hin HN HW Hb. destruct v; cbn [hessenberg_work].
  all: first [eapply gehd2_work_correct; eauto; fail|eapply gehrd_work_correct; eauto].
Qed.
Theorem hessenberg_correct (p : Z) (l : layout_t) (v : variant_t) (h : hconst) (st bt hsm : R) (nbo nxo ilo ihi n : nat) (A tau : view) (s : state) :
  hconst_ok h st bt hsm -> shape A n n -> nc tau = 1%nat -> (n - 1 <= nr tau)%nat -> vinj A -> vinj tau -> disj A tau ->
  (ilo < n)%nat -> (0 < ihi <= n)%nat -> hess_input n ilo ihi (val A s) -> (fro2 n n (val A s) <= bt * bt)%R ->
  (v = Blocked -> blocks nbo nxo ilo ihi -> 0 < nbo /\ ihi <= nr tau)%nat ->
  fresh p (hessenberg_size v nbo nxo n ilo ihi) A -> fresh p (hessenberg_size v nbo nxo n ilo ihi) tau ->
  returns (hessenberg p l v h nbo nxo ilo ihi A tau) s (gehd2_result n ilo ihi A tau (block p (hessenberg_size v nbo nxo n ilo ihi)) s).
Proof.
  intros Hh HS Ht Hl HI HIt HD Hlo Hi Hin HN Hb F1 F2. destruct v; cbn [hessenberg hessenberg_size] in *.
  all: first [eapply gehd2_correct; eauto; fail|eapply gehrd_correct; eauto].
Qed.

(** gehrd followed by unghr: A0 = Q H Q^H, with the unitary matrix Q that unghr has left in A *)
Theorem gehrd_unghr_correct (p1 p2 : Z) (l1 l2 : layout_t) (h : hconst) (st bt hsm : R) (nbo1 nxo nbo ilo ihi n : nat) (A tau : view) (s : state) :
  hconst_ok h st bt hsm -> shape A n n -> nc tau = 1%nat -> (n - 1 <= nr tau)%nat -> vinj A -> vinj tau -> disj A tau ->
  (ilo < n)%nat -> (0 < ihi <= n)%nat -> (ilo <= ihi)%nat -> (0 < nbo)%nat -> hess_input n ilo ihi (val A s) -> (fro2 n n (val A s) <= bt * bt)%R ->
  (blocks nbo1 nxo ilo ihi -> 0 < nbo1 /\ ihi <= nr tau)%nat ->
  fresh p1 (gehrd_size nbo1 nxo n ilo ihi) A -> fresh p1 (gehrd_size nbo1 nxo n ilo ihi) tau -> fresh p2 (unghr_size nbo ilo ihi) A -> fresh p2 (unghr_size nbo ilo ihi) tau ->
  exists s1, gehrd p1 l1 h nbo1 nxo ilo ihi A tau s = Ok 0%Z s1 /\ exists s2, unghr p2 l2 nbo ilo ihi A tau s1 = Ok 0%Z s2 /\
    unitary n (val A s2) /\
    (forall i j, (i < n)%nat -> (j < n)%nat -> val A s i j = mmul n (mmul n (val A s2) (hesspart ilo ihi (val A s1))) (ctr (val A s2)) i j).
Proof.
  intros Hh HS Ht Hl HI HIt HD H1 H2 H3 Hb Hin HN Hbl F1 F2 G1 G2.
  destruct (gehrd_correct p1 l1 h st bt hsm nbo1 nxo ilo ihi n A tau s) as (r & s1 & K & -> & (L1 & L2 & L3) & _); auto.
  exists s1. split; auto.
  destruct (unghr_correct_partial p2 l2 nbo ilo ihi n A tau s1) as (r & s2 & K2 & -> & J1 & J2); auto; [lia|apply disj_sym; auto|].
  exists s2. split; auto. set (Q := hessq n ilo ihi (val A s1) (vval tau s1)) in *. split.
  - apply (unitary_ext n Q); auto. intros; symmetry; auto.
  - intros i j Hi Hj. rewrite L2 by auto. apply mmul_ext; auto; intros k Hk; [|unfold ctr; f_equal; symmetry; auto].
    apply mmul_ext; auto. intros q Hq. symmetry. auto.
Qed.
End R.

(** ** What the code does not do *)
Section N.
Context {E : Env}.
(** The documented length of tau is n-1.  With ihi = n (the usual case) the blocked path takes slice(tau, {i, ihi}),
    which is out of range *)
Lemma gehrd_start h nbo nxo ilo ihi n A tau work s : shape A n n -> (n - 1 <= nr tau)%nat -> (ilo < n)%nat -> (0 < ihi <= n)%nat -> blocks nbo nxo ilo ihi ->
  lok work -> contiguous work = true -> ((n + nbo) * nbo <= lm work * ln work)%nat ->
  (forall s1 Y TT, nr Y = n -> nc Y = nbo -> nr TT = nbo -> nc TT = nbo -> gehrd_block h ihi nbo ilo A tau Y TT (transpose_view (new_lmat0 n nbo (lptr work) (lay work))) s1 = UB) ->
  gehrd_work h nbo nxo ilo ihi A tau work s = UB.
Proof.
  intros [HA1 HA2] Hl Hlo Hi Hb W1 W2 W3 HB. unfold gehrd_work. cbv zeta. rewrite HA1, HA2. destruct (blocks_nb _ _ _ _ Hb) as [-> Hb2]. rewrite (proj2 (blocks_spec _ _ _ _) Hb).
  apply ub_bind, wp_check; [apply Nat.ltb_lt; auto|]. apply ub_bind, wp_check; [apply Nat.leb_le; lia|]. apply ub_bind, wp_check; [apply Nat.eqb_refl|].
  apply ub_bind. apply wp_check. { destruct (Nat.eqb_spec n 0), (Nat.ltb_spec (nr tau) (n - 1)); try lia; reflexivity. }
  destruct (Nat.leb_spec n 0); [lia|].
  destruct (reshape_contig work n nbo W2 ltac:(lia)) as (R1 & ER1 & R1o & R1c & R1s). destruct (reshape_contig R1 nbo nbo R1c ltac:(lia)) as (R2 & ER2 & R2o & R2c & R2s).
  apply ub_bind. unfold wk_lmat at 1. rewrite ER1. apply wp_ret. cbn [fst snd]. apply ub_bind. unfold wk_lmat. rewrite ER2. apply wp_ret. cbn [fst snd].
  apply ub_bind. eapply wp_use; [apply laset_run; [reflexivity|apply lview_inj; apply lok_new0]|]. intros u0 s1 _.
  apply ub_bind, wp_assert; [apply Nat.ltb_lt; lia|]. apply ub_first. destruct ihi as [|f]; [lia|]. cbn [gehrd_loop]. destruct (Nat.ltb_spec (ilo + Nat.max nbo nxo) (S f - 1)); [|unfold blocks in Hb; lia].
  apply ub_first. apply HB; reflexivity.
Qed.
Theorem gehrd_tau_length_refuted p l h nbo nxo ilo ihi n A tau s : shape A n n -> nc tau = 1%nat -> (ilo < n)%nat -> (0 < ihi <= n)%nat -> blocks nbo nxo ilo ihi ->
  (n - 1 <= nr tau < ihi)%nat -> gehrd p l h nbo nxo ilo ihi A tau s = UB.
Proof.
  intros HS Ht Hlo Hi Hb Hl. pose proof HS as [HS1 HS2]. unfold gehrd. cbv zeta. rewrite HS2. destruct (Nat.leb_spec n 0); [lia|].
  apply ub_bind. eapply wp_use; [apply (gehrd_query nbo nxo ilo ihi n A tau s); auto; lia|]. intros w s0 HL. cbv beta in HL. destruct HL as [Ew ->].
  apply ub_bind. apply wp_new_work. intros s1 _ _. set (work := new_lmat0 _ _ p l).
  apply (gehrd_start h nbo nxo ilo ihi n A tau work s1); auto; [lia|apply lok_new0|apply contig_new0| |].
  - pose proof (gehrd_size_blk _ _ n _ _ Hb) as K. unfold work. cbn [lm ln new_lmat0]. unfold wsize in Ew. lia.
  - intros s2 Y TT _ _ _ _. destruct (blocks_nb _ _ _ _ Hb) as [_ Hb2]. unfold gehrd_block. cbv zeta. rewrite HS2. replace (Nat.min nbo (ihi - ilo - 1)) with nbo by lia.
    apply ub_bind, wp_slc; [lia..|]. apply ub_bind, wp_slc; [lia..|]. apply slvec_ub. lia.
Qed.
(** a block size of 0 leaves lahr2 with no column to reduce, and it writes element (k + nb, nb - 1), out of range *)
Theorem gehrd_zero_block_refuted p l h nxo ilo ihi n A tau s : shape A n n -> nc tau = 1%nat -> (ilo < n)%nat -> (0 < ihi <= n)%nat -> blocks 0 nxo ilo ihi ->
  (n <= nr tau)%nat -> gehrd p l h 0 nxo ilo ihi A tau s = UB.
Proof.
  intros HS Ht Hlo Hi Hb Hl. pose proof HS as [HS1 HS2]. unfold gehrd. cbv zeta. rewrite HS2. destruct (Nat.leb_spec n 0); [lia|].
  apply ub_bind. eapply wp_use; [apply (gehrd_query 0 nxo ilo ihi n A tau s); auto; lia|]. intros w s0 HL. cbv beta in HL. destruct HL as [Ew ->].
  apply ub_bind. apply wp_new_work. intros s1 _ _. set (work := new_lmat0 _ _ p l).
  apply (gehrd_start h 0 nxo ilo ihi n A tau work s1); auto; [lia|apply lok_new0|apply contig_new0|lia|].
  intros s2 Y TT HY1 HY2 HT1 HT2. destruct (blocks_nb _ _ _ _ Hb) as [_ Hb2]. unfold gehrd_block. cbv zeta. rewrite HS2. cbn [Nat.min].
  apply ub_bind, wp_slc; [lia..|]. apply ub_bind, wp_slc; [lia..|]. apply ub_bind, wp_slvec; [lia..|]. apply ub_bind, wp_slc; [lia..|]. apply ub_bind, wp_slc; [lia..|].
  apply ub_first. unfold lahr2. cbv zeta. cbn [nr subv]. destruct (Nat.leb_spec (ihi - 0) 1); [lia|]. apply ub_first. reflexivity.
Qed.
(** with ihi = 0 the loop bound ihi - 1 wraps around *)
Theorem gehrd_ihi0_refuted h nbo nxo A tau work s n : shape A n n -> (0 < n)%nat -> (n - 1 <= nr tau)%nat -> gehrd_work h nbo nxo 0 0 A tau work s = UB.
Proof.
  intros [HA1 HA2] Hn Hl. unfold gehrd_work. cbv zeta. rewrite HA1, HA2.
  apply ub_bind, wp_check; [apply Nat.ltb_lt; auto|]. apply ub_bind, wp_check; [apply Nat.leb_le; lia|]. apply ub_bind, wp_check; [apply Nat.eqb_refl|].
  apply ub_bind. apply wp_check. { destruct (Nat.eqb_spec n 0), (Nat.ltb_spec (nr tau) (n - 1)); try lia; reflexivity. }
  destruct (Nat.leb_spec n 0); [lia|]. cbn [gehrd_blocked Nat.ltb Nat.leb andb].
  destruct (reshape_00 work) as (P1 & R1 & ER1 & Z1). destruct (reshape_00 R1) as (P2 & R2 & ER2 & Z2).
  apply ub_bind. unfold wk_lmat at 1. rewrite ER1. apply wp_ret. cbn [fst snd]. apply ub_bind. unfold wk_lmat. rewrite ER2. apply wp_ret. cbn [fst snd].
  apply ub_bind. eapply wp_use; [apply laset_run; [reflexivity|]|].
  { intros i j i' j' Hi Hj. cbn in Hj. lia. }
  intros u0 s1 _. apply ub_first. reflexivity.
Qed.
(** with a caller-supplied workspace the empty matrix is rejected: no ilo is smaller than n = 0.  The allocating form
    returns at once *)
Theorem gehrd_empty_rejected h nbo nxo ilo ihi A tau work s : check_input = true -> shape A 0 0 -> rejects (gehrd_work h nbo nxo ilo ihi A tau work) s.
Proof. intros Hc [H1 H2]. unfold rejects, gehrd_work, bind, check. rewrite H1, H2, Hc. reflexivity. Qed.
Theorem gehrd_empty_ok p l h nbo nxo ilo ihi A tau s : shape A 0 0 -> gehrd p l h nbo nxo ilo ihi A tau s = Ok 0%Z s.
Proof. intros [H1 H2]. unfold gehrd. cbv zeta. rewrite H2. reflexivity. Qed.
End N.

(** ** Concrete cases: the 3-by-3 matrix with elements 0, ..., 8, in blocks of one column *)
#[local] Hint Unfold exG exGt exGw : exv.
Example gehrd_blocks_example : blocks 1 0 0 3.
Proof. unfold blocks. cbn. lia. Qed.
Example gehrd_example v : returns (hessenberg (E:=RE) 100 ColMajor v (Householder.ex_h RE) 1 0 0 3 exG exGt) exG_s (gehd2_result (E:=RE) 3 0 3 exG exGt (block 100 (hessenberg_size v 1 0 3 0 3)) exG_s).
Proof.
  apply (hessenberg_correct (E:=RE) 100 ColMajor v (Householder.ex_h RE) (1/8) 1000 (1/1000)); auto; try (cbn; lia); try apply exG_fresh; try (exv; fail).
  - apply (Householder.ex_h_ok RE).
  - intros i j Hi Hj K. lia.
  - apply exG_norm, exG_val.
Qed.
Example gehrd_unghr_example : exists s1, gehrd (E:=RE) 100 ColMajor (Householder.ex_h RE) 1 0 0 3 exG exGt exG_s = Ok 0%Z s1 /\ exists s2, unghr (E:=RE) 100 ColMajor 2 0 3 exG exGt s1 = Ok 0%Z s2 /\
  unitary (E:=RE) 3 (val exG s2) /\ (forall i j, (i < 3)%nat -> (j < 3)%nat -> val exG exG_s i j = mmul (E:=RE) 3 (mmul (E:=RE) 3 (val exG s2) (hesspart (E:=RE) 0 3 (val exG s1))) (ctr (E:=RE) (val exG s2)) i j).
Proof.
  apply (gehrd_unghr_correct (E:=RE) 100 100 ColMajor ColMajor (Householder.ex_h RE) (1/8) 1000 (1/1000) 1 0 2 0 3 3 exG exGt exG_s); auto; try (cbn; lia); try apply exG_fresh; try (exv; fail).
  - apply (Householder.ex_h_ok RE).
  - intros i j Hi Hj K. lia.
  - apply exG_norm, exG_val.
Qed.
Definition exGw2 : lmat := mklmat 4 1 100 4 ColMajor.
#[local] Hint Unfold exGw2 : exv.
Example gehrd_work_example : returns (gehrd_work (E:=RE) (Householder.ex_h RE) 1 0 0 3 exG exGt exGw2) exG_s (gehd2_result (E:=RE) 3 0 3 exG exGt (inview (lview exGw2)) exG_s).
Proof.
  apply (gehrd_work_correct (E:=RE) (Householder.ex_h RE) (1/8) 1000 (1/1000)); auto; try (cbn; lia); try (exv; fail).
  - apply (Householder.ex_h_ok RE).
  - intros i j Hi Hj K. lia.
  - apply exG_norm, exG_val.
  - right. split; [unfold lok; cbn; lia|]. split; [reflexivity|cbn; lia].
Qed.
Example gehrd_tau_length_example (s : @state RE) : gehrd (E:=RE) 100 ColMajor (Householder.ex_h RE) 1 0 0 3 exG (vview (mklvec 2 20 1 Forward)) s = UB.
Proof. apply (gehrd_tau_length_refuted (E:=RE) _ _ _ _ _ _ _ 3); try split; try reflexivity; try (cbn; lia). unfold blocks. cbn. lia. Qed.
