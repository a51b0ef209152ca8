(** * C54: blocked reduction to bidiagonal form (labrd, gebrd), and the driver bidiag *)
From Coq Require Import Bool Arith ZArith Lia Reals Lra Ring Field.
From Verif.Core Require Import Scalar Prog View Slice Loops WorkEff Instances RealLaws.
From Verif.Spec Require Import LinAlg Outcome Norms Householder Reduce Parts.
From Verif.Model Require Import Gemm Blas1 Blas2 Blas3 Legacy LaAux Norms Work Householder QGen QFact BlockQ Reduce Drivers Gebrd.
From Verif.Proof Require Import SumLemmas SliceTac LegacyProof BlockAlg PotrfProof LaAuxProof LarfProof LarfgProof QRProof WorkProof QGenProof QFactProof LarfbProof ReduceMath ReduceProof HessProof GebrdRun.
From Verif.Properties Require Import ExTac Work BlockQ Reduce.
From Verif.Properties Require Householder.
Local Open Scope T_scope.

(** the workspace: an m-by-nb matrix X and an n-by-nb matrix Y *)
Definition gebrd_size (nbo m n : nat) : nat := ((m + n) * Nat.min nbo (Nat.min m n))%nat.

Section R.
Context {E : Env} {FL : FieldLaws E} {CL : ConjLaws E} {OL : ROrdLaws E} {QL : EqbLaws E} {XL : CplxLaws E} {RL : RLaws E} {NL : FinLaws E}.

(** with a workspace supplied by the caller *)
Theorem gebrd_work_correct (h : hconst) (st bt hsm : R) (nbo m n : nat) (A tauv tauw : view) (work : lmat) (s : state) :
  hconst_ok h st bt hsm -> shape A m n -> nc tauv = 1%nat -> nc tauw = 1%nat -> (Nat.min m n <= nr tauv)%nat -> (Nat.min m n <= nr tauw)%nat ->
  vinj A -> vinj tauv -> vinj tauw -> disj A tauv -> disj A tauw -> disj tauv tauw ->
  disj (lview work) A -> disj (lview work) tauv -> disj (lview work) tauw -> (fro2 m n (val A s) <= bt * bt)%R ->
  lok work -> contiguous work = true -> (gebrd_size nbo m n <= lm work * ln work)%nat -> (0 < nbo \/ Nat.min m n = 0)%nat ->
  returns (gebrd_work h nbo A tauv tauw work) s (gebd2_result m n A tauv tauw (inview (lview work)) s).
Proof.
  intros Hh [HA1 HA2] Hv Hw Hlv Hlw HI HIv HIw D1 D2 D3 W1 W2 W3 HN L1 L2 L3 Hb. apply runs_inv.
  eapply wp_conseq; [apply (gebrd_work_run h st bt hsm m n nbo A tauv tauw work s); auto| |auto].
  intros r s' HL. cbv beta in HL. destruct HL as (-> & K1 & K2 & K3). split; auto. split; auto. split; auto. intros a Ha. apply K2; tauto.
Qed.
(** allocating its own workspace of the queried size *)
Theorem gebrd_correct (p : Z) (l : layout_t) (h : hconst) (st bt hsm : R) (nbo m n : nat) (A tauv tauw : view) (s : state) :
  hconst_ok h st bt hsm -> shape A m n -> nc tauv = 1%nat -> nc tauw = 1%nat -> (Nat.min m n <= nr tauv)%nat -> (Nat.min m n <= nr tauw)%nat ->
  vinj A -> vinj tauv -> vinj tauw -> disj A tauv -> disj A tauw -> disj tauv tauw -> (fro2 m n (val A s) <= bt * bt)%R -> (0 < nbo \/ Nat.min m n = 0)%nat ->
  fresh p (gebrd_size nbo m n) A -> fresh p (gebrd_size nbo m n) tauv -> fresh p (gebrd_size nbo m n) tauw ->
  returns (gebrd p l h nbo A tauv tauw) s (gebd2_result m n A tauv tauw (block p (gebrd_size nbo m n)) s).
Proof.
  intros Hh HS Hv Hw Hlv Hlw HI HIv HIw D1 D2 D3 HN Hb F1 F2 F3. pose proof HS as [Hm Hn]. apply runs_inv. unfold runs, gebrd.
  apply (alloc_gen p l _ (gebrd_size nbo m n)); [unfold gebrd_worksize, gebrd_nb, wsize, winfo_m, gebrd_size; cbn; rewrite Hm, Hn; reflexivity|].
  intros s1 work W1 W2 W3 W4 W5 M1 M2.
  assert (EA : forall i j, (i < m)%nat -> (j < n)%nat -> val A s1 i j = val A s i j) by (intros; eapply fresh_val; eauto; lia).
  eapply wp_conseq; [apply (gebrd_work_run h st bt hsm m n nbo A tauv tauw work s1); auto| |auto].
  - rewrite (fro2_ext m n _ (val A s)) by auto. auto.
  - unfold gebrd_size in W3. rewrite W3. auto.
  - intros r s' HL. cbv beta in HL. destruct HL as (-> & (B1 & B2 & B3 & B4) & L2 & L3). split; auto. split; [|split; [|congruence]].
    + split; [exact B1|]. split; [exact B2|]. split; [|exact B4]. intros i j Hi Hj. rewrite <- EA by auto. apply B3; auto.
    + intros a Ha. rewrite L2; [apply M1; tauto|tauto|tauto|tauto|]. rewrite W4. tauto.
Qed.

(** the driver: either variant, under the hypotheses of that variant *)
Definition bidiag_size (v : variant_t) (nbo m n : nat) : nat := match v with Level2 => bid_size m n | Blocked => gebrd_size nbo m n end.
Theorem bidiag_work_correct (v : variant_t) (h : hconst) (st bt hsm : R) (nbo m n : nat) (A tauv tauw : view) (work : lmat) (s : state) :
  hconst_ok h st bt hsm -> shape A m n -> nc tauv = 1%nat -> nc tauw = 1%nat -> (Nat.min m n <= nr tauv)%nat -> (Nat.min m n <= nr tauw)%nat ->
  vinj A -> vinj tauv -> vinj tauw -> disj A tauv -> disj A tauw -> disj tauv tauw ->
  disj (lview work) A -> disj (lview work) tauv -> disj (lview work) tauw -> (fro2 m n (val A s) <= bt * bt)%R ->
  lok work -> contiguous work = true -> (v = Level2 -> m <= 1 \/ n <= 1 \/ n - 1 <= lm work * ln work /\ (n <= 2 \/ m - 1 <= lm work * ln work))%nat ->
  (v = Blocked -> gebrd_size nbo m n <= lm work * ln work /\ (0 < nbo \/ Nat.min m n = 0))%nat ->
  returns (bidiag_work v h nbo A tauv tauw work) s (gebd2_result m n A tauv tauw (inview (lview work)) s).
Proof.
  intros Hh HS Hv Hw Hlv Hlw HI HIv HIw D1 D2 D3 W1 W2 W3 HN L1 L2 HW Hb. destruct v; cbn [bidiag_work].
  all: first [apply (gebd2_work_correct h st bt hsm); auto; destruct (HW eq_refl) as [|[|[]]]; auto 10; fail|apply (gebrd_work_correct h st bt hsm); auto; apply (Hb eq_refl)].
Qed.
(** Missing, because false of the code (gebd2_empty_refuted): Level2 with m = 0, more than one column and an empty tauv *)
Theorem bidiag_correct_partial (p : Z) (l : layout_t) (v : variant_t) (h : hconst) (st bt hsm : R) (nbo m n : nat) (A tauv tauw : view) (s : state) :
  hconst_ok h st bt hsm -> shape A m n -> nc tauv = 1%nat -> nc tauw = 1%nat -> (Nat.min m n <= nr tauv)%nat -> (Nat.min m n <= nr tauw)%nat ->
  vinj A -> vinj tauv -> vinj tauw -> disj A tauv -> disj A tauw -> disj tauv tauw -> (fro2 m n (val A s) <= bt * bt)%R ->
  (v = Level2 -> 0 < nr tauv \/ n <= 1)%nat -> (v = Blocked -> 0 < nbo \/ Nat.min m n = 0)%nat ->
  fresh p (bidiag_size v nbo m n) A -> fresh p (bidiag_size v nbo m n) tauv -> fresh p (bidiag_size v nbo m n) tauw ->
  returns (bidiag p l v h nbo A tauv tauw) s (gebd2_result m n A tauv tauw (block p (bidiag_size v nbo m n)) s).
Proof.
  intros Hh HS Hv Hw Hlv Hlw HI HIv HIw D1 D2 D3 HN Ha Hb F1 F2 F3. destruct v; cbn [bidiag bidiag_size] in *.
  all: first [apply (gebd2_correct_partial p l h st bt hsm); auto; fail|apply (gebrd_correct p l h st bt hsm); auto].
Qed.
End R.

(** ** What the code does not do *)
Section N.
Context {E : Env}.
Lemma gebrd_start p l h nbo m n A tauv tauw s : shape A m n -> (0 < m)%nat -> (0 < n)%nat ->
  (forall s1 X Y, nr X = m -> nc X = Nat.min nbo (Nat.min m n) -> nr Y = n -> nc Y = Nat.min nbo (Nat.min m n) -> gebrd_block h (Nat.min nbo (Nat.min m n)) 0 A tauv tauw X Y s1 = UB) ->
  gebrd p l h nbo A tauv tauw s = UB.
Proof.
  intros [H1 H2] Hm Hn HB. unfold gebrd. apply ub_bind. apply wp_new_work. intros s1 _ _. set (work := new_lmat0 _ _ p l).
  unfold gebrd_work, gebrd_nb. cbv zeta. rewrite H1, H2. set (nb := Nat.min nbo (Nat.min m n)) in *.
  assert (W : (lm work * ln work = m * nb + n * nb)%nat). { unfold work. cbn [lm ln new_lmat0 gebrd_worksize winfo_m wm wn gebrd_nb]. unfold gebrd_worksize, gebrd_nb, winfo_m. cbn. rewrite H1, H2. fold nb. lia. }
  apply ub_bind. apply wp_wk_matc; [apply lok_new0|apply contig_new0|lia|]. intros X r1 X1 X2 X3 X4 X5 X6 X7 X8 X9. apply ub_bind. cbn [fst snd].
  apply wp_wk_matc; [auto|auto|lia|]. intros Y r2 Y1 Y2 Y3 Y4 Y5 Y6 Y7 Y8 Y9. cbn [fst snd].
  apply ub_bind. eapply wp_use; [apply laset_run; [reflexivity|exact X3]|]. intros u0 s2 _.
  apply ub_bind. eapply wp_use; [apply laset_run; [reflexivity|exact Y3]|]. intros u1 s3 _.
  apply ub_first. destruct (Nat.min m n) as [|f] eqn:Ef; [lia|]. cbn [gebrd_loop]. rewrite H1, H2, Ef. cbn [Nat.ltb Nat.leb]. apply ub_first. apply HB; auto.
Qed.
(** no argument is checked: tau vectors shorter than the first block are sliced out of range *)
Theorem gebrd_short_tau_refuted p l h nbo m n A tauv tauw s : shape A m n -> nc tauv = 1%nat ->
  (nr tauv < Nat.min nbo (Nat.min m n) \/ (nr tauw < Nat.min nbo (Nat.min m n) <= nr tauv))%nat -> gebrd p l h nbo A tauv tauw s = UB.
Proof.
  intros HS Ht Hl. apply (gebrd_start p l h nbo m n); auto; try lia. intros s1 X Y _ _ _ _. destruct HS as [H1 H2]. unfold gebrd_block. cbv zeta. rewrite H1, H2.
  apply ub_bind, wp_slc; [lia..|]. rewrite Nat.sub_0_r. destruct Hl as [Hl|Hl]; [apply slvec_ub; lia|]. apply ub_bind, wp_slvec; [lia..|]. apply slvec_ub. lia.
Qed.
(** a block size of 0 makes the index i + ib - 1 wrap around *)
Theorem gebrd_zero_block_refuted p l h m n A tauv tauw s : shape A m n -> nc tauv = 1%nat -> nc tauw = 1%nat -> (0 < m)%nat -> (0 < n)%nat -> gebrd p l h 0 A tauv tauw s = UB.
Proof.
  intros HS Hv Hw Hm Hn. apply (gebrd_start p l h 0 m n); auto. intros s1 X Y X1 X2 Y1 Y2. cbn [Nat.min] in *. destruct HS as [H1 H2]. unfold gebrd_block. cbv zeta. rewrite H1, H2. cbn [Nat.min Nat.add].
  apply ub_bind, wp_slc; [lia..|]. apply ub_bind, wp_slvec; [lia..|]. apply ub_bind, wp_slvec; [lia..|]. apply ub_bind, wp_slc; [lia..|]. apply ub_bind, wp_slc; [lia..|].
  apply ub_bind. unfold labrd. cbv zeta. cbn [nr nc subv]. rewrite !Nat.sub_0_r. destruct (Nat.eqb_spec m 0); [lia|]. destruct (Nat.eqb_spec n 0); [lia|]. cbn [orb].
  apply wp_bind. match goal with |- wp (if ?b then _ else _) _ _ _ => destruct b end; (apply wp_ret; apply wp_ret); destruct (Nat.ltb_spec 0 m); try lia; destruct (Nat.ltb_spec 0 n); try lia; reflexivity.
Qed.
End N.

(** ** Concrete cases: the 3-by-3 matrix with elements 0, ..., 8, and a 2-by-3 one, in blocks of one column *)
#[local] Hint Unfold exG exGt exGw : exv.
Example bidiag_example v : returns (bidiag (E:=RE) 100 ColMajor v (Householder.ex_h RE) 1 exG exGt exGw) exG_s (gebd2_result (E:=RE) 3 3 exG exGt exGw (block 100 (bidiag_size v 1 3 3)) exG_s).
Proof.
  apply (bidiag_correct_partial (E:=RE) 100 ColMajor v (Householder.ex_h RE) (1/8) 1000 (1/1000)); auto; try (cbn; lia); try apply exG_fresh; try (exv; fail).
  - apply (Householder.ex_h_ok RE).
  - apply exG_norm, exG_val.
Qed.
Definition exB2 : view := lview (mklmat 2 3 0 2 ColMajor).
Definition exBw : lmat := mklmat 10 1 100 10 ColMajor.
#[local] Hint Unfold exB2 exBw : exv.
Lemma exB2_norm : (fro2 (E:=RE) 2 3 (val exB2 exG_s) <= 1000 * 1000)%R.
Proof.
  unfold fro2, vsq. cbn [rsum]. unfold modulus. cbn.
  assert (K : forall x : R, (0 <= x <= 5)%R -> (Rabs x * Rabs x <= 25)%R) by (intros x Hx; rewrite Rabs_right by lra; nra).
  pose proof (K 0%R ltac:(lra)). pose proof (K 1%R ltac:(lra)). pose proof (K 2%R ltac:(lra)). pose proof (K 3%R ltac:(lra)). pose proof (K 4%R ltac:(lra)). pose proof (K 5%R ltac:(lra)). lra.
Qed.
Example bidiag_work_example v : returns (bidiag_work (E:=RE) v (Householder.ex_h RE) 1 exB2 exGt exGw exBw) exG_s (gebd2_result (E:=RE) 2 3 exB2 exGt exGw (inview (lview exBw)) exG_s).
Proof.
  apply (bidiag_work_correct (E:=RE) v (Householder.ex_h RE) (1/8) 1000 (1/1000)); auto; try (cbn; lia); try (exv; fail).
  - apply (Householder.ex_h_ok RE).
  - apply exB2_norm.
  - unfold lok; cbn; lia.
Qed.
Example gebrd_short_tau_example (s : @state RE) : gebrd (E:=RE) 100 ColMajor (Householder.ex_h RE) 2 exG (vview (mklvec 1 20 1 Forward)) exGw s = UB.
Proof. apply (gebrd_short_tau_refuted (E:=RE) _ _ _ _ 3 3); try split; try reflexivity. left. cbn. lia. Qed.
Example gebrd_zero_block_example (s : @state RE) : gebrd (E:=RE) 100 ColMajor (Householder.ex_h RE) 0 exG exGt exGw s = UB.
Proof. apply (gebrd_zero_block_refuted (E:=RE) _ _ _ 3 3); try split; try reflexivity; lia. Qed.
