(** * C40: LQ, QL and RQ factorizations *)
From Coq Require Import Bool Arith ZArith Lia Reals Lra Ring Field.
From Verif.Core Require Import Scalar Prog View Slice Loops WorkEff Instances RealLaws.
From Verif.Spec Require Import LinAlg Outcome Norms Householder.
From Verif.Model Require Import Gemm Blas1 Blas2 Blas3 Legacy LaAux Norms Work Householder QFact.
From Verif.Proof Require Import SumLemmas SliceTac LegacyProof BlockAlg PotrfProof LarfProof LarfgProof QRProof WorkProof QGenProof QFactProof.
From Verif.Properties Require Import ExTac.
From Verif.Properties Require Householder.
Local Open Scope T_scope.

(** The m-by-n matrix [A0] has been factored in place into [A], [tau]: with k = min(m,n) and Q the unitary matrix the
    k stored reflectors stand for,
      A0 = L Q (Forward, Rowwise), A0 = Q L (Backward, Columnwise), A0 = R Q (Backward, Rowwise)
    where the triangular factor is what [trap] leaves of [A] and has a real diagonal *)
Definition factorization {E : Env} (dir : direction_t) (sm : storev_t) (m n : nat) (A0 A : mat) (tau : nat -> T) : Prop :=
  let k := Nat.min m n in
  let nq := match sm with Columnwise => m | Rowwise => n end in
  let Q := qof dir sm nq (stored dir sm m n k A) tau k in
  let F := trap dir sm m n A in
  unitary nq Q /\
  (forall i j, (i < m)%nat -> (j < n)%nat -> A0 i j = match sm with Columnwise => mmul m Q F i j | Rowwise => mmul n F Q i j end) /\
  (forall i, (i < k)%nat -> let e := match dir with Forward => F i i | Backward => F (m - k + i)%nat (n - k + i)%nat end in conj e = e).
(** the sizes the queries report *)
Definition rowsz (m n : nat) : nat := if (1 <? m)%nat then wsize (larf_worksize Right (m - 1) n) else 0.
Definition colsz (m n : nat) : nat := if (1 <? n)%nat then wsize (larf_worksize Left m (n - 1)) else 0.

Section R.
Context {E : Env} {FL : FieldLaws E} {CL : ConjLaws E} {OL : ROrdLaws E} {QL : EqbLaws E} {XL : CplxLaws E} {RL : RLaws E} {NL : FinLaws E}.
Add Field Tf : fth.

Lemma factored_spec dir sm A tau work s s1 r s' m n : shape A m n -> (forall i j, (i < m)%nat -> (j < n)%nat -> val A s1 i j = val A s i j) ->
  factored dir sm A tau work s1 r s' ->
  r = 0%Z /\ factorization dir sm m n (val A s) (val A s') (vval tau s') /\ only_changes (fun l => inview A l \/ inview tau l \/ inview (lview work) l) s1 s'.
Proof.
  intros [Hm Hn] EA (-> & K1 & K2 & K3 & K4). rewrite Hm, Hn in *. split; auto. split; auto. split; [exact K1|]. split.
  - intros i j Hi Hj. rewrite <- EA by auto. rewrite K2 by auto. reflexivity.
  - intros i Hi. specialize (K3 i Hi). cbv zeta in *. unfold trap. destruct dir, sm.
    + rewrite Nat.leb_refl. auto.
    + rewrite Nat.leb_refl. auto.
    + destruct (Nat.leb_spec (m + (n - Nat.min m n + i)) (n + (m - Nat.min m n + i))); [auto|lia].
    + destruct (Nat.leb_spec (n + (m - Nat.min m n + i)) (m + (n - Nat.min m n + i))); [auto|lia].
Qed.

(** With a workspace of sufficient size ([m - 1] elements for gelq2 and gerq2, [n - 1] for geql2) *)
Section W.
Variables (h : hconst) (st bt hsm : R) (A tau : view) (work : lmat) (s : state) (m n : nat).
Hypotheses (Hh : hconst_ok h st bt hsm) (HS : shape A m n) (Ht : nc tau = 1%nat) (Hl : (Nat.min m n <= nr tau)%nat)
  (HI : vinj A) (HIt : vinj tau) (HD : disj A tau) (W1 : lok work) (W2 : contiguous work = true) (W4 : disj (lview work) A) (W5 : disj (lview work) tau).
Theorem gelq2_work_correct : (m - 1 <= lm work * ln work)%nat -> (forall i, (i < m)%nat -> (vsq n (fun j => val A s i j) <= bt * bt)%R) ->
  returns (gelq2_work h A tau work) s (fun r s' => r = 0%Z /\ factorization Forward Rowwise m n (val A s) (val A s') (vval tau s') /\
    only_changes (fun l => inview A l \/ inview tau l \/ inview (lview work) l) s s').
Proof.
  intros W3 HN. apply runs_inv. eapply wp_conseq; [apply (gelq2_work_run h st bt hsm A tau work s); auto| |auto].
  - destruct HS as [-> ->]. auto.
  - destruct HS as [-> ->]. auto.
  - destruct HS as [-> ->]. auto.
  - intros r s' HL. exact (factored_spec _ _ _ _ _ _ _ _ _ m n HS ltac:(auto) HL).
Qed.
Theorem geql2_work_correct : (n - 1 <= lm work * ln work)%nat -> (forall j, (j < n)%nat -> (vsq m (fun i => val A s i j) <= bt * bt)%R) ->
  returns (geql2_work h A tau work) s (fun r s' => r = 0%Z /\ factorization Backward Columnwise m n (val A s) (val A s') (vval tau s') /\
    only_changes (fun l => inview A l \/ inview tau l \/ inview (lview work) l) s s').
Proof.
  intros W3 HN. apply runs_inv. eapply wp_conseq; [apply (geql2_work_run h st bt hsm A tau work s); auto| |auto].
  - destruct HS as [-> ->]. auto.
  - destruct HS as [-> ->]. auto.
  - destruct HS as [-> ->]. auto.
  - intros r s' HL. exact (factored_spec _ _ _ _ _ _ _ _ _ m n HS ltac:(auto) HL).
Qed.
Theorem gerq2_work_correct : (m - 1 <= lm work * ln work)%nat -> (forall i, (i < m)%nat -> (vsq n (fun j => val A s i j) <= bt * bt)%R) ->
  returns (gerq2_work h A tau work) s (fun r s' => r = 0%Z /\ factorization Backward Rowwise m n (val A s) (val A s') (vval tau s') /\
    only_changes (fun l => inview A l \/ inview tau l \/ inview (lview work) l) s s').
Proof.
  intros W3 HN. apply runs_inv. eapply wp_conseq; [apply (gerq2_work_run h st bt hsm A tau work s); auto| |auto].
  - destruct HS as [-> ->]. auto.
  - destruct HS as [-> ->]. auto.
  - destruct HS as [-> ->]. auto.
  - intros r s' HL. exact (factored_spec _ _ _ _ _ _ _ _ _ m n HS ltac:(auto) HL).
Qed.
End W.

Lemma rowsz_ok m n : (m <= 1 \/ n <= 1 \/ m - 1 <= rowsz m n)%nat.
Proof.
  destruct (Nat.le_gt_cases m 1); auto. destruct (Nat.le_gt_cases n 1); auto. right. right. unfold rowsz, larf_worksize, larf_worksize1.
  destruct (Nat.ltb_spec 1 m); [|lia]. destruct (Nat.ltb_spec 0 n); [|lia]. destruct (Nat.ltb_spec 0 (m - 1)); [|lia]. destruct (Nat.ltb_spec 0 (n - 1)); [|lia]. cbn. lia.
Qed.
Lemma colsz_ok m n : (m <= 1 \/ n <= 1 \/ n - 1 <= colsz m n)%nat.
Proof.
  destruct (Nat.le_gt_cases m 1); auto. destruct (Nat.le_gt_cases n 1); auto. right. right. unfold colsz, larf_worksize, larf_worksize1.
  destruct (Nat.ltb_spec 1 n); [|lia]. destruct (Nat.ltb_spec 0 m); [|lia]. destruct (Nat.ltb_spec 0 (m - 1)); [|lia]. destruct (Nat.ltb_spec 0 (n - 1)); [|lia]. cbn. lia.
Qed.

(** Allocating the workspace whose size the query reports, at address [p] *)
Section A.
Variables (p : Z) (l : layout_t) (h : hconst) (st bt hsm : R) (A tau : view) (s : state) (m n : nat).
Hypotheses (Hh : hconst_ok h st bt hsm) (HS : shape A m n) (Ht : nc tau = 1%nat) (Hl : (Nat.min m n <= nr tau)%nat)
  (HI : vinj A) (HIt : vinj tau) (HD : disj A tau).
Lemma alloc_go (w : winfo) sz (dir : direction_t) (sm : storev_t) (K : lmat -> M Z) : wsize w = sz -> fresh p sz A -> fresh p sz tau ->
  (forall s1 work, lok work -> contiguous work = true -> (lm work * ln work)%nat = sz -> disj (lview work) A -> disj (lview work) tau ->
     (forall i j, (i < m)%nat -> (j < n)%nat -> val A s1 i j = val A s i j) -> wp (K work) (factored dir sm A tau work s1) noX s1) ->
  wp (work <- new_work p l w;; K work) (fun r s' => r = 0%Z /\ factorization dir sm m n (val A s) (val A s') (vval tau s') /\
    only_changes (fun l => inview A l \/ inview tau l \/ block p sz l) s s') noX s.
Proof.
  intros Ew F1 F2 HK. apply wp_bind. apply wp_new_work. rewrite Ew. intros s1 K1 K2. set (work := new_lmat0 _ _ p l).
  assert (Es : (lm work * ln work)%nat = sz) by exact Ew.
  assert (EA : forall i j, (i < m)%nat -> (j < n)%nat -> val A s1 i j = val A s i j) by (destruct HS; intros; eapply fresh_val; eauto; lia).
  assert (D1 : disj (lview work) A) by (apply fresh_disj; unfold wsize in Ew; rewrite Ew; auto).
  assert (D2 : disj (lview work) tau) by (apply fresh_disj; unfold wsize in Ew; rewrite Ew; auto).
  eapply wp_conseq; [apply (HK s1 work); auto; [apply lok_new0|apply contig_new0]| |auto].
  intros r s' HL. cbv beta in HL. destruct (factored_spec _ _ _ _ _ s s1 _ _ m n HS EA HL) as (-> & HF & (H1 & H2)). split; auto. split; auto. split; [|congruence].
  intros a Ha. rewrite H1; [apply K1; tauto|]. intros [J|[J|J]]; apply Ha; auto. apply new_inview in J. unfold wsize in Ew. rewrite Ew in J. auto.
Qed.
(** gelq2.  Missing, because false of the code (gelq2_empty_refuted): n = 0, more than one row and an empty tau *)
Theorem gelq2_correct_partial : (0 < nr tau \/ m <= 1)%nat -> fresh p (rowsz m n) A -> fresh p (rowsz m n) tau ->
  (forall i, (i < m)%nat -> (vsq n (fun j => val A s i j) <= bt * bt)%R) ->
  returns (gelq2 p l h A tau) s (fun r s' => r = 0%Z /\ factorization Forward Rowwise m n (val A s) (val A s') (vval tau s') /\
    only_changes (fun l => inview A l \/ inview tau l \/ block p (rowsz m n) l) s s').
Proof.
  intros Hne F1 F2 HN. apply runs_inv. unfold runs, gelq2, gelq2_worksize. cbv zeta. pose proof HS as [Hm Hn]. rewrite Hm, Hn. apply wp_bind.
  eapply wp_use with (Q := fun w s1 => w = (if (1 <? m)%nat then larf_worksize Right (m - 1) n else winfo_v 0) /\ s1 = s).
  { destruct (Nat.ltb_spec 1 m); [apply wp_bind; apply wp_rd; [lia|lia|]|]; apply wp_ret; auto. }
  intros w s0 HL. cbv beta in HL. destruct HL as [-> ->]. apply alloc_go; auto.
  - unfold rowsz. destruct (1 <? m)%nat; reflexivity.
  - intros s1 work W1 W2 W3 W4 W5 EA. apply (gelq2_work_run h st bt hsm A tau work s1); auto; rewrite Hm, Hn; auto.
    + intros i Hi. rewrite (vsq_ext _ _ (fun j => val A s i j)) by (intros; apply EA; auto). auto.
    + rewrite W3. destruct (rowsz_ok m n) as [|[|]]; auto.
Qed.
(** geql2.  Missing, because false of the code (geql2_empty_refuted): m = 0, more than one column and an empty tau *)
Theorem geql2_correct_partial : (0 < nr tau \/ n <= 1)%nat -> fresh p (colsz m n) A -> fresh p (colsz m n) tau ->
  (forall j, (j < n)%nat -> (vsq m (fun i => val A s i j) <= bt * bt)%R) ->
  returns (geql2 p l h A tau) s (fun r s' => r = 0%Z /\ factorization Backward Columnwise m n (val A s) (val A s') (vval tau s') /\
    only_changes (fun l => inview A l \/ inview tau l \/ block p (colsz m n) l) s s').
Proof.
  intros Hne F1 F2 HN. apply runs_inv. unfold runs, geql2, geql2_worksize. cbv zeta. pose proof HS as [Hm Hn]. rewrite Hm, Hn.
  destruct (Nat.leb_spec n 0) as [Hz|Hz].
  { apply wp_ret. split; auto. split; [|split; auto]. unfold factorization. replace (Nat.min m n) with 0%nat by lia.
    split; [apply unitary_id|]. split; intros; lia. }
  apply wp_bind.
  eapply wp_use with (Q := fun w s1 => w = (if (1 <? n)%nat then larf_worksize Left m (n - 1) else winfo_v 0) /\ s1 = s).
  { destruct (Nat.ltb_spec 1 n); [apply wp_bind; apply wp_rd; [lia|lia|]|]; apply wp_ret; auto. }
  intros w s0 HL. cbv beta in HL. destruct HL as [-> ->]. apply alloc_go; auto.
  - unfold colsz. destruct (1 <? n)%nat; reflexivity.
  - intros s1 work W1 W2 W3 W4 W5 EA. apply (geql2_work_run h st bt hsm A tau work s1); auto; rewrite Hm, Hn; auto.
    + intros j Hj. rewrite (vsq_ext _ _ (fun i => val A s i j)) by (intros; apply EA; auto). auto.
    + rewrite W3. destruct (colsz_ok m n) as [|[|]]; auto.
Qed.
Theorem gerq2_correct : fresh p (rowsz m n) A -> fresh p (rowsz m n) tau ->
  (forall i, (i < m)%nat -> (vsq n (fun j => val A s i j) <= bt * bt)%R) ->
  returns (gerq2 p l h A tau) s (fun r s' => r = 0%Z /\ factorization Backward Rowwise m n (val A s) (val A s') (vval tau s') /\
    only_changes (fun l => inview A l \/ inview tau l \/ block p (rowsz m n) l) s s').
Proof.
  intros F1 F2 HN. apply runs_inv. unfold runs, gerq2, gerq2_worksize. cbv zeta. pose proof HS as [Hm Hn]. rewrite Hm, Hn.
  destruct (Nat.leb_spec n 0) as [Hz|Hz].
  { apply wp_ret. split; auto. split; [|split; auto]. unfold factorization. replace (Nat.min m n) with 0%nat by lia.
    split; [apply unitary_ctr, unitary_id|]. split; intros; lia. }
  apply wp_bind.
  eapply wp_use with (Q := fun w s1 => w = (if (1 <? m)%nat then larf_worksize Right (m - 1) n else winfo_v 0) /\ s1 = s).
  { destruct (Nat.ltb_spec 1 m); [apply wp_bind; apply wp_rd; [lia|lia|]|]; apply wp_ret; auto. }
  intros w s0 HL. cbv beta in HL. destruct HL as [-> ->]. apply alloc_go; auto.
  - unfold rowsz. destruct (1 <? m)%nat; reflexivity.
  - intros s1 work W1 W2 W3 W4 W5 EA. apply (gerq2_work_run h st bt hsm A tau work s1); auto; rewrite Hm, Hn; auto.
    + intros i Hi. rewrite (vsq_ext _ _ (fun j => val A s i j)) by (intros; apply EA; auto). auto.
    + rewrite W3. destruct (rowsz_ok m n) as [|[|]]; auto.
Qed.
End A.
End R.

(** On an empty matrix with tau of the right length min(m,n) = 0, which the checks accept, gelq2 and geql2 evaluate
    tau[0] to query the workspace *)
Theorem gelq2_empty_refuted {E : Env} p l h A tau s m : shape A m 0 -> isvec tau 0 -> (1 < m)%nat -> gelq2 p l h A tau s = UB.
Proof.
  intros [Hm Hn] [Ht _] H1. unfold gelq2, gelq2_worksize, bind. rewrite Hm. destruct (Nat.ltb_spec 1 m); [|lia]. unfold rdv, rd, inb. rewrite Ht. reflexivity.
Qed.
Theorem geql2_empty_refuted {E : Env} p l h A tau s n : shape A 0 n -> isvec tau 0 -> (1 < n)%nat -> geql2 p l h A tau s = UB.
Proof.
  intros [Hm Hn] [Ht _] H1. unfold geql2, geql2_worksize, bind. rewrite Hn. destruct (Nat.leb_spec n 0); [lia|]. destruct (Nat.ltb_spec 1 n); [|lia]. unfold rdv, rd, inb. rewrite Ht. reflexivity.
Qed.
Example gelq2_empty_example (s : @state RE) : gelq2 (E:=RE) 100 ColMajor (Householder.ex_h RE) (lview (mklmat 3 0 0 3 ColMajor)) (vview (mklvec 0 20 1 Forward)) s = UB.
Proof. apply (gelq2_empty_refuted (E:=RE) _ _ _ _ _ s 3); try split; try reflexivity; auto. Qed.
Example geql2_empty_example (s : @state RE) : geql2 (E:=RE) 100 ColMajor (Householder.ex_h RE) (lview (mklmat 0 3 0 1 ColMajor)) (vview (mklvec 0 20 1 Forward)) s = UB.
Proof. apply (geql2_empty_refuted (E:=RE) _ _ _ _ _ s 3); try split; try reflexivity; auto. Qed.

(** A concrete case: the matrix ((3, 4), (1, 2)) of the QR example meets the hypotheses of all three *)
Example qfact_hypotheses : shape Householder.exH 2 2 /\ (Nat.min 2 2 <= nr Householder.exHt)%nat /\ vinj Householder.exH /\ disj Householder.exH Householder.exHt /\
  fresh 100 (rowsz 2 2) Householder.exH /\ fresh 100 (rowsz 2 2) Householder.exHt /\
  (forall i, (i < 2)%nat -> (vsq (E:=RE) 2 (fun j => val (E:=RE) Householder.exH Householder.exH_s i j) <= 1000 * 1000)%R) /\
  (forall j, (j < 2)%nat -> (vsq (E:=RE) 2 (fun i => val (E:=RE) Householder.exH Householder.exH_s i j) <= 1000 * 1000)%R).
Proof.
  split; [exv|]. split; [cbn; lia|]. split; [exv|]. split; [exv|]. split; [apply Householder.exH_fresh|]. split; [apply Householder.exH_fresh|].
  split; intros c Hc; unfold vsq; cbn [rsum]; unfold modulus; cbn; (destruct c as [|[|]]; [| |lia]); cbn; unfold Rabs; repeat destruct Rcase_abs; lra.
Qed.
Example gelq2_example : returns (gelq2 (E:=RE) 100 ColMajor (Householder.ex_h RE) Householder.exH Householder.exHt) Householder.exH_s
  (fun r s' => r = 0%Z /\ factorization (E:=RE) Forward Rowwise 2 2 (val Householder.exH Householder.exH_s) (val Householder.exH s') (vval Householder.exHt s') /\
     only_changes (fun l => inview Householder.exH l \/ inview Householder.exHt l \/ block 100 (rowsz 2 2) l) Householder.exH_s s').
Proof.
  destruct qfact_hypotheses as (H1 & H2 & H3 & H4 & H5 & H6 & H7 & H8).
  apply (gelq2_correct_partial (E:=RE) 100 ColMajor (Householder.ex_h RE) (1/8) 1000 (1/1000) Householder.exH Householder.exHt Householder.exH_s 2 2); auto; try reflexivity.
  - apply (Householder.ex_h_ok RE).
  - exv.
  - left. cbn. lia.
Qed.
