(** * C32: forming and applying the unitary matrix a set of reflectors stands for *)
From Coq Require Import Bool Arith ZArith Lia Reals Lra Ring Field.
From Verif.Core Require Import Scalar Prog View Slice Loops WorkEff Instances Quiet RealLaws.
From Verif.Spec Require Import LinAlg Outcome Norms Householder.
From Verif.Model Require Import Gemm Blas1 Blas2 Blas3 Legacy LaAux Norms Work Householder QGen.
From Verif.Proof Require Import SumLemmas SliceTac LegacyProof BlockAlg PotrfProof LarfProof LarfgProof QRProof WorkProof QGenProof.
From Verif.Properties Require Import ExTac.
From Verif.Properties Require Householder.
Local Open Scope T_scope.

Section S.
Context {E : Env} {FL : FieldLaws E} {CL : ConjLaws E} {XL : CplxLaws E}.
Add Field Tf : fth.

(** The operations accepted for op(Q): Q, Q^H, and Q^T for real types *)
Definition op_ok (trans : op_t) : Prop := match trans with NoTrans | ConjTrans => True | Trans => cplx = false | Conj => False end.
(** V has the k reflectors of length nq in its columns or rows *)
Definition vshape (sm : storev_t) (V : view) (nq k : nat) : Prop := match sm with Columnwise => shape V nq k | Rowwise => shape V k nq end.

(** unmq_level2: C := op(Q) C (Left) or C op(Q) (Right); nothing but C and the workspace changes *)
Theorem unmq_level2_work_correct side trans dir sm V tau C work s m n k : op_ok trans -> shape C m n -> vshape sm V (sel side m n) k -> isvec tau k ->
  (k <= sel side m n)%nat -> vinj C -> disj V C -> disj tau C ->
  lok work -> contiguous work = true -> (sel side n m <= lm work * ln work)%nat -> disj (lview work) V -> disj (lview work) tau -> disj (lview work) C ->
  let Q := qof dir sm (sel side m n) (val V s) (vval tau s) k in
  returns (unmq_level2_work side trans dir sm V tau C work) s (fun r s' => r = 0%Z /\
    effw C (match side with Left => mmul m (opm trans Q) (val C s) | Right => mmul n (val C s) (opm trans Q) end) (inview (lview work)) s s').
Proof.
  intros Ht [Hm Hn] HV [Hk Hc] Hkq HI D1 D2 W1 W2 W3 W4 W5 W6 Q. subst m n k. apply runs_inv. eapply wp_conseq; [apply (unmq_level2_work_run side trans dir sm V tau C work s); auto| |auto].
  - destruct sm; cbn in HV; destruct HV; split; auto.
  - right. right. apply wk_ok_contig; auto.
  - intros r s' HL. cbv beta in HL. unfold uact in HL. destruct side; exact HL.
Qed.
(** the same, allocating the workspace whose size the query reports (at address [p]) *)
Theorem unmq_level2_correct p l side trans dir sm V tau C s m n k : op_ok trans -> shape C m n -> vshape sm V (sel side m n) k -> isvec tau k ->
  (k <= sel side m n)%nat -> vinj C -> disj V C -> disj tau C ->
  let z := wsize (larf_worksize side m n) in fresh p z V -> fresh p z tau -> fresh p z C ->
  let Q := qof dir sm (sel side m n) (val V s) (vval tau s) k in
  returns (unmq_level2 p l side trans dir sm V tau C) s (fun r s' => r = 0%Z /\
    effw C (match side with Left => mmul m (opm trans Q) (val C s) | Right => mmul n (val C s) (opm trans Q) end) (block p z) s s').
Proof.
  intros Ht [Hm Hn] HV [Hk Hc] Hkq HI D1 D2 z F1 F2 F3 Q. apply runs_inv. unfold runs, unmq_level2. cbv zeta. rewrite Hm, Hn, Hk.
  destruct (Nat.leb_spec m 0) as [Hm0|Hm0]; [|destruct (Nat.leb_spec n 0) as [Hn0|Hn0]; [|destruct (Nat.leb_spec k 0) as [Hk0|Hk0]]]; cbn [orb].
  1,2: apply wp_ret; split; auto; repeat split; auto; intros i j Hi Hj; rewrite Hm in Hi; rewrite Hn in Hj; exfalso; lia.
  { apply wp_ret. split; auto. assert (k = 0)%nat by lia. subst k. repeat split; auto. intros i j Hi Hj. rewrite Hm in Hi; rewrite Hn in Hj.
    assert (EQ : forall a b, opm trans Q a b = idm a b).
    { intros a b. unfold Q. rewrite H. unfold qof, hprod. cbn [mprod rprod]. destruct trans, dir, sm; cbn [opm ctr] in *; unfold ctr; rewrite ?conj_id, ?conj_conj; unfold idm; rewrite ?(Nat.eqb_sym b a); auto; try (destruct (_ =? _)%nat; rewrite ?conj_1, ?conj_0; auto); try contradiction. }
    destruct side.
    - rewrite (mmul_ext m _ _ idm (val C s)) by (intros; auto). rewrite mmul_id_l by auto. auto.
    - rewrite (mmul_ext n _ _ (val C s) idm) by (intros; auto). rewrite mmul_id_r by auto. auto. }
  apply wp_bind. unfold unmq_level2_worksize. rewrite Hm, Hn.
  assert (Hq : (0 < sel side m n)%nat) by (destruct side; cbn; lia).
  apply wp_bind. eapply wp_conseq with (Q := fun _ s1 => s1 = s) (X := fun _ _ => False); [|intros _ s1 ->|contradiction].
  { destruct sm; cbn [rslice vshape] in *; destruct HV as [HV1 HV2]; [unfold slcol|unfold slrow].
    all: apply wp_bind, wp_assert; [|apply wp_ret; auto]; rewrite ?HV1, ?HV2; repeat rewrite andb_true_iff; rewrite ?Nat.ltb_lt, ?Nat.leb_le; lia. }
  apply wp_bind. apply wp_rd; [lia|lia|]. apply wp_ret.
  apply wp_bind. apply wp_new_work. intros s1 K1 K2. set (work := new_lmat0 _ _ p l).
  assert (EV : forall i j, (i < nr V)%nat -> (j < nc V)%nat -> val V s1 i j = val V s i j) by (intros; eapply fresh_val; eauto).
  assert (EC : forall i j, (i < nr C)%nat -> (j < nc C)%nat -> val C s1 i j = val C s i j) by (intros; eapply fresh_val; eauto).
  assert (Et : forall i, (i < nr tau)%nat -> vval tau s1 i = vval tau s i) by (intros; unfold vval; eapply fresh_val; eauto; lia).
  eapply wp_conseq; [apply (unmq_level2_work_run side trans dir sm V tau C work s1)| |auto]; auto.
  - rewrite Hm, Hn. destruct sm; cbn in HV; destruct HV; rewrite Hk; split; auto.
  - rewrite Hm, Hn, Hk. auto.
  - rewrite Hm, Hn. destruct (Nat.le_gt_cases (sel side m n) 1) as [|Hs1]; [left; auto|right; right].
    apply wk_ok_contig; [apply lok_new0|apply contig_new0|]. change (lm work * ln work)%nat with z. unfold z, larf_worksize. destruct side; cbn [sel] in *.
    + destruct (Nat.ltb_spec 0 m); [|lia]. unfold larf_worksize1. destruct (Nat.ltb_spec 0 (m - 1)); [|lia]. destruct (Nat.ltb_spec 0 n); [|lia]. cbn. lia.
    + destruct (Nat.ltb_spec 0 n); [|lia]. unfold larf_worksize1. destruct (Nat.ltb_spec 0 m); [|lia]. destruct (Nat.ltb_spec 0 (n - 1)); [|lia]. cbn. lia.
  - apply fresh_disj; auto.
  - apply fresh_disj; auto.
  - apply fresh_disj; auto.
  - intros r s' [-> HL]. split; auto. rewrite Hm, Hn, Hk in HL. unfold uact in HL. destruct HL as (L1 & L2 & L3).
    assert (EQ : forall a b, (a < sel side m n)%nat -> (b < sel side m n)%nat -> opm trans (qof dir sm (sel side m n) (val V s1) (vval tau s1) k) a b = opm trans Q a b).
    { apply opm_ext. intros a b Ha Hb. unfold Q. apply qof_ext; auto.
      - intros i r Hi Hr. destruct sm; cbn in HV; destruct HV; apply EV; lia.
      - intros i Hi. apply Et. lia. }
    split; [|split].
    + intros i j Hi Hj. rewrite L1 by auto. rewrite Hm in Hi. rewrite Hn in Hj. destruct side; cbn [sel] in *; rewrite ?Hm, ?Hn; apply mmul_ext; intros a Ha; try (apply EC; lia); apply EQ; lia.
    + intros a Ha Hb. rewrite L2; auto. intros K. apply Hb. apply new_inview in K. exact K.
    + congruence.
Qed.

(** ungq_level2: A is overwritten with the first (Forward) or last (Backward) columns (Columnwise) or rows
    (Rowwise) of Q, for every number k of reflectors; nothing but A and the workspace changes *)
Theorem ungq_level2_work_correct dir sm A tau work s m n k : shape A m n -> isvec tau k ->
  match sm with Columnwise => k <= n <= m | Rowwise => k <= m <= n end%nat ->
  vinj A -> disj tau A -> lok work -> contiguous work = true ->
  (match sm with Columnwise => n | Rowwise => m end - 1 <= lm work * ln work)%nat -> disj (lview work) A -> disj (lview work) tau ->
  let nq := match sm with Columnwise => m | Rowwise => n end in
  let Q := qof dir sm nq (stored dir sm m n k (val A s)) (vval tau s) k in
  returns (ungq_level2_work dir sm A tau work) s (fun r s' => r = 0%Z /\ effw A (qpart dir sm m n Q) (inview (lview work)) s s').
Proof.
  intros [Hm Hn] [Hk Hc] Hd HI HD W1 W2 W3 W4 W5 nq Q. subst m n k. apply runs_inv.
  destruct sm, dir.
  - eapply wp_conseq; [apply (ungq_cf A tau work s); auto| |auto]. intros r s' HL. exact HL.
  - eapply wp_conseq; [apply (ungq_cb A tau work s); auto| |auto]. intros r s' HL. exact HL.
  - eapply wp_conseq; [apply (ungq_rf A tau work s); auto| |auto]. intros r s' HL. exact HL.
  - eapply wp_conseq; [apply (ungq_rb A tau work s); auto| |auto]. intros r s' HL. exact HL.
Qed.

(** the size the query reports *)
Definition ungq_size (sm : storev_t) (m n : nat) : nat :=
  match sm with Columnwise => if (1 <? n)%nat then wsize (larf_worksize Left m (n - 1)) else 0 | Rowwise => if (1 <? m)%nat then wsize (larf_worksize Right (m - 1) n) else 0 end%nat.
Lemma ungq_alloc_correct p l dir sm A tau s m n k : shape A m n -> isvec tau k ->
  match sm with Columnwise => k <= n <= m | Rowwise => k <= m <= n end%nat ->
  (0 < k \/ match sm with Columnwise => n | Rowwise => m end <= 1)%nat ->
  vinj A -> disj tau A -> fresh p (ungq_size sm m n) A -> fresh p (ungq_size sm m n) tau ->
  let nq := match sm with Columnwise => m | Rowwise => n end in
  let Q := qof dir sm nq (stored dir sm m n k (val A s)) (vval tau s) k in
  returns (ungq_alloc p l dir sm A tau) s (fun r s' => r = 0%Z /\ effw A (qpart dir sm m n Q) (block p (ungq_size sm m n)) s s').
Proof.
  intros [Hm Hn] [Hk Hc] Hd Hk0 HI HD F1 F2 nq Q. apply runs_inv. unfold runs, ungq_alloc. apply wp_bind.
  set (w := match sm with Columnwise => if (1 <? n)%nat then larf_worksize Left m (n - 1) else winfo_v 0 | Rowwise => if (1 <? m)%nat then larf_worksize Right (m - 1) n else winfo_v 0 end).
  assert (Ew : wsize w = ungq_size sm m n) by (unfold w, ungq_size; destruct sm; match goal with |- context[if ?c then _ else _] => destruct c end; reflexivity).
  eapply wp_conseq with (Q := fun w' s1 => w' = w /\ s1 = s) (X := fun _ _ => False); [|intros _ s1 [-> ->]|contradiction].
  { unfold ungq_level2_worksize. cbv zeta. rewrite Hm, Hn. unfold w. destruct sm; match goal with |- context[if (1 <? ?c)%nat then _ else _] => destruct (Nat.ltb_spec 1 c) end; first [solve [apply wp_ret; auto] | apply wp_bind; apply wp_rd; [lia|lia|apply wp_ret; auto]]. }
  apply wp_bind. apply wp_new_work. rewrite Ew. intros s1 K1 K2. set (work := new_lmat0 _ _ p l).
  assert (Es : (lm work * ln work)%nat = ungq_size sm m n) by exact Ew.
  assert (EA : forall i j, (i < m)%nat -> (j < n)%nat -> val A s1 i j = val A s i j) by (intros; eapply fresh_val; eauto; lia).
  assert (Et : forall i, (i < k)%nat -> vval tau s1 i = vval tau s i) by (intros; unfold vval; eapply fresh_val; eauto; lia).
  assert (HW : (m <= 1 \/ n <= 1 \/ match sm with Columnwise => n | Rowwise => m end - 1 <= lm work * ln work)%nat).
  { rewrite Es. unfold ungq_size, larf_worksize, larf_worksize1. destruct (Nat.le_gt_cases m 1); auto. destruct (Nat.le_gt_cases n 1); auto. right. right. destruct sm.
    - destruct (Nat.ltb_spec 1 n); [|lia]. destruct (Nat.ltb_spec 0 m); [|lia]. destruct (Nat.ltb_spec 0 (m - 1)); [|lia]. destruct (Nat.ltb_spec 0 (n - 1)); [|lia]. cbn. lia.
    - destruct (Nat.ltb_spec 1 m); [|lia]. destruct (Nat.ltb_spec 0 n); [|lia]. destruct (Nat.ltb_spec 0 (m - 1)); [|lia]. destruct (Nat.ltb_spec 0 (n - 1)); [|lia]. cbn. lia. }
  assert (D1 : disj (lview work) A) by (apply fresh_disj; unfold wsize in Ew; rewrite Ew; auto).
  assert (D2 : disj (lview work) tau) by (apply fresh_disj; unfold wsize in Ew; rewrite Ew; auto).
  assert (EQ : forall a b, (a < nq)%nat -> (b < nq)%nat -> qof dir sm nq (stored dir sm m n k (val A s1)) (vval tau s1) k a b = Q a b).
  { intros a b Ha Hb. unfold Q. apply qof_ext; auto. intros i r Hi Hr. unfold nq in Hr. unfold stored. destruct sm, dir; apply EA; lia. }
  assert (Fin : forall r s', r = 0%Z /\ effw A (qpart dir sm m n (qof dir sm nq (stored dir sm m n k (val A s1)) (vval tau s1) k)) (inview (lview work)) s1 s' ->
     r = 0%Z /\ effw A (qpart dir sm m n Q) (block p (ungq_size sm m n)) s s').
  { intros r s' [-> (L1 & L2 & L3)]. split; auto. split; [|split; [|congruence]].
    - intros i j Hi Hj. rewrite L1 by auto. rewrite Hm in Hi. rewrite Hn in Hj. unfold qpart. unfold nq in EQ. destruct sm, dir; apply EQ; lia.
    - intros a Ha Hb. rewrite L2; auto. intros K. apply Hb. apply new_inview in K. unfold wsize in Ew. rewrite Ew in K. exact K. }
  clearbody w. subst m n k. destruct sm, dir.
  - eapply wp_conseq; [apply (ungq_cf A tau work s1); auto| |auto]; [apply lok_new0|apply contig_new0|exact Fin].
  - eapply wp_conseq; [apply (ungq_cb A tau work s1); auto| |auto]; [apply lok_new0|apply contig_new0|exact Fin].
  - eapply wp_conseq; [apply (ungq_rf A tau work s1); auto| |auto]; [apply lok_new0|apply contig_new0|exact Fin].
  - eapply wp_conseq; [apply (ungq_rb A tau work s1); auto| |auto]; [apply lok_new0|apply contig_new0|exact Fin].
Qed.
(** ungq_level2 allocating its own workspace.  Missing, because false of the code (ung_no_reflectors_refuted): no
    reflectors (k = 0) and more than one column (row). *)
Theorem ungq_level2_correct_partial p l dir sm A tau s m n k : shape A m n -> isvec tau k ->
  match sm with Columnwise => k <= n <= m | Rowwise => k <= m <= n end%nat ->
  (0 < k \/ match sm with Columnwise => n | Rowwise => m end <= 1)%nat ->
  vinj A -> disj tau A -> fresh p (ungq_size sm m n) A -> fresh p (ungq_size sm m n) tau ->
  let nq := match sm with Columnwise => m | Rowwise => n end in
  let Q := qof dir sm nq (stored dir sm m n k (val A s)) (vval tau s) k in
  returns (ungq_level2 p l dir sm A tau) s (fun r s' => r = 0%Z /\ effw A (qpart dir sm m n Q) (block p (ungq_size sm m n)) s s').
Proof.
  intros HS Hk Hd Hk0 HI HD F1 F2 nq Q. unfold ungq_level2. destruct HS as [Hm Hn]. rewrite Hm, Hn.
  destruct (Nat.leb_spec m 0) as [Hm0|Hm0]; [|destruct (Nat.leb_spec n 0) as [Hn0|Hn0]]; cbn [orb].
  1,2: do 2 eexists; split; [reflexivity|]; split; auto; repeat split; auto; intros i j Hi Hj; rewrite Hm in Hi; rewrite Hn in Hj; exfalso; lia.
  apply ungq_alloc_correct; auto; split; auto.
Qed.
(** ung2r, ung2l: the first, last columns of the Q of a QR, QL factorization; ungl2, ungr2: the first, last rows
    of the Q of an LQ, RQ factorization *)
Theorem ung2_correct_partial p l A tau s m n k : shape A m n -> isvec tau k -> vinj A -> disj tau A ->
  ((k <= n <= m)%nat -> (0 < k \/ n <= 1)%nat -> fresh p (ungq_size Columnwise m n) A -> fresh p (ungq_size Columnwise m n) tau ->
    returns (ung2r p l A tau) s (fun r s' => r = 0%Z /\ effw A (qpart Forward Columnwise m n (qof Forward Columnwise m (stored Forward Columnwise m n k (val A s)) (vval tau s) k)) (block p (ungq_size Columnwise m n)) s s') /\
    returns (ung2l p l A tau) s (fun r s' => r = 0%Z /\ effw A (qpart Backward Columnwise m n (qof Backward Columnwise m (stored Backward Columnwise m n k (val A s)) (vval tau s) k)) (block p (ungq_size Columnwise m n)) s s')) /\
  ((k <= m <= n)%nat -> (0 < k \/ m <= 1)%nat -> fresh p (ungq_size Rowwise m n) A -> fresh p (ungq_size Rowwise m n) tau ->
    returns (ungl2 p l A tau) s (fun r s' => r = 0%Z /\ effw A (qpart Forward Rowwise m n (qof Forward Rowwise n (stored Forward Rowwise m n k (val A s)) (vval tau s) k)) (block p (ungq_size Rowwise m n)) s s') /\
    returns (ungr2 p l A tau) s (fun r s' => r = 0%Z /\ effw A (qpart Backward Rowwise m n (qof Backward Rowwise n (stored Backward Rowwise m n k (val A s)) (vval tau s) k)) (block p (ungq_size Rowwise m n)) s s')).
Proof.
  intros HS Hk HI HD.
  split; intros Hd Hk0 F1 F2; (split; [unfold ung2r, ungl2|unfold ung2l, ungr2]); rewrite ?(proj2 HS).
  3: apply ungq_alloc_correct; auto.
  all: destruct (Nat.leb_spec n 0) as [Hn0|Hn0]; [|apply ungq_alloc_correct; auto].
  all: do 2 eexists; split; [reflexivity|]; split; auto; repeat split; auto; intros i j Hi Hj; destruct HS as [Hm Hn]; rewrite Hn in Hj; exfalso; lia.
Qed.
End S.

(** With an empty set of reflectors, which the documentation and the checks allow (Q = I), every one of these
    routines evaluates tau[0] to query the workspace and so reads out of bounds *)
Theorem ung_no_reflectors_refuted {E : Env} p l A tau s m n : shape A m n -> isvec tau 0 -> (1 < m)%nat -> (1 < n)%nat ->
  (forall dir sm, ungq_level2 p l dir sm A tau s = UB) /\
  ung2r p l A tau s = UB /\ ung2l p l A tau s = UB /\ ungl2 p l A tau s = UB /\ ungr2 p l A tau s = UB.
Proof.
  intros [Hm Hn] [Ht Ht1] H1 H2.
  assert (K : forall dir sm, ungq_alloc p l dir sm A tau s = UB).
  { intros dir sm. unfold ungq_alloc, ungq_level2_worksize. cbv zeta. rewrite Hm, Hn.
    rewrite (proj2 (Nat.ltb_lt 1 n)) by auto. rewrite (proj2 (Nat.ltb_lt 1 m)) by auto.
    assert (R : rdv tau 0 s = UB) by (unfold rdv, rd, inb; rewrite Ht; reflexivity).
    destruct sm; unfold bind; rewrite R; reflexivity. }
  unfold ungq_level2, ung2r, ung2l, ungl2, ungr2. rewrite Hm, Hn.
  destruct (Nat.leb_spec m 0); [lia|]. destruct (Nat.leb_spec n 0); [lia|]. cbn [orb]. auto 10.
Qed.

Example ung_no_reflectors_example (s : @state RE) : ung2r (E:=RE) 100 ColMajor (lview (mklmat 3 2 0 3 ColMajor)) (vview (mklvec 0 20 1 Forward)) s = UB.
Proof. apply (ung_no_reflectors_refuted (E:=RE) 100 ColMajor _ _ s 3 2); try split; try reflexivity; auto. Qed.
(** More reflectors than their length are not rejected either and are read out of bounds (LAPACK's unm2r rejects them) *)
Theorem unmq_too_many_reflectors_refuted (s : @state RE) : exists V tau C : view, shape C 1 1 /\ shape V 1 3 /\ isvec tau 3 /\
  unm2r (E:=RE) 100 ColMajor Left NoTrans V tau C s = UB.
Proof.
  exists (lview (mklmat 1 3 0 1 ColMajor)), (vview (mklvec 3 10 1 Forward)), (lview (mklmat 1 1 20 1 ColMajor)). repeat split; reflexivity.
Qed.

Section R.
Context {E : Env} {FL : FieldLaws E} {CL : ConjLaws E} {OL : ROrdLaws E} {QL : EqbLaws E} {XL : CplxLaws E} {RL : RLaws E} {NL : FinLaws E}.
Add Field Tf2 : fth.
Lemma qmat_qof m A tau k i j : (i < m)%nat -> (j < m)%nat -> qmat m A tau k i j = qof Forward Columnwise m A tau k i j.
Proof.
  intros Hi Hj. unfold qmat, qof, hprod. apply mprod_ext; auto. intros a r c _ Hr Hc. unfold refl.
  assert (K : forall x, qvec A a x = rvec Forward Columnwise m k A a x).
  { intros x. unfold qvec, rvec, rpos. destruct (Nat.ltb_spec x a), (Nat.eqb_spec x a); auto; lia. }
  rewrite !K. auto.
Qed.
(** geqr2 followed by ung2r on the same arguments (n <= m, workspaces at [p1], [p2]): the columns of the final
    matrix are orthonormal, and the original matrix is that matrix times the R of geqr2 *)
Theorem geqr2_ung2r_correct p1 p2 l h st bt sm A tau s m n : hconst_ok h st bt sm -> shape A m n -> isvec tau n -> (0 < n <= m)%nat ->
  vinj A -> vinj tau -> disj A tau ->
  fresh p1 (wsize (geqr2_worksize m n)) A -> fresh p1 (wsize (geqr2_worksize m n)) tau -> fresh p2 (ungq_size Columnwise m n) A -> fresh p2 (ungq_size Columnwise m n) tau ->
  (forall c, (c < n)%nat -> (vsq m (fun r => val A s r c) <= bt * bt)%R) ->
  exists s1, geqr2 p1 l h A tau s = Ok 0%Z s1 /\ exists s2, ung2r p2 l A tau s1 = Ok 0%Z s2 /\
    (forall i j, (i < n)%nat -> (j < n)%nat -> mmul m (ctr (val A s2)) (val A s2) i j = idm i j) /\
    (forall i j, (i < m)%nat -> (j < n)%nat -> val A s i j = mmul n (val A s2) (rtri (val A s1)) i j).
Proof.
  intros Hh HS Ht Hn HI HIt HD F1 F2 F3 F4 HN. destruct Ht as [Ht1 Ht2].
  destruct (Householder.geqr2_correct p1 l h st bt sm A tau s m n) as (r & s1 & K & -> & HU & HA & HR & HO); auto; [lia|].
  replace (Nat.min m n) with n in * by lia.
  exists s1. split; auto.
  assert (HD' : disj tau A) by (intros i j i' j' Hi Hj Hi' Hj' e; apply (HD i' j' i j); auto).
  destruct (ung2_correct_partial p2 l A tau s1 m n n HS (Logic.conj Ht1 Ht2) HI HD') as [J _].
  destruct (J ltac:(lia) ltac:(lia) F3 F4) as [(r & s2 & J' & -> & JE) _].
  exists s2. split; [exact J'|]. destruct JE as (J1 & J2 & J3). destruct HS as [Hm Hn'].
  assert (EQ : forall i j, (i < m)%nat -> (j < n)%nat -> val A s2 i j = qmat m (val A s1) (vval tau s1) n i j).
  { intros i j Hi Hj. rewrite J1 by lia. unfold qpart. rewrite qmat_qof by lia. apply qof_ext; auto; lia. }
  split.
  - intros i j Hi Hj. etransitivity; [|apply (proj1 (HU i j ltac:(lia) ltac:(lia)))]. apply sum_ext. intros a Ha. unfold ctr. rewrite !EQ by auto. auto.
  - intros i j Hi Hj. rewrite HA by auto. unfold mmul. rewrite (sum_trunc n m); [|lia|intros a Ha; unfold rtri; destruct (Nat.leb_spec a j); [lia|ring]].
    apply sum_ext. intros a Ha. rewrite EQ by lia. auto.
Qed.
End R.

(** concrete instances: two reflectors of length 3 applied to a 3-by-2 matrix, and their Q formed in place *)
Definition exQV : view := lview (mklmat 3 2 0 4 ColMajor).
Definition exQt : view := vview (mklvec 2 20 1 Forward).
Definition exQC : view := lview (mklmat 3 2 30 3 RowMajor).
#[global] Hint Unfold exQV exQt exQC : exv.
Lemma exQ_fresh k : fresh 100 k exQV /\ fresh 100 k exQt /\ fresh 100 k exQC.
Proof.
  repeat split; intros l (i & j & Hi & Hj & ->); unfold exQV, exQt, exQC in *; cbn in Hi, Hj; (destruct i as [|[|[|]]]; [| | |lia]); (destruct j as [|[|]]; [| |lia]); try (exfalso; lia); cbn; lia.
Qed.
Example unm2r_example (s : @state CE) : returns (unm2r (E:=CE) 100 ColMajor Left ConjTrans exQV exQt exQC) s (fun r s' => r = 0%Z /\
  effw exQC (mmul 3 (opm ConjTrans (qof Forward Columnwise 3 (val exQV s) (vval exQt s) 2)) (val exQC s)) (block 100 2) s s').
Proof. apply (unmq_level2_correct (E:=CE) 100 ColMajor Left ConjTrans Forward Columnwise exQV exQt exQC s 3 2 2); try apply exQ_fresh; try exv; cbn [vshape sel]; try exv; exact I. Qed.
Example ung2l_example (s : @state CE) : returns (ung2l (E:=CE) 100 ColMajor exQV exQt) s (fun r s' => r = 0%Z /\
  effw exQV (qpart Backward Columnwise 3 2 (qof Backward Columnwise 3 (stored Backward Columnwise 3 2 2 (val exQV s)) (vval exQt s) 2)) (block 100 1) s s').
Proof. apply (ung2_correct_partial (E:=CE) 100 ColMajor exQV exQt s 3 2 2); try apply exQ_fresh; try exv. Qed.
