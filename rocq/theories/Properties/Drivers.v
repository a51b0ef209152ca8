(** * C52: the variant interfaces householder_qr/lq/ql/rq, gen_householder_q, householder_q_mul *)
From Coq Require Import Bool Arith ZArith Lia Reals Lra Ring Field.
From Verif.Core Require Import Scalar Prog View Slice Loops WorkEff Instances RealLaws.
From Verif.Spec Require Import LinAlg Outcome Norms Householder.
From Verif.Model Require Import Gemm Blas1 Blas2 Blas3 Legacy LaAux Norms Work Householder QGen QFact BlockQ Drivers.
From Verif.Proof Require Import SumLemmas SliceTac LegacyProof BlockAlg PotrfProof LarfProof LarfgProof QRProof WorkProof QGenProof QFactProof ReduceMath.
From Verif.Properties Require Import ExTac Work QFact QGen BlockQ.
From Verif.Properties Require Householder.
Local Open Scope T_scope.

Section R.
Context {E : Env} {FL : FieldLaws E} {CL : ConjLaws E} {OL : ROrdLaws E} {QL : EqbLaws E} {XL : CplxLaws E} {RL : RLaws E} {NL : FinLaws E}.
Add Field Tf : fth.
(** QR (Forward, Columnwise), LQ (Forward, Rowwise), QL (Backward, Columnwise), RQ (Backward, Rowwise) *)
Definition householder_work (dir : direction_t) (sm : storev_t) (v : variant_t) (h : hconst) (nbo : nat) (A tau : view) (work : lmat) : M Z :=
  match dir, sm with
  | Forward, Columnwise => householder_qr_work v h nbo A tau work
  | Forward, Rowwise => householder_lq_work v h nbo A tau work
  | Backward, Columnwise => householder_ql_work v h nbo A tau work
  | Backward, Rowwise => householder_rq_work v h nbo A tau work
  end.
(** the number of columns (QR, QL) or rows (LQ, RQ); the workspace needed *)
Definition nlines (sm : storev_t) (m n : nat) : nat := match sm with Columnwise => n | Rowwise => m end.
Definition hneed (v : variant_t) (sm : storev_t) (nbo m n : nat) : nat := match v with Level2 => (nlines sm m n - 1)%nat | Blocked => bneed nbo m n (nlines sm m n) end.
(** the norms of the columns (QR, QL) or rows (LQ, RQ) do not exceed bt *)
Definition lines_le (sm : storev_t) (bt : R) (m n : nat) (A : mat) : Prop :=
  match sm with
  | Columnwise => forall j, (j < n)%nat -> (vsq m (fun i => A i j) <= bt * bt)%R
  | Rowwise => forall i, (i < m)%nat -> (vsq n (fun j => A i j) <= bt * bt)%R
  end.
Lemma qmat_qof m n A tau i j : (i < m)%nat -> (j < m)%nat -> qmat m A tau (Nat.min m n) i j = qof Forward Columnwise m (stored Forward Columnwise m n (Nat.min m n) A) tau (Nat.min m n) i j.
Proof.
  intros Hi Hj. unfold qmat, qof, hprod. apply mprod_ext; auto. intros l r c Hl Hr Hc. unfold refl. assert (EV : forall x, qvec A l x = rvec Forward Columnwise m (Nat.min m n) (stored Forward Columnwise m n (Nat.min m n) A) l x).
  { intros x. unfold qvec, rvec, rpos, stored. destruct (Nat.ltb_spec x l), (Nat.eqb_spec x l); auto; lia. }
  rewrite !EV. auto.
Qed.
(** Each of the four factorizations, in each of its variants, factors the matrix in the same form *)
Theorem householder_work_correct dir sm v h st bt hsm nbo A tau work s m n : hconst_ok h st bt hsm -> shape A m n -> nc tau = 1%nat -> (Nat.min m n <= nr tau)%nat ->
  (0 < nbo)%nat -> vinj A -> vinj tau -> disj A tau -> lok work -> contiguous work = true -> (hneed v sm nbo m n <= lm work * ln work)%nat -> disj (lview work) A -> disj (lview work) tau ->
  lines_le sm bt m n (val A s) ->
  returns (householder_work dir sm v h nbo A tau work) s (fun r s' => r = 0%Z /\ factorization dir sm m n (val A s) (val A s') (vval tau s') /\
    only_changes (fun l => inview A l \/ inview tau l \/ inview (lview work) l) s s').
Proof.
  intros Hh HS Ht Hl Hnb HI HIt HD W1 W2 W3 W4 W5 HN. unfold hneed, nlines in W3. destruct v, dir, sm; cbn [householder_work]; unfold householder_qr_work, householder_lq_work, householder_ql_work, householder_rq_work.
  - destruct (Householder.geqr2_work_correct h st bt hsm A tau work s m n) as (r & s' & K & -> & U & HA & HR & HO); auto. exists 0%Z, s'. split; [exact K|]. split; auto. split; auto.
    assert (EQ := fun i j Hi Hj => qmat_qof m n (val A s') (vval tau s') i j Hi Hj). split; [|split].
    + apply (unitary_ext m (qmat m (val A s') (vval tau s') (Nat.min m n))); auto.
    + intros i j Hi Hj. rewrite HA by auto. apply mmul_ext; auto.
    + intros i Hi. cbv zeta. unfold trap. rewrite Nat.leb_refl. auto.
  - eapply gelq2_work_correct; eauto.
  - eapply geql2_work_correct; eauto.
  - eapply gerq2_work_correct; eauto.
  - eapply geqrf_work_correct; eauto.
  - eapply gelqf_work_correct; eauto.
  - eapply geqlf_work_correct; eauto.
  - eapply gerqf_work_correct; eauto.
Qed.
(** gen_householder_q, in each variant, forms the leading (Forward) or trailing (Backward) columns or rows of Q *)
Definition gneed (v : variant_t) (dir : direction_t) (sm : storev_t) (nbo m n k : nat) : nat :=
  match v with Level2 => (nlines sm m n - 1)%nat | Blocked => ungq_need (Nat.min nbo k) dir (Nat.min m n) k end.
Theorem gen_householder_q_work_correct v nbo dir sm A tau work s m n k : shape A m n -> isvec tau k ->
  match sm with Columnwise => k <= n <= m | Rowwise => k <= m <= n end%nat -> (0 < k)%nat -> (0 < nbo)%nat -> vinj A -> disj tau A -> lok work -> contiguous work = true ->
  (gneed v dir sm nbo m n k <= lm work * ln work)%nat -> disj (lview work) A -> disj (lview work) tau ->
  let nq := match sm with Columnwise => m | Rowwise => n end in
  let Q := qof dir sm nq (stored dir sm m n k (val A s)) (vval tau s) k in
  returns (gen_householder_q_work v nbo dir sm A tau work) s (fun r s' => r = 0%Z /\ effw A (qpart dir sm m n Q) (inview (lview work)) s s').
Proof.
  intros. unfold gneed, nlines in *. destruct v; cbn [gen_householder_q_work]; [apply (ungq_level2_work_correct dir sm A tau work s m n k)|apply (ungq_work_correct_partial nbo dir sm A tau work s m n k)]; auto.
Qed.
(** householder_q_mul, in each variant, multiplies by op(Q) *)
Definition mneed (v : variant_t) (side : side_t) (nbo m n k : nat) : nat :=
  match v with Level2 => sel side n m | Blocked => (let nb := Nat.min nbo k in nb * nb + nb * sel side n m)%nat end.
Theorem householder_q_mul_work_correct v nbo side trans dir sm V tau C work s m n k : op_ok trans -> shape C m n -> vshape sm V (sel side m n) k -> isvec tau k ->
  (k <= sel side m n)%nat -> (0 < nbo)%nat -> vinj C -> disj V C -> disj tau C -> lok work -> contiguous work = true ->
  (mneed v side nbo m n k <= lm work * ln work)%nat -> disj (lview work) V -> disj (lview work) tau -> disj (lview work) C ->
  let Q := qof dir sm (sel side m n) (val V s) (vval tau s) k in
  returns (householder_q_mul_work v nbo side trans dir sm V tau C work) s (fun r s' => r = 0%Z /\
    effw C (match side with Left => mmul m (opm trans Q) (val C s) | Right => mmul n (val C s) (opm trans Q) end) (inview (lview work)) s s').
Proof.
  intros. unfold mneed in *. destruct v; cbn [householder_q_mul_work]; [apply (unmq_level2_work_correct side trans dir sm V tau C work s m n k)|apply (unmq_work_correct nbo side trans dir sm V tau C work s m n k)]; auto.
Qed.
(** Factor, then form Q, any variant of either: the columns (rows) of Q are orthonormal and Q times the triangular factor
    is the original matrix *)
Theorem householder_then_gen_q dir sm v1 v2 h st bt hsm nb1 nb2 A tau work s m n : hconst_ok h st bt hsm -> shape A m n -> isvec tau (Nat.min m n) ->
  match sm with Columnwise => (0 < n <= m)%nat | Rowwise => (0 < m <= n)%nat end -> (0 < nb1)%nat -> (0 < nb2)%nat ->
  vinj A -> vinj tau -> disj A tau -> lok work -> contiguous work = true -> disj (lview work) A -> disj (lview work) tau ->
  (hneed v1 sm nb1 m n <= lm work * ln work)%nat -> (gneed v2 dir sm nb2 m n (Nat.min m n) <= lm work * ln work)%nat ->
  lines_le sm bt m n (val A s) ->
  exists s1 s2, householder_work dir sm v1 h nb1 A tau work s = Ok 0%Z s1 /\ gen_householder_q_work v2 nb2 dir sm A tau work s1 = Ok 0%Z s2 /\
    let k := Nat.min m n in
    let Q := val A s2 in
    let F := trap dir sm m n (val A s1) in
    match sm with
    | Columnwise => (forall i j, (i < k)%nat -> (j < k)%nat -> mmul m (ctr Q) Q i j = idm i j) /\
        (forall i j, (i < m)%nat -> (j < n)%nat -> val A s i j = sum k (fun l => Q i l * F (match dir with Forward => l | Backward => m - n + l end)%nat j))
    | Rowwise => (forall i j, (i < k)%nat -> (j < k)%nat -> mmul n Q (ctr Q) i j = idm i j) /\
        (forall i j, (i < m)%nat -> (j < n)%nat -> val A s i j = sum k (fun l => F i (match dir with Forward => l | Backward => n - m + l end)%nat * Q l j))
    end.
Proof.
  intros Hh HS Ht Hk Hb1 Hb2 HI HIt HD W1 W2 W4 W5 W3 W6 HN. destruct Ht as [Ht1 Ht2].
  destruct (householder_work_correct dir sm v1 h st bt hsm nb1 A tau work s m n) as (r & s1 & K & -> & (HU & HA & HR) & HO); auto; [lia|].
  assert (HD' : disj tau A) by (apply disj_sym; auto).
  destruct (gen_householder_q_work_correct v2 nb2 dir sm A tau work s1 m n (Nat.min m n) HS (Logic.conj Ht1 Ht2)) as (r & s2 & K2 & -> & (J1 & J2 & J3)); auto; [destruct sm; lia|destruct sm; lia|].
  exists s1, s2. split; [exact K|]. split; [exact K2|]. cbv zeta. destruct HS as [Hm Hn].
  assert (EQ : forall i j, (i < m)%nat -> (j < n)%nat -> val A s2 i j = qpart dir sm m n (qof dir sm (match sm with Columnwise => m | Rowwise => n end) (stored dir sm m n (Nat.min m n) (val A s1)) (vval tau s1) (Nat.min m n)) i j) by (intros i j Hi Hj; apply J1; lia).
  set (Q := qof dir sm _ _ _ _) in *. clearbody Q. clear J1 J2 J3 HO K K2 HR W3 W6.
  destruct sm.
  - assert (Ek : Nat.min m n = n) by lia. rewrite Ek in *. split.
    + intros i j Hi Hj. destruct dir; cbn [qpart] in EQ.
      * etransitivity; [|apply (proj1 (HU i j ltac:(lia) ltac:(lia)))]. apply sum_ext. intros a Ha. unfold ctr. rewrite !EQ by auto. auto.
      * etransitivity; [|etransitivity; [apply (proj1 (HU (m - n + i)%nat (m - n + j)%nat ltac:(lia) ltac:(lia)))|]].
        { apply sum_ext. intros a Ha. unfold ctr. rewrite !EQ by auto. auto. }
        { unfold idm. destruct (Nat.eqb_spec (m - n + i) (m - n + j)), (Nat.eqb_spec i j); auto; lia. }
    + intros i j Hi Hj. rewrite HA by auto. destruct dir; cbn [qpart] in EQ.
      * unfold mmul. rewrite (sum_trunc n m); [|lia|intros a Ha; unfold trap; destruct (Nat.leb_spec a j); [lia|]; ring]. apply sum_ext. intros a Ha. rewrite EQ by lia. auto.
      * unfold mmul. rewrite (sum_split_at (m - n) m) by lia. replace (m - (m - n))%nat with n by lia. rewrite sum_0; [|intros a Ha; unfold trap; destruct (Nat.leb_spec (m + j) (n + a)); [lia|]; ring].
        replace (0 + sum n (fun a => Q i (m - n + a)%nat * trap Backward Columnwise m n (val A s1) (m - n + a)%nat j)) with (sum n (fun a => Q i (m - n + a)%nat * trap Backward Columnwise m n (val A s1) (m - n + a)%nat j)) by ring.
        apply sum_ext. intros a Ha. rewrite EQ by lia. auto.
  - assert (Ek : Nat.min m n = m) by lia. rewrite Ek in *. split.
    + intros i j Hi Hj. destruct dir; cbn [qpart] in EQ.
      * etransitivity; [|apply (proj2 (HU i j ltac:(lia) ltac:(lia)))]. apply sum_ext. intros a Ha. unfold ctr. rewrite !EQ by auto. auto.
      * etransitivity; [|etransitivity; [apply (proj2 (HU (n - m + i)%nat (n - m + j)%nat ltac:(lia) ltac:(lia)))|]].
        { apply sum_ext. intros a Ha. unfold ctr. rewrite !EQ by auto. auto. }
        { unfold idm. destruct (Nat.eqb_spec (n - m + i) (n - m + j)), (Nat.eqb_spec i j); auto; lia. }
    + intros i j Hi Hj. rewrite HA by auto. destruct dir; cbn [qpart] in EQ.
      * unfold mmul. rewrite (sum_trunc m n); [|lia|intros a Ha; unfold trap; destruct (Nat.leb_spec a i); [lia|]; ring]. apply sum_ext. intros a Ha. rewrite EQ by lia. auto.
      * unfold mmul. rewrite (sum_split_at (n - m) n) by lia. replace (n - (n - m))%nat with m by lia. rewrite sum_0; [|intros a Ha; unfold trap; destruct (Nat.leb_spec (n + i) (m + a)); [lia|]; ring].
        replace (0 + sum m (fun a => trap Backward Rowwise m n (val A s1) i (n - m + a)%nat * Q (n - m + a)%nat j)) with (sum m (fun a => trap Backward Rowwise m n (val A s1) i (n - m + a)%nat * Q (n - m + a)%nat j)) by ring.
        apply sum_ext. intros a Ha. rewrite EQ by lia. auto.
Qed.
(** Factor, then multiply a copy of the original matrix by Q^H: the product is the triangular factor *)
Theorem householder_then_q_mul dir sm v1 v2 h st bt hsm nb1 nb2 A tau C work s m n : hconst_ok h st bt hsm -> shape A m n -> shape C m n -> isvec tau (Nat.min m n) ->
  match sm with Columnwise => (0 < n <= m)%nat | Rowwise => (0 < m <= n)%nat end -> (0 < nb1)%nat -> (0 < nb2)%nat ->
  vinj A -> vinj tau -> vinj C -> disj A tau -> disj A C -> disj tau C -> lok work -> contiguous work = true -> disj (lview work) A -> disj (lview work) tau -> disj (lview work) C ->
  (hneed v1 sm nb1 m n <= lm work * ln work)%nat -> (mneed v2 (match sm with Columnwise => Left | Rowwise => Right end) nb2 m n (Nat.min m n) <= lm work * ln work)%nat ->
  lines_le sm bt m n (val A s) -> (forall i j, (i < m)%nat -> (j < n)%nat -> val C s i j = val A s i j) ->
  exists s1 s2, householder_work dir sm v1 h nb1 A tau work s = Ok 0%Z s1 /\
    householder_q_mul_work v2 nb2 (match sm with Columnwise => Left | Rowwise => Right end) ConjTrans dir sm A tau C work s1 = Ok 0%Z s2 /\
    forall i j, (i < m)%nat -> (j < n)%nat -> val C s2 i j = trap dir sm m n (val A s1) i j.
Proof.
  intros Hh HS HSC Ht Hk Hb1 Hb2 HI HIt HIC HD HAC HtC W1 W2 W4 W5 W7 W3 W6 HN HC. pose proof (Logic.conj (proj1 Ht) (proj2 Ht)) as Ht'. destruct Ht as [Ht1 Ht2].
  destruct (householder_work_correct dir sm v1 h st bt hsm nb1 A tau work s m n) as (r & s1 & K & -> & (HU & HA & HR) & HO); auto; [lia|].
  assert (HV : vshape sm A (sel (match sm with Columnwise => Left | Rowwise => Right end) m n) (Nat.min m n)).
  { destruct sm; cbn [sel vshape]; [replace (Nat.min m n) with n by lia|replace (Nat.min m n) with m by lia]; auto. }
  destruct (householder_q_mul_work_correct v2 nb2 (match sm with Columnwise => Left | Rowwise => Right end) ConjTrans dir sm A tau C work s1 m n (Nat.min m n) I HSC HV Ht') as (r & s2 & K2 & -> & (J1 & J2 & J3)); auto; [destruct sm; cbn [sel]; lia|].
  exists s1, s2. split; [exact K|]. split; [exact K2|]. intros i j Hi Hj. rewrite J1 by (destruct HSC; lia).
  assert (HC1 : forall i j, (i < m)%nat -> (j < n)%nat -> val C s1 i j = val A s i j).
  { intros x y Hx Hy. rewrite <- HC by auto. unfold val. apply HO. destruct HSC as [Hm Hn]. intros [H|[H|H]]; revert H; apply nin; try lia; apply disj_sym; auto. }
  assert (ES : forall x y, stored dir sm m n (Nat.min m n) (val A s1) x y = val A s1 x y).
  { intros x y. unfold stored. destruct sm, dir; auto; f_equal; lia. }
  clear J1 J2 J3 K K2 HO HR. destruct sm; cbn [sel].
  - rewrite <- (uni_cancel m (ctr (qof dir Columnwise m (stored dir Columnwise m n (Nat.min m n) (val A s1)) (vval tau s1) (Nat.min m n))) (trap dir Columnwise m n (val A s1)) i j (unitary_ctr _ _ HU) Hi).
    apply mmul_ext; intros l Hl.
    + unfold opm, ctr. f_equal. apply qof_ext; auto; intros; symmetry; apply ES.
    + rewrite HC1, HA by auto. apply mmul_ext; intros; auto. unfold ctr. rewrite conj_conj. auto.
  - rewrite <- (uni_cancel' n (qof dir Rowwise n (stored dir Rowwise m n (Nat.min m n) (val A s1)) (vval tau s1) (Nat.min m n)) (trap dir Rowwise m n (val A s1)) i j HU Hj).
    apply mmul_ext; intros l Hl; [rewrite HC1, HA by auto; auto|].
    unfold opm, ctr. f_equal. apply qof_ext; auto; intros; symmetry; apply ES.
Qed.
(** The overloads that allocate their workspace (at p, of the size their query reports) *)
Definition householder (dir : direction_t) (sm : storev_t) (p : Z) (l : layout_t) (v : variant_t) (h : hconst) (nbo : nat) (A tau : view) : M Z :=
  match dir, sm with
  | Forward, Columnwise => householder_qr p l v h nbo A tau
  | Forward, Rowwise => householder_lq p l v h nbo A tau
  | Backward, Columnwise => householder_ql p l v h nbo A tau
  | Backward, Rowwise => householder_rq p l v h nbo A tau
  end.
Definition hsize (dir : direction_t) (sm : storev_t) (v : variant_t) (nbo m n : nat) : nat :=
  match v, dir, sm with
  | Level2, Forward, Columnwise => wsize (geqr2_worksize m n)
  | Level2, Backward, Columnwise => colsz m n
  | Level2, _, Rowwise => rowsz m n
  | Blocked, _, _ => bsize sm nbo m n
  end.
Theorem householder_correct dir sm p l v h st bt hsm nbo A tau s m n : hconst_ok h st bt hsm -> shape A m n -> nc tau = 1%nat -> (Nat.min m n <= nr tau)%nat -> (0 < nr tau)%nat ->
  (0 < nbo)%nat -> vinj A -> vinj tau -> disj A tau -> let z := hsize dir sm v nbo m n in fresh p z A -> fresh p z tau ->
  lines_le sm bt m n (val A s) ->
  returns (householder dir sm p l v h nbo A tau) s (fun r s' => r = 0%Z /\ factorization dir sm m n (val A s) (val A s') (vval tau s') /\
    only_changes (fun x => inview A x \/ inview tau x \/ block p z x) s s').
Proof.
  intros Hh HS Ht Hl H0 Hnb HI HIt HD z F1 F2 HN. unfold z, hsize in *. clear z. destruct v, dir, sm; cbn [householder]; unfold householder_qr, householder_lq, householder_ql, householder_rq.
  - destruct (Householder.geqr2_correct p l h st bt hsm A tau s m n) as (r & s' & K & -> & U & HA & HR & HO); auto. exists 0%Z, s'. split; [exact K|]. split; auto. split; auto.
    assert (EQ := fun i j Hi Hj => qmat_qof m n (val A s') (vval tau s') i j Hi Hj). split; [|split].
    + apply (unitary_ext m (qmat m (val A s') (vval tau s') (Nat.min m n))); auto.
    + intros i j Hi Hj. rewrite HA by auto. apply mmul_ext; auto.
    + intros i Hi. cbv zeta. unfold trap. rewrite Nat.leb_refl. auto.
  - eapply gelq2_correct_partial; eauto.
  - eapply geql2_correct_partial; eauto.
  - eapply gerq2_correct; eauto.
  - eapply geqrf_correct; eauto.
  - eapply gelqf_correct; eauto.
  - eapply geqlf_correct; eauto.
  - eapply gerqf_correct; eauto.
Qed.
Definition gsize (v : variant_t) (dir : direction_t) (sm : storev_t) (nbo m n k : nat) : nat := match v with Level2 => ungq_size sm m n | Blocked => ungq_bsize nbo dir sm m n k end.
Theorem gen_householder_q_correct p l v nbo dir sm A tau s m n k : shape A m n -> isvec tau k ->
  match sm with Columnwise => k <= n <= m | Rowwise => k <= m <= n end%nat -> (0 < k)%nat -> (0 < nbo)%nat -> vinj A -> disj tau A ->
  let z := gsize v dir sm nbo m n k in fresh p z A -> fresh p z tau ->
  let nq := match sm with Columnwise => m | Rowwise => n end in
  let Q := qof dir sm nq (stored dir sm m n k (val A s)) (vval tau s) k in
  returns (gen_householder_q p l v nbo dir sm A tau) s (fun r s' => r = 0%Z /\ effw A (qpart dir sm m n Q) (block p z) s s').
Proof.
  intros. unfold z, gsize in *. destruct v; cbn [gen_householder_q]; [apply (ungq_level2_correct_partial p l dir sm A tau s m n k)|apply (ungq_correct_partial p l nbo dir sm A tau s m n k)]; auto.
Qed.
Definition msize (v : variant_t) (side : side_t) (nbo m n k : nat) : nat := match v with Level2 => wsize (larf_worksize side m n) | Blocked => unmq_size nbo side m n k end.
Theorem householder_q_mul_correct p l v nbo side trans dir sm V tau C s m n k : op_ok trans -> shape C m n -> vshape sm V (sel side m n) k -> isvec tau k ->
  (k <= sel side m n)%nat -> (0 < nbo)%nat -> vinj C -> disj V C -> disj tau C ->
  let z := msize v side nbo m n k in fresh p z V -> fresh p z tau -> fresh p z C ->
  let Q := qof dir sm (sel side m n) (val V s) (vval tau s) k in
  returns (householder_q_mul p l v nbo side trans dir sm V tau C) s (fun r s' => r = 0%Z /\
    effw C (match side with Left => mmul m (opm trans Q) (val C s) | Right => mmul n (val C s) (opm trans Q) end) (block p z) s s').
Proof.
  intros. unfold z, msize in *. destruct v; cbn [householder_q_mul]; [apply (unmq_level2_correct p l side trans dir sm V tau C s m n k)|apply (unmq_correct p l nbo side trans dir sm V tau C s m n k)]; auto.
Qed.
End R.

(** ** A concrete case: the matrix ((3, 1), (4, 2)), a copy of it, and a 6-by-1 workspace; all four factorizations, both variants *)
Definition exDC : view := lview (mklmat 2 2 40 2 ColMajor).
Definition exDW : lmat := mklmat 6 1 100 6 ColMajor.
#[local] Hint Unfold exDC exDW : exv.
Definition exD_s : @state RE := mkst RE (fun l => if (l =? 0)%Z then 3%R else if (l =? 1)%Z then 4%R else if (l =? 3)%Z then 1%R else if (l =? 4)%Z then 2%R
  else if (l =? 40)%Z then 3%R else if (l =? 41)%Z then 4%R else if (l =? 42)%Z then 1%R else 2%R) (fun _ => 0%Z).
Lemma exD_hyps sm v : shape Householder.exH 2 2 /\ shape exDC 2 2 /\ isvec Householder.exHt (Nat.min 2 2) /\ vinj Householder.exH /\ vinj Householder.exHt /\ vinj exDC /\
  disj Householder.exH Householder.exHt /\ disj Householder.exH exDC /\ disj Householder.exHt exDC /\ lok exDW /\ contiguous exDW = true /\
  disj (lview exDW) Householder.exH /\ disj (lview exDW) Householder.exHt /\ disj (lview exDW) exDC /\
  (hneed v sm 1 2 2 <= lm exDW * ln exDW)%nat /\
  lines_le (E:=RE) sm 1000 2 2 (val (E:=RE) Householder.exH exD_s) /\
  (forall i j, (i < 2)%nat -> (j < 2)%nat -> val (E:=RE) exDC exD_s i j = val (E:=RE) Householder.exH exD_s i j).
Proof.
  repeat apply Logic.conj; try exv.
  - unfold lok. cbn. lia.
  - reflexivity.
  - apply Nat.leb_le. destruct v, sm; reflexivity.
  - destruct sm; intros c Hc; unfold vsq; cbn [rsum]; unfold modulus; cbn; (destruct c as [|[|]]; [| |lia]); cbn; unfold Rabs; repeat destruct Rcase_abs; lra.
  - intros i j Hi Hj. (destruct i as [|[|]]; [| |lia]); (destruct j as [|[|]]; [| |lia]); reflexivity.
Qed.
Example householder_then_gen_q_example dir sm v1 v2 : exists s1 s2,
  householder_work (E:=RE) dir sm v1 (Householder.ex_h RE) 1 Householder.exH Householder.exHt exDW exD_s = Ok 0%Z s1 /\
  gen_householder_q_work (E:=RE) v2 1 dir sm Householder.exH Householder.exHt exDW s1 = Ok 0%Z s2 /\
  match sm with
  | Columnwise => mmul (E:=RE) 2 (ctr (val Householder.exH s2)) (val Householder.exH s2) 0%nat 1%nat = 0%R
  | Rowwise => mmul (E:=RE) 2 (val Householder.exH s2) (ctr (val Householder.exH s2)) 0%nat 1%nat = 0%R
  end.
Proof.
  destruct (exD_hyps sm v1) as (H1 & H2 & H3 & H4 & H5 & H6 & H7 & H8 & H9 & H10 & H11 & H12 & H13 & H14 & H15 & H16 & H17).
  destruct (householder_then_gen_q (E:=RE) dir sm v1 v2 (Householder.ex_h RE) (1/8) 1000 (1/1000) 1 1 Householder.exH Householder.exHt exDW exD_s 2 2) as (s1 & s2 & K1 & K2 & K3); auto.
  - apply (Householder.ex_h_ok RE).
  - destruct sm; lia.
  - apply Nat.leb_le. destruct v2, dir, sm; reflexivity.
  - exists s1, s2. split; [exact K1|]. split; [exact K2|]. clear K1 K2. cbv zeta in K3. destruct sm; destruct K3 as [K3 _]; rewrite K3 by (cbn; lia); reflexivity.
Qed.
Example householder_then_q_mul_example dir sm v1 v2 : exists s1 s2,
  householder_work (E:=RE) dir sm v1 (Householder.ex_h RE) 1 Householder.exH Householder.exHt exDW exD_s = Ok 0%Z s1 /\
  householder_q_mul_work (E:=RE) v2 1 (match sm with Columnwise => Left | Rowwise => Right end) ConjTrans dir sm Householder.exH Householder.exHt exDC exDW s1 = Ok 0%Z s2 /\
  val (E:=RE) exDC s2 (match dir, sm with Forward, Columnwise | Backward, Rowwise => 1 | _, _ => 0 end)%nat (match dir, sm with Forward, Columnwise | Backward, Rowwise => 0 | _, _ => 1 end)%nat = 0%R.
Proof.
  destruct (exD_hyps sm v1) as (H1 & H2 & H3 & H4 & H5 & H6 & H7 & H8 & H9 & H10 & H11 & H12 & H13 & H14 & H15 & H16 & H17).
  destruct (householder_then_q_mul (E:=RE) dir sm v1 v2 (Householder.ex_h RE) (1/8) 1000 (1/1000) 1 1 Householder.exH Householder.exHt exDC exDW exD_s 2 2) as (s1 & s2 & K1 & K2 & K3); auto.
  - apply (Householder.ex_h_ok RE).
  - destruct sm; lia.
  - apply Nat.leb_le. destruct v2, dir, sm; reflexivity.
  - exists s1, s2. split; [exact K1|]. split; [exact K2|]. clear K1 K2. destruct dir, sm; rewrite K3 by lia; reflexivity.
Qed.
Example householder_example dir sm v : returns (householder (E:=RE) dir sm 100 ColMajor v (Householder.ex_h RE) 1 Householder.exH Householder.exHt) exD_s
  (fun r s' => r = 0%Z /\ factorization (E:=RE) dir sm 2 2 (val Householder.exH exD_s) (val Householder.exH s') (vval Householder.exHt s') /\
     only_changes (fun x => inview Householder.exH x \/ inview Householder.exHt x \/ block 100 (hsize dir sm v 1 2 2) x) exD_s s').
Proof.
  destruct (exD_hyps sm v) as (H1 & H2 & H3 & H4 & H5 & H6 & H7 & H8 & H9 & H10 & H11 & H12 & H13 & H14 & H15 & H16 & H17).
  assert (FR : forall k, fresh 100 k Householder.exH /\ fresh 100 k Householder.exHt).
  { intros k. split; intros l (i & j & Hi & Hj & ->); unfold Householder.exH, Householder.exHt in *; cbn in Hi, Hj; (destruct i as [|[|]]; [| |lia]); (destruct j as [|[|]]; [| |lia]); try (exfalso; lia); cbn; lia. }
  apply (householder_correct (E:=RE) dir sm 100 ColMajor v (Householder.ex_h RE) (1/8) 1000 (1/1000) 1 Householder.exH Householder.exHt exD_s 2 2); auto; try apply FR.
  - apply (Householder.ex_h_ok RE).
  - cbn. lia.
Qed.
