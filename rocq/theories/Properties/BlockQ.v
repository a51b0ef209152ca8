(** * C41, C42: blocked reflectors and the blocked factorizations geqrf, gelqf, geqlf, gerqf; unmq and ungq *)
From Coq Require Import Bool Arith ZArith Lia Reals Lra Ring Field.
From Verif.Core Require Import Scalar Prog View Slice Loops WorkEff Instances RealLaws.
From Verif.Spec Require Import LinAlg Outcome Norms Householder.
From Verif.Model Require Import Gemm Blas1 Blas2 Blas3 Legacy LaAux Norms Work Householder QGen QFact BlockQ.
From Verif.Proof Require Import SumLemmas SliceTac LegacyProof BlockAlg PotrfProof LaAuxProof LarfProof LarfgProof QRProof WorkProof QGenProof QFactProof LarftProof LarfbProof BlockProof BlockFact BlockUnm BlockUng.
From Verif.Properties Require Import ExTac Work QFact QGen.
From Verif.Properties Require Householder.
Local Open Scope T_scope.

Section S.
Context {E : Env} {FL : FieldLaws E} {CL : ConjLaws E} {QL : EqbLaws E} {XL : CplxLaws E}.
Add Field Tf : fth.

Lemma wp_returns {A} (p : M A) s (Q Q' : A -> state -> Prop) : returns p s Q -> (forall r s', Q r s' -> Q' r s') -> wp p Q' noX s.
Proof. intros (a & s' & K & HQ) HQ'. unfold wp. rewrite K. auto. Qed.
(** larft: the triangular matrix T it leaves in the [tupl dir] triangle of its output is such that the product of
    the k stored reflectors is the block reflector I - U T U^H; nothing outside that triangle changes *)
Theorem larft_correct dir sm V tau Tm s n k mT nT : vshape sm V n k -> isvec tau k -> shape Tm mT nT -> (k <= n)%nat -> (k <= mT)%nat -> (k <= nT)%nat ->
  vinj Tm -> disj V Tm -> disj tau Tm ->
  returns (larft dir sm V tau Tm) s (fun r s' => r = 0%Z /\
    (let U := rvec dir sm n k (val V s) in
     forall i j, (i < n)%nat -> (j < n)%nat ->
       hprod dir n (fun l => refl (vval tau s l) (U l)) k i j = blkrefl k (trim (tupl dir) NonUnit (val Tm s')) U i j) /\
    (forall i j, (i < mT)%nat -> (j < nT)%nat -> ~ ((i < k)%nat /\ (j < k)%nat /\ match dir with Forward => i <= j | Backward => j <= i end)%nat -> val Tm s' i j = val Tm s i j) /\
    only_changes (inview Tm) s s').
Proof.
  intros HV [Hk Hc] [H1 H2] Hkn K1 K2 HI D1 D2. subst k mT nT. apply runs_inv.
  assert (En : match sm with Columnwise => nr V | Rowwise => nc V end = n) by (destruct sm; cbn in HV; destruct HV; auto).
  assert (Ek : match sm with Columnwise => nc V | Rowwise => nr V end = nr tau) by (destruct sm; cbn in HV; destruct HV; auto).
  eapply wp_conseq; [apply (larft_run dir sm V tau Tm s); auto; try (rewrite ?En, ?Ek; auto; lia)| |auto]. rewrite En.
  intros r s' (-> & G & (L1 & L2 & L3) & L4). split; auto. split; [|split; [|split; auto]].
  - cbv zeta. intros i j Hi Hj. rewrite L4 by auto. apply blkrefl_ext; auto. intros a b Ha Hb. unfold trim.
    destruct (Nat.eqb_spec a b) as [e|e].
    + rewrite L1 by lia. replace (tri_in dir (nr tau) a b) with true; auto. symmetry. unfold tri_in. destruct dir; rewrite andb_true_iff, Nat.leb_le, Nat.ltb_lt; lia.
    + destruct (intri (tupl dir) a b) eqn:Et; auto. rewrite L1 by lia. replace (tri_in dir (nr tau) a b) with true; auto. symmetry. unfold tri_in.
      destruct dir; cbn [tupl intri] in *; apply Nat.leb_le in Et; rewrite andb_true_iff, Nat.leb_le, Nat.ltb_lt; lia.
  - intros i j Hi Hj Hn. rewrite L1 by auto. destruct (tri_in dir (nr tau) i j) eqn:Et; auto. exfalso. apply Hn. unfold tri_in in Et. destruct dir; repeat rewrite andb_true_iff in Et; rewrite ?Nat.ltb_lt, ?Nat.leb_le in Et; lia.
Qed.
(** larfb: C := op(H) C (Left) or C op(H) (Right) for the block reflector H = I - U T U^H *)
Theorem larfb_work_correct side trans dir sm V Tm C work s m n k : op_ok trans -> shape C m n -> vshape sm V (sel side m n) k -> shape Tm k k ->
  (k <= sel side m n)%nat -> vinj C -> disj V C -> disj Tm C -> lok work -> contiguous work = true -> (k * sel side n m <= lm work * ln work)%nat ->
  disj V (lview work) -> disj Tm (lview work) -> disj C (lview work) ->
  let H := blkrefl k (trim (tupl dir) NonUnit (val Tm s)) (rvec dir sm (sel side m n) k (val V s)) in
  returns (larfb_work side trans dir sm V Tm C work) s (fun r s' => r = 0%Z /\
    effw C (match side with Left => mmul m (opm trans H) (val C s) | Right => mmul n (val C s) (opm trans H) end) (inview (lview work)) s s').
Proof.
  intros Ht [Hm Hn] HV [Hk Hk2] Hkq HI D1 D2 W1 W2 W3 D3 D4 D5 H. subst m n k. apply runs_inv.
  eapply wp_conseq; [apply (larfb_work_run side trans dir sm V Tm C work s); auto| |auto].
  - right. right. right. apply wkm_ok_contig; auto. destruct side; cbn [sel] in *; lia.
  - intros r s' [-> (L1 & L2 & L3)]. split; auto. split; [|split; auto]. intros i j Hi Hj. rewrite L1 by auto. unfold rapply.
    destruct side; cbn [sel] in *; apply mmul_ext; intros a Ha; auto; apply blkrefl_op; auto.
Qed.
(** the same, allocating the workspace *)
Theorem larfb_correct p l side trans dir sm V Tm C s m n k : op_ok trans -> shape C m n -> vshape sm V (sel side m n) k -> shape Tm k k ->
  (k <= sel side m n)%nat -> vinj C -> disj V C -> disj Tm C -> let z := (k * sel side n m)%nat in fresh p z V -> fresh p z Tm -> fresh p z C ->
  let H := blkrefl k (trim (tupl dir) NonUnit (val Tm s)) (rvec dir sm (sel side m n) k (val V s)) in
  returns (larfb p l side trans dir sm V Tm C) s (fun r s' => r = 0%Z /\
    effw C (match side with Left => mmul m (opm trans H) (val C s) | Right => mmul n (val C s) (opm trans H) end) (block p z) s s').
Proof.
  intros Ht HS HV HT Hkq HI D1 D2 z F1 F2 F3 H. pose proof HS as [Hm Hn]. pose proof HT as [Hk Hk2]. apply runs_inv. unfold runs, larfb. cbv zeta. rewrite Hm, Hn, Hk.
  destruct (Nat.leb_spec m 0) as [Hm0|Hm0]; [|destruct (Nat.leb_spec n 0) as [Hn0|Hn0]; [|destruct (Nat.leb_spec k 0) as [Hk0|Hk0]]]; cbn [orb].
  1,2: apply wp_ret; split; auto; split; [|split; auto]; intros i j Hi Hj; rewrite Hm in Hi; rewrite Hn in Hj; exfalso; lia.
  { apply wp_ret. split; auto. assert (k = 0)%nat by lia. subst k. split; [|split; auto]. intros i j Hi Hj. rewrite Hm in Hi; rewrite Hn in Hj.
    assert (EQ : forall a b, opm trans H a b = idm a b).
    { intros a b. unfold H. rewrite <- blkrefl_op by auto. unfold blkrefl. rewrite H0. cbn [sum]. ring. }
    destruct side.
    - rewrite (mmul_ext m _ _ idm (val C s)) by (intros; auto). rewrite mmul_id_l by auto. auto.
    - rewrite (mmul_ext n _ _ (val C s) idm) by (intros; auto). rewrite mmul_id_r by auto. auto. }
  apply wp_bind. apply wp_new_work. intros s1 K1 K2. set (work := new_lmat0 _ _ p l).
  assert (Ez : wsize (larfb_worksize side k m n) = z) by (unfold z, larfb_worksize, wsize; destruct side; cbn; lia). rewrite Ez in K1.
  assert (Ez' : (lm work * ln work)%nat = z) by exact Ez.
  assert (EV : forall i j, (i < nr V)%nat -> (j < nc V)%nat -> val V s1 i j = val V s i j) by (intros; eapply fresh_val; eauto).
  assert (EC : forall i j, (i < nr C)%nat -> (j < nc C)%nat -> val C s1 i j = val C s i j) by (intros; eapply fresh_val; eauto).
  assert (ET : forall i j, (i < nr Tm)%nat -> (j < nc Tm)%nat -> val Tm s1 i j = val Tm s i j) by (intros; eapply fresh_val; eauto).
  assert (DW : forall X, fresh p z X -> disj X (lview work)) by (intros X FX; apply disj_sym, fresh_disj; unfold wsize in Ez; rewrite Ez; auto).
  eapply wp_returns; [apply (larfb_work_correct side trans dir sm V Tm C work s1 m n k); auto|].
  - apply lok_new0.
  - apply contig_new0.
  - rewrite Ez'. auto.
  - intros r s' [-> (L1 & L2 & L3)]. split; auto. split; [|split; [|congruence]].
    + intros i j Hi Hj. rewrite L1 by auto. rewrite Hm in Hi. rewrite Hn in Hj.
      assert (EH : forall a b, (a < sel side m n)%nat -> (b < sel side m n)%nat ->
        opm trans (blkrefl k (trim (tupl dir) NonUnit (val Tm s1)) (rvec dir sm (sel side m n) k (val V s1))) a b = opm trans H a b).
      { apply opm_ext. intros a b Ha Hb. unfold H, blkrefl. f_equal. apply sum_ext. intros c Hc. apply sum_ext. intros d Hd.
        assert (EU : forall c r, (c < k)%nat -> (r < sel side m n)%nat -> rvec dir sm (sel side m n) k (val V s1) c r = rvec dir sm (sel side m n) k (val V s) c r).
        { intros c' r Hc' Hr. unfold rvec. destruct sm; cbn in HV; destruct HV; rewrite EV by lia; auto. }
        rewrite !EU by auto. unfold trim. rewrite ET by lia. auto. }
      destruct side; cbn [sel] in *; apply mmul_ext; intros a Ha; auto; apply EC; lia.
    + intros a Ha Hb. rewrite L2; auto. intros K. apply Hb. apply new_inview in K. unfold wsize in Ez. rewrite Ez in K. exact K.
Qed.

(** unmq: C := op(Q) C (Left) or C op(Q) (Right), for every block size *)
Theorem unmq_work_correct nbo side trans dir sm V tau C work s m n k : op_ok trans -> shape C m n -> vshape sm V (sel side m n) k -> isvec tau k ->
  (k <= sel side m n)%nat -> (0 < nbo)%nat -> vinj C -> disj V C -> disj tau C -> lok work -> contiguous work = true ->
  (let nb := Nat.min nbo k in nb * nb + nb * sel side n m <= lm work * ln work)%nat -> disj (lview work) V -> disj (lview work) tau -> disj (lview work) C ->
  let Q := qof dir sm (sel side m n) (val V s) (vval tau s) k in
  returns (unmq_work nbo side trans dir sm V tau C work) s (fun r s' => r = 0%Z /\
    effw C (match side with Left => mmul m (opm trans Q) (val C s) | Right => mmul n (val C s) (opm trans Q) end) (inview (lview work)) s s').
Proof.
  intros Ht [Hm Hn] HV [Hk Hc] Hkq Hnb HI D1 D2 W1 W2 W3 W4 W5 W6 Q. subst m n k. apply runs_inv.
  eapply wp_conseq; [apply (unmq_work_run nbo side trans dir sm V tau C work s); auto| |auto].
  - destruct sm; cbn in HV; destruct HV; split; auto.
  - right. right. right. auto.
  - intros r s' HL. unfold rapply in HL. destruct side; exact HL.
Qed.
(** the size its query reports *)
Definition unmq_size (nbo : nat) (side : side_t) (m n k : nat) : nat := let nb := Nat.min nbo k in wsize (wadd (winfo_m nb nb) (larfb_worksize side nb m n)).
Theorem unmq_correct p l nbo side trans dir sm V tau C s m n k : op_ok trans -> shape C m n -> vshape sm V (sel side m n) k -> isvec tau k ->
  (k <= sel side m n)%nat -> (0 < nbo)%nat -> vinj C -> disj V C -> disj tau C ->
  let z := unmq_size nbo side m n k in fresh p z V -> fresh p z tau -> fresh p z C ->
  let Q := qof dir sm (sel side m n) (val V s) (vval tau s) k in
  returns (unmq p l nbo side trans dir sm V tau C) s (fun r s' => r = 0%Z /\
    effw C (match side with Left => mmul m (opm trans Q) (val C s) | Right => mmul n (val C s) (opm trans Q) end) (block p z) s s').
Proof.
  intros Ht HS HV HT Hkq Hnb HI D1 D2 z F1 F2 F3 Q. pose proof HS as [Hm Hn]. pose proof HT as [Hk Hc]. apply runs_inv. unfold runs, unmq. rewrite Hm, Hn, Hk.
  destruct (Nat.leb_spec m 0) as [Hm0|Hm0]; [|destruct (Nat.leb_spec n 0) as [Hn0|Hn0]; [|destruct (Nat.leb_spec k 0) as [Hk0|Hk0]]]; cbn [orb].
  1,2: apply wp_ret; split; auto; split; [|split; auto]; intros i j Hi Hj; rewrite Hm in Hi; rewrite Hn in Hj; exfalso; lia.
  { apply wp_ret. split; auto. assert (k = 0)%nat by lia. subst k. split; [|split; auto]. intros i j Hi Hj. rewrite Hm in Hi; rewrite Hn in Hj.
    assert (EQ : forall a b, opm trans Q a b = idm a b).
    { intros a b. unfold Q. rewrite H. unfold qof, hprod. cbn [mprod rprod]. destruct trans, dir, sm; cbn [opm ctr] in *; unfold ctr; rewrite ?conj_id, ?conj_conj; unfold idm; rewrite ?(Nat.eqb_sym b a); auto; try (destruct (_ =? _)%nat; rewrite ?conj_1, ?conj_0; auto); try contradiction. }
    destruct side.
    - rewrite (mmul_ext m _ _ idm (val C s)) by (intros; auto). rewrite mmul_id_l by auto. auto.
    - rewrite (mmul_ext n _ _ (val C s) idm) by (intros; auto). rewrite mmul_id_r by auto. auto. }
  apply wp_bind. unfold unmq_worksize. cbv zeta. rewrite Hm, Hn, Hk. set (nb := Nat.min nbo k).
  assert (HVs : (nb <= nr V)%nat /\ (nb <= nc V)%nat /\ match sm with Columnwise => nr V = sel side m n | Rowwise => nc V = sel side m n end) by (destruct sm; cbn in HV; destruct HV; unfold nb; lia).
  destruct HVs as (v1 & v2 & v3).
  apply wp_bind. eapply wp_conseq with (Q := fun _ s1 => s1 = s) (X := fun _ _ => False); [|intros Vi s1 ->|contradiction].
  { destruct sm; apply wp_slc; auto; lia. }
  apply wp_bind. apply wp_slc; try lia. apply wp_ret. change (nr (subv V 0 nb 0 nb)) with (nb - 0)%nat. rewrite Nat.sub_0_r.
  apply wp_bind. apply wp_new_work. intros s1 K1 K2. set (work := new_lmat0 _ _ p l).
  assert (Ez : (lm work * ln work)%nat = z) by reflexivity.
  assert (EV : forall i j, (i < nr V)%nat -> (j < nc V)%nat -> val V s1 i j = val V s i j) by (intros; eapply fresh_val; eauto).
  assert (EC : forall i j, (i < nr C)%nat -> (j < nc C)%nat -> val C s1 i j = val C s i j) by (intros; eapply fresh_val; eauto).
  assert (Et : forall i, (i < nr tau)%nat -> vval tau s1 i = vval tau s i) by (intros; unfold vval; eapply fresh_val; eauto; lia).
  assert (Esz : (nb * nb + nb * sel side n m <= z)%nat).
  { unfold z, unmq_size. pose proof (wadd_size (winfo_m nb nb) (larfb_worksize side nb m n)) as HW. cbv zeta. fold nb.
    specialize (HW ltac:(unfold wok; cbn; discriminate) ltac:(unfold wok; destruct side; cbn; discriminate)). unfold larfb_worksize in *. destruct side; cbn [sel] in *; unfold wsize in *; cbn [wm wn winfo_m] in *; lia. }
  eapply wp_returns; [apply (unmq_work_correct nbo side trans dir sm V tau C work s1 m n k); auto|].
  - apply lok_new0.
  - apply contig_new0.
  - apply fresh_disj; auto.
  - apply fresh_disj; auto.
  - apply fresh_disj; auto.
  - intros r s' [-> (L1 & L2 & L3)]. split; auto.
    assert (EQ : forall a b, (a < sel side m n)%nat -> (b < sel side m n)%nat -> opm trans (qof dir sm (sel side m n) (val V s1) (vval tau s1) k) a b = opm trans Q a b).
    { apply opm_ext. intros a b Ha Hb. unfold Q. apply qof_ext; auto.
      - intros i r Hi Hr. destruct sm; cbn in HV; destruct HV; apply EV; lia.
      - intros i Hi. apply Et. lia. }
    split; [|split].
    + intros i j Hi Hj. rewrite L1 by auto. rewrite Hm in Hi. rewrite Hn in Hj. destruct side; cbn [sel] in *; apply mmul_ext; intros a Ha; try (apply EC; lia); apply EQ; lia.
    + intros a Ha Hb. rewrite L2; auto. intros K. apply Hb. apply new_inview in K. exact K.
    + congruence.
Qed.

(** ungq: A is overwritten with the first (Forward) or last (Backward) columns (Columnwise) or rows (Rowwise) of Q,
    for every block size.  Missing, because false of the code (ungq_no_reflectors_refuted): no reflectors (k = 0). *)
Definition ungq_need (nb : nat) (dir : direction_t) (q k : nat) : nat :=
  (if nb <? q then nb * nb + nb * (match dir with Forward => q - nb | Backward => q - k + (k - 1) / nb * nb end) else nb - 1)%nat.
Theorem ungq_work_correct_partial nbo dir sm A tau work s m n k : shape A m n -> isvec tau k ->
  match sm with Columnwise => k <= n <= m | Rowwise => k <= m <= n end%nat ->
  (0 < k)%nat -> (0 < nbo)%nat -> vinj A -> disj tau A -> lok work -> contiguous work = true ->
  (ungq_need (Nat.min nbo k) dir (Nat.min m n) k <= lm work * ln work)%nat -> disj (lview work) A -> disj (lview work) tau ->
  let nq := match sm with Columnwise => m | Rowwise => n end in
  let Q := qof dir sm nq (stored dir sm m n k (val A s)) (vval tau s) k in
  returns (ungq_work nbo dir sm A tau work) s (fun r s' => r = 0%Z /\ effw A (qpart dir sm m n Q) (inview (lview work)) s s').
Proof.
  intros [Hm Hn] [Hk Hc] Hd Hk0 Hnb HI HD W1 W2 W3 W4 W5 nq Q. apply runs_inv. unfold ungq_work.
  assert (EM : match sm with Columnwise => nr A | Rowwise => nc A end = nq) by (unfold nq; destruct sm; auto).
  assert (EN : match sm with Columnwise => nc A | Rowwise => nr A end = Nat.min m n) by (destruct sm; lia).
  eapply wp_conseq; [apply (ungq_work_run sm dir A tau work s m n k nq (Nat.min m n)); auto| |auto].
  - unfold nq. destruct sm; lia.
  - lia.
  - unfold gsz_ok, ungq_need in *. destruct (Nat.min nbo k <? Nat.min m n)%nat; auto; destruct dir; auto.
  - intros r s' HL. unfold gV in HL. rewrite Hm, Hn, Hk in HL. exact HL.
Qed.
(** the size its query reports *)
Definition ungq_bsize (nbo : nat) (dir : direction_t) (sm : storev_t) (m n k : nat) : nat :=
  let nb := Nat.min nbo k in let q := Nat.min m n in
  let c := match dir with Forward => (q - nb)%nat | Backward => (q - k + (k - 1) / nb * nb)%nat end in
  wsize (wminmax (if (nb <? q)%nat then wadd (match sm with Columnwise => larfb_worksize Left nb m c | Rowwise => larfb_worksize Right nb c n end) (winfo_m nb nb) else winfo_v 0)
    (match sm with Columnwise => if (1 <? nb)%nat then larf_worksize Left m (nb - 1) else winfo_v 0 | Rowwise => if (1 <? nb)%nat then larf_worksize Right (nb - 1) n else winfo_v 0 end)).
Lemma ungq_bsize_ok nbo dir sm m n k : match sm with Columnwise => k <= n <= m | Rowwise => k <= m <= n end%nat ->
  (ungq_need (Nat.min nbo k) dir (Nat.min m n) k <= ungq_bsize nbo dir sm m n k)%nat.
Proof.
  intros Hd. unfold ungq_need, ungq_bsize. cbv zeta. set (nb := Nat.min nbo k). set (q := Nat.min m n). set (c := match dir with Forward => (q - nb)%nat | Backward => (q - k + (k - 1) / nb * nb)%nat end).
  match goal with |- context[wminmax ?a ?b] => destruct (minmax_size a b) as [S1 S2]; set (wa := a) in *; set (wb := b) in * end.
  destruct (Nat.ltb_spec nb q) as [Hq|Hq].
  - etransitivity; [|exact S1]. unfold wa. etransitivity; [|apply wadd_size; [unfold wok; destruct sm; cbn; discriminate|unfold wok; cbn; discriminate]].
    unfold wsize. destruct sm; cbn [larfb_worksize winfo_m wm wn]; lia.
  - etransitivity; [|exact S2]. unfold wb, larf_worksize, larf_worksize1. destruct (Nat.ltb_spec 1 nb) as [H1|H1]; [|lia]. destruct sm.
    + destruct (Nat.ltb_spec 0 m); [|lia]. destruct (Nat.ltb_spec 0 (m - 1)); [|lia]. destruct (Nat.ltb_spec 0 (nb - 1)); [|lia]. cbn. lia.
    + destruct (Nat.ltb_spec 0 n); [|lia]. destruct (Nat.ltb_spec 0 (n - 1)); [|lia]. destruct (Nat.ltb_spec 0 (nb - 1)); [|lia]. cbn. lia.
Qed.
(** the query reports [ungq_bsize] elements *)
Lemma ungq_query nbo dir sm A tau s m n k : shape A m n -> isvec tau k ->
  match sm with Columnwise => k <= n <= m | Rowwise => k <= m <= n end%nat -> (0 < k)%nat -> (0 < nbo)%nat ->
  wp (ungq_worksize nbo dir sm A tau) (fun w s1 => wsize w = ungq_bsize nbo dir sm m n k /\ s1 = s) noX s.
Proof.
  intros [Hm Hn] [Hk Hc] Hd Hkp Hnb. set (z := ungq_bsize nbo dir sm m n k).
  unfold ungq_worksize. cbv zeta. rewrite Hm, Hn, Hk. set (nb := Nat.min nbo k).
  assert (Hnb1 : (1 <= nb <= k)%nat) by (unfold nb; lia).
  assert (HX : ((k - 1) / nb * nb <= k - 1)%nat) by (rewrite Nat.mul_comm; apply Nat.mul_div_le; lia).
  assert (HX2 : (k <= (k - 1) / nb * nb + nb)%nat) by (pose proof (Nat.div_mod (k - 1) nb ltac:(lia)) as D; pose proof (Nat.mod_upper_bound (k - 1) nb ltac:(lia)); lia).
  set (w := wminmax (if (nb <? Nat.min m n)%nat then wadd (match sm with Columnwise => larfb_worksize Left nb m (match dir with Forward => (Nat.min m n - nb)%nat | Backward => (Nat.min m n - k + (k - 1) / nb * nb)%nat end) | Rowwise => larfb_worksize Right nb (match dir with Forward => (Nat.min m n - nb)%nat | Backward => (Nat.min m n - k + (k - 1) / nb * nb)%nat end) n end) (winfo_m nb nb) else winfo_v 0)
    (match sm with Columnwise => if (1 <? nb)%nat then larf_worksize Left m (nb - 1) else winfo_v 0 | Rowwise => if (1 <? nb)%nat then larf_worksize Right (nb - 1) n else winfo_v 0 end)).
  assert (Ew : wsize w = z) by reflexivity.
  apply wp_conseq with (Q := fun w' s1 => w' = w /\ s1 = s) (X := fun _ _ => False); [|intros w' s1 [-> ->]; auto|contradiction].
  { assert (Eq : match sm with Columnwise => n | Rowwise => m end = Nat.min m n) by (destruct sm; lia). rewrite Eq.
    apply wp_bind. apply wp_conseq with (Q := fun V s1 => nr V = match sm with Columnwise => m | Rowwise => nb end /\ nc V = match sm with Columnwise => nb | Rowwise => n end /\ s1 = s) (X := fun _ _ => False); [destruct sm; apply wp_slc; cbn; repeat split; auto; try lia|intros V s1 (V1 & V2 & ->)|contradiction].
    unfold w. match goal with |- context[wminmax ?a _] => set (w0 := a) end.
    apply wp_bind. apply wp_conseq with (Q := fun w1 s1 => w1 = w0 /\ s1 = s) (X := fun _ _ => False); [|intros w1 s1 [-> ->]|contradiction].
    { unfold w0. destruct (Nat.ltb_spec nb (Nat.min m n)) as [Hq|Hq]; [|apply wp_ret; split; reflexivity].
      apply wp_bind. apply wp_slc; try (destruct sm; lia).
      apply wp_bind. eapply wp_conseq with (Q := fun ab s1 => ab = match dir with Forward => (nb, Nat.min m n) | Backward => (0, Nat.min m n + (k - 1) / nb * nb - k)%nat end /\ s1 = s) (X := fun _ _ => False); [|intros ab s1 [-> ->]|contradiction].
      { destruct dir; [apply wp_ret; auto|]. apply wp_bind, wp_assert; [apply Nat.ltb_lt; lia|]. apply wp_bind, wp_assert; [apply Nat.leb_le; destruct sm; lia|]. apply wp_ret; auto. }
      apply wp_bind. eapply wp_conseq with (Q := fun C s1 => nr C = match sm with Columnwise => m | Rowwise => match dir with Forward => (Nat.min m n - nb)%nat | Backward => (Nat.min m n - k + (k - 1) / nb * nb)%nat end end /\
          nc C = match sm with Columnwise => match dir with Forward => (Nat.min m n - nb)%nat | Backward => (Nat.min m n - k + (k - 1) / nb * nb)%nat end | Rowwise => n end /\ s1 = s) (X := fun _ _ => False); [|intros C s1 (C1 & C2 & ->)|contradiction].
      { destruct sm, dir; cbn [fst snd]; apply wp_slc; try lia; cbn; repeat split; lia. }
      apply wp_ret. rewrite C1, C2. cbn [nr subv]. rewrite Nat.sub_0_r. split; [|auto]. destruct sm; reflexivity. }
    apply wp_bind. apply wp_slvec; try lia. apply wp_bind. apply wp_conseq with (Q := fun w2 s1 => w2 = (match sm with Columnwise => if (1 <? nb)%nat then larf_worksize Left m (nb - 1) else winfo_v 0 | Rowwise => if (1 <? nb)%nat then larf_worksize Right (nb - 1) n else winfo_v 0 end) /\ s1 = s) (X := fun _ _ => False); [|intros w2 s1 [-> ->]|contradiction].
    { unfold ungq_level2_worksize. cbv zeta. rewrite V1, V2. destruct sm; (destruct (Nat.ltb_spec 1 nb); [apply wp_bind; apply wp_rd; [cbn; lia|cbn; lia|]|]); apply wp_ret; auto. }
    apply wp_ret. split; auto. }
Qed.
Theorem ungq_correct_partial p l nbo dir sm A tau s m n k : shape A m n -> isvec tau k ->
  match sm with Columnwise => k <= n <= m | Rowwise => k <= m <= n end%nat ->
  (0 < k \/ m = 0 \/ n = 0)%nat -> (0 < nbo)%nat -> vinj A -> disj tau A ->
  let z := ungq_bsize nbo dir sm m n k in fresh p z A -> fresh p z tau ->
  let nq := match sm with Columnwise => m | Rowwise => n end in
  let Q := qof dir sm nq (stored dir sm m n k (val A s)) (vval tau s) k in
  returns (ungq p l nbo dir sm A tau) s (fun r s' => r = 0%Z /\ effw A (qpart dir sm m n Q) (block p z) s s').
Proof.
  intros HS HT Hd Hk0 Hnb HI HD z F1 F2 nq Q. pose proof HS as [Hm Hn]. pose proof HT as [Hk Hc]. apply runs_inv. unfold runs, ungq. rewrite Hm, Hn.
  destruct (Nat.leb_spec m 0) as [Hm0|Hm0]; [|destruct (Nat.leb_spec n 0) as [Hn0|Hn0]]; cbn [orb].
  1,2: apply wp_ret; split; auto; split; [|split; auto]; intros i j Hi Hj; rewrite Hm in Hi; rewrite Hn in Hj; exfalso; lia.
  assert (Hkp : (0 < k)%nat) by lia. clear Hk0.
  apply wp_bind. apply wp_conseq with (Q := fun w' s1 => wsize w' = z /\ s1 = s) (X := fun _ _ => False); [apply (ungq_query nbo dir sm A tau s m n k); auto|intros w s0 [Ew ->]|contradiction].
  apply wp_bind. apply wp_new_work. intros s1 K1 K2. rewrite Ew in K1. set (work := new_lmat0 _ _ p l).
  assert (Es : (lm work * ln work)%nat = z) by exact Ew.
  assert (EA : forall i j, (i < m)%nat -> (j < n)%nat -> val A s1 i j = val A s i j) by (intros; eapply fresh_val; eauto; lia).
  assert (Et : forall i, (i < k)%nat -> vval tau s1 i = vval tau s i) by (intros; unfold vval; eapply fresh_val; eauto; lia).
  assert (DW : forall X, fresh p z X -> disj (lview work) X) by (intros X FX; apply fresh_disj; unfold wsize in Ew; rewrite Ew; auto).
  eapply wp_returns; [apply (ungq_work_correct_partial nbo dir sm A tau work s1 m n k); auto|].
  - apply lok_new0.
  - apply contig_new0.
  - rewrite Es. apply ungq_bsize_ok; auto.
  - intros r s' [-> (L1 & L2 & L3)]. split; auto. split; [|split; [|congruence]].
    + intros i j Hi Hj. rewrite L1 by auto. rewrite Hm in Hi. rewrite Hn in Hj.
      assert (EQ : forall a b, (a < nq)%nat -> (b < nq)%nat -> qof dir sm nq (stored dir sm m n k (val A s1)) (vval tau s1) k a b = Q a b).
      { intros a b Ha Hb. unfold Q. apply qof_ext; auto. intros i' r Hi' Hr. unfold nq in Hr. unfold stored. destruct sm, dir; apply EA; lia. }
      unfold qpart. unfold nq in EQ. destruct sm, dir; apply EQ; lia.
    + intros a Ha Hb. rewrite L2; auto. intros K. apply Hb. apply new_inview in K. unfold wsize in Ew. rewrite Ew in K. exact K.
Qed.
End S.

Section R.
Context {E : Env} {FL : FieldLaws E} {CL : ConjLaws E} {OL : ROrdLaws E} {QL : EqbLaws E} {XL : CplxLaws E} {RL : RLaws E} {NL : FinLaws E}.
Add Field Tf2 : fth.

(** The workspace the blocked factorizations need: nb * q elements when they work in blocks (nb < q), q - 1
    otherwise; q is the number of columns (QR, QL) or rows (LQ, RQ) *)
Definition bneed (nbo m n q : nat) : nat := let nb := Nat.min nbo (Nat.min m n) in (if nb <? q then nb * q else q - 1)%nat.
Lemma bneed_ok nbo A q sz m n : shape A m n -> (bneed nbo m n q <= sz)%nat -> bsz_ok nbo A q sz.
Proof. intros [Hm Hn] H. unfold bsz_ok. rewrite Hm, Hn. cbv zeta. unfold bneed in H. cbv zeta in H. destruct (_ <? _)%nat; auto. Qed.
Section W.
Variables (h : hconst) (st bt hsm : R) (nbo : nat) (A tau : view) (work : lmat) (s : state) (m n : nat).
Hypotheses (Hh : hconst_ok h st bt hsm) (HS : shape A m n) (Ht : nc tau = 1%nat) (Hl : (Nat.min m n <= nr tau)%nat) (Hnb : (0 < nbo \/ Nat.min m n = 0)%nat)
  (HI : vinj A) (HIt : vinj tau) (HD : disj A tau) (W1 : lok work) (W2 : contiguous work = true) (W4 : disj (lview work) A) (W5 : disj (lview work) tau).
Let done dir sm := fun (r : Z) s' => r = 0%Z /\ factorization dir sm m n (val A s) (val A s') (vval tau s') /\
    only_changes (fun l => inview A l \/ inview tau l \/ inview (lview work) l) s s'.
Theorem geqrf_work_correct : (bneed nbo m n n <= lm work * ln work)%nat -> (forall j, (j < n)%nat -> (vsq m (fun i => val A s i j) <= bt * bt)%R) ->
  returns (geqrf_work h nbo A tau work) s (fun r s' => r = 0%Z /\ factorization Forward Columnwise m n (val A s) (val A s') (vval tau s') /\
    only_changes (fun l => inview A l \/ inview tau l \/ inview (lview work) l) s s').
Proof.
  intros W3 HN. apply runs_inv. unfold geqrf_work. pose proof HS as [Hm Hn]. eapply wp_conseq; [apply (geqrf_work_run h st bt hsm nbo A tau work s); auto; try (rewrite Hm, Hn; auto)| |auto].
  - rewrite Hn. apply (bneed_ok _ _ _ _ m n); auto.
  - intros r s' HL. exact (factored_spec _ _ _ _ _ _ _ _ _ m n HS ltac:(auto) HL).
Qed.
Theorem gelqf_work_correct : (bneed nbo m n m <= lm work * ln work)%nat -> (forall i, (i < m)%nat -> (vsq n (fun j => val A s i j) <= bt * bt)%R) ->
  returns (gelqf_work h nbo A tau work) s (fun r s' => r = 0%Z /\ factorization Forward Rowwise m n (val A s) (val A s') (vval tau s') /\
    only_changes (fun l => inview A l \/ inview tau l \/ inview (lview work) l) s s').
Proof.
  intros W3 HN. apply runs_inv. unfold gelqf_work. pose proof HS as [Hm Hn]. eapply wp_conseq; [apply (gelqf_work_run h st bt hsm nbo A tau work s); auto; try (rewrite Hm, Hn; auto)| |auto].
  - rewrite Hm. apply (bneed_ok _ _ _ _ m n); auto.
  - intros r s' HL. exact (factored_spec _ _ _ _ _ _ _ _ _ m n HS ltac:(auto) HL).
Qed.
Theorem geqlf_work_correct : (bneed nbo m n n <= lm work * ln work)%nat -> (forall j, (j < n)%nat -> (vsq m (fun i => val A s i j) <= bt * bt)%R) ->
  returns (geqlf_work h nbo A tau work) s (fun r s' => r = 0%Z /\ factorization Backward Columnwise m n (val A s) (val A s') (vval tau s') /\
    only_changes (fun l => inview A l \/ inview tau l \/ inview (lview work) l) s s').
Proof.
  intros W3 HN. apply runs_inv. unfold geqlf_work. pose proof HS as [Hm Hn]. eapply wp_conseq; [apply (geqlf_work_run h st bt hsm nbo A tau work s); auto; try (rewrite Hm, Hn; auto)| |auto].
  - rewrite Hn. apply (bneed_ok _ _ _ _ m n); auto.
  - intros r s' HL. exact (factored_spec _ _ _ _ _ _ _ _ _ m n HS ltac:(auto) HL).
Qed.
Theorem gerqf_work_correct : (bneed nbo m n m <= lm work * ln work)%nat -> (forall i, (i < m)%nat -> (vsq n (fun j => val A s i j) <= bt * bt)%R) ->
  returns (gerqf_work h nbo A tau work) s (fun r s' => r = 0%Z /\ factorization Backward Rowwise m n (val A s) (val A s') (vval tau s') /\
    only_changes (fun l => inview A l \/ inview tau l \/ inview (lview work) l) s s').
Proof.
  intros W3 HN. apply runs_inv. unfold gerqf_work. pose proof HS as [Hm Hn]. eapply wp_conseq; [apply (gerqf_work_run h st bt hsm nbo A tau work s); auto; try (rewrite Hm, Hn; auto)| |auto].
  - rewrite Hm. apply (bneed_ok _ _ _ _ m n); auto.
  - intros r s' HL. exact (factored_spec _ _ _ _ _ _ _ _ _ m n HS ltac:(auto) HL).
Qed.
End W.

(** the workspace their queries report *)
Definition binfo (sm : storev_t) (nbo m n : nat) : winfo :=
  let nb := Nat.min nbo (Nat.min m n) in
  match sm with
  | Columnwise => let w := if (1 <? nb)%nat then larf_worksize Left m (nb - 1) else winfo_v 0 in
    if (nb <? n)%nat then wadd (wminmax w (larfb_worksize Left nb m (n - nb))) (winfo_m nb nb) else w
  | Rowwise => let w := if (1 <? nb)%nat then larf_worksize Right (nb - 1) n else winfo_v 0 in
    if (nb <? m)%nat then wadd (wminmax w (larfb_worksize Right nb (m - nb) n)) (winfo_m nb nb) else w
  end.
Definition bsize (sm : storev_t) (nbo m n : nat) : nat := wsize (binfo sm nbo m n).
Lemma larf_wok side m n : wok (larf_worksize side m n).
Proof. unfold wok, larf_worksize, larf_worksize1. destruct side; repeat match goal with |- context[if ?c then _ else _] => destruct c end; cbn; auto; discriminate. Qed.
Lemma bsize_ok sm nbo A m n : shape A m n -> bsz_ok nbo A (match sm with Columnwise => n | Rowwise => m end) (bsize sm nbo m n).
Proof.
  intros [Hm Hn]. unfold bsz_ok. rewrite Hm, Hn. cbv zeta. set (nb := Nat.min nbo (Nat.min m n)). unfold bsize, binfo. fold nb. cbv zeta.
  assert (WM : forall a b, wok a -> wok b -> wok (wminmax a b)) by (intros; apply wok_closed; auto).
  destruct sm.
  - set (w := if (1 <? nb)%nat then _ else _). destruct (Nat.ltb_spec nb n) as [Hq|Hq].
    + etransitivity; [|apply wadd_size; [apply WM; [unfold w; destruct (1 <? nb)%nat; [apply larf_wok|unfold wok; cbn; auto]|unfold wok; cbn; discriminate]|unfold wok; cbn; discriminate]].
      destruct (minmax_size w (larfb_worksize Left nb m (n - nb))) as [_ S2]. etransitivity; [|apply Nat.add_le_mono_r; exact S2]. unfold wsize. cbn [larfb_worksize winfo_m wm wn].
      assert (Hnn : exists d, n = (nb + d)%nat) by (exists (n - nb)%nat; lia). destruct Hnn as [d Hd]. replace (n - nb)%nat with d by lia. rewrite Hd. nia.
    + destruct (Nat.le_gt_cases m 1); auto. destruct (Nat.le_gt_cases n 1); auto. right. right. assert (Hnb : nb = n) by (unfold nb in *; lia). unfold w, larf_worksize, larf_worksize1. rewrite Hnb.
      destruct (Nat.ltb_spec 1 n); [|lia]. destruct (Nat.ltb_spec 0 m); [|lia]. destruct (Nat.ltb_spec 0 (m - 1)); [|lia]. destruct (Nat.ltb_spec 0 (n - 1)); [|lia].
 cbn. lia.
  - set (w := if (1 <? nb)%nat then _ else _). destruct (Nat.ltb_spec nb m) as [Hq|Hq].
    + etransitivity; [|apply wadd_size; [apply WM; [unfold w; destruct (1 <? nb)%nat; [apply larf_wok|unfold wok; cbn; auto]|unfold wok; cbn; discriminate]|unfold wok; cbn; discriminate]].
      destruct (minmax_size w (larfb_worksize Right nb (m - nb) n)) as [_ S2]. etransitivity; [|apply Nat.add_le_mono_r; exact S2]. unfold wsize. cbn [larfb_worksize winfo_m wm wn].
      assert (Hnn : exists d, m = (nb + d)%nat) by (exists (m - nb)%nat; lia). destruct Hnn as [d Hd]. replace (m - nb)%nat with d by lia. rewrite Hd. nia.
    + destruct (Nat.le_gt_cases m 1); auto. destruct (Nat.le_gt_cases n 1); auto. right. right. assert (Hnb : nb = m) by (unfold nb in *; lia). unfold w, larf_worksize, larf_worksize1. rewrite Hnb.
      destruct (Nat.ltb_spec 1 m); [|lia]. destruct (Nat.ltb_spec 0 n); [|lia]. destruct (Nat.ltb_spec 0 (n - 1)); [|lia]. destruct (Nat.ltb_spec 0 (m - 1)); [|lia]. cbn. lia.
Qed.
Section A.
Variables (p : Z) (l : layout_t) (h : hconst) (st bt hsm : R) (nbo : nat) (A tau : view) (s : state) (m n : nat).
Hypotheses (Hh : hconst_ok h st bt hsm) (HS : shape A m n) (Ht : nc tau = 1%nat) (Hl : (Nat.min m n <= nr tau)%nat) (Hnb : (0 < nbo \/ Nat.min m n = 0)%nat)
  (HI : vinj A) (HIt : vinj tau) (HD : disj A tau).
Ltac qgo nb w := apply wp_bind; apply wp_slc; try lia; apply wp_bind; apply wp_slvec; try lia; cbn [nr nc subv]; rewrite !Nat.sub_0_r;
  apply wp_bind; apply wp_conseq with (Q := fun w' s1 => w' = w /\ s1 = s) (X := noX);
  [destruct (Nat.ltb_spec 1 nb); [apply wp_bind; apply wp_rd; [cbn; lia|cbn; lia|]|]; apply wp_ret; auto
  |let w' := fresh in let s1 := fresh in intros w' s1 [-> ->];
   match goal with |- context[if (nb <? ?q)%nat then bind (slc _ _ _ _ _) _ else _] => destruct (Nat.ltb_spec nb q) end;
   [apply wp_bind; apply wp_slc; try lia; apply wp_bind; apply wp_slc; try lia; cbn [nr nc subv]; rewrite ?Nat.sub_0_r|]; apply wp_ret; split; auto
  |auto].
Theorem geqrf_correct : let z := bsize Columnwise nbo m n in fresh p z A -> fresh p z tau -> (forall j, (j < n)%nat -> (vsq m (fun i => val A s i j) <= bt * bt)%R) ->
  returns (geqrf p l h nbo A tau) s (fun r s' => r = 0%Z /\ factorization Forward Columnwise m n (val A s) (val A s') (vval tau s') /\
    only_changes (fun l => inview A l \/ inview tau l \/ block p z l) s s').
Proof.
  intros z F1 F2 HN. apply runs_inv. unfold runs, geqrf. pose proof HS as [Hm Hn]. apply wp_bind.
  apply wp_conseq with (Q := fun w s1 => w = binfo Columnwise nbo m n /\ s1 = s) (X := noX); [|intros w s1 [-> ->]|auto].
  { unfold geqrf_worksize, geqr2_worksize. cbv zeta. rewrite Hm, Hn. unfold binfo. set (nb := Nat.min nbo (Nat.min m n)). cbv zeta. assert (Hb : (nb <= m /\ nb <= n /\ nb <= nr tau)%nat) by (unfold nb; lia).
    qgo nb (if (1 <? nb)%nat then larf_worksize Left m (nb - 1) else winfo_v 0). }
  apply alloc_go; auto. intros s1 work W1 W2 W3 W4 W5 EA. unfold geqrf_work. apply (geqrf_work_run h st bt hsm nbo A tau work s1); auto; try (rewrite Hm, Hn; auto).
  - intros j Hi. rewrite (vsq_ext _ _ (fun i => val A s i j)) by (intros; apply EA; auto). auto.
  - rewrite W3. first [rewrite Hn | rewrite Hm]. apply (bsize_ok Columnwise); auto.
Qed.
Theorem gelqf_correct : let z := bsize Rowwise nbo m n in fresh p z A -> fresh p z tau -> (forall i, (i < m)%nat -> (vsq n (fun j => val A s i j) <= bt * bt)%R) ->
  returns (gelqf p l h nbo A tau) s (fun r s' => r = 0%Z /\ factorization Forward Rowwise m n (val A s) (val A s') (vval tau s') /\
    only_changes (fun l => inview A l \/ inview tau l \/ block p z l) s s').
Proof.
  intros z F1 F2 HN. apply runs_inv. unfold runs, gelqf. pose proof HS as [Hm Hn]. apply wp_bind.
  apply wp_conseq with (Q := fun w s1 => w = binfo Rowwise nbo m n /\ s1 = s) (X := noX); [|intros w s1 [-> ->]|auto].
  { unfold gelqf_worksize, gelq2_worksize. cbv zeta. rewrite Hm, Hn. unfold binfo. set (nb := Nat.min nbo (Nat.min m n)). cbv zeta. assert (Hb : (nb <= m /\ nb <= n /\ nb <= nr tau)%nat) by (unfold nb; lia).
    qgo nb (if (1 <? nb)%nat then larf_worksize Right (nb - 1) n else winfo_v 0). }
  apply alloc_go; auto. intros s1 work W1 W2 W3 W4 W5 EA. unfold gelqf_work. apply (gelqf_work_run h st bt hsm nbo A tau work s1); auto; try (rewrite Hm, Hn; auto).
  - intros i Hi. rewrite (vsq_ext _ _ (fun j => val A s i j)) by (intros; apply EA; auto). auto.
  - rewrite W3. first [rewrite Hn | rewrite Hm]. apply (bsize_ok Rowwise); auto.
Qed.
Theorem geqlf_correct : let z := bsize Columnwise nbo m n in fresh p z A -> fresh p z tau -> (forall j, (j < n)%nat -> (vsq m (fun i => val A s i j) <= bt * bt)%R) ->
  returns (geqlf p l h nbo A tau) s (fun r s' => r = 0%Z /\ factorization Backward Columnwise m n (val A s) (val A s') (vval tau s') /\
    only_changes (fun l => inview A l \/ inview tau l \/ block p z l) s s').
Proof.
  intros z F1 F2 HN. apply runs_inv. unfold runs, geqlf. pose proof HS as [Hm Hn]. apply wp_bind.
  apply wp_conseq with (Q := fun w s1 => w = binfo Columnwise nbo m n /\ s1 = s) (X := noX); [|intros w s1 [-> ->]|auto].
  { unfold geqlf_worksize, geql2_worksize. cbv zeta. rewrite Hm, Hn. unfold binfo. set (nb := Nat.min nbo (Nat.min m n)). cbv zeta. assert (Hb : (nb <= m /\ nb <= n /\ nb <= nr tau)%nat) by (unfold nb; lia).
    qgo nb (if (1 <? nb)%nat then larf_worksize Left m (nb - 1) else winfo_v 0). }
  apply alloc_go; auto. intros s1 work W1 W2 W3 W4 W5 EA. unfold geqlf_work. apply (geqlf_work_run h st bt hsm nbo A tau work s1); auto; try (rewrite Hm, Hn; auto).
  - intros j Hi. rewrite (vsq_ext _ _ (fun i => val A s i j)) by (intros; apply EA; auto). auto.
  - rewrite W3. first [rewrite Hn | rewrite Hm]. apply (bsize_ok Columnwise); auto.
Qed.
Theorem gerqf_correct : let z := bsize Rowwise nbo m n in fresh p z A -> fresh p z tau -> (forall i, (i < m)%nat -> (vsq n (fun j => val A s i j) <= bt * bt)%R) ->
  returns (gerqf p l h nbo A tau) s (fun r s' => r = 0%Z /\ factorization Backward Rowwise m n (val A s) (val A s') (vval tau s') /\
    only_changes (fun l => inview A l \/ inview tau l \/ block p z l) s s').
Proof.
  intros z F1 F2 HN. apply runs_inv. unfold runs, gerqf. pose proof HS as [Hm Hn]. apply wp_bind.
  apply wp_conseq with (Q := fun w s1 => w = binfo Rowwise nbo m n /\ s1 = s) (X := noX); [|intros w s1 [-> ->]|auto].
  { unfold gerqf_worksize, gerq2_worksize. cbv zeta. rewrite Hm, Hn. unfold binfo. set (nb := Nat.min nbo (Nat.min m n)). cbv zeta. assert (Hb : (nb <= m /\ nb <= n /\ nb <= nr tau)%nat) by (unfold nb; lia).
    qgo nb (if (1 <? nb)%nat then larf_worksize Right (nb - 1) n else winfo_v 0). }
  apply alloc_go; auto. intros s1 work W1 W2 W3 W4 W5 EA. unfold gerqf_work. apply (gerqf_work_run h st bt hsm nbo A tau work s1); auto; try (rewrite Hm, Hn; auto).
  - intros i Hi. rewrite (vsq_ext _ _ (fun j => val A s i j)) by (intros; apply EA; auto). auto.
  - rewrite W3. first [rewrite Hn | rewrite Hm]. apply (bsize_ok Rowwise); auto.
Qed.
End A.
End R.

Section R2.
Context {E : Env} {FL : FieldLaws E} {CL : ConjLaws E} {OL : ROrdLaws E} {QL : EqbLaws E} {XL : CplxLaws E} {RL : RLaws E} {NL : FinLaws E}.
Add Field Tf3 : fth.
(** geqrf followed by ungq (Forward, Columnwise: ungqr) on the same arguments (n <= m): the columns of the final
    matrix are orthonormal, and the original matrix is that matrix times the R of geqrf *)
Theorem geqrf_ungqr_correct p1 p2 l h st bt sm nb1 nb2 A tau s m n : hconst_ok h st bt sm -> shape A m n -> isvec tau n -> (0 < n <= m)%nat -> (0 < nb1)%nat -> (0 < nb2)%nat ->
  vinj A -> vinj tau -> disj A tau ->
  (let z := bsize Columnwise nb1 m n in fresh p1 z A /\ fresh p1 z tau) -> (let z := ungq_bsize nb2 Forward Columnwise m n n in fresh p2 z A /\ fresh p2 z tau) ->
  (forall c, (c < n)%nat -> (vsq m (fun r => val A s r c) <= bt * bt)%R) ->
  exists s1, geqrf p1 l h nb1 A tau s = Ok 0%Z s1 /\ exists s2, ungq p2 l nb2 Forward Columnwise A tau s1 = Ok 0%Z s2 /\
    (forall i j, (i < n)%nat -> (j < n)%nat -> mmul m (ctr (val A s2)) (val A s2) i j = idm i j) /\
    (forall i j, (i < m)%nat -> (j < n)%nat -> val A s i j = mmul n (val A s2) (rtri (val A s1)) i j).
Proof.
  intros Hh HS Ht Hn Hb1 Hb2 HI HIt HD F1 F2 HN. cbv zeta in F1, F2. destruct F1 as [F1 F1t]. destruct F2 as [F2 F2t]. destruct Ht as [Ht1 Ht2].
  destruct (geqrf_correct p1 l h st bt sm nb1 A tau s m n) as (r & s1 & K & -> & (HU & HA & HR) & HO); auto; [lia|].
  replace (Nat.min m n) with n in * by lia.
  exists s1. split; auto.
  assert (HD' : disj tau A) by (apply disj_sym; auto).
  destruct (ungq_correct_partial p2 l nb2 Forward Columnwise A tau s1 m n n HS (Logic.conj Ht1 Ht2)) as (r & s2 & J' & -> & JE); auto; try lia.
  exists s2. split; [exact J'|]. destruct JE as (J1 & J2 & J3). destruct HS as [Hm Hn'].
  set (Q := qof Forward Columnwise m (stored Forward Columnwise m n n (val A s1)) (vval tau s1) n) in *.
  assert (EQ : forall i j, (i < m)%nat -> (j < n)%nat -> val A s2 i j = Q i j) by (intros i j Hi Hj; rewrite J1 by lia; reflexivity).
  split.
  - intros i j Hi Hj. etransitivity; [|apply (proj1 (HU i j ltac:(lia) ltac:(lia)))]. apply sum_ext. intros a Ha. unfold ctr. rewrite !EQ by auto. auto.
  - intros i j Hi Hj. rewrite HA by auto. unfold mmul. rewrite (sum_trunc n m); [|lia|intros a Ha; unfold trap; destruct (Nat.leb_spec a j); [lia|]; ring].
    apply sum_ext. intros a Ha. rewrite EQ by lia. auto.
Qed.
End R2.

Section Ref.
Context {E : Env}.
Lemma ub_bind {A B} (p : M A) (f : A -> M B) s : wp p (fun a s' => f a s' = UB) noX s -> bind p f s = UB.
Proof. unfold wp, bind. destruct (p s); cbn; try contradiction; auto. Qed.
Lemma ub_first {A B} (p : M A) (f : A -> M B) s : p s = UB -> bind p f s = UB.
Proof. intros H. unfold bind. rewrite H. auto. Qed.
Lemma slc_ub A i0 i1 j0 j1 s B (f : view -> M B) : ((i0 <=? i1) && (i1 <=? nr A) && (j0 <=? j1) && (j1 <=? nc A))%nat = false -> bind (slc A i0 i1 j0 j1) f s = UB.
Proof. intros H. unfold slc, bind, assert_. rewrite H. reflexivity. Qed.
Lemma slvec_ub tau a b s B (f : view -> M B) : (nr tau < b)%nat -> bind (slvec tau a b) f s = UB.
Proof. intros H. unfold slvec, bind, assert_. rewrite (proj2 (Nat.leb_gt _ _) H), andb_false_r. reflexivity. Qed.

(** When tau is shorter than the first block, the workspace query slices tau out of range (violating the assertion of
    slice) before the routine's own check of the length of tau can report it *)
Theorem short_tau_refuted p l h nbo A tau s m n : shape A m n -> nc tau = 1%nat -> (nr tau < Nat.min nbo (Nat.min m n))%nat ->
  geqrf p l h nbo A tau s = UB /\ gelqf p l h nbo A tau s = UB /\ geqlf p l h nbo A tau s = UB /\ gerqf p l h nbo A tau s = UB.
Proof.
  intros [Hm Hn] Ht Hl.
  assert (G : forall B (f : winfo -> M B), bind (geqrf_worksize nbo A tau) f s = UB /\ bind (gelqf_worksize nbo A tau) f s = UB /\ bind (geqlf_worksize nbo A tau) f s = UB /\ bind (gerqf_worksize nbo A tau) f s = UB).
  { intros B f. unfold geqrf_worksize, gelqf_worksize, geqlf_worksize, gerqf_worksize. cbv zeta. rewrite Hm, Hn.
    repeat split; unfold bind at 1; (rewrite ub_bind; [reflexivity|]); apply wp_slc; try lia; apply slvec_ub; auto. }
  repeat split; apply G.
Qed.
(** ungq (every form) with no reflectors, or with block size 0, divides by zero: the documentation and the checks
    allow k = 0 (Q = I) *)
Theorem ungq_no_reflectors_refuted p l nbo dir sm A tau s m n k : shape A m n -> isvec tau k -> vinj A ->
  match sm with Columnwise => k <= n <= m | Rowwise => k <= m <= n end%nat -> (0 < m)%nat -> (0 < n)%nat -> (nbo = 0 \/ k = 0)%nat ->
  ungq p l nbo dir sm A tau s = UB.
Proof.
  intros [Hm Hn] [Hk Hc] HI Hd Hm0 Hn0 Hz. unfold ungq. rewrite Hm, Hn. destruct (Nat.leb_spec m 0); [lia|]. destruct (Nat.leb_spec n 0); [lia|]. cbn [orb].
  assert (Enb : Nat.min nbo k = 0%nat) by lia.
  assert (Eq : match sm with Columnwise => n | Rowwise => m end = Nat.min m n) by (destruct sm; lia).
  unfold ungq_worksize. cbv zeta. rewrite Hm, Hn, Hk, Enb, Eq. destruct (Nat.ltb_spec 0 (Nat.min m n)); [|lia].
  destruct dir.
  2:{ apply ub_first. apply ub_bind.
      apply wp_conseq with (X := noX) (Q := fun _ s1 => s1 = s); [destruct sm; apply wp_slc; auto; lia| |auto]. intros V s1 ->.
      apply ub_first. apply ub_bind. apply wp_slc; try lia. apply ub_first, ub_first. reflexivity. }
  apply ub_bind. apply wp_conseq with (X := noX) (Q := fun _ s1 => s1 = s).
  { apply wp_bind. apply wp_conseq with (X := noX) (Q := fun V s1 => match sm with Columnwise => nc V | Rowwise => nr V end = 0%nat /\ s1 = s); [destruct sm; apply wp_slc; cbn; try lia; repeat split; auto; lia| |auto].
    intros V s1 (V3 & ->).
    apply wp_bind. apply wp_conseq with (X := noX) (Q := fun _ s1 => s1 = s).
    { apply wp_bind. apply wp_slc; try lia. apply wp_bind, wp_ret. cbn [fst snd]. apply wp_bind.
      apply wp_conseq with (X := noX) (Q := fun _ s1 => s1 = s); [destruct sm; apply wp_slc; auto; lia| |auto]. intros C s1 ->. apply wp_ret. auto. }
    2: auto. intros w s1 ->. apply wp_bind. apply wp_slvec; try lia. apply wp_bind.
    apply wp_conseq with (X := noX) (Q := fun _ s1 => s1 = s); [|intros w2 s1 ->; apply wp_ret; auto|auto].
    unfold ungq_level2_worksize. cbv zeta. destruct sm; cbn in V3; (match goal with |- context[if (1 <? ?c)%nat then _ else _] => destruct (Nat.ltb_spec 1 c); [lia|apply wp_ret; auto] end). }
  2: auto. intros w s1 ->. apply ub_bind. apply wp_new_work. intros s1 _ _. set (work := new_lmat0 _ _ p l).
  unfold ungq_work, ungq_work_f. cbv zeta. rewrite Hm, Hn, Hk, Enb. apply ub_bind. apply wp_check; [destruct sm; apply andb_true_iff; split; apply Nat.leb_le; lia|].
  destruct (Nat.leb_spec m 0); [lia|]. destruct (Nat.leb_spec n 0); [lia|]. cbn [orb]. destruct (Nat.ltb_spec 0 (Nat.min m n)); [|lia].
  apply ub_bind. apply wp_wk_matc; [apply lok_new0|apply contig_new0|lia|]. intros W r0 _ _ _ _ _ _ _ _ _. apply ub_bind.
  apply wp_conseq with (X := noX) (Q := fun _ _ => True); [|intros u0 s2 _; apply ub_first, ub_first; reflexivity|auto].
  assert (LR : forall B a b s2, vinj B -> wp (laset General a b B) (fun _ _ => True) noX s2) by (intros B a b s2 HB; eapply wp_conseq; [apply (laset_run General a b B s2); auto|auto|auto]).
  destruct sm; apply wp_bind; apply wp_slc; try lia; apply wp_bind; apply wp_slc; try lia; apply wp_bind; (eapply wp_conseq; [apply LR; apply vinj_subv; auto; lia|intros u0 s2 _; apply LR; apply vinj_subv; auto; lia|auto]).
Qed.
(** unmq with block size 0 divides by zero *)
Theorem unmq_zero_block_refuted p l side trans dir sm V tau C s m n k : op_ok trans -> shape C m n -> vshape sm V (sel side m n) k -> isvec tau k ->
  (0 < m)%nat -> (0 < n)%nat -> (0 < k)%nat -> unmq p l 0 side trans dir sm V tau C s = UB.
Proof.
  intros Ht [Hm Hn] HV [Hk Hc] Hm0 Hn0 Hk0. unfold unmq. rewrite Hm, Hn, Hk. destruct (Nat.leb_spec m 0); [lia|]. destruct (Nat.leb_spec n 0); [lia|]. destruct (Nat.leb_spec k 0); [lia|]. cbn [orb].
  apply ub_bind. unfold unmq_worksize. cbv zeta. cbn [Nat.min]. rewrite Hm, Hn. apply wp_bind. apply wp_conseq with (X := noX) (Q := fun _ s1 => s1 = s).
  { destruct sm; cbn in HV; destruct HV; apply wp_slc; auto; lia. }
  2: auto. intros V1 s1 ->. apply wp_bind. apply wp_slc; try lia. apply wp_ret. apply ub_bind. apply wp_new_work. intros s1 _ _.
  unfold unmq_work. cbv zeta. cbn [Nat.min]. rewrite Hm, Hn, Hk. apply ub_bind. apply wp_check; [destruct trans; cbn in *; auto; try contradiction; apply negb_true_iff; auto|].
  apply ub_bind. apply wp_check; [destruct sm; cbn in HV; destruct HV as [-> ->]; rewrite !Nat.eqb_refl; auto|].
  destruct (Nat.leb_spec m 0); [lia|]. destruct (Nat.leb_spec n 0); [lia|]. destruct (Nat.leb_spec k 0); [lia|]. cbn [orb].
  apply ub_bind. apply wp_wk_matc; [apply lok_new0|apply contig_new0|lia|]. intros W r0 _ _ _ _ _ _ _ _ _. apply ub_first. reflexivity.
Qed.
(** geqrf with block size 0 runs forever on any nonempty matrix: the loop makes no progress, whatever the bound on
    the number of iterations *)
Theorem geqrf_zero_block_diverges fuel h A tau work s m n : shape A m n -> nc tau = 1%nat -> (Nat.min m n <= nr tau)%nat -> (0 < m)%nat -> (0 < n)%nat ->
  lok work -> contiguous work = true -> geqrf_work_f fuel h 0 A tau work s = OutOfFuel.
Proof.
  intros [Hm Hn] Ht Hl Hm0 Hn0 W1 W2. unfold geqrf_work_f. cbv zeta. cbn [Nat.min]. rewrite Hm, Hn.
  assert (OB : forall (B C : Type) (q : M B) (f : B -> M C) s, wp q (fun a s' => f a s' = OutOfFuel) noX s -> bind q f s = OutOfFuel) by (intros B C q f s0; unfold wp, bind; destruct (q s0); cbn; try contradiction; auto).
  apply OB. apply wp_check; [apply negb_true_iff, Nat.ltb_ge; lia|]. apply OB. rewrite (proj2 (Nat.ltb_lt 0 n)) by auto.
  apply wp_wk_matc; auto; [lia|]. intros W r0 w1 w2 _ _ _ _ _ _ _. cbn [fst snd].
  unfold bind. rewrite blkret_0; [reflexivity|lia|]. intros s'.
  assert (K : wp (geqrf_step h 0 A tau work W r0 0) (fun r _ => r = None) noX s').
  2:{ apply runs_inv in K. destruct K as (a & s'' & K & ->). eauto. }
  unfold geqrf_step. cbv zeta. cbn [Nat.min Nat.add]. rewrite Hm, Hn. apply wp_bind. apply wp_slc; try lia. apply wp_bind. apply wp_slvec; try lia.
  apply wp_bind. unfold geqr2_work. cbv zeta. cbn [nr nc subv Slice.vsub]. rewrite Nat.min_0_r. apply wp_bind. apply wp_check; [reflexivity|]. cbn [Nat.leb]. cbn [Nat.leb orb].
  apply wp_ret. apply wp_bind. apply wp_conseq with (X := noX) (Q := fun _ _ => True); [|intros u0 s2 _; apply wp_ret; auto|auto].
  rewrite (proj2 (Nat.ltb_lt 0 n)) by auto. apply wp_bind. apply wp_slc; try lia. apply wp_bind. unfold larft. cbv zeta. cbn [nr nc subv Slice.vsub]. apply wp_bind, wp_check; [reflexivity|]. apply wp_bind, wp_check; [reflexivity|].
  rewrite orb_true_r. apply wp_ret. apply wp_bind. apply wp_slc; try lia. apply wp_bind. unfold larfb_work. cbv zeta. cbn [nr nc subv]. apply wp_bind, wp_check; [reflexivity|]. apply wp_bind, wp_check; [cbn [Nat.eqb andb Nat.sub]; apply Nat.eqb_refl|]. apply wp_bind, wp_check; [reflexivity|].
  cbn [Nat.leb]. rewrite orb_true_r. apply wp_ret, wp_ret. auto.
Qed.
End Ref.

(** larft accepts more reflectors than their length (k > n) and then reads V out of bounds *)
Theorem larft_too_many_reflectors_refuted : exists (V tau Tm : view) (s : @state RE), shape V 1 2 /\ isvec tau 2 /\ shape Tm 2 2 /\ vinj Tm /\ disj V Tm /\ disj tau Tm /\
  larft (E:=RE) Forward Columnwise V tau Tm s = UB.
Proof.
  exists (lview (mklmat 1 2 0 1 ColMajor)), (vview (mklvec 2 10 1 Forward)), (lview (mklmat 2 2 20 2 ColMajor)), (mkst RE (fun _ => 1%R) (fun _ => 0%Z)).
  split; [exv|]. split; [exv|]. split; [exv|]. split; [exv|]. split; [exv|]. split; [exv|].
  unfold larft; cbn; unfold bind, rdv, rd, wr; cbn; unfold larft_fwd_step, slcol, assert_, rdv, rd, bind; cbn. unfold Reqb. destruct (Req_EM_T 1 0); [lra|]. reflexivity.
Qed.
(** The check of the shape of V in larfb is parsed as a comparison with the other dimension when V has a wrong
    number of columns: V (2-by-2, needing to be 3-by-1) is accepted and then sliced out of range *)
Theorem larfb_shape_check_refuted (s : @state RE) : exists V Tm C : view, shape V 2 2 /\ shape Tm 1 1 /\ shape C 3 2 /\
  larfb (E:=RE) 100 ColMajor Left NoTrans Forward Columnwise V Tm C s = UB.
Proof.
  exists (lview (mklmat 2 2 0 2 ColMajor)), (lview (mklmat 1 1 10 1 ColMajor)), (lview (mklmat 3 2 20 3 ColMajor)). repeat split; reflexivity.
Qed.

(** Concrete instances, in blocks of one reflector *)
Example geqrf_example : returns (geqrf (E:=RE) 100 ColMajor (Householder.ex_h RE) 1 Householder.exH Householder.exHt) Householder.exH_s
  (fun r s' => r = 0%Z /\ factorization (E:=RE) Forward Columnwise 2 2 (val Householder.exH Householder.exH_s) (val Householder.exH s') (vval Householder.exHt s') /\
     only_changes (fun l => inview Householder.exH l \/ inview Householder.exHt l \/ block 100 2 l) Householder.exH_s s').
Proof.
  destruct qfact_hypotheses as (H1 & H2 & H3 & H4 & H5 & H6 & H7 & H8).
  apply (geqrf_correct (E:=RE) 100 ColMajor (Householder.ex_h RE) (1/8) 1000 (1/1000) 1 Householder.exH Householder.exHt Householder.exH_s 2 2); auto; try reflexivity.
  - apply (Householder.ex_h_ok RE).
  - exv.
  - intros a (i & j & Hi & Hj & ->). unfold Householder.exH in *. cbn in Hi, Hj. destruct i as [|[|]]; [| |lia]; (destruct j as [|[|]]; [| |lia]); cbn; lia.
  - intros a (i & j & Hi & Hj & ->). unfold Householder.exHt in *. cbn in Hi, Hj. destruct i as [|[|]]; [| |lia]; (destruct j as [|]; [|lia]); cbn; lia.
Qed.
Example unmq_example (s : @state CE) : returns (unmq (E:=CE) 100 ColMajor 1 Left ConjTrans Forward Columnwise exQV exQt exQC) s (fun r s' => r = 0%Z /\
  effw exQC (mmul 3 (opm ConjTrans (qof Forward Columnwise 3 (val exQV s) (vval exQt s) 2)) (val exQC s)) (block 100 3) s s').
Proof. apply (unmq_correct (E:=CE) 100 ColMajor 1 Left ConjTrans Forward Columnwise exQV exQt exQC s 3 2 2); try apply exQ_fresh; try exv; cbn [vshape sel]; try exv; exact I. Qed.
Example ungq_example (s : @state CE) : returns (ungq (E:=CE) 100 ColMajor 1 Backward Columnwise exQV exQt) s (fun r s' => r = 0%Z /\
  effw exQV (qpart Backward Columnwise 3 2 (qof Backward Columnwise 3 (stored Backward Columnwise 3 2 2 (val exQV s)) (vval exQt s) 2)) (block 100 2) s s').
Proof. apply (ungq_correct_partial (E:=CE) 100 ColMajor 1 Backward Columnwise exQV exQt s 3 2 2); try apply exQ_fresh; try exv. Qed.
Example ungq_no_reflectors_example (s : @state RE) : ungq (E:=RE) 100 ColMajor 32 Forward Columnwise (lview (mklmat 3 2 0 3 ColMajor)) (vview (mklvec 0 20 1 Forward)) s = UB.
Proof. apply (ungq_no_reflectors_refuted (E:=RE) _ _ _ _ _ _ _ s 3 2 0); try lia; [split; reflexivity|split; reflexivity|exv]. Qed.
