(** * The triangular factor of a block reflector (larft) *)
From Coq Require Import Bool Arith ZArith Lia Ring Field.
From Verif.Core Require Import Scalar Prog View Slice Loops WorkEff.
From Verif.Spec Require Import LinAlg Householder.
From Verif.Model Require Import Gemm Blas1 Blas2 Blas3 Norms BlockQ.
From Verif.Proof Require Import SumLemmas Tactics SliceTac GemmProof Blas2Proof TrmvProof ExactBlas LowOps BlockAlg LarfProof LarfgProof QGenProof QFactProof.
Local Open Scope T_scope.

Section P.
Context {E : Env} {FL : FieldLaws E} {CL : ConjLaws E} {QL : EqbLaws E}.
Add Field Tf : fth.

(** ** The recursion for T *)
Section Math.
Variables (n : nat) (U : nat -> nat -> T) (tau : nat -> T).
Definition dotU (l i : nat) : T := sum n (fun r => conj (U l r) * U i r).
Fixpoint ltm (i : nat) : mat := match i with
  | O => fun _ _ => 0
  | S i' => fun a b =>
    if (b =? i')%nat then (if (a <? i')%nat then sum i' (fun l => ltm i' a l * (- tau i' * dotU l i')) else if (a =? i')%nat then tau i' else 0)
    else if (a <? i')%nat then ltm i' a b else 0
  end.
Lemma ltm_out i a b : (b < a \/ i <= b \/ i <= a)%nat -> ltm i a b = 0.
Proof.
  induction i as [|i IH]; intros H; cbn [ltm]; auto. destruct (Nat.eqb_spec b i), (Nat.ltb_spec a i), (Nat.eqb_spec a i); try lia; auto; apply IH; lia.
Qed.
Lemma ltm_stable i a b : (b < i)%nat -> ltm (S i) a b = ltm i a b.
Proof. intros H. cbn [ltm]. destruct (Nat.eqb_spec b i); [lia|]. destruct (Nat.ltb_spec a i); auto. symmetry. apply ltm_out. lia. Qed.
Lemma ltm_eq j i a b : (b < j)%nat -> (j <= i)%nat -> ltm i a b = ltm j a b.
Proof. intros Hb Hj. induction Hj as [|i Hj IH]; auto. rewrite ltm_stable by lia. auto. Qed.
Lemma ltm_prod i r c : (r < n)%nat -> (c < n)%nat -> mprod n (fun j => refl (tau j) (U j)) i r c = blkrefl i (ltm i) U r c.
Proof.
  revert r c. induction i as [|i IH]; intros r c Hr Hc; cbn [mprod]; [unfold blkrefl; cbn [sum]; ring|].
  rewrite (mmul_ext2 n _ (blkrefl i (ltm i) U) (refl (tau i) (U i)) (refl (tau i) (U i))) by (intros; auto).
  rewrite refl_r by auto.
  assert (EM : sum n (fun l => blkrefl i (ltm i) U r l * U i l) = U i r - sum i (fun a => sum i (fun b => U a r * ltm i a b * dotU b i))).
  { unfold blkrefl. rewrite (sum_ext n _ (fun l => idm r l * U i l - sum i (fun a => sum i (fun b => U a r * ltm i a b * (conj (U b l) * U i l))))).
    - rewrite sum_minus. f_equal.
      + rewrite (sum_single n r); auto; unfold idm; [rewrite Nat.eqb_refl; ring|]. intros l Hl Hne. destruct (Nat.eqb_spec r l); [lia|ring].
      + rewrite sum_swap. apply sum_ext. intros a Ha. rewrite sum_swap. apply sum_ext. intros b Hb. unfold dotU. rewrite <- sum_scal_l. apply sum_ext. intros; ring.
    - intros l Hl. transitivity (idm r l * U i l - sum i (fun a => sum i (fun b => U a r * ltm i a b * conj (U b l))) * U i l); [ring|]. f_equal.
      rewrite <- sum_scal_r. apply sum_ext. intros a Ha. rewrite <- sum_scal_r. apply sum_ext. intros; ring. }
  rewrite EM. unfold blkrefl. cbn [sum].
  rewrite (sum_ext i (fun a => sum i (fun b => U a r * ltm (S i) a b * conj (U b c)) + U a r * ltm (S i) a i * conj (U i c))
    (fun a => sum i (fun b => U a r * ltm i a b * conj (U b c)) - tau i * conj (U i c) * sum i (fun b => U a r * ltm i a b * dotU b i))).
  2: { intros a Ha. transitivity (sum i (fun b => U a r * ltm i a b * conj (U b c)) + U a r * sum i (fun l => ltm i a l * (- tau i * dotU l i)) * conj (U i c)).
       - f_equal; [apply sum_ext; intros b Hb; rewrite ltm_stable by auto; auto|]. f_equal. f_equal. cbn [ltm]. rewrite Nat.eqb_refl. destruct (Nat.ltb_spec a i); [auto|lia].
       - transitivity (sum i (fun b => U a r * ltm i a b * conj (U b c)) + - (tau i * conj (U i c) * sum i (fun b => U a r * ltm i a b * dotU b i))); [|ring]. f_equal.
         transitivity (U a r * conj (U i c) * sum i (fun l => ltm i a l * (- tau i * dotU l i))); [ring|]. rewrite <- !sum_scal_l, <- sum_opp. apply sum_ext. intros; ring. }
  rewrite sum_minus, sum_scal_l.
  rewrite (sum_0 i (fun b => U i r * ltm (S i) i b * conj (U b c))) by (intros b Hb; rewrite ltm_out by lia; ring).
  assert (EI : ltm (S i) i i = tau i) by (cbn [ltm]; rewrite Nat.eqb_refl, Nat.ltb_irrefl; auto). rewrite EI. ring.
Qed.
End Math.
Lemma sum_rev k (f : nat -> T) : sum k f = sum k (fun i => f (k - 1 - i)%nat).
Proof.
  revert f. induction k as [|k IH]; intros f; auto. rewrite sum_S_l. cbn [sum]. replace (S k - 1 - k)%nat with 0%nat by lia.
  rewrite (IH (fun i => f (S i))). rewrite (sum_ext k (fun i => f (S k - 1 - i)%nat) (fun i => f (S (k - 1 - i)))); [ring|]. intros i Hi. f_equal. lia.
Qed.
Lemma ltm_ext n U U' tau tau' i : (forall l r, (l < i)%nat -> (r < n)%nat -> U l r = U' l r) -> (forall l, (l < i)%nat -> tau l = tau' l) -> forall a b, ltm n U tau i a b = ltm n U' tau' i a b.
Proof.
  intros HU Ht. induction i as [|i IH]; intros a b; auto. cbn [ltm]. rewrite (Ht i) by lia.
  assert (IH' := IH ltac:(intros; apply HU; lia) ltac:(intros; apply Ht; lia)).
  destruct (_ =? _)%nat; [|rewrite IH'; auto]. destruct (_ <? _)%nat; auto. apply sum_ext. intros l Hl. rewrite IH'. do 2 f_equal. apply sum_ext. intros r Hr. rewrite !HU by lia. auto.
Qed.

(** ** Building blocks of the step *)
Section G.
Variables (sm : storev_t) (V tau Tm : view) (s0 : state).
Hypothesis HI : vinj Tm.
Hypothesis HDV : disj V Tm.
Implicit Types (F : mat).
Lemma fill_run c0 c i F s (body : nat -> M unit) (g : nat -> T) X : eff Tm F s0 s -> (c0 + c <= nr Tm)%nat -> (i < nc Tm)%nat ->
  (forall j s1 F1, (j < c)%nat -> eff Tm F1 s0 s1 -> wp (body j) (fun _ s' => eff Tm (fupd F1 (c0 + j) i (g j)) s0 s') X s1) ->
  wp (forup 0 c body) (fun _ s' => eff Tm (fun a b => if inbox c0 (c0 + c) i (S i) a b then g (a - c0)%nat else F a b) s0 s') X s.
Proof.
  intros He Hc Hi Hb. apply (wp_forup (fun j s1 => eff Tm (fun a b => if inbox c0 (c0 + j) i (S i) a b then g (a - c0)%nat else F a b) s0 s1)); [lia| | |auto].
  - apply (eff_ext _ _ _ _ _ He). intros a b Ha Hb'. cbv beta. destruct (inbox_spec c0 (c0 + 0) i (S i) a b); [lia|auto].
  - intros j s1 Hj He1. cbv beta in He1. eapply wp_conseq; [apply Hb; [lia|exact He1]| |auto]. intros u0 s2 He2. cbv beta in He2.
    apply (eff_ext _ _ _ _ _ He2). intros a b Ha Hb'. cbv beta. unfold fupd.
    destruct (inbox_spec c0 (c0 + j) i (S i) a b), (inbox_spec c0 (c0 + S j) i (S i) a b), (Nat.eqb_spec a (c0 + j)), (Nat.eqb_spec b i); cbn [andb]; try lia; auto. f_equal. lia.
Qed.
Lemma wrv_vcol c0 c1 i j v F s (Q : unit -> state -> Prop) X : eff Tm F s0 s -> (j < c1 - c0)%nat -> (c1 <= nr Tm)%nat -> (i < nc Tm)%nat ->
  (forall s', eff Tm (fupd F (c0 + j) i v) s0 s' -> Q tt s') -> wp (wrv (vcol Tm c0 c1 i) j v) Q X s.
Proof.
  intros He Hj Hc Hi HQ. unfold wrv. apply wp_wr; cbn [nr nc vcol ad]; [lia|lia|]. apply HQ. apply eff_set; auto; lia.
Qed.
Lemma trmv_run_col u c0 c1 i F s X : uplo2 u = true -> eff Tm F s0 s -> (c0 <= c1)%nat -> (c1 <= nr Tm)%nat -> (c1 <= nc Tm)%nat -> (i < nc Tm)%nat -> (i < c0 \/ c1 <= i)%nat ->
  wp (T1 <- slc Tm c0 c1 c0 c1;; trmv u NoTrans NonUnit T1 (vcol Tm c0 c1 i)) (fun _ s' => eff Tm (fun a b => if inbox c0 c1 i (S i) a b then
    sum (c1 - c0) (fun l => trim u NonUnit (fun p q => F (c0 + p)%nat (c0 + q)%nat) (a - c0)%nat l * F (c0 + l)%nat i) else F a b) s0 s') X s.
Proof.
  intros Hu He H1 H2 H3 H4 H5. apply wp_bind, wp_slc; [lia..|]. eapply wp_noX, wp_conseq; [apply (trmv_run u NoTrans NonUnit (subv Tm c0 c1 c0 c1) (vcol Tm c0 c1 i) s (c1 - c0)); cbn [nr nc subv vcol]; auto| |auto].
  - apply vinj_vcol; auto.
  - vdisj.
  - intros u0 s' He'. cbv beta in He'. apply veff_eff in He'; [|reflexivity].
    apply (eff_ext _ _ _ _ _ (eff_vcol Tm c0 c1 i F _ s0 s s' HI H2 H4 He He')). intros a b Ha Hb. cbv beta. destruct (inbox_spec c0 c1 i (S i) a b); auto.
    unfold mvmul. apply sum_ext. intros l Hl. cbn [opm]. f_equal.
    + unfold trim. rewrite !(val_sub Tm F s0 s) by (auto; lia). auto.
    + apply (val_vcol Tm F s0 s); auto; lia.
Qed.
Lemma gemv_col alpha r0 r1 j0 j1 c0 c1 i F s X : eff Tm F s0 s -> (r0 <= r1)%nat -> (r1 <= nr V)%nat -> (j0 <= j1)%nat -> (j1 <= nc V)%nat -> (c1 <= nr Tm)%nat -> (i < nc Tm)%nat -> (i < nc V)%nat ->
  (j1 - j0 = c1 - c0)%nat ->
  wp (V1 <- slc V r0 r1 j0 j1;; v <- slcol V r0 r1 i;; gemv ConjTrans alpha V1 v (Sc 1) (vcol Tm c0 c1 i)) (fun _ s' => eff Tm (fun a b => if inbox c0 c1 i (S i) a b then
    alpha * sum (r1 - r0) (fun l => conj (val V s0 (r0 + l)%nat (j0 + (a - c0))%nat) * val V s0 (r0 + l)%nat i) + F a b else F a b) s0 s') X s.
Proof.
  intros He H1 H2 H3 H4 H5 H6 H7 H8. apply wp_bind, wp_slc; [lia..|]. apply wp_bind, wp_slcol; [lia..|].
  assert (HV : forall p q, (p < nr V)%nat -> (q < nc V)%nat -> val V s p q = val V s0 p q) by (intros; eapply eff_frame; eauto).
  destruct (Nat.eq_dec r0 r1) as [->|Hne].
  - unfold gemv. cbn [notransb nr nc subv vcol]. rewrite Nat.sub_diag. replace ((j1 - j0 =? 0) || (0 =? 0))%nat with true by (symmetry; apply orb_true_r).
    apply wp_bind, wp_check; [cbn; auto|]. apply wp_bind, wp_check; [apply Nat.eqb_eq; lia|]. apply wp_ret.
    apply (eff_ext _ _ _ _ _ He). intros a b Ha Hb. cbv beta. cbn [sum]. destruct (inbox _ _ _ _ _ _); auto. ring.
  - eapply wp_noX, wp_conseq; [apply (gemv_run ConjTrans alpha (subv V r0 r1 j0 j1) (vcol V r0 r1 i) (Sc 1) (vcol Tm c0 c1 i) s (c1 - c0) (r1 - r0)); cbn [nr nc subv vcol notransb]; auto; try lia| |auto].
    + apply vinj_vcol; auto.
    + eapply disj_inc; [| |exact HDV]; intros l; [apply inview_subv; lia|apply inview_vcol; lia].
    + eapply disj_inc; [| |exact HDV]; intros l; [apply inview_vcol; lia|apply inview_vcol; lia].
    + intros u0 s' He'. cbv beta in He'. apply veff_eff in He'; [|reflexivity].
      apply (eff_ext _ _ _ _ _ (eff_vcol Tm c0 c1 i F _ s0 s s' HI H5 H6 He He')). intros a b Ha Hb. cbv beta. destruct (inbox_spec c0 c1 i (S i) a b); auto.
      rewrite gemv_val_exact. cbn [cval]. f_equal.
      * f_equal. unfold mvmul. apply sum_ext. intros l Hl. cbn [opm]. transitivity (conj (val V s (r0 + l)%nat (j0 + (a - c0))%nat) * val V s (r0 + l)%nat i); [reflexivity|]. rewrite !HV by lia. auto.
      * unfold vval. rewrite (val_vcol Tm F s0 s) by (auto; lia). replace (c0 + (a - c0))%nat with a by lia. replace b with i by lia. ring.
Qed.
Lemma gemm_col alpha r0 r1 j0 j1 c0 c1 i F s X : eff Tm F s0 s -> (r0 <= r1)%nat -> (r1 <= nc V)%nat -> (j0 <= j1)%nat -> (j1 <= nr V)%nat -> (c0 <= c1)%nat -> (c1 <= nr Tm)%nat -> (i < nc Tm)%nat -> (i < nr V)%nat ->
  (j1 - j0 = c1 - c0)%nat ->
  wp (Ti <- slc Tm c0 c1 i (i + 1);; V1 <- slc V j0 j1 r0 r1;; V2 <- slc V i (i + 1) r0 r1;; gemm NoTrans ConjTrans alpha V1 V2 (Sc 1) Ti) (fun _ s' => eff Tm (fun a b => if inbox c0 c1 i (S i) a b then
    alpha * sum (r1 - r0) (fun l => val V s0 (j0 + (a - c0))%nat (r0 + l)%nat * conj (val V s0 i (r0 + l)%nat)) + F a b else F a b) s0 s') X s.
Proof.
  intros He H1 H2 H3 H4 H4' H5 H6 H7 H8. apply wp_bind, wp_slc; [lia..|]. apply wp_bind, wp_slc; [lia..|]. apply wp_bind, wp_slc; [lia..|].
  assert (HV : forall p q, (p < nr V)%nat -> (q < nc V)%nat -> val V s p q = val V s0 p q) by (intros; eapply eff_frame; eauto).
  eapply wp_noX, wp_conseq; [apply (gemm_run NoTrans ConjTrans alpha (subv V j0 j1 r0 r1) (subv V i (i + 1) r0 r1) (Sc 1) (subv Tm c0 c1 i (i + 1)) s (c1 - c0) 1 (r1 - r0)); cbn [nr nc subv is_nt op_eqb]; auto; try lia| |auto].
  + apply vinj_subv; auto; lia.
  + eapply disj_inc; [| |exact HDV]; intros l; [apply inview_subv; lia|apply inview_subv; lia].
  + eapply disj_inc; [| |exact HDV]; intros l; [apply inview_subv; lia|apply inview_subv; lia].
  + intros u0 s' He'. cbv beta in He'.
    apply (eff_ext _ _ _ _ _ (eff_sub Tm c0 c1 i (i + 1) F _ s0 s s' HI H5 ltac:(lia) He He')). intros a b Ha Hb. cbv beta. destruct (inbox_spec c0 c1 i (i + 1) a b), (inbox_spec c0 c1 i (S i) a b); auto; try lia.
    rewrite gemm_val_exact by auto. cbn [cval]. f_equal.
    * f_equal. unfold mmul. apply sum_ext. intros l Hl. cbn [opm]. transitivity (val V s (j0 + (a - c0))%nat (r0 + l)%nat * conj (val V s (i + (b - i))%nat (r0 + l)%nat)); [reflexivity|]. replace (i + (b - i))%nat with i by lia. rewrite !HV by lia. auto.
    * rewrite (val_sub Tm F s0 s) by (auto; lia). replace (c0 + (a - c0))%nat with a by lia. replace (i + (b - i))%nat with b by lia. ring.
Qed.
End G.

Lemma dot_fwd sm n k W j i : (j < i)%nat -> (i < n)%nat ->
  dotU n (rvec Forward sm n k W) j i = sum (n - (i + 1)) (fun l => match sm with Columnwise => conj (W (i + 1 + l)%nat j) * W (i + 1 + l)%nat i | Rowwise => W j (i + 1 + l)%nat * conj (W i (i + 1 + l)%nat) end)
    + match sm with Columnwise => conj (W i j) | Rowwise => W j i end.
Proof.
  intros Hj Hi. unfold dotU. rewrite (sum_split_at (S i) n) by lia. cbn [sum]. rewrite sum_0.
  - assert (E1 : rvec Forward sm n k W i i = 1) by (unfold rvec, rpos; rewrite Nat.eqb_refl; auto). rewrite E1.
    assert (E2 : conj (rvec Forward sm n k W j i) = match sm with Columnwise => conj (W i j) | Rowwise => W j i end).
    { unfold rvec, rpos. destruct (Nat.eqb_spec i j), (Nat.ltb_spec i j); try lia. destruct sm; rewrite ?conj_conj; auto. }
    rewrite E2. replace (n - (i + 1))%nat with (n - S i)%nat by lia.
    rewrite (sum_ext (n - S i) _ (fun l => match sm with Columnwise => conj (W (i + 1 + l)%nat j) * W (i + 1 + l)%nat i | Rowwise => W j (i + 1 + l)%nat * conj (W i (i + 1 + l)%nat) end)); [ring|].
    intros l Hl. replace (S i + l)%nat with (i + 1 + l)%nat by lia. unfold rvec, rpos. destruct (Nat.eqb_spec (i + 1 + l) j), (Nat.ltb_spec (i + 1 + l) j), (Nat.eqb_spec (i + 1 + l) i), (Nat.ltb_spec (i + 1 + l) i); try lia.
    destruct sm; rewrite ?conj_conj; auto.
  - intros l Hl. assert (E1 : rvec Forward sm n k W i l = 0) by (unfold rvec, rpos; destruct (Nat.eqb_spec l i), (Nat.ltb_spec l i); try lia; auto). rewrite E1. ring.
Qed.
Lemma dot_bwd sm n k W j i : (i < j)%nat -> (j < k)%nat -> (k <= n)%nat ->
  dotU n (rvec Backward sm n k W) j i = sum (n + i - k) (fun l => match sm with Columnwise => conj (W l j) * W l i | Rowwise => W j l * conj (W i l) end)
    + match sm with Columnwise => conj (W (n + i - k)%nat j) | Rowwise => W j (n + i - k)%nat end.
Proof.
  intros Hj Hi Hk. unfold dotU. rewrite (sum_split_at (S (n + i - k)) n) by lia. cbn [sum]. rewrite (sum_0 (n - S (n + i - k))).
  - assert (E1 : rvec Backward sm n k W i (n + i - k)%nat = 1) by (unfold rvec, rpos; destruct (Nat.eqb_spec (n + i - k) (n - k + i)); [auto|lia]). rewrite E1.
    assert (E2 : conj (rvec Backward sm n k W j (n + i - k)%nat) = match sm with Columnwise => conj (W (n + i - k)%nat j) | Rowwise => W j (n + i - k)%nat end).
    { unfold rvec, rpos. destruct (Nat.eqb_spec (n + i - k) (n - k + j)), (Nat.ltb_spec (n - k + j) (n + i - k)); try lia. destruct sm; rewrite ?conj_conj; auto. }
    rewrite E2.
    rewrite (sum_ext (n + i - k) _ (fun l => match sm with Columnwise => conj (W l j) * W l i | Rowwise => W j l * conj (W i l) end)); [ring|].
    intros l Hl. unfold rvec, rpos. destruct (Nat.eqb_spec l (n - k + j)), (Nat.ltb_spec (n - k + j) l), (Nat.eqb_spec l (n - k + i)), (Nat.ltb_spec (n - k + i) l); try lia.
    destruct sm; rewrite ?conj_conj; auto.
  - intros l Hl. set (r := (S (n + i - k) + l)%nat). assert (E1 : rvec Backward sm n k W i r = 0) by (unfold rvec, rpos, r; destruct (Nat.eqb_spec (S (n + i - k) + l) (n - k + i)), (Nat.ltb_spec (n - k + i) (S (n + i - k) + l)); try lia; auto). rewrite E1. ring.
Qed.

Section H.
Variables (sm : storev_t) (V tau Tm : view) (s0 : state).
Hypothesis HI : vinj Tm.
Hypothesis HDV : disj V Tm.
Hypothesis Ht1 : nc tau = 1%nat.
Let n := match sm with Columnwise => nr V | Rowwise => nc V end.
Let k := nr tau.
Hypothesis Hk : (k <= match sm with Columnwise => nc V | Rowwise => nr V end)%nat.
Hypothesis Hkn : (k <= n)%nat.
Hypothesis HT1 : (k <= nr Tm)%nat.
Hypothesis HT2 : (k <= nc Tm)%nat.
Let W := val V s0.
Let tv := vval tau s0.
(** tau does not change while the diagonal of T does not: either T and tau are disjoint, or tau is the diagonal of T *)
Hypothesis Htr : forall F s i, eff Tm F s0 s -> (i < k)%nat -> F i i = val Tm s0 i i -> vval tau s i = tv i.
Implicit Types (F : mat).
Lemma rd_tau F s i (Q : T -> state -> Prop) X : eff Tm F s0 s -> (i < k)%nat -> F i i = val Tm s0 i i -> Q (tv i) s -> wp (rdv tau i) Q X s.
Proof. intros He Hi HF HQ. unfold rdv. apply wp_rd; [lia|lia|]. assert (e := Htr F s i He Hi HF). unfold vval in e. rewrite e. exact HQ. Qed.
Lemma rd_V F s i j (Q : T -> state -> Prop) X : eff Tm F s0 s -> (i < nr V)%nat -> (j < nc V)%nat -> Q (W i j) s -> wp (rd V i j) Q X s.
Proof. intros He Hi Hj HQ. eapply wp_rd_frame; eauto. Qed.

(** filling the column: - tau_i U_j^H U_i *)
Lemma fwd_fill i F s X : eff Tm F s0 s -> (0 < i < k)%nat ->
  wp (match sm with
      | Columnwise =>
        for_ j in 0 upto i do (v <- rd V i j;; wrv (vcol Tm 0 i i) j (- tv i * conj v));;
        if (i + 1 <? n)%nat then
          V1 <- slc V (i + 1) n 0 i;; v <- slcol V (i + 1) n i;; gemv ConjTrans (- tv i) V1 v (Sc 1) (vcol Tm 0 i i)
        else ret tt
      | Rowwise =>
        for_ j in 0 upto i do (v <- rd V j i;; wrv (vcol Tm 0 i i) j (- tv i * v));;
        if (i + 1 <? n)%nat then
          Ti <- slc Tm 0 i i (i + 1);;
          V1 <- slc V 0 i (i + 1) n;; V2 <- slc V i (i + 1) (i + 1) n;;
          gemm NoTrans ConjTrans (- tv i) V1 V2 (Sc 1) Ti
        else ret tt
      end)
    (fun _ s' => eff Tm (fun a b => if inbox 0 i i (S i) a b then - tv i * dotU n (rvec Forward sm n k W) a i else F a b) s0 s') X s.
Proof.
  intros He Hi.
  assert (G : forall (s1 s2 : state) (g : nat -> T), (forall a, (a < i)%nat -> g a = - tv i * match sm with Columnwise => conj (W i a) | Rowwise => W a i end) ->
    eff Tm (fun a b => if inbox 0 i i (S i) a b then - tv i * sum (n - (i + 1)) (fun l => match sm with Columnwise => conj (W (i + 1 + l)%nat a) * W (i + 1 + l)%nat i | Rowwise => W a (i + 1 + l)%nat * conj (W i (i + 1 + l)%nat) end) + g a else F a b) s0 s2 ->
    eff Tm (fun a b => if inbox 0 i i (S i) a b then - tv i * dotU n (rvec Forward sm n k W) a i else F a b) s0 s2).
  { intros s1 s2 g Hg He2. apply (eff_ext _ _ _ _ _ He2). intros a b Ha Hb. cbv beta. destruct (inbox_spec 0 i i (S i) a b); auto. rewrite dot_fwd by lia. rewrite Hg by lia. ring. }
  unfold n, k, W in *. destruct sm.
  - apply wp_bind. eapply wp_conseq; [apply (fill_run Tm s0 0 i i F s _ (fun j => - tv i * conj (val V s0 i j)) X); auto; try lia| |auto].
    + intros j s1 F1 Hj He1. apply wp_bind. eapply rd_V; eauto; [lia|lia|]. eapply (wrv_vcol Tm s0 HI 0 i i j); eauto; lia.
    + intros u0 s1 He1. cbv beta in He1. destruct (Nat.ltb_spec (i + 1) (nr V)).
      * eapply wp_conseq; [apply (gemv_col V Tm s0 HI HDV (- tv i) (i + 1) (nr V) 0 i 0 i i _ s1 X He1); lia| |auto].
        intros u1 s2 He2. cbv beta in He2. apply (G s1 s2 (fun j => - tv i * conj (val V s0 i j))); auto. apply (eff_ext _ _ _ _ _ He2). intros a b Ha Hb. cbv beta.
        cbn [Nat.add]. destruct (inbox_spec 0 i i (S i) a b); auto. rewrite Nat.sub_0_r. cbn [Nat.add]. auto.
      * apply wp_ret. apply (G s s1 (fun j => - tv i * conj (val V s0 i j))); auto. apply (eff_ext _ _ _ _ _ He1). intros a b Ha Hb. cbv beta. cbn [Nat.add]. destruct (inbox_spec 0 i i (S i) a b); auto.
        replace (nr V - (i + 1))%nat with 0%nat by lia. cbn [sum]. rewrite Nat.sub_0_r. ring.
  - apply wp_bind. eapply wp_conseq; [apply (fill_run Tm s0 0 i i F s _ (fun j => - tv i * val V s0 j i) X); auto; try lia| |auto].
    + intros j s1 F1 Hj He1. apply wp_bind. eapply rd_V; eauto; [lia|lia|]. eapply (wrv_vcol Tm s0 HI 0 i i j); eauto; lia.
    + intros u0 s1 He1. cbv beta in He1. destruct (Nat.ltb_spec (i + 1) (nc V)).
      * eapply wp_conseq; [apply (gemm_col V Tm s0 HI HDV (- tv i) (i + 1) (nc V) 0 i 0 i i _ s1 X He1); lia| |auto].
        intros u1 s2 He2. cbv beta in He2. apply (G s1 s2 (fun j => - tv i * val V s0 j i)); auto. apply (eff_ext _ _ _ _ _ He2). intros a b Ha Hb. cbv beta.
        cbn [Nat.add]. destruct (inbox_spec 0 i i (S i) a b); auto. rewrite Nat.sub_0_r. cbn [Nat.add]. auto.
      * apply wp_ret. apply (G s s1 (fun j => - tv i * val V s0 j i)); auto. apply (eff_ext _ _ _ _ _ He1). intros a b Ha Hb. cbv beta. cbn [Nat.add]. destruct (inbox_spec 0 i i (S i) a b); auto.
        replace (nc V - (i + 1))%nat with 0%nat by lia. cbn [sum]. rewrite Nat.sub_0_r. ring.
Qed.
Lemma bwd_fill i F s X : eff Tm F s0 s -> (i + 1 < k)%nat ->
  let r := (n + i - k)%nat in
  wp (match sm with
      | Columnwise =>
        for_ j in 0 upto (k - i - 1) do (v <- rd V r (j + i + 1);; wrv (vcol Tm (i + 1) k i) j (- tv i * conj v));;
        V1 <- slc V 0 r (i + 1) k;; v <- slcol V 0 r i;; gemv ConjTrans (- tv i) V1 v (Sc 1) (vcol Tm (i + 1) k i)
      | Rowwise =>
        for_ j in 0 upto (k - i - 1) do (v <- rd V (j + i + 1) r;; wrv (vcol Tm (i + 1) k i) j (- tv i * v));;
        Ti <- slc Tm (i + 1) k i (i + 1);;
        V1 <- slc V (i + 1) k 0 r;; V2 <- slc V i (i + 1) 0 r;;
        gemm NoTrans ConjTrans (- tv i) V1 V2 (Sc 1) Ti
      end)
    (fun _ s' => eff Tm (fun a b => if inbox (i + 1) k i (S i) a b then - tv i * dotU n (rvec Backward sm n k W) a i else F a b) s0 s') X s.
Proof.
  intros He Hi r.
  assert (G : forall (s1 s2 : state) (g : nat -> T), (forall a, (i < a < k)%nat -> g a = - tv i * match sm with Columnwise => conj (W r a) | Rowwise => W a r end) ->
    eff Tm (fun a b => if inbox (i + 1) k i (S i) a b then - tv i * sum r (fun l => match sm with Columnwise => conj (W l a) * W l i | Rowwise => W a l * conj (W i l) end) + g a else F a b) s0 s2 ->
    eff Tm (fun a b => if inbox (i + 1) k i (S i) a b then - tv i * dotU n (rvec Backward sm n k W) a i else F a b) s0 s2).
  { intros s1 s2 g Hg He2. apply (eff_ext _ _ _ _ _ He2). intros a b Ha Hb. cbv beta. destruct (inbox_spec (i + 1) k i (S i) a b); auto. rewrite dot_bwd by lia. rewrite Hg by lia. unfold r. ring. }
  assert (Ei : (i + 1 + (k - i - 1) = k)%nat) by lia.
  unfold r, n, W in *. destruct sm.
  - apply wp_bind. eapply wp_conseq; [apply (fill_run Tm s0 (i + 1) (k - i - 1) i F s _ (fun j => - tv i * conj (val V s0 (nr V + i - k)%nat (j + i + 1)%nat)) X); auto; try lia| |auto].
    + intros j s1 F1 Hj He1. apply wp_bind. eapply rd_V; eauto; [lia|lia|]. eapply (wrv_vcol Tm s0 HI (i + 1) k i j); eauto; lia.
    + intros u0 s1 He1. cbv beta in He1. rewrite Ei in He1.
      eapply wp_conseq; [apply (gemv_col V Tm s0 HI HDV (- tv i) 0 (nr V + i - k) (i + 1) k (i + 1) k i _ s1 X He1); lia| |auto].
      intros u1 s2 He2. cbv beta in He2. apply (G s1 s2 (fun j => - tv i * conj (val V s0 (nr V + i - k)%nat j))); auto. apply (eff_ext _ _ _ _ _ He2). intros a b Ha Hb. cbv beta.
      destruct (inbox_spec (i + 1) k i (S i) a b); auto. rewrite Nat.sub_0_r. cbn [Nat.add]. replace (a - (i + 1) + i + 1)%nat with a by lia. replace (i + 1 + (a - (i + 1)))%nat with a by lia. auto.
  - apply wp_bind. eapply wp_conseq; [apply (fill_run Tm s0 (i + 1) (k - i - 1) i F s _ (fun j => - tv i * val V s0 (j + i + 1)%nat (nc V + i - k)%nat) X); auto; try lia| |auto].
    + intros j s1 F1 Hj He1. apply wp_bind. eapply rd_V; eauto; [lia|lia|]. eapply (wrv_vcol Tm s0 HI (i + 1) k i j); eauto; lia.
    + intros u0 s1 He1. cbv beta in He1. rewrite Ei in He1.
      eapply wp_conseq; [apply (gemm_col V Tm s0 HI HDV (- tv i) 0 (nc V + i - k) (i + 1) k (i + 1) k i _ s1 X He1); lia| |auto].
      intros u1 s2 He2. cbv beta in He2. apply (G s1 s2 (fun j => - tv i * val V s0 j (nc V + i - k)%nat)); auto. apply (eff_ext _ _ _ _ _ He2). intros a b Ha Hb. cbv beta.
      destruct (inbox_spec (i + 1) k i (S i) a b); auto. rewrite Nat.sub_0_r. cbn [Nat.add]. replace (a - (i + 1) + i + 1)%nat with a by lia. replace (i + 1 + (a - (i + 1)))%nat with a by lia. auto.
Qed.
(** the two steps: column [i], rows [c0,c1) *)
Lemma step_tail u c0 c1 i F s (fill : M unit) (d : nat -> T) X : uplo2 u = true -> (c0 <= c1)%nat -> (c1 <= k)%nat -> (i < k)%nat -> (i < c0 \/ c1 <= i)%nat -> eff Tm F s0 s ->
  wp fill (fun _ s' => eff Tm (fun a b => if inbox c0 c1 i (S i) a b then - tv i * d a else F a b) s0 s') X s ->
  wp (fill;; T1 <- slc Tm c0 c1 c0 c1;; trmv u NoTrans NonUnit T1 (vcol Tm c0 c1 i)) (fun _ s' => eff Tm (fun a b =>
    if inbox c0 c1 i (S i) a b then sum (c1 - c0) (fun l => trim u NonUnit (fun p q => F (c0 + p)%nat (c0 + q)%nat) (a - c0)%nat l * (- tv i * d (c0 + l)%nat)) else F a b) s0 s') X s.
Proof.
  intros Hu H1 H2 H3 H4 He Hf. apply wp_bind. eapply wp_conseq; [exact Hf| |auto]. intros u0 s1 He1. cbv beta in He1.
  eapply wp_conseq; [apply (trmv_run_col Tm s0 HI u c0 c1 i _ s1 X Hu He1); lia| |auto]. intros u1 s2 He2. cbv beta in He2.
  apply (eff_ext _ _ _ _ _ He2). intros a b Ha Hb. cbv beta. destruct (inbox_spec c0 c1 i (S i) a b); auto. apply sum_ext. intros l Hl. f_equal.
  - unfold trim. destruct (inbox_spec c0 c1 i (S i) (c0 + (a - c0)) (c0 + l)); [lia|]. destruct (inbox_spec c0 c1 i (S i) (c0 + (a - c0)) (c0 + (a - c0))); [lia|]. auto.
  - destruct (inbox_spec c0 c1 i (S i) (c0 + l) i); [auto|lia].
Qed.
Lemma step_gen u c0 c1 i F s (zero fill : M unit) (d : nat -> T) X : uplo2 u = true -> (c0 <= c1)%nat -> (c1 <= k)%nat -> (i < k)%nat -> (i < c0 \/ c1 <= i)%nat -> eff Tm F s0 s ->
  wp zero (fun _ s' => eff Tm (fun a b => if inbox c0 c1 i (S i) a b then 0 else F a b) s0 s') X s ->
  wp fill (fun _ s' => eff Tm (fun a b => if inbox c0 c1 i (S i) a b then - tv i * d a else F a b) s0 s') X s ->
  wp ((if eqb (tv i) 0 then zero else (fill;; T1 <- slc Tm c0 c1 c0 c1;; trmv u NoTrans NonUnit T1 (vcol Tm c0 c1 i)));; wr Tm i i (tv i)) (fun _ s' => eff Tm (fun a b =>
    if ((a =? i) && (b =? i))%nat then tv i else
    if inbox c0 c1 i (S i) a b then sum (c1 - c0) (fun l => trim u NonUnit (fun p q => F (c0 + p)%nat (c0 + q)%nat) (a - c0)%nat l * (- tv i * d (c0 + l)%nat)) else F a b) s0 s') X s.
Proof.
  intros Hu H1 H2 H3 H4 He Hz Hf. apply wp_bind.
  eapply wp_conseq with (X := X) (Q := fun _ s' => eff Tm (fun a b => if inbox c0 c1 i (S i) a b then sum (c1 - c0) (fun l => trim u NonUnit (fun p q => F (c0 + p)%nat (c0 + q)%nat) (a - c0)%nat l * (- tv i * d (c0 + l)%nat)) else F a b) s0 s'); [| |auto].
  - destruct (eqb (tv i) 0) eqn:e0.
    + eapply wp_conseq; [exact Hz| |auto]. intros u0 s1 He1. cbv beta in He1. apply (eff_ext _ _ _ _ _ He1). intros a b Ha Hb. cbv beta. destruct (inbox _ _ _ _ _ _); auto. symmetry. apply sum_0.
      intros l Hl. apply Scalar.eqb_spec in e0. rewrite e0. ring.
    + apply step_tail; auto.
  - intros u0 s1 He1. cbv beta in He1. apply (wp_wr_eff Tm _ s0 _ _ _ _ _ _ He1); auto; lia.
Qed.

Lemma zero_run c0 c i F s X : eff Tm F s0 s -> (c0 + c <= k)%nat -> (i < k)%nat ->
  wp (forup 0 c (fun j => wrv (vcol Tm c0 (c0 + c) i) j 0)) (fun _ s' => eff Tm (fun a b => if inbox c0 (c0 + c) i (S i) a b then 0 else F a b) s0 s') X s.
Proof.
  intros He Hc Hi. apply (fill_run Tm s0 c0 c i F s _ (fun _ => 0) X); auto; [lia|lia|].
  intros j s1 F1 Hj He1. apply (wrv_vcol Tm s0 HI c0 (c0 + c) i j 0 F1); auto; lia.
Qed.
Lemma fwd_step i F s X : eff Tm F s0 s -> (0 < i < k)%nat -> F i i = val Tm s0 i i ->
  wp (larft_fwd_step sm n V tau Tm i) (fun _ s' => eff Tm (fun a b =>
    if ((a =? i) && (b =? i))%nat then tv i else
    if inbox 0 i i (S i) a b then sum i (fun l => trim Upper NonUnit F a l * (- tv i * dotU n (rvec Forward sm n k W) l i)) else F a b) s0 s') X s.
Proof.
  intros He Hi HF. unfold larft_fwd_step. apply wp_bind, wp_slcol; [lia..|]. apply wp_bind. apply (rd_tau F); auto; [lia|].
  eapply wp_conseq; [apply (step_gen Upper 0 i i F s) with (X := X) (d := fun a => dotU n (rvec Forward sm n k W) a i); auto; try lia| |auto].
  - apply (zero_run 0 i i F s X); auto; lia.
  - apply fwd_fill; auto.
  - intros u0 s1 He1. cbv beta in He1. apply (eff_ext _ _ _ _ _ He1). intros a b Ha Hb. cbv beta. destruct (_ && _)%bool; auto. destruct (inbox _ _ _ _ _ _); auto. rewrite !Nat.sub_0_r. reflexivity.
Qed.
Lemma bwd_step i F s X : eff Tm F s0 s -> (i + 1 < k)%nat -> F i i = val Tm s0 i i ->
  wp (larft_bwd_step sm n k V tau Tm i) (fun _ s' => eff Tm (fun a b =>
    if ((a =? i) && (b =? i))%nat then tv i else
    if inbox (i + 1) k i (S i) a b then sum (k - (i + 1)) (fun l => trim Lower NonUnit (fun p q => F (i + 1 + p)%nat (i + 1 + q)%nat) (a - (i + 1))%nat l * (- tv i * dotU n (rvec Backward sm n k W) (i + 1 + l)%nat i)) else F a b) s0 s') X s.
Proof.
  intros He Hi HF. unfold larft_bwd_step. apply wp_bind, wp_slcol; [lia..|]. apply wp_bind. apply (rd_tau F); auto; [lia|].
  assert (Ei : (i + 1 + (k - i - 1) = k)%nat) by lia.
  apply wp_conseq with (X := X) (Q := fun _ s' => eff Tm (fun a b =>
    if ((a =? i) && (b =? i))%nat then tv i else
    if inbox (i + 1) k i (S i) a b then sum (k - (i + 1)) (fun l => trim Lower NonUnit (fun p q => F (i + 1 + p)%nat (i + 1 + q)%nat) (a - (i + 1))%nat l * (- tv i * dotU n (rvec Backward sm n k W) (i + 1 + l)%nat i)) else F a b) s0 s'); auto.
  replace (k <=? n + i)%nat with true by (symmetry; apply Nat.leb_le; lia). unfold assert_. 
  apply (step_gen Lower (i + 1) k i F s) with (X := X) (d := fun a => dotU n (rvec Backward sm n k W) a i); auto; try lia.
  - assert (Z := zero_run (i + 1) (k - i - 1) i F s X He ltac:(lia) ltac:(lia)). rewrite Ei in Z. exact Z.
  - apply bwd_fill; auto.
Qed.
Definition Uf := rvec Forward sm n k W.
Definition Ub j := rvec Backward sm n k W (k - 1 - j)%nat.
Definition tb j := tv (k - 1 - j)%nat.
Lemma larft_fwd s : (0 < k)%nat -> s = s0 ->
  wp (t0 <- rdv tau 0;; wr Tm 0 0 t0;; for_ i in 1 upto k do larft_fwd_step sm n V tau Tm i) (fun _ s' =>
    eff Tm (fun a b => if ((a <=? b) && (b <? k))%nat then ltm n Uf tv k a b else val Tm s0 a b) s0 s') noX s.
Proof.
  intros Hk0 ->. assert (He0 := eff_refl Tm s0). apply wp_bind. apply (rd_tau _ s0 0 _ _ He0); auto. apply wp_bind. apply (wp_wr_eff Tm _ s0 _ _ _ _ _ _ He0); auto; [lia|lia|]. intros s1 He1.
  apply (wp_forup (fun i s2 => eff Tm (fun a b => if ((a <=? b) && (b <? i))%nat then ltm n Uf tv i a b else val Tm s0 a b) s0 s2)); [lia| | |auto].
  - apply (eff_ext _ _ _ _ _ He1). intros a b Ha Hb. unfold fupd. destruct (Nat.eqb_spec a 0), (Nat.eqb_spec b 0), (Nat.leb_spec a b), (Nat.ltb_spec b 1); cbn [andb]; try lia; auto. subst. reflexivity.
  - intros i s2 Hi He. cbv beta in He. eapply wp_conseq; [apply (fwd_step i _ s2 noX He); [lia|]; cbv beta; destruct (Nat.leb_spec i i), (Nat.ltb_spec i i); cbn [andb]; try lia; auto| |auto]. intros u0 s3 He3. cbv beta in He3.
    apply (eff_ext _ _ _ _ _ He3). intros a b Ha Hb. cbv beta.
    destruct (Nat.eqb_spec a i) as [ea|ea], (Nat.eqb_spec b i) as [eb|eb]; cbn [andb].
    + destruct (Nat.leb_spec a b), (Nat.ltb_spec b (S i)); cbn [andb]; try lia. cbn [ltm]. destruct (Nat.eqb_spec b i), (Nat.ltb_spec a i), (Nat.eqb_spec a i); try lia. auto.
    + destruct (inbox_spec 0 i i (S i) a b); [lia|]. destruct (Nat.leb_spec a b), (Nat.ltb_spec b i), (Nat.ltb_spec b (S i)); cbn [andb]; try lia; auto.
    + destruct (inbox_spec 0 i i (S i) a b).
      * destruct (Nat.leb_spec a b), (Nat.ltb_spec b (S i)); cbn [andb]; try lia. cbn [ltm]. destruct (Nat.eqb_spec b i), (Nat.ltb_spec a i); try lia.
        apply sum_ext. intros l Hl. f_equal. unfold trim. cbn [intri]. destruct (Nat.eqb_spec a l) as [->|].
        -- destruct (Nat.leb_spec l l), (Nat.ltb_spec l i); cbn [andb]; try lia. auto.
        -- destruct (Nat.leb_spec a l), (Nat.ltb_spec l i); cbn [andb]; try lia; auto. rewrite ltm_out by lia. auto.
      * destruct (Nat.leb_spec a b), (Nat.ltb_spec b i), (Nat.ltb_spec b (S i)); cbn [andb]; try lia; auto.
    + destruct (inbox_spec 0 i i (S i) a b); [lia|]. destruct (Nat.leb_spec a b), (Nat.ltb_spec b i), (Nat.ltb_spec b (S i)); cbn [andb]; try lia; auto. symmetry. apply ltm_stable. auto.
Qed.
Lemma larft_bwd s : (0 < k)%nat -> s = s0 ->
  wp (t0 <- rdv tau (k - 1);; wr Tm (k - 1) (k - 1) t0;; ford_ i in 0 upto (k - 1) do larft_bwd_step sm n k V tau Tm i) (fun _ s' =>
    eff Tm (fun a b => if ((b <=? a) && (a <? k))%nat then ltm n Ub tb k (k - 1 - a)%nat (k - 1 - b)%nat else val Tm s0 a b) s0 s') noX s.
Proof.
  intros Hk0 ->. assert (He0 := eff_refl Tm s0). apply wp_bind. apply (rd_tau _ s0 (k - 1) _ _ He0); auto; [lia|]. apply wp_bind. apply (wp_wr_eff Tm _ s0 _ _ _ _ _ _ He0); auto; [lia|lia|]. intros s1 He1.
  apply (wp_fordown (fun i s2 => eff Tm (fun a b => if ((b <=? a) && (a <? k) && (i <=? b))%nat then ltm n Ub tb (k - i)%nat (k - 1 - a)%nat (k - 1 - b)%nat else val Tm s0 a b) s0 s2)); [lia| | |].
  - apply (eff_ext _ _ _ _ _ He1). intros a b Ha Hb. unfold fupd. destruct (Nat.eqb_spec a (k - 1)), (Nat.eqb_spec b (k - 1)), (Nat.leb_spec b a), (Nat.ltb_spec a k), (Nat.leb_spec (k - 1) b); cbn [andb]; try lia; auto.
    replace (k - (k - 1))%nat with 1%nat by lia. cbn [ltm]. replace (k - 1 - b)%nat with 0%nat by lia. replace (k - 1 - a)%nat with 0%nat by lia. cbn [Nat.eqb Nat.ltb Nat.leb]. unfold tb. f_equal. lia.
  - intros i s2 Hi He. cbv beta in He. eapply wp_conseq; [apply (bwd_step i _ s2 noX He); [lia|]; cbv beta; destruct (Nat.leb_spec i i), (Nat.ltb_spec i k), (Nat.leb_spec (S i) i); cbn [andb]; try lia; auto| |auto]. intros u0 s3 He3. cbv beta in He3.
    apply (eff_ext _ _ _ _ _ He3). intros a b Ha Hb. cbv beta. replace (k - i)%nat with (S (k - S i)) by lia. set (i' := (k - S i)%nat) in *. assert (Hi' : i' = (k - S i)%nat) by reflexivity. clearbody i'.
    destruct (Nat.eqb_spec a i) as [ea|ea], (Nat.eqb_spec b i) as [eb|eb]; cbn [andb].
    + destruct (Nat.leb_spec b a), (Nat.ltb_spec a k), (Nat.leb_spec i b); cbn [andb]; try lia. cbn [ltm]. destruct (Nat.eqb_spec (k - 1 - b) i'), (Nat.ltb_spec (k - 1 - a) i'), (Nat.eqb_spec (k - 1 - a) i'); try lia. unfold tb. f_equal. lia.
    + destruct (inbox_spec (i + 1) k i (S i) a b); [lia|]. destruct (Nat.leb_spec b a), (Nat.ltb_spec a k), (Nat.leb_spec i b), (Nat.leb_spec (S i) b); cbn [andb]; try lia; auto.
    + destruct (inbox_spec (i + 1) k i (S i) a b).
      * destruct (Nat.leb_spec b a), (Nat.ltb_spec a k), (Nat.leb_spec i b); cbn [andb]; try lia. cbn [ltm]. destruct (Nat.eqb_spec (k - 1 - b) i'), (Nat.ltb_spec (k - 1 - a) i'); try lia.
        replace (k - (i + 1))%nat with i' by lia. rewrite sum_rev. apply sum_ext. intros l Hl. f_equal.
        -- unfold trim. cbn [intri]. destruct (Nat.eqb_spec (a - (i + 1)) (i' - 1 - l)) as [e9|e9].
           ++ replace (i + 1 + (a - (i + 1)))%nat with a by lia. replace (i + 1 + (i' - 1 - l))%nat with a by lia. destruct (Nat.leb_spec a a), (Nat.ltb_spec a k), (Nat.leb_spec (S i) a); cbn [andb]; try lia. f_equal. lia.
           ++ replace (i + 1 + (a - (i + 1)))%nat with a by lia. replace (i + 1 + (i' - 1 - l))%nat with (k - 1 - l)%nat by lia.
              destruct (Nat.leb_spec (i' - 1 - l) (a - (i + 1))).
              ** destruct (Nat.leb_spec (k - 1 - l) a), (Nat.ltb_spec a k), (Nat.leb_spec (S i) (k - 1 - l)); cbn [andb]; try lia. f_equal. lia.
              ** rewrite ltm_out by lia. auto.
        -- f_equal; [f_equal; unfold tb; f_equal; lia|]. unfold dotU. apply sum_ext. intros r Hr. unfold Ub. replace (k - 1 - (k - 1 - b))%nat with b by lia. replace (k - 1 - l)%nat with (i + 1 + (i' - 1 - l))%nat by lia. replace (k - 1 - i')%nat with i by lia. try reflexivity.
      * destruct (Nat.leb_spec b a), (Nat.ltb_spec a k), (Nat.leb_spec i b), (Nat.leb_spec (S i) b); cbn [andb]; try lia; auto.
    + destruct (inbox_spec (i + 1) k i (S i) a b); [lia|]. destruct (Nat.leb_spec b a), (Nat.ltb_spec a k), (Nat.leb_spec i b), (Nat.leb_spec (S i) b); cbn [andb]; try lia; auto. symmetry. apply ltm_stable. lia.
  - intros s2 He. cbv beta in He. apply (eff_ext _ _ _ _ _ He). intros a b Ha Hb. cbv beta. rewrite Nat.sub_0_r. cbn [Nat.leb]. rewrite andb_true_r. auto.
Qed.
End H.
Lemma blkrefl_ext k Tm Tm' U U' r c : (forall a b, (a < k)%nat -> (b < k)%nat -> Tm a b = Tm' a b) -> (forall a, (a < k)%nat -> U a r = U' a r) -> (forall a, (a < k)%nat -> U a c = U' a c) -> blkrefl k Tm U r c = blkrefl k Tm' U' r c.
Proof. intros HT Hr Hc. unfold blkrefl. f_equal. apply sum_ext. intros a Ha. apply sum_ext. intros b Hb. rewrite HT, Hr, Hc by auto. auto. Qed.
(** the triangle of T that is stored *)
Definition tri_in (dir : direction_t) (k a b : nat) : bool := match dir with Forward => (a <=? b) && (b <? k) | Backward => (b <=? a) && (a <? k) end%nat.
Lemma larft_run_gen dir sm V tau Tm s :
  let n := match sm with Columnwise => nr V | Rowwise => nc V end in
  let k := nr tau in
  vinj Tm -> disj V Tm -> (forall F s1 i, eff Tm F s s1 -> (i < k)%nat -> F i i = val Tm s i i -> vval tau s1 i = vval tau s i) -> nc tau = 1%nat -> (k <= match sm with Columnwise => nc V | Rowwise => nr V end)%nat -> (k <= n)%nat -> (k <= nr Tm)%nat -> (k <= nc Tm)%nat ->
  wp (larft dir sm V tau Tm) (fun z s' => z = 0%Z /\ exists G, eff Tm (fun a b => if tri_in dir k a b then G a b else val Tm s a b) s s' /\
    (forall r c, (r < n)%nat -> (c < n)%nat -> hprod dir n (fun i => refl (vval tau s i) (rvec dir sm n k (val V s) i)) k r c = blkrefl k (trim (tupl dir) NonUnit G) (rvec dir sm n k (val V s)) r c) /\ (forall i, (i < k)%nat -> G i i = vval tau s i)) noX s.
Proof.
  intros n k HI HDV Htr Ht1 Hk Hkn HT1 HT2. unfold larft. cbv zeta.
  apply wp_bind, wp_check; [destruct sm; apply negb_true_iff, Nat.ltb_ge; auto|]. apply wp_bind, wp_check; [apply negb_true_iff, orb_false_iff; split; apply Nat.ltb_ge; auto|].
  change (match sm with Columnwise => nr V | Rowwise => nc V end) with n. change (nr tau) with k.
  destruct (Nat.eq_dec k 0) as [e0|e0].
  { replace ((n =? 0) || (k =? 0))%nat with true by (symmetry; apply orb_true_iff; right; apply Nat.eqb_eq; auto). apply wp_ret. split; auto. exists (val Tm s). split.
    - apply (eff_ext _ _ _ _ _ (eff_refl Tm s)). intros. destruct (tri_in _ _ _ _); auto.
    - split; [|intros; lia]. intros r c Hr Hc. rewrite e0. unfold blkrefl. cbn [sum]. destruct dir; cbn [hprod mprod rprod]; ring. }
  replace ((n =? 0) || (k =? 0))%nat with false by (symmetry; apply orb_false_iff; split; apply Nat.eqb_neq; lia).
  apply wp_bind. destruct dir.
  - eapply wp_conseq; [apply (larft_fwd sm V tau Tm s); auto; try lia| |auto]. intros u0 s' He. cbv beta in He. apply wp_ret. split; auto. eexists. split; [exact He|]. split; [|intros i Hi; rewrite (ltm_eq n _ _ (S i)) by lia; cbn [ltm]; rewrite Nat.eqb_refl; destruct (Nat.ltb_spec i i); [lia|]; auto].
    intros r c Hr Hc. cbn [hprod tupl]. rewrite (ltm_prod n (rvec Forward sm n k (val V s)) (vval tau s) k) by auto.
    apply blkrefl_ext; auto. intros a b Ha Hb. unfold trim, Uf. cbn [intri]. destruct (Nat.eqb_spec a b); [subst; auto|]. destruct (Nat.leb_spec a b); auto. apply ltm_out. lia.
  - eapply wp_conseq; [apply (larft_bwd sm V tau Tm s); auto; try lia| |auto]. intros u0 s' He. cbv beta in He. apply wp_ret. split; auto.
    exists (fun a b => ltm n (Ub sm V tau s) (tb tau s) k (k - 1 - a)%nat (k - 1 - b)%nat). split; [exact He|]. split; [|intros i Hi; rewrite (ltm_eq n _ _ (S (k - 1 - i))) by lia; cbn [ltm]; rewrite Nat.eqb_refl; destruct (Nat.ltb_spec (k - 1 - i) (k - 1 - i)); [lia|]; unfold tb; change (nr tau) with k; f_equal; lia].
    intros r c Hr Hc. cbn [hprod tupl]. rewrite rprod_rev by auto.
    rewrite (ltm_prod n (fun u => rvec Backward sm n k (val V s) (k - 1 - u)%nat) (fun u => vval tau s (k - 1 - u)%nat) k) by auto.
    unfold blkrefl. f_equal. rewrite sum_rev. apply sum_ext. intros a Ha. rewrite sum_rev. apply sum_ext. intros b Hb. cbv beta.
    replace (k - 1 - (k - 1 - a))%nat with a by lia. replace (k - 1 - (k - 1 - b))%nat with b by lia. f_equal. f_equal.
    unfold trim. cbn [intri]. destruct (Nat.eqb_spec a b) as [->|]; [reflexivity|]. destruct (Nat.leb_spec b a); [reflexivity|]. apply ltm_out. lia.
Qed.
Lemma larft_run dir sm V tau Tm s :
  let n := match sm with Columnwise => nr V | Rowwise => nc V end in
  let k := nr tau in
  vinj Tm -> disj V Tm -> disj tau Tm -> nc tau = 1%nat -> (k <= match sm with Columnwise => nc V | Rowwise => nr V end)%nat -> (k <= n)%nat -> (k <= nr Tm)%nat -> (k <= nc Tm)%nat ->
  wp (larft dir sm V tau Tm) (fun z s' => z = 0%Z /\ exists G, eff Tm (fun a b => if tri_in dir k a b then G a b else val Tm s a b) s s' /\
    forall r c, (r < n)%nat -> (c < n)%nat -> hprod dir n (fun i => refl (vval tau s i) (rvec dir sm n k (val V s) i)) k r c = blkrefl k (trim (tupl dir) NonUnit G) (rvec dir sm n k (val V s)) r c) noX s.
Proof.
  intros n k HI HDV HDt Ht1 Hk Hkn HT1 HT2. eapply wp_conseq; [apply larft_run_gen; auto| |auto]; [|intros z s' (H1 & G & H2 & H3 & _); split; auto; exists G; auto]. intros F s1 i (_ & Hf & _) Hi _. unfold vval, val. apply Hf. apply (nin tau Tm); [auto|exact Hi|lia].
Qed.
(** tau the diagonal of T *)
Lemma larft_diag dir sm V Tm s :
  let n := match sm with Columnwise => nr V | Rowwise => nc V end in
  let k := nr Tm in
  vinj Tm -> disj V Tm -> nc Tm = k -> (k <= match sm with Columnwise => nc V | Rowwise => nr V end)%nat -> (k <= n)%nat ->
  wp (larft dir sm V (vdiag Tm) Tm) (fun z s' => z = 0%Z /\ exists G, eff Tm (fun a b => if tri_in dir k a b then G a b else val Tm s a b) s s' /\
    (forall r c, (r < n)%nat -> (c < n)%nat -> hprod dir n (fun i => refl (val Tm s i i) (rvec dir sm n k (val V s) i)) k r c = blkrefl k (trim (tupl dir) NonUnit G) (rvec dir sm n k (val V s)) r c) /\ (forall i, (i < k)%nat -> G i i = val Tm s i i)) noX s.
Proof.
  intros n k HI HDV Hc Hk Hkn. assert (Ek : nr (vdiag Tm) = k) by (unfold vdiag; cbn [nr]; rewrite Hc; apply Nat.min_id).
  assert (R := larft_run_gen dir sm V (vdiag Tm) Tm s). cbv zeta in R. rewrite Ek in R. apply R; auto; try lia.
  intros F s1 i (He & _) Hi HF. change (val Tm s1 i i = val Tm s i i). rewrite He by lia. auto.
Qed.
End P.
