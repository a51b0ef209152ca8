(** * QR factorization: geqr2 *)
From Coq Require Import Bool Arith ZArith Lia Reals Lra Psatz Ring Field.
From Verif.Core Require Import Scalar Prog View Slice Loops WorkEff Instances RealLaws.
From Verif.Spec Require Import LinAlg Outcome Norms Householder.
From Verif.Model Require Import Gemm Blas1 Blas2 Blas3 Legacy LaAux Norms Work Householder.
From Verif.Proof Require Import SumLemmas Tactics SliceTac LegacyProof PotrfProof BlockAlg LarfProof LarfgProof.
Local Open Scope T_scope.

Section P.
Context {E : Env} {FL : FieldLaws E} {CL : ConjLaws E} {OL : ROrdLaws E} {QL : EqbLaws E} {XL : CplxLaws E} {RL : RLaws E} {NL : FinLaws E}.
Add Field Tf : fth.
Implicit Types (v C : view) (s : state).

(** ** Unitary matrices *)
Lemma unitary_id n : unitary n idm.
Proof.
  intros i j Hi Hj. assert (K : forall a b, ctr idm a b = idm a b). { intros a b. unfold ctr, idm. rewrite Nat.eqb_sym. destruct (a =? b)%nat; [apply conj_1|apply conj_0]. }
  split; [rewrite mmul_id_r by auto; apply K|rewrite mmul_id_l by auto; apply K].
Qed.
Lemma ctr_mmul n (A B : mat) i j : ctr (mmul n A B) i j = mmul n (ctr B) (ctr A) i j.
Proof. unfold ctr, mmul. rewrite sum_conj. apply sum_ext. intros. rewrite conj_mul. ring. Qed.
Lemma unitary_mul n (P Q : mat) : unitary n P -> unitary n Q -> unitary n (mmul n P Q).
Proof.
  intros HP HQ i j Hi Hj. destruct (HQ i j Hi Hj) as [HQ1 _], (HP i j Hi Hj) as [_ HP2]. split.
  - transitivity (mmul n (mmul n (ctr Q) (ctr P)) (mmul n P Q) i j); [apply mmul_ext; intros; [apply ctr_mmul|auto]|].
    rewrite <- mmul_assoc. rewrite <- HQ1. apply mmul_ext; auto. intros l Hl. rewrite mmul_assoc. transitivity (mmul n idm Q l j); [|apply mmul_id_l; auto].
    apply mmul_ext; auto. intros k Hk. apply HP; auto.
  - transitivity (mmul n (mmul n P Q) (mmul n (ctr Q) (ctr P)) i j); [apply mmul_ext; intros; [auto|apply ctr_mmul]|].
    rewrite <- mmul_assoc. rewrite <- HP2. apply mmul_ext; auto. intros l Hl. rewrite mmul_assoc. transitivity (mmul n idm (ctr P) l j); [|apply mmul_id_l; auto].
    apply mmul_ext; auto. intros k Hk. apply HQ; auto.
Qed.
Lemma unitary_ctr n (Q : mat) : unitary n Q -> unitary n (ctr Q).
Proof.
  intros H i j Hi Hj. destruct (H i j Hi Hj) as [H1 H2]. assert (K : forall a b, ctr (ctr Q) a b = Q a b) by (intros; unfold ctr; apply conj_conj).
  split; [rewrite <- H2|rewrite <- H1]; apply mmul_ext; auto.
Qed.
(** unitary matrices preserve the norm of a vector *)
Lemma unitary_vsq m (Q : mat) (y z : nat -> T) : unitary m Q -> (forall i, (i < m)%nat -> z i = mvmul m Q y i) -> vsq m z = vsq m y.
Proof.
  intros HQ Hz. apply ofR_inj. rewrite !vsq_sum.
  rewrite (sum_ext m _ (fun i => sum m (fun l => sum m (fun k => Q i l * y l * (conj (Q i k) * conj (y k)))))).
  2: { intros i Hi. rewrite Hz by auto. unfold mvmul. rewrite sum_conj, <- sum_scal_r. apply sum_ext. intros l Hl. rewrite <- sum_scal_l. apply sum_ext. intros k Hk. rewrite conj_mul. auto. }
  rewrite sum_swap. apply sum_ext. intros l Hl. rewrite sum_swap.
  rewrite (sum_ext m _ (fun k => y l * conj (y k) * idm k l)).
  - rewrite (sum_single m l); auto; [unfold idm; rewrite Nat.eqb_refl; ring|]. intros k Hk Hne. unfold idm. destruct (Nat.eqb_spec k l); [lia|ring].
  - intros k Hk. rewrite <- (proj1 (HQ k l Hk Hl)). unfold mmul. rewrite <- sum_scal_l. apply sum_ext. intros i Hi. unfold ctr. ring.
Qed.
(** the condition on (tau, u) behind unitarity *)
Lemma unitary_cond n tau u p : (p < n)%nat -> u p = 1 -> unitary n (refl tau u) -> tau + conj tau = tau * conj tau * sum n (fun l => conj (u l) * u l).
Proof.
  intros Hp Hu HU. destruct (HU p p Hp Hp) as [H _].
  assert (K : mmul n (ctr (refl tau u)) (refl tau u) p p = refl (conj tau + tau - conj tau * tau * sum n (fun l => conj (u l) * u l)) u p p).
  { rewrite <- refl_mul by auto. apply mmul_ext; auto. intros. apply ctr_refl. }
  rewrite K in H. unfold refl in H. rewrite Hu, conj_1 in H.
  set (t := conj tau + tau - conj tau * tau * sum n (fun l => conj (u l) * u l)) in *. assert (Z : t = 0). { transitivity (idm p p - (idm p p - t * 1 * 1)); [ring|rewrite H; ring]. }
  unfold t in Z. transitivity (conj tau + tau - conj tau * tau * sum n (fun l => conj (u l) * u l) + conj tau * tau * sum n (fun l => conj (u l) * u l)); [ring|rewrite Z; ring].
Qed.
(** ** Embedding a reflector of order m - i *)
Definition embv (i : nat) (u : nat -> T) : nat -> T := fun r => if (r <? i)%nat then 0 else u (r - i)%nat.
Lemma embv_sum m i (f : nat -> T) (u : nat -> T) : (i <= m)%nat -> sum m (fun l => conj (embv i u l) * f l) = sum (m - i) (fun l => conj (u l) * f (i + l)%nat).
Proof.
  intros Hi. rewrite (sum_split_at i m) by auto. rewrite sum_0. 2: { intros k Hk. unfold embv. destruct (Nat.ltb_spec k i); [|lia]. rewrite conj_0. ring. }
  transitivity (sum (m - i) (fun k => conj (embv i u (i + k)%nat) * f (i + k)%nat)); [ring|]. apply sum_ext. intros k Hk. unfold embv. destruct (Nat.ltb_spec (i + k) i); [lia|]. do 3 f_equal. lia.
Qed.
Lemma emb_unitary m i tau u p : (i <= m)%nat -> (p < m - i)%nat -> u p = 1 -> unitary (m - i) (refl tau u) -> unitary m (refl tau (embv i u)).
Proof.
  intros Hi Hp Hu HU. apply refl_unitary. rewrite (unitary_cond _ _ _ p Hp Hu HU). f_equal. symmetry. rewrite embv_sum by auto. apply sum_ext. intros l Hl.
  unfold embv. destruct (Nat.ltb_spec (i + l) i); [lia|]. do 2 f_equal. lia.
Qed.
Lemma emb_ctr_mul m i tau u (B : mat) r c : (i <= m)%nat -> (r < m)%nat ->
  mmul m (ctr (refl tau (embv i u))) B r c = if (r <? i)%nat then B r c else mmul (m - i) (ctr (refl tau u)) (fun l c => B (i + l)%nat c) (r - i)%nat c.
Proof.
  intros Hi Hr. transitivity (mmul m (refl (conj tau) (embv i u)) B r c); [apply mmul_ext; auto; intros; apply ctr_refl|].
  rewrite refl_l by auto. rewrite (embv_sum m i (fun l => B l c)) by auto. unfold embv at 1. destruct (Nat.ltb_spec r i); [ring|].
  transitivity (mmul (m - i) (refl (conj tau) u) (fun l c => B (i + l)%nat c) (r - i)%nat c); [|apply mmul_ext; auto; intros; symmetry; apply ctr_refl].
  rewrite refl_l by lia. replace (i + (r - i))%nat with r by lia. auto.
Qed.
Lemma unitary_solve m Q (B C : mat) r c : unitary m Q -> (r < m)%nat -> (forall l, (l < m)%nat -> C l c = mmul m (ctr Q) B l c) -> mmul m Q C r c = B r c.
Proof.
  intros HU Hr HC. transitivity (mmul m Q (mmul m (ctr Q) B) r c); [apply mmul_ext; auto|]. rewrite mmul_assoc. transitivity (mmul m idm B r c); [|apply mmul_id_l; auto].
  apply mmul_ext; auto. intros l Hl. apply HU; auto.
Qed.
Lemma mprod_ext m (H H' : nat -> mat) k : (forall i r c, (i < k)%nat -> (r < m)%nat -> (c < m)%nat -> H i r c = H' i r c) ->
  forall r c, (r < m)%nat -> (c < m)%nat -> mprod m H k r c = mprod m H' k r c.
Proof.
  induction k as [|k IH]; intros HH r c Hr Hc; cbn [mprod]; auto. apply mmul_ext; intros l Hl; [apply IH; auto|apply HH; auto].
Qed.
Lemma mprod_unitary m H k : (forall i, (i < k)%nat -> unitary m (H i)) -> unitary m (mprod m H k).
Proof. induction k as [|k IH]; intros HH; cbn [mprod]; [apply unitary_id|]. apply unitary_mul; auto. Qed.
Lemma qmat_ext m (A A' : mat) tau tau' k : (forall i, (i < k)%nat -> tau i = tau' i) -> (forall i r, (i < k)%nat -> (i < r < m)%nat -> A r i = A' r i) ->
  forall r c, (r < m)%nat -> (c < m)%nat -> qmat m A tau k r c = qmat m A' tau' k r c.
Proof.
  intros Ht HA. apply mprod_ext. intros i r c Hi Hr Hc. rewrite Ht by auto. apply refl_ext; unfold qvec.
  - destruct (Nat.ltb_spec r i); auto. destruct (Nat.eqb_spec r i); auto. apply HA; lia.
  - destruct (Nat.ltb_spec c i); auto. destruct (Nat.eqb_spec c i); auto. apply HA; lia.
Qed.
Lemma qvec_emb (A : mat) i r : qvec A i r = embv i (fun l => if (l =? 0)%nat then 1 else A (i + l)%nat i) r.
Proof. unfold qvec, embv. destruct (Nat.ltb_spec r i); auto. destruct (Nat.eqb_spec r i) as [->|]; [rewrite Nat.sub_diag; auto|]. destruct (Nat.eqb_spec (r - i) 0); [lia|]. f_equal. lia. Qed.

(** the matrix still to be reduced after [i] steps: [A] with zeros below the diagonal of the first [i] columns *)
Definition bmat (i : nat) (A : mat) : mat := fun r c => if ((c <? i) && (c <? r))%nat then 0 else A r c.
(** ** One step *)
Lemma qr_step m n i (A0 A A' : mat) (t t' : nat -> T) : (i < m)%nat -> (i < n)%nat ->
  unitary m (qmat m A t i) -> (forall r c, (r < m)%nat -> (c < n)%nat -> A0 r c = mmul m (qmat m A t i) (bmat i A) r c) ->
  reflects Columnwise Forward (m - i) (fun r => A (i + r)%nat i) (t' i) (fun r => A' (i + r)%nat i) ->
  (forall j, (j < i)%nat -> t' j = t j) -> (forall r c, (r < m)%nat -> (c < n)%nat -> (r < i \/ c < i)%nat -> A' r c = A r c) ->
  (forall r c, (i <= r < m)%nat -> (i < c < n)%nat ->
     A' r c = mmul (m - i) (ctr (refl (t' i) (hvec Forward (m - i) (fun r => A' (i + r)%nat i)))) (fun r c => A (i + r)%nat c) (r - i)%nat c) ->
  unitary m (qmat m A' t' (S i)) /\ (forall r c, (r < m)%nat -> (c < n)%nat -> A0 r c = mmul m (qmat m A' t' (S i)) (bmat (S i) A') r c) /\ conj (A' i i) = A' i i.
Proof.
  intros Him Hin HU HA HR Ht Hold Hnew. destruct HR as [R1 R2 R3 R4 R5 R6]. cbn [hpos hst] in *. rewrite Nat.add_0_r in *.
  set (u := hvec Forward (m - i) (fun r => A' (i + r)%nat i)) in *.
  assert (Hqe : forall a b, (a < m)%nat -> (b < m)%nat -> qmat m A' t' i a b = qmat m A t i a b).
  { apply qmat_ext; auto. intros j r Hj Hr. apply Hold; lia. }
  assert (HE : forall a b, refl (t' i) (qvec A' i) a b = refl (t' i) (embv i u) a b).
  { intros a b. apply refl_ext; rewrite qvec_emb; reflexivity. }
  assert (UH : unitary m (refl (t' i) (embv i u))). { apply (emb_unitary m i _ u 0%nat); auto; lia. }
  assert (UQ : unitary m (qmat m A' t' i)) by (eapply unitary_ext; [|exact HU]; intros; symmetry; apply Hqe; auto).
  split; [|split].
  - unfold qmat. cbn [mprod]. apply unitary_mul; [exact UQ|]. eapply unitary_ext; [|exact UH]. intros; symmetry; apply HE.
  - intros r c Hr Hc. rewrite HA by auto. unfold qmat at 2. cbn [mprod]. change (mprod m (fun i0 => refl (t' i0) (qvec A' i0)) i) with (qmat m A' t' i).
    rewrite <- mmul_assoc. apply mmul_ext; intros l Hl; [symmetry; apply Hqe; auto|].
    transitivity (mmul m (refl (t' i) (embv i u)) (bmat (S i) A') l c); [|apply mmul_ext; auto; intros; symmetry; apply HE].
    symmetry. apply unitary_solve; auto. intros a Ha. rewrite emb_ctr_mul by lia. unfold bmat at 1.
    destruct (Nat.ltb_spec a i) as [Hai|Hai].
    + unfold bmat. rewrite (Hold a c) by lia. ifs; auto.
    + destruct (Nat.lt_trichotomy c i) as [Hci|[->|Hci]].
      * destruct (Nat.ltb_spec c (S i)); [|lia]. destruct (Nat.ltb_spec c a); [|lia]. cbn [andb]. symmetry. apply mmul_0_r. intros k Hk. unfold bmat.
        destruct (Nat.ltb_spec c i); [|lia]. destruct (Nat.ltb_spec c (i + k)); [auto|lia].
      * assert (R4' := R4 (a - i)%nat ltac:(lia)). cbn [happly] in R4'. unfold mvmul in R4'. unfold mmul.
        rewrite (sum_ext (m - i) _ (fun k => ctr (refl (t' i) u) (a - i)%nat k * A (i + k)%nat i)).
        -- rewrite R4'. destruct (Nat.ltb_spec i (S i)); [|lia]. cbn [andb]. destruct (Nat.eqb_spec (a - i) 0); destruct (Nat.ltb_spec i a); try lia; auto. f_equal; lia.
        -- intros k Hk. unfold bmat. destruct (Nat.ltb_spec i i); [lia|]. auto.
      * destruct (Nat.ltb_spec c (S i)); [lia|]. cbn [andb]. rewrite Hnew by lia. apply mmul_ext; auto. intros k Hk. unfold bmat. destruct (Nat.ltb_spec c i); [lia|]. auto.
  - exact R1.
Qed.

Lemma vsq_tail i m (f : nat -> T) : (i <= m)%nat -> (vsq (m - i) (fun r => f (i + r)%nat) <= vsq m f)%R.
Proof.
  intros Hi. assert (K : vsq m f = (vsq i f + vsq (m - i) (fun r => f (i + r)%nat))%R).
  { apply ofR_inj. rewrite ofR_add, !vsq_sum. apply sum_split_at. auto. }
  rewrite K. assert (K' := vsq_nonneg i f). lra.
Qed.
Lemma vsq_head i m (f : nat -> T) : (i <= m)%nat -> (vsq i f <= vsq m f)%R.
Proof.
  intros Hi. assert (K : vsq m f = (vsq i f + vsq (m - i) (fun r => f (i + r)%nat))%R).
  { apply ofR_inj. rewrite ofR_add, !vsq_sum. apply sum_split_at. auto. }
  rewrite K. assert (K' := vsq_nonneg (m - i) (fun r => f (i + r)%nat)). lra.
Qed.

Section G.
Variables (h : hconst) (st bt sm : R) (A tau : view) (work : lmat) (s : state).
Hypothesis Hh : hconst_ok h st bt sm.
Hypothesis HI : vinj A.
Hypothesis HIt : vinj tau.
Hypothesis Ht1 : nc tau = 1%nat.
Hypothesis HD : disj A tau.
Hypothesis Hlen : (Nat.min (nr A) (nc A) <= nr tau)%nat.
Hypothesis HwA : disj (lview work) A.
Hypothesis Hwt : disj (lview work) tau.
Hypothesis Hnorm : forall c, (c < nc A)%nat -> (vsq (nr A) (fun r => val A s r c) <= bt * bt)%R.
Let m := nr A.
Let n := nc A.

Definition qinv (i : nat) (s1 : state) : Prop :=
  unitary m (qmat m (val A s1) (vval tau s1) i) /\
  (forall r c, (r < m)%nat -> (c < n)%nat -> val A s r c = mmul m (qmat m (val A s1) (vval tau s1) i) (bmat i (val A s1)) r c) /\
  (forall j, (j < i)%nat -> conj (val A s1 j j) = val A s1 j j) /\
  (forall l, ~ inview A l -> ~ inview tau l -> ~ inview (lview work) l -> mem s1 l = mem s l) /\ imem s1 = imem s.

Lemma qinv_0 : qinv 0 s.
Proof.
  split; [|split; [|split; [|split]]]; auto; [apply unitary_id| |lia]. intros r c Hr Hc. symmetry. unfold qmat. cbn [mprod]. apply mmul_id_l. auto.
Qed.
Lemma qinv_norm i s1 c : qinv i s1 -> (c < n)%nat -> (i <= c)%nat -> (vsq m (fun r => val A s1 r c) <= bt * bt)%R.
Proof.
  intros (H1 & H2 & _) Hc Hic. rewrite <- (unitary_vsq m _ (fun r => val A s1 r c) (fun r => val A s r c) H1); [apply Hnorm; auto|].
  intros r Hr. rewrite H2 by auto. apply sum_ext. intros l Hl. unfold bmat. destruct (Nat.ltb_spec c i); [lia|]. auto.
Qed.

Definition after_larfg (i : nat) (s1 s3 : state) : Prop :=
  reflects Columnwise Forward (m - i) (fun r => val A s1 (i + r)%nat i) (vval tau s3 i) (fun r => val A s3 (i + r)%nat i) /\
  (forall j, (j < nr tau)%nat -> j <> i -> vval tau s3 j = vval tau s1 j) /\
  (forall r c, (r < m)%nat -> (c < n)%nat -> (r < i \/ c <> i)%nat -> val A s3 r c = val A s1 r c) /\
  (forall l, ~ inview A l -> ~ inview tau l -> mem s3 l = mem s1 l) /\ imem s3 = imem s1.

Lemma larfg_step i s1 B (K : M B) (Q : B -> state -> Prop) : (i < m)%nat -> (i < n)%nat -> (vsq (m - i) (fun r => val A s1 (i + r)%nat i) <= bt * bt)%R ->
  (forall s3, after_larfg i s1 s3 -> wp K Q noX s3) ->
  wp (t <- larfg h Forward Columnwise (vcol A i m i);; wrv tau i t;; K) Q noX s1.
Proof.
  intros Him Hin Hv HK. apply wp_bind. eapply wp_use.
  { apply (larfg_reflects h st bt sm Forward Columnwise (vcol A i m i) s1); auto; [cbn; lia|apply vinj_vcol; auto|]. left. exact Hv. }
  intros t s2 HL. cbv beta in HL. destruct HL as ((A1 & A2 & A3) & HR). cbn [nr vcol] in HR.
  assert (Hitau : (i < nr tau)%nat) by (unfold m, n in *; lia).
  apply wp_bind. unfold wrv. apply wp_wr; [auto|lia|]. apply HK.
  assert (Ka : forall r c, (r < m)%nat -> (c < n)%nat -> val A (setm s2 (ad tau i 0) t) r c = val A s2 r c).
  { intros r c Hr Hc. unfold val, setm. cbn [mem]. destruct (Z.eqb_spec (ad A r c) (ad tau i 0)) as [e|]; auto. exfalso. apply (HD r c i 0%nat); auto; lia. }
  assert (Kt : vval tau (setm s2 (ad tau i 0) t) i = t) by (unfold vval, val, setm; cbn [mem]; rewrite Z.eqb_refl; auto).
  split; [|split; [|split; [|split]]].
  - rewrite Kt. assert (Ee : forall r, (r < m - i)%nat -> val A (setm s2 (ad tau i 0) t) (i + r)%nat i = val A s2 (i + r)%nat i) by (intros; apply Ka; auto; lia).
    assert (Eu : forall a b, (a < m - i)%nat -> (b < m - i)%nat -> refl t (hvec Forward (m - i) (hst Columnwise (vval (vcol A i m i) s2))) a b = refl t (hvec Forward (m - i) (hst Columnwise (fun r => val A (setm s2 (ad tau i 0) t) (i + r)%nat i))) a b).
    { intros a b Ha Hb. apply refl_ext; unfold hvec; destruct (_ =? _)%nat; auto; cbn [hst]; rewrite Ee by auto; reflexivity. }
    destruct HR as [R1 R2 R3 R4 R5 R6]. constructor; cbn [hpos] in *.
    + rewrite Ee by lia. exact R1.
    + rewrite Ee by lia. exact R2.
    + eapply unitary_ext; [exact Eu|exact R3].
    + intros a Ha. rewrite Ee by lia. erewrite happly_ext; [apply R4; auto| |auto]. intros; symmetry; apply Eu; auto.
    + exact R5.
    + exact R6.
  - intros j Hj Hne. unfold vval, val, setm. cbn [mem]. destruct (Z.eqb_spec (ad tau j 0) (ad tau i 0)) as [e|]; [apply HIt in e; lia|].
    apply A2. intros (r & c & Hr & Hc & e). cbn [nr nc ad vcol] in *. apply (HD (i + r)%nat i j 0%nat); auto; unfold m in *; lia.
  - intros r c Hr Hc Hrc. rewrite Ka by auto. apply A2. intros (r' & c' & Hr' & Hc' & e). cbn [nr nc ad vcol] in *. apply HI in e; unfold m, n in *; lia.
  - intros l Hl Hl'. unfold setm. cbn [mem]. destruct (Z.eqb_spec l (ad tau i 0)) as [->|]; [exfalso; apply Hl'; exists i, 0%nat; repeat split; auto; lia|].
    apply A2. intros K'. apply Hl. eapply inview_vcol; [| |exact K']; unfold m in *; auto.
  - exact A3.
Qed.
(** the invariant after a step that has no further columns *)
Lemma qinv_last i s1 s3 : qinv i s1 -> (i < m)%nat -> S i = n -> after_larfg i s1 s3 -> qinv (S i) s3.
Proof.
  intros (H1 & H2 & H3 & H4 & H5) Him Hin (K1 & K2 & K3 & K4 & K5).
  destruct (qr_step m n i (val A s) (val A s1) (val A s3) (vval tau s1) (vval tau s3)) as (L1 & L2 & L3); auto; try lia.
  { intros j Hj. apply K2; unfold m, n in *; lia. }
  { intros r c Hr Hc Hrc. apply K3; auto; lia. }
  split; [|split; [|split; [|split]]]; auto.
  - intros j Hj. destruct (Nat.eq_dec j i) as [->|]; auto. rewrite K3 by lia. apply H3. lia.
  - intros l Hl Hl' Hw. rewrite K4; auto.
  - congruence.
Qed.
Lemma qinv_larf i s1 s3 s4 : qinv i s1 -> (i < m)%nat -> (i < n)%nat -> after_larfg i s1 s3 ->
  effw (subv A i m (S i) n) (mmul (m - i) (refl (conj (vval tau s3 i)) (hvec Forward (m - i) (vval (vcol A i m i) s3))) (val (subv A i m (S i) n) s3)) (inview (lview work)) s3 s4 ->
  qinv (S i) s4.
Proof.
  intros (H1 & H2 & H3 & H4 & H5) Him Hin ([R1 R2 R3 R4 R5 R6] & K2 & K3 & K4 & K5) (C1 & C2 & C3). cbn [nr nc subv] in C1.
  assert (Ca : forall r c, (r < m)%nat -> (c < n)%nat -> (r < i \/ c <= i)%nat -> val A s4 r c = val A s3 r c).
  { intros r c Hr Hc Hrc. apply C2.
    - intros (r' & c' & Hr' & Hc' & e). cbn [nr nc ad subv] in *. apply HI in e; unfold m, n in *; lia.
    - apply nin; auto. apply disj_sym; auto. }
  assert (Ct : forall j, (j < nr tau)%nat -> vval tau s4 j = vval tau s3 j).
  { intros j Hj. apply C2.
    - intros (r' & c' & Hr' & Hc' & e). cbn [nr nc ad subv] in *. symmetry in e. apply (HD (i + r')%nat (S i + c')%nat j 0%nat) in e; auto; unfold m, n in *; lia.
    - apply nin; auto; [apply disj_sym; auto|lia]. }
  assert (Hitau : (i < nr tau)%nat) by (unfold m, n in *; lia).
  assert (Hu : forall a, (a < m - i)%nat -> hvec Forward (m - i) (vval (vcol A i m i) s3) a = hvec Forward (m - i) (fun r => val A s4 (i + r)%nat i) a).
  { intros a Ha. unfold hvec. destruct (_ =? _)%nat; auto. rewrite Ca by lia. reflexivity. }
  assert (Eu : forall a b, (a < m - i)%nat -> (b < m - i)%nat -> refl (vval tau s3 i) (hvec Forward (m - i) (hst Columnwise (fun r => val A s3 (i + r)%nat i))) a b = refl (vval tau s4 i) (hvec Forward (m - i) (hst Columnwise (fun r => val A s4 (i + r)%nat i))) a b).
  { intros a b Ha Hb. rewrite Ct by auto. apply refl_ext; cbn [hst]; first [exact (Hu a Ha)|exact (Hu b Hb)]. }
  assert (D0 : val A s4 (i + hpos Forward (m - i))%nat i = val A s3 (i + hpos Forward (m - i))%nat i) by (apply Ca; cbn [hpos]; lia).
  destruct (qr_step m n i (val A s) (val A s1) (val A s4) (vval tau s1) (vval tau s4)) as (L1 & L2 & L3); auto; try lia.
  { constructor.
    - rewrite D0; auto.
    - rewrite D0; auto.
    - eapply unitary_ext; [exact Eu|exact R3].
    - intros a Ha. rewrite D0. erewrite happly_ext; [apply R4; auto| |auto]. intros; symmetry; apply Eu; auto.
    - rewrite Ct by auto. auto.
    - rewrite Ct by auto. auto. }
  { intros j Hj. rewrite Ct by (unfold m, n in *; lia). apply K2; unfold m, n in *; lia. }
  { intros r c Hr Hc Hrc. rewrite Ca by lia. apply K3; auto; lia. }
  { intros r c Hr Hc. assert (Q := C1 (r - i)%nat (c - S i)%nat ltac:(lia) ltac:(lia)). unfold val at 1 in Q. cbn [ad subv] in Q.
    replace (i + (r - i))%nat with r in Q by lia. replace (S i + (c - S i))%nat with c in Q by lia. unfold val at 1. rewrite Q. unfold mmul. apply sum_ext. intros l Hl.
    rewrite Ct by auto. rewrite ctr_refl. f_equal.
    - apply refl_ext; apply Hu; lia.
    - unfold val at 1. cbn [ad subv]. replace (S i + (c - S i))%nat with c by lia. apply K3; lia. }
  split; [|split; [|split; [|split]]]; auto.
  - intros j Hj. destruct (Nat.eq_dec j i) as [->|]; auto. rewrite Ca, K3 by lia. apply H3. lia.
  - intros l Hl Hl' Hw. rewrite C2, K4; auto. intros K. apply Hl. eapply inview_subv; [| |exact K]; unfold m, n; lia.
  - congruence.
Qed.

Hypothesis Hwork : (nr A <= 1 \/ nc A <= 1 \/ (lok work /\ contiguous work = true /\ nc A - 1 <= lm work * ln work))%nat.
Lemma geqr2_work_run : runs (geqr2_work h A tau work) s (fun r s' => r = 0%Z /\ qinv (Nat.min m n) s').
Proof.
  unfold runs, geqr2_work. cbv zeta. apply wp_bind, wp_check; [apply negb_true_iff, Nat.ltb_ge; auto|].
  change (nr A) with m. change (nc A) with n.
  destruct (Nat.leb_spec n 0) as [Hn|Hn]; [|destruct (Nat.leb_spec m 0) as [Hm|Hm]]; cbn [orb].
  { apply wp_ret. split; auto. replace (Nat.min m n) with 0%nat by lia. apply qinv_0. }
  { apply wp_ret. split; auto. replace (Nat.min m n) with 0%nat by lia. apply qinv_0. }
  apply wp_bind. apply (wp_forup (fun i s1 => qinv i s1)); [lia|apply qinv_0| |].
  - intros i s1 Hi Hq. apply wp_bind, wp_slcol; [lia|unfold m; lia|unfold n in *; lia|].
    apply larfg_step; [lia|lia| |].
    { eapply Rle_trans; [|apply (qinv_norm i s1 i Hq); lia]. apply (vsq_tail i m (fun r => val A s1 r i)). lia. }
    intros s3 H3. apply wp_bind, wp_slc; [lia|unfold m; lia|lia|unfold n; lia|]. apply wp_bind. unfold rdv. apply wp_rd; [unfold m, n in *; lia|lia|].
    change (val tau s3 i 0) with (vval tau s3 i). replace (i + 1)%nat with (S i) by lia.
    eapply wp_use.
    { apply (larf_work_run Left Forward Columnwise (vcol A i m i) (conj (vval tau s3 i)) (subv A i m (S i) n) work s3).
      - split; reflexivity.
      - apply vinj_subv; auto.
      - intros a b a' b' Ha Hb Ha' Hb' e. cbn [nr nc ad vcol subv] in *. apply HI in e; unfold m, n in *; lia.
      - cbn [sel nr nc subv]. destruct Hwork as [|[|(W1 & W2 & W3)]]; [left; unfold m in *; lia|lia|right; right]. split; [apply wk_ok_contig; auto; unfold n; lia|].
        split; (eapply disj_inc; [| |exact HwA]; intros l; [auto|]); [apply inview_vcol; unfold m, n in *; lia|apply inview_subv; unfold m, n in *; lia]. }
    intros r s4 HL. cbv beta in HL. cbn [sel nr nc subv vcol reflm hst] in HL. eapply qinv_larf; eauto; lia.
  - intros s1 Hq. apply wp_bind. destruct (Nat.ltb_spec (n - 1) m) as [Hl|Hl].
    + replace (Nat.min m (n - 1)) with (n - 1)%nat in Hq by lia. apply wp_bind, wp_slcol; [lia|unfold m; lia|unfold n in *; lia|].
      apply (wp_conseq _ _ (fun _ s' => qinv (Nat.min m n) s') _ noX); [| |auto].
      2: { intros u s' HQ. apply wp_ret. auto. }
      assert (G := larfg_step (n - 1)%nat s1 unit (ret tt) (fun _ s' => qinv (Nat.min m n) s') Hl ltac:(lia)).
      eapply wp_conseq; [| |intros ? ? HX; exact HX].
      2: { intros a s' HQ. exact HQ. }
      assert (Eq : forall st, (t <- larfg h Forward Columnwise (vcol A (n - 1) m (n - 1));; wrv tau (n - 1) t) st = (t <- larfg h Forward Columnwise (vcol A (n - 1) m (n - 1));; wrv tau (n - 1) t;; ret tt) st).
      { intros st0. unfold bind. destruct (larfg _ _ _ _ st0); auto. unfold wrv, wr. destruct inb; reflexivity. }
      unfold wp. rewrite Eq. apply G.
      { eapply Rle_trans; [|apply (qinv_norm (n - 1) s1 (n - 1) Hq); lia]. apply (vsq_tail (n - 1) m (fun r => val A s1 r (n - 1)%nat)). lia. }
      intros s3 H3. apply wp_ret. replace (Nat.min m n) with (S (n - 1)) by lia. eapply qinv_last; eauto; lia.
    + apply wp_ret. apply wp_ret. split; auto. replace (Nat.min m n) with (Nat.min m (n - 1)) by lia. auto.
Qed.
End G.
End P.
