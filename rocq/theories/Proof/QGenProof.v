(** * unmq_level2 and ungq_level2 *)
From Coq Require Import Bool Arith ZArith Lia Ring Field.
From Verif.Core Require Import Scalar Prog View Slice Loops WorkEff.
From Verif.Spec Require Import LinAlg Outcome Householder Parts.
From Verif.Model Require Import Gemm Blas1 Blas2 Blas3 Legacy LaAux Norms Work Householder QGen.
From Verif.Proof Require Import SumLemmas SliceTac LegacyProof BlockAlg PotrfProof Blas1Proof LaAuxProof LarfProof LarfgProof QRProof WorkProof.
Local Open Scope T_scope.

Lemma side_cases (x : side_t) : x = Left \/ x = Right.
Proof. destruct x; auto. Qed.
Section P.
Context {E : Env} {FL : FieldLaws E} {CL : ConjLaws E}.
Add Field Tf : fth.

(** ** a reflector acting on a window of rows or columns *)
Definition embw (a b : nat) (u : nat -> T) : nat -> T := fun r => if ((a <=? r) && (r <? b))%nat then u (r - a)%nat else 0.
Lemma embw_in a b u r : (a <= r < b)%nat -> embw a b u r = u (r - a)%nat.
Proof. intros H. unfold embw. destruct (Nat.leb_spec a r), (Nat.ltb_spec r b); try lia. auto. Qed.
Lemma embw_out a b u r : ~ (a <= r < b)%nat -> embw a b u r = 0.
Proof. intros H. unfold embw. destruct (Nat.leb_spec a r), (Nat.ltb_spec r b); try lia; auto. Qed.
Lemma embw_sum m a b (f u : nat -> T) : (a <= b <= m)%nat -> sum m (fun l => f l * embw a b u l) = sum (b - a) (fun l => f (a + l)%nat * u l).
Proof.
  intros H. rewrite (sum_split_at a m) by lia. rewrite sum_0 by (intros k Hk; rewrite embw_out by lia; ring).
  rewrite (sum_split_at (b - a) (m - a)) by lia. rewrite (sum_0 (m - a - (b - a))) by (intros k Hk; rewrite embw_out by lia; ring).
  transitivity (sum (b - a) (fun l => f (a + l)%nat * embw a b u (a + l)%nat)); [ring|]. apply sum_ext. intros k Hk. rewrite embw_in by lia. do 2 f_equal. lia.
Qed.
Lemma embw_sumc m a b (f u : nat -> T) : (a <= b <= m)%nat -> sum m (fun l => conj (embw a b u l) * f l) = sum (b - a) (fun l => conj (u l) * f (a + l)%nat).
Proof.
  intros H. transitivity (sum m (fun l => f l * embw a b (fun r => conj (u r)) l)).
  - apply sum_ext. intros k Hk. unfold embw. destruct (_ && _)%bool; [ring|rewrite conj_0; ring].
  - rewrite embw_sum by auto. apply sum_ext. intros; ring.
Qed.
Lemma embw_l m a b tau u (B : mat) r c : (a <= b <= m)%nat -> (r < m)%nat ->
  mmul m (refl tau (embw a b u)) B r c = if ((a <=? r) && (r <? b))%nat then mmul (b - a) (refl tau u) (fun l c => B (a + l)%nat c) (r - a)%nat c else B r c.
Proof.
  intros H Hr. rewrite refl_l by auto. rewrite (embw_sumc m a b (fun l => B l c)) by auto.
  destruct (Nat.leb_spec a r); cbn [andb]; [destruct (Nat.ltb_spec r b); cbn [andb]|].
  - rewrite refl_l by lia. rewrite embw_in by lia. replace (a + (r - a))%nat with r by lia. auto.
  - rewrite embw_out by lia. ring.
  - rewrite embw_out by lia. ring.
Qed.
Lemma embw_r n a b tau u (B : mat) r c : (a <= b <= n)%nat -> (c < n)%nat ->
  mmul n B (refl tau (embw a b u)) r c = if ((a <=? c) && (c <? b))%nat then mmul (b - a) (fun r l => B r (a + l)%nat) (refl tau u) r (c - a)%nat else B r c.
Proof.
  intros H Hr. rewrite refl_r by auto. rewrite (embw_sum n a b (fun l => B r l)) by auto.
  destruct (Nat.leb_spec a c); cbn [andb]; [destruct (Nat.ltb_spec c b); cbn [andb]|].
  - rewrite refl_r by lia. rewrite embw_in by lia. replace (a + (c - a))%nat with c by lia. auto.
  - rewrite embw_out by lia. rewrite conj_0. ring.
  - rewrite embw_out by lia. rewrite conj_0. ring.
Qed.

Lemma larf_part_l dir sm v tau C work s a b d0 d1 : (a <= b <= nr C)%nat -> (d0 <= d1 <= nc C)%nat -> vinj C -> isvec v (b - a) ->
  disj v (subv C a b d0 d1) -> disj (lview work) v -> disj (lview work) C -> (b - a <= 1 \/ d1 - d0 = 0 \/ wk_ok work (d1 - d0))%nat ->
  runs (larf_work Left dir sm v tau (subv C a b d0 d1) work) s (fun _ s' =>
    effw C (fun i j => if ((d0 <=? j) && (j <? d1))%nat then mmul (nr C) (refl tau (embw a b (hvec dir (b - a) (hst sm (vval v s))))) (val C s) i j else val C s i j)
      (inview (lview work)) s s').
Proof.
  intros Hab Hd HI [Hv Hv1] HD W1 W2 HW. eapply wp_conseq; [apply (larf_work_run Left dir sm v tau (subv C a b d0 d1) work s)| |auto].
  - cbn. split; auto.
  - apply vinj_subv; auto; lia.
  - auto.
  - cbn [sel nr nc subv]. destruct HW as [|[|]]; auto. right; right. split; auto. split; auto.
    eapply disj_inc; [| |exact W2]; intros l; [auto|apply inview_subv; lia].
  - intros r s' HL. cbv beta in HL. destruct HL as (L1 & L2 & L3). cbn [nr nc subv reflm] in L1. rewrite Hv in L1. split; [|split; auto].
    + intros i j Hi Hj. assert (Hout : ~ (a <= i < b /\ d0 <= j < d1)%nat -> val C s' i j = val C s i j).
      { intros Ho. apply L2.
        - intros (p & q & Hp & Hq & e). cbn [nr nc ad subv] in *. apply HI in e; [|lia..]. lia.
        - intros (p & q & Hp & Hq & e). symmetry in e. apply (W2 p q i j); auto. }
      destruct (Nat.leb_spec d0 j); cbn [andb]; [destruct (Nat.ltb_spec j d1)|]; cbn [andb]; [|apply Hout; lia..].
      rewrite embw_l by (auto; lia). destruct (Nat.leb_spec a i); cbn [andb]; [destruct (Nat.ltb_spec i b)|]; cbn [andb]; [|apply Hout; lia..].
      specialize (L1 (i - a)%nat (j - d0)%nat ltac:(lia) ltac:(lia)). unfold val at 1 in L1. cbn [ad subv] in L1.
      replace (a + (i - a))%nat with i in L1 by lia. replace (d0 + (j - d0))%nat with j in L1 by lia. unfold val at 1. rewrite L1.
      apply sum_ext. intros l Hl. f_equal. unfold val; cbn [ad subv]. do 2 f_equal. lia.
    + intros l Hl Hw. apply L2; auto. intros K. apply Hl. revert K. apply inview_subv; lia.
Qed.
Lemma larf_part_r dir sm v tau C work s a b d0 d1 : (a <= b <= nc C)%nat -> (d0 <= d1 <= nr C)%nat -> vinj C -> isvec v (b - a) ->
  disj v (subv C d0 d1 a b) -> disj (lview work) v -> disj (lview work) C -> (b - a <= 1 \/ d1 - d0 = 0 \/ wk_ok work (d1 - d0))%nat ->
  runs (larf_work Right dir sm v tau (subv C d0 d1 a b) work) s (fun _ s' =>
    effw C (fun i j => if ((d0 <=? i) && (i <? d1))%nat then mmul (nc C) (val C s) (refl tau (embw a b (hvec dir (b - a) (hst sm (vval v s))))) i j else val C s i j)
      (inview (lview work)) s s').
Proof.
  intros Hab Hd HI [Hv Hv1] HD W1 W2 HW. eapply wp_conseq; [apply (larf_work_run Right dir sm v tau (subv C d0 d1 a b) work s)| |auto].
  - cbn. split; auto.
  - apply vinj_subv; auto; lia.
  - auto.
  - cbn [sel nr nc subv]. destruct HW as [|[|]]; auto. right; right. split; auto. split; auto.
    eapply disj_inc; [| |exact W2]; intros l; [auto|apply inview_subv; lia].
  - intros r s' HL. cbv beta in HL. destruct HL as (L1 & L2 & L3). cbn [nr nc subv reflm] in L1. rewrite Hv in L1. split; [|split; auto].
    + intros i j Hi Hj. assert (Hout : ~ (a <= j < b /\ d0 <= i < d1)%nat -> val C s' i j = val C s i j).
      { intros Ho. apply L2.
        - intros (p & q & Hp & Hq & e). cbn [nr nc ad subv] in *. apply HI in e; [|lia..]. lia.
        - intros (p & q & Hp & Hq & e). symmetry in e. apply (W2 p q i j); auto. }
      destruct (Nat.leb_spec d0 i); cbn [andb]; [destruct (Nat.ltb_spec i d1)|]; cbn [andb]; [|apply Hout; lia..].
      rewrite embw_r by (auto; lia). destruct (Nat.leb_spec a j); cbn [andb]; [destruct (Nat.ltb_spec j b)|]; cbn [andb]; [|apply Hout; lia..].
      specialize (L1 (i - d0)%nat (j - a)%nat ltac:(lia) ltac:(lia)). unfold val at 1 in L1. cbn [ad subv] in L1.
      replace (a + (j - a))%nat with j in L1 by lia. replace (d0 + (i - d0))%nat with i in L1 by lia. unfold val at 1. rewrite L1.
      apply sum_ext. intros l Hl. f_equal. unfold val; cbn [ad subv]. do 2 f_equal. lia.
    + intros l Hl Hw. apply L2; auto. intros K. apply Hl. revert K. apply inview_subv; lia.
Qed.

(** ** products of reflectors *)
Lemma ctr_ctr (A : mat) i j : ctr (ctr A) i j = A i j.
Proof. unfold ctr. apply conj_conj. Qed.
Lemma ctr_idm i j : ctr idm i j = idm i j.
Proof. unfold ctr, idm. rewrite Nat.eqb_sym. destruct (i =? j)%nat; [apply conj_1|apply conj_0]. Qed.
Lemma rprod_ext m (H H' : nat -> mat) k : (forall i r c, (i < k)%nat -> (r < m)%nat -> (c < m)%nat -> H i r c = H' i r c) ->
  forall r c, (r < m)%nat -> (c < m)%nat -> rprod m H k r c = rprod m H' k r c.
Proof. induction k as [|k IH]; intros HH r c Hr Hc; cbn [rprod]; auto. apply mmul_ext; intros l Hl; [apply HH; auto|apply IH; auto]. Qed.
Lemma ctr_mprod m H k i j : (i < m)%nat -> (j < m)%nat -> ctr (mprod m H k) i j = rprod m (fun l => ctr (H l)) k i j.
Proof.
  revert i j. induction k as [|k IH]; intros i j Hi Hj; cbn [mprod rprod]; [apply ctr_idm|]. rewrite ctr_mmul. apply mmul_ext; auto.
Qed.
Lemma ctr_rprod m H k i j : (i < m)%nat -> (j < m)%nat -> ctr (rprod m H k) i j = mprod m (fun l => ctr (H l)) k i j.
Proof.
  revert i j. induction k as [|k IH]; intros i j Hi Hj; cbn [mprod rprod]; [apply ctr_idm|]. rewrite ctr_mmul. apply mmul_ext; auto.
Qed.
(** the product of the factors from [j] on *)
Fixpoint tprod (m : nat) (H : nat -> mat) (j cnt : nat) : mat := match cnt with O => idm | S c => mmul m (H j) (tprod m H (S j) c) end.
Lemma tprod_app m H j c : forall a b, (a < m)%nat -> (b < m)%nat -> tprod m H j (S c) a b = mmul m (tprod m H j c) (H (j + c)%nat) a b.
Proof.
  revert j. induction c as [|c IH]; intros j a b Ha Hb.
  - cbn [tprod]. rewrite mmul_id_r, mmul_id_l by auto. do 2 f_equal; lia.
  - cbn [tprod]. transitivity (mmul m (H j) (mmul m (tprod m H (S j) c) (H (S j + c)%nat)) a b).
    + apply mmul_ext; auto. intros l Hl. apply (IH (S j)); auto.
    + rewrite mmul_assoc. replace (S j + c)%nat with (j + S c)%nat by lia. auto.
Qed.
Lemma mprod_tprod m H k a b : (a < m)%nat -> (b < m)%nat -> mprod m H k a b = tprod m H 0 k a b.
Proof.
  revert a b. induction k as [|k IH]; intros a b Ha Hb; [auto|]. rewrite tprod_app by auto. cbn [mprod]. apply mmul_ext; auto.
Qed.
Fixpoint tsprod (m : nat) (H : nat -> mat) (j cnt : nat) : mat := match cnt with O => idm | S c => mmul m (tsprod m H (S j) c) (H j) end.
Lemma tsprod_app m H j c : forall a b, (a < m)%nat -> (b < m)%nat -> tsprod m H j (S c) a b = mmul m (H (j + c)%nat) (tsprod m H j c) a b.
Proof.
  revert j. induction c as [|c IH]; intros j a b Ha Hb.
  - cbn [tsprod]. rewrite mmul_id_r, mmul_id_l by auto. do 2 f_equal; lia.
  - cbn [tsprod]. transitivity (mmul m (mmul m (H (S j + c)%nat) (tsprod m H (S j) c)) (H j) a b).
    + apply mmul_ext; auto. intros l Hl. apply (IH (S j)); auto.
    + rewrite <- mmul_assoc. replace (S j + c)%nat with (j + S c)%nat by lia. auto.
Qed.
Lemma rprod_tsprod m H k a b : (a < m)%nat -> (b < m)%nat -> rprod m H k a b = tsprod m H 0 k a b.
Proof.
  revert a b. induction k as [|k IH]; intros a b Ha Hb; [auto|]. rewrite tsprod_app by auto. cbn [rprod]. apply mmul_ext; auto.
Qed.
Lemma opm_ext n trans (A B : mat) : (forall a b, (a < n)%nat -> (b < n)%nat -> A a b = B a b) -> forall a b, (a < n)%nat -> (b < n)%nat -> opm trans A a b = opm trans B a b.
Proof. intros H a b Ha Hb. destruct trans; cbn; rewrite H by auto; auto. Qed.
Lemma qof_ext d sm nq (V V' : mat) (tau tau' : nat -> T) k : (forall i r, (i < k)%nat -> (r < nq)%nat -> match sm with Columnwise => V r i = V' r i | Rowwise => V i r = V' i r end) ->
  (forall i, (i < k)%nat -> tau i = tau' i) -> forall a b, (a < nq)%nat -> (b < nq)%nat -> qof d sm nq V tau k a b = qof d sm nq V' tau' k a b.
Proof.
  intros HV Ht a b Ha Hb.
  assert (R : forall i r c, (i < k)%nat -> (r < nq)%nat -> (c < nq)%nat -> refl (tau i) (rvec d sm nq k V i) r c = refl (tau' i) (rvec d sm nq k V' i) r c).
  { intros i r c Hi Hr Hc. unfold refl. rewrite Ht by auto.
    assert (K : forall x, (x < nq)%nat -> rvec d sm nq k V i x = rvec d sm nq k V' i x).
    { intros x Hx. unfold rvec. destruct (_ =? _)%nat; auto. match goal with |- (if ?c then _ else _) = _ => destruct c end; auto. specialize (HV i x Hi Hx). destruct sm; rewrite HV; auto. }
    rewrite !K by auto. auto. }
  unfold qof. destruct sm; [|unfold ctr; f_equal]; destruct d; cbn [hprod]; (apply mprod_ext || apply rprod_ext); auto.
Qed.
End P.

(** ** unmq_level2 *)
Section U.
Context {E : Env} {FL : FieldLaws E} {CL : ConjLaws E} {XL : CplxLaws E}.
Add Field Tf2 : fth.
Variables (side : side_t) (trans : op_t) (dir : direction_t) (sm : storev_t) (V tau C : view) (work : lmat) (s : state).
Let m := nr C. Let n := nc C. Let k := nr tau. Let nQ := sel side m n.
Hypothesis Ht : match trans with NoTrans | ConjTrans => True | Trans => cplx = false | Conj => False end.
Hypothesis HV : match sm with Columnwise => nc V = k /\ nr V = nQ | Rowwise => nr V = k /\ nc V = nQ end.
Hypothesis Htau : nc tau = 1%nat.
Hypothesis Hk : (k <= nQ)%nat.
Hypothesis HI : vinj C.
Hypothesis HVC : disj V C.
Hypothesis HtC : disj tau C.
Hypothesis W0 : (nQ <= 1 \/ sel side n m = 0 \/ wk_ok work (sel side n m))%nat.
Hypothesis W1 : disj (lview work) V.
Hypothesis W2 : disj (lview work) tau.
Hypothesis W3 : disj (lview work) C.

Definition ucj : bool := match sm, trans with Columnwise, NoTrans => false | Columnwise, _ => true | Rowwise, NoTrans => true | Rowwise, _ => false end.
Definition uH (i : nat) : mat := refl (vval tau s i) (rvec dir sm nQ k (val V s) i).
Definition uG (i : nat) : mat := if ucj then ctr (uH i) else uH i.
Definition ulast : mat := match dir, ucj with Forward, true | Backward, false => rprod nQ uG k | _, _ => mprod nQ uG k end.

Lemma ulast_ok i j : (i < nQ)%nat -> (j < nQ)%nat -> ulast i j = opm trans (qof dir sm nQ (val V s) (vval tau s) k) i j.
Proof.
  intros Hi Hj. assert (HT : forall (X : mat), trans = Trans -> X j i = ctr X i j).
  { intros X e. unfold ctr. rewrite e in Ht. rewrite real_type by auto. auto. }
  transitivity (if ucj then ctr (hprod dir nQ uH k) i j else hprod dir nQ uH k i j).
  - unfold ulast, hprod, uG. destruct dir, ucj; auto; symmetry; [apply ctr_mprod|apply ctr_rprod]; auto.
  - unfold qof, ucj. cbv zeta. change (fun i => refl (vval tau s i) (rvec dir sm nQ k (val V s) i)) with uH. set (P := hprod dir nQ uH k).
    assert (HC : conj (ctr P j i) = P i j) by (unfold ctr; apply conj_conj).
    destruct sm, trans; try contradiction; cbn [opm]; auto; rewrite (HT _ eq_refl); auto.
Qed.

Definition uact (G F : mat) : mat := match side with Left => mmul nQ G F | Right => mmul nQ F G end.
Lemma uact_ext G G' F F' i j : (i < m)%nat -> (j < n)%nat -> (forall a b, (a < nQ)%nat -> (b < nQ)%nat -> G a b = G' a b) -> (forall a b, (a < m)%nat -> (b < n)%nat -> F a b = F' a b) ->
  uact G F i j = uact G' F' i j.
Proof. intros Hi Hj HG HF. unfold uact, nQ in *. destruct side; cbn [sel] in *; apply mmul_ext; auto. Qed.

Lemma rvec_emb i : (i < k)%nat -> let a := match dir with Forward => i | Backward => 0%nat end in let b := match dir with Forward => nQ | Backward => (nQ + i + 1 - k)%nat end in
  forall r v, (forall l, (l < b - a)%nat -> v l = match sm with Columnwise => val V s (a + l) i | Rowwise => val V s i (a + l) end) ->
  (r < nQ)%nat -> embw a b (hvec dir (b - a) (hst sm v)) r = rvec dir sm nQ k (val V s) i r.
Proof.
  intros Hik a b r v Hv Hr. unfold embw, hvec, rvec, a, b in *. clear a b. destruct dir; cbn [hpos rpos].
  - destruct (Nat.leb_spec i r); cbn [andb].
    + destruct (Nat.ltb_spec r nQ); [|lia]. destruct (Nat.eqb_spec (r - i) 0), (Nat.eqb_spec r i); try lia; auto.
      destruct (Nat.ltb_spec r i); [lia|]. destruct sm; cbn [hst]; rewrite Hv by lia; [|f_equal]; f_equal; lia.
    + destruct (Nat.eqb_spec r i); [lia|]. destruct (Nat.ltb_spec r i); [auto|lia].
  - cbn [Nat.leb andb]. destruct (Nat.ltb_spec r (nQ + i + 1 - k)).
    + destruct (Nat.eqb_spec (r - 0) (nQ + i + 1 - k - 0 - 1)), (Nat.eqb_spec r (nQ - k + i)); try lia; auto.
      destruct (Nat.ltb_spec (nQ - k + i) r); [lia|]. destruct sm; cbn [hst]; rewrite Hv by lia; [|f_equal]; f_equal; lia.
    + destruct (Nat.eqb_spec r (nQ - k + i)); [lia|]. destruct (Nat.ltb_spec (nQ - k + i) r); [auto|lia].
Qed.

Lemma unmq_step_run i F s1 : (i < k)%nat -> effw C F (inview (lview work)) s s1 ->
  wp (unmq_step side trans dir sm V tau C work i) (fun _ s2 => effw C (uact (uG i) F) (inview (lview work)) s s2) noX s1.
Proof.
  intros Hi (E1 & E2 & E3). unfold unmq_step. cbv zeta. fold m n k nQ.
  set (a := match dir with Forward => i | Backward => 0%nat end). set (b := match dir with Forward => nQ | Backward => (nQ + i + 1 - k)%nat end).
  assert (Hab : (a <= b <= nQ)%nat) by (unfold a, b; destruct dir; lia).
  apply wp_bind. assert (Hr : rrange dir nQ k i = ret (a, b)).
  { unfold rrange, a, b. destruct dir; auto. destruct (Nat.leb_spec k (nQ + i + 1)); [reflexivity|lia]. }
  rewrite Hr. apply wp_ret. cbn [fst snd]. apply wp_bind.
  set (v := match sm with Columnwise => vcol V a b i | Rowwise => vrow V i a b end).
  assert (Hv : rslice sm V a b i = ret v).
  { unfold rslice, v, slcol, slrow. destruct sm; destruct HV as [-> ->]. 
    - destruct (Nat.leb_spec a b), (Nat.leb_spec b nQ), (Nat.ltb_spec i k); try lia; reflexivity.
    - destruct (Nat.leb_spec a b), (Nat.leb_spec b nQ), (Nat.ltb_spec i k); try lia; reflexivity. }
  rewrite Hv. apply wp_ret.
  assert (Hvv : isvec v (b - a)) by (unfold v; destruct sm; split; reflexivity).
  assert (Hvin : forall l, inview v l -> inview V l).
  { intros l. unfold v. destruct sm; [apply inview_vcol|apply inview_vrow]; lia. }
  assert (Hval : forall s', (forall p q, (p < nr V)%nat -> (q < nc V)%nat -> val V s' p q = val V s p q) -> forall l, (l < b - a)%nat -> vval v s' l = match sm with Columnwise => val V s (a + l) i | Rowwise => val V s i (a + l) end).
  { intros s' HH l Hl. unfold v. destruct sm; destruct HV as [V1 V2]; [apply (HH (a + l)%nat i)|apply (HH i (a + l)%nat)]; lia. }
  assert (HV1 : forall p q, (p < nr V)%nat -> (q < nc V)%nat -> val V s1 p q = val V s p q).
  { intros p q Hp Hq. apply E2; intros (p' & q' & Hp' & Hq' & e); [apply (HVC p q p' q')|apply (W1 p' q' p q)]; auto. }
  assert (Ht1 : forall p, (p < k)%nat -> vval tau s1 p = vval tau s p).
  { intros p Hp. apply E2; intros (p' & q' & Hp' & Hq' & e); [apply (HtC p 0%nat p' q')|apply (W2 p' q' p 0%nat)]; auto; lia. }
  set (t := match sm with Columnwise => match trans with ConjTrans => conj (vval tau s i) | _ => vval tau s i end | Rowwise => match trans with NoTrans => conj (vval tau s i) | _ => vval tau s i end end).
  assert (HG : forall r c, (r < nQ)%nat -> (c < nQ)%nat -> refl t (embw a b (hvec dir (b - a) (hst sm (vval v s1)))) r c = uG i r c).
  { intros r c Hr' Hc'. unfold refl. rewrite !(rvec_emb i Hi) by (auto; exact (Hval s1 HV1)).
    transitivity (refl t (rvec dir sm nQ k (val V s) i) r c); [reflexivity|]. unfold uG, uH, ucj, t. destruct sm, trans; try contradiction; try reflexivity; try (symmetry; apply ctr_refl).
    symmetry. rewrite ctr_refl. rewrite real_type by auto. reflexivity. }
  assert (HD1 : forall r0 r1 c0 c1, (r1 <= m)%nat -> (c1 <= n)%nat -> disj v (subv C r0 r1 c0 c1)).
  { intros. eapply disj_inc; [exact Hvin| |exact HVC]. intros l. apply inview_subv; auto. }
  assert (HD2 : disj (lview work) v) by (eapply disj_inc; [|exact Hvin|exact W1]; auto).
  assert (Fin : forall s2 (D : mat), effw C D (inview (lview work)) s1 s2 -> (forall p q, (p < m)%nat -> (q < n)%nat -> D p q = uact (uG i) F p q) -> effw C (uact (uG i) F) (inview (lview work)) s s2).
  { intros s2 D (D1 & D2 & D3) HDD. split; [|split; [|congruence]]. - intros p q Hp Hq. rewrite D1 by auto. auto. - intros l Hl Hl'. rewrite D2 by auto. auto. }
  assert (Es := side_cases side). destruct Es as [Es|Es].
  - assert (En : nQ = m) by (unfold nQ; rewrite Es; auto). assert (Em : sel side n m = n) by (rewrite Es; auto). rewrite Em in W0. unfold uact in Fin |- *. rewrite Es in Fin |- *.
    apply wp_bind, wp_slc; [fold m; lia..|]. apply wp_bind. unfold rdv. apply wp_rd; [fold k; lia|lia|]. change (val tau s1 i 0) with (vval tau s1 i). rewrite Ht1 by auto. fold t.
    eapply wp_conseq; [apply (larf_part_l dir sm v t C work s1 a b 0 n)| |auto]; auto; try (fold m n; lia).
    + apply HD1; lia.
    + rewrite Nat.sub_0_r. destruct W0 as [|[|]]; auto. left. lia.
    + intros r s2 HL. cbv beta in HL. eapply Fin; [exact HL|]. intros p q Hp Hq. cbv beta. destruct (Nat.leb_spec 0 q), (Nat.ltb_spec q n); try lia. cbn [andb]. fold m. rewrite <- En. apply mmul_ext; intros l Hl; [apply HG; auto; lia|apply E1; fold m n; lia].
  - assert (En : nQ = n) by (unfold nQ; rewrite Es; auto). assert (Em : sel side n m = m) by (rewrite Es; auto). rewrite Em in W0. unfold uact in Fin |- *. rewrite Es in Fin |- *.
    apply wp_bind, wp_slc; [fold m n; lia..|]. apply wp_bind. unfold rdv. apply wp_rd; [fold k; lia|lia|]. change (val tau s1 i 0) with (vval tau s1 i). rewrite Ht1 by auto. fold t.
    eapply wp_conseq; [apply (larf_part_r dir sm v t C work s1 a b 0 m)| |auto]; auto; try (fold m n; lia).
    + apply HD1; lia.
    + rewrite Nat.sub_0_r. destruct W0 as [|[|]]; auto. left. lia.
    + intros r s2 HL. cbv beta in HL. eapply Fin; [exact HL|]. intros p q Hp Hq. cbv beta. destruct (Nat.leb_spec 0 p), (Nat.ltb_spec p m); try lia. cbn [andb]. fold n. rewrite <- En. apply mmul_ext; intros l Hl; [apply E1; fold m n; lia|apply HG; auto; lia].
Qed.

Lemma unmq_level2_work_run : runs (unmq_level2_work side trans dir sm V tau C work) s (fun r s' => r = 0%Z /\
  effw C (uact (opm trans (qof dir sm nQ (val V s) (vval tau s) k)) (val C s)) (inview (lview work)) s s').
Proof.
  unfold runs, unmq_level2_work. cbv zeta. fold m n k nQ. apply wp_bind, wp_check.
  { destruct trans; auto; try contradiction. rewrite Ht. auto. }
  apply wp_bind, wp_check. { destruct sm; destruct HV as [-> ->]; rewrite !Nat.eqb_refl; auto. }
  assert (Fin : forall s' D, effw C D (inview (lview work)) s s' -> (forall p q, (p < m)%nat -> (q < n)%nat -> D p q = uact ulast (val C s) p q) ->
    effw C (uact (opm trans (qof dir sm nQ (val V s) (vval tau s) k)) (val C s)) (inview (lview work)) s s').
  { intros s' D HD HDD. eapply effw_ext; [exact HD|]. intros p q Hp Hq. rewrite HDD by auto. apply uact_ext; auto. intros. apply ulast_ok; auto. }
  destruct ((m <=? 0) || (n <=? 0) || (k <=? 0))%bool eqn:Eq.
  { apply wp_ret. split; auto. eapply Fin; [apply effw_refl|]. intros p q Hp Hq. assert (Hk0 : k = 0%nat).
    { destruct (Nat.leb_spec m 0), (Nat.leb_spec n 0), (Nat.leb_spec k 0); try lia; discriminate. }
    unfold uact, ulast. rewrite Hk0. replace (match dir with | Forward => if ucj then rprod nQ uG 0 else mprod nQ uG 0 | Backward => if ucj then mprod nQ uG 0 else rprod nQ uG 0 end) with (@idm E) by (destruct dir, ucj; reflexivity).
    destruct (side_cases side) as [Es|Es]; unfold nQ; rewrite Es; cbn [sel]; symmetry; [apply mmul_id_l|apply mmul_id_r]; auto. }
  assert (Hpos : (match sm with Columnwise => if match dir with Backward => true | Forward => false end then match trans with NoTrans => true | _ => false end else negb match trans with NoTrans => true | _ => false end
     | Rowwise => if negb match dir with Backward => true | Forward => false end then match trans with NoTrans => true | _ => false end else negb match trans with NoTrans => true | _ => false end end)
     = match dir, ucj with Forward, true | Backward, false => true | _, _ => false end).
  { unfold ucj. destruct sm, dir, trans; reflexivity. }
  rewrite Hpos. clear Hpos. apply wp_bind.
  assert (HU : forall (D : nat -> mat) s', (forall p q, (p < m)%nat -> (q < n)%nat -> D 0%nat p q = val C s p q) ->
     (forall i p q, (i < k)%nat -> (p < m)%nat -> (q < n)%nat -> uact (uG i) (D i) p q = D (S i) p q) -> (forall p q, (p < m)%nat -> (q < n)%nat -> D k p q = uact ulast (val C s) p q) -> s' = s ->
     wp (for_ i in 0 upto k do unmq_step side trans dir sm V tau C work i) (fun _ s' => wp (ret 0%Z) (fun r s' => r = 0%Z /\ effw C (uact (opm trans (qof dir sm nQ (val V s) (vval tau s) k)) (val C s)) (inview (lview work)) s s') noX s') noX s').
  { intros D s' D0 DS DK ->. apply (wp_forup (fun i s' => effw C (D i) (inview (lview work)) s s')); [lia| | |].
    - eapply effw_ext; [apply effw_refl|]. intros; symmetry; auto.
    - intros i s' Hi He. eapply wp_conseq; [apply (unmq_step_run i (D i)); auto; lia| |auto]. intros r s2 HL. cbv beta in HL. eapply effw_ext; [exact HL|]. intros; apply DS; auto; lia.
    - intros s' He. apply wp_ret. split; auto. eapply Fin; eauto. }
  assert (HN : forall (D : nat -> mat) s', (forall p q, (p < m)%nat -> (q < n)%nat -> D k p q = val C s p q) ->
     (forall i p q, (i < k)%nat -> (p < m)%nat -> (q < n)%nat -> uact (uG i) (D (S i)) p q = D i p q) -> (forall p q, (p < m)%nat -> (q < n)%nat -> D 0%nat p q = uact ulast (val C s) p q) -> s' = s ->
     wp (ford_ i in 0 upto k do unmq_step side trans dir sm V tau C work i) (fun _ s' => wp (ret 0%Z) (fun r s' => r = 0%Z /\ effw C (uact (opm trans (qof dir sm nQ (val V s) (vval tau s) k)) (val C s)) (inview (lview work)) s s') noX s') noX s').
  { intros D s' D0 DS DK ->. apply (wp_fordown (fun i s' => effw C (D i) (inview (lview work)) s s')); [lia| | |].
    - eapply effw_ext; [apply effw_refl|]. intros; symmetry; auto.
    - intros i s' Hi He. eapply wp_conseq; [apply (unmq_step_run i (D (S i))); auto; lia| |auto]. intros r s2 HL. cbv beta in HL. eapply effw_ext; [exact HL|]. intros; apply DS; auto; lia.
    - intros s' He. apply wp_ret. split; auto. eapply Fin; eauto. }
  set (pl := match dir, ucj with Forward, true | Backward, false => true | _, _ => false end).
  assert (Hl : ulast = if pl then rprod nQ uG k else mprod nQ uG k) by (unfold ulast, pl; destruct dir, ucj; reflexivity).
  assert (Es := side_cases side). clearbody pl. destruct Es as [Es|Es].
  - assert (En : nQ = m) by (unfold nQ; rewrite Es; auto). replace (match side with Left => pl | Right => negb pl end) with pl by (rewrite Es; auto).
    assert (EA : forall G F, uact G F = mmul m G F) by (intros; unfold uact; rewrite Es, En; auto).
    rewrite En in Hl. destruct pl.
    + apply (HU (fun i => mmul m (rprod m uG i) (val C s))); auto; intros; rewrite ?EA.
      * cbn [rprod]. apply mmul_id_l; auto.
      * cbn [rprod]. rewrite <- mmul_assoc. auto.
      * rewrite Hl. auto.
    + apply (HN (fun i => mmul m (tprod m uG i (k - i)) (val C s))); auto.
      * intros. rewrite Nat.sub_diag. cbn [tprod]. apply mmul_id_l; auto.
      * intros i p q Hi Hp Hq. rewrite EA. replace (k - i)%nat with (S (k - S i)) by lia. cbn [tprod]. rewrite <- mmul_assoc. auto.
      * intros. rewrite EA, Hl, Nat.sub_0_r. apply mmul_ext; auto. intros. symmetry. apply mprod_tprod; auto.
  - assert (En : nQ = n) by (unfold nQ; rewrite Es; auto). replace (match side with Left => pl | Right => negb pl end) with (negb pl) by (rewrite Es; auto).
    assert (EA : forall G F, uact G F = mmul n F G) by (intros; unfold uact; rewrite Es, En; auto).
    rewrite En in Hl. destruct pl; cbn [negb].
    + apply (HN (fun i => mmul n (val C s) (tsprod n uG i (k - i)))); auto.
      * intros. rewrite Nat.sub_diag. cbn [tsprod]. apply mmul_id_r; auto.
      * intros i p q Hi Hp Hq. rewrite EA. replace (k - i)%nat with (S (k - S i)) by lia. cbn [tsprod]. rewrite mmul_assoc. auto.
      * intros. rewrite EA, Hl, Nat.sub_0_r. apply mmul_ext; auto. intros. symmetry. apply rprod_tsprod; auto.
    + apply (HU (fun i => mmul n (val C s) (mprod n uG i))); auto; intros; rewrite ?EA.
      * cbn [mprod]. apply mmul_id_r; auto.
      * cbn [mprod]. rewrite mmul_assoc. auto.
      * rewrite Hl. auto.
Qed.
End U.

(** ** ungq_level2 *)
Section G.
Context {E : Env} {FL : FieldLaws E} {CL : ConjLaws E}.
Add Field Tf3 : fth.

Lemma tprod_col m H j cnt x : (x < m)%nat -> (forall i l, (j <= i < j + cnt)%nat -> (l < m)%nat -> H i l x = idm l x) -> forall l, (l < m)%nat -> tprod m H j cnt l x = idm l x.
Proof.
  revert j. induction cnt as [|cnt IH]; intros j Hx HH l Hl; cbn [tprod]; auto.
  transitivity (mmul m (H j) idm l x); [apply mmul_ext; auto; intros; apply IH; auto; intros; apply HH; lia|]. rewrite mmul_id_r by auto. apply HH; lia.
Qed.
Lemma rprod_col m H cnt x : (x < m)%nat -> (forall i l, (i < cnt)%nat -> (l < m)%nat -> H i l x = idm l x) -> forall l, (l < m)%nat -> rprod m H cnt l x = idm l x.
Proof.
  induction cnt as [|cnt IH]; intros Hx HH l Hl; cbn [rprod]; auto.
  transitivity (mmul m (H cnt) idm l x); [apply mmul_ext; auto; intros; apply IH; auto; intros; apply HH; lia|]. rewrite mmul_id_r by auto. apply HH; lia.
Qed.
Lemma tsprod_row m H j cnt x : (x < m)%nat -> (forall i l, (j <= i < j + cnt)%nat -> (l < m)%nat -> H i x l = idm x l) -> forall l, (l < m)%nat -> tsprod m H j cnt x l = idm x l.
Proof.
  revert j. induction cnt as [|cnt IH]; intros j Hx HH l Hl; cbn [tsprod]; auto.
  transitivity (mmul m idm (H j) x l); [apply mmul_ext; auto; intros; apply IH; auto; intros; apply HH; lia|]. rewrite mmul_id_l by auto. apply HH; lia.
Qed.
Lemma mprod_row m H cnt x : (x < m)%nat -> (forall i l, (i < cnt)%nat -> (l < m)%nat -> H i x l = idm x l) -> forall l, (l < m)%nat -> mprod m H cnt x l = idm x l.
Proof.
  induction cnt as [|cnt IH]; intros Hx HH l Hl; cbn [mprod]; auto.
  transitivity (mmul m idm (H cnt) x l); [apply mmul_ext; auto; intros; apply IH; auto; intros; apply HH; lia|]. rewrite mmul_id_l by auto. apply HH; lia.
Qed.

Variables (A tau : view) (work : lmat) (s : state).
Hypothesis HI : vinj A.
Hypothesis W3 : disj (lview work) A.

Lemma ung_col dir F s1 a b c d0 d1 t z0 z1 : (a < b <= nr A)%nat -> (c < nc A)%nat -> (d0 <= d1 <= nc A)%nat -> (c < d0 \/ d1 <= c)%nat -> (z0 <= z1)%nat ->
  (forall i, (i < nr A)%nat -> ~ (a <= i < b)%nat <-> (z0 <= i < z1)%nat) -> (z1 <= nr A)%nat ->
  (b - a <= 1 \/ d1 - d0 = 0 \/ wk_ok work (d1 - d0))%nat -> effw A F (inview (lview work)) s s1 ->
  let pos := (a + hpos dir (b - a))%nat in let u := embw a b (hvec dir (b - a) (fun r => F (a + r)%nat c)) in
  wp (larf_work Left dir Columnwise (vcol A a b c) t (subv A a b d0 d1) work;; scal (- t) (vcol A a b c);; wr A pos c (1 - t);; for_ i in z0 upto z1 do wr A i c 0)
    (fun _ s2 => effw A (fun i j => if (j =? c)%nat then refl t u i pos else if ((d0 <=? j) && (j <? d1))%nat then mmul (nr A) (refl t u) F i j else F i j) (inview (lview work)) s s2) noX s1.
Proof.
  intros Hab Hc Hd Hcd Hz HZ HZ1 HW He pos u. assert (Hp : (a <= pos < b)%nat) by (unfold pos; destruct dir; cbn; lia). apply wp_bind.
  assert (Hvin : forall l, inview (vcol A a b c) l -> inview A l) by (intros l; apply inview_vcol; lia).
  eapply wp_use; [apply (larf_part_l dir Columnwise (vcol A a b c) t A work s1 a b d0 d1); auto; try lia|].
  - split; reflexivity.
  - intros i j i' j' Hi Hj Hi' Hj' e. cbn in *. apply HI in e; lia.
  - eapply disj_inc; [|exact Hvin|exact W3]; auto.
  - intros r1 s2 HL. cbv beta in HL. set (D := fun i j => if ((d0 <=? j) && (j <? d1))%nat then mmul (nr A) (refl t u) F i j else F i j).
    assert (HD : effw A D (inview (lview work)) s s2).
    { destruct He as (E1 & E2 & E3), HL as (L1 & L2 & L3). split; [|split; [intros; rewrite L2; auto|congruence]]. intros i j Hi Hj. rewrite L1 by auto. unfold D.
      destruct ((d0 <=? j) && (j <? d1))%nat; [|apply E1; auto]. apply mmul_ext; intros l Hl; [|apply E1; auto].
      apply refl_ext; unfold u, embw, hvec; cbn [hst]; [destruct (Nat.leb_spec a i), (Nat.ltb_spec i b)|destruct (Nat.leb_spec a l), (Nat.ltb_spec l b)]; cbn [andb]; auto; destruct (_ =? _)%nat; auto; apply E1; lia. }
    clear HL. assert (HDc : forall i, D i c = F i c). { intros i. unfold D. destruct (Nat.leb_spec d0 c), (Nat.ltb_spec c d1); try lia; auto. }
    apply wp_bind. eapply wp_use; [apply (scal_run (- t) (vcol A a b c) s2); [reflexivity|apply vinj_vcol; auto; lia]|].
    intros r2 s3 HS. cbv beta in HS. apply veff_eff in HS; [|reflexivity]. assert (HS' := eff_vcol A a b c _ _ _ _ _ HI ltac:(lia) ltac:(lia) (effw_here _ _ _ _ _ HD) HS). assert (HD3 := effw_eff _ _ _ _ _ _ _ HD HS'). clear HS'.
    assert (Hvc : forall i, (a <= i < b)%nat -> vval (vcol A a b c) s2 (i - a) = F i c).
    { intros i Hi. unfold vval, val. cbn [ad vcol]. replace (a + (i - a))%nat with i by lia. destruct HD as (D1 & _). rewrite <- HDc. apply D1; lia. }
    apply wp_bind. eapply wp_wr_w; [exact HI|exact HD3|lia|lia|]. intros s4 _ HD4. clear HD3.
    apply (wp_forup (fun k s' => effw A (fun i j => if ((j =? c) && (z0 <=? i) && (i <? k))%nat then 0 else fupd (fun i j => if inbox a b c (S c) i j then vval (vcol A a b c) s2 (i - a) * - t else D i j) pos c (1 - t) i j) (inview (lview work)) s s')); [lia| | |].
    + eapply effw_ext; [exact HD4|]. intros i j Hi Hj. cbv beta. destruct (Nat.leb_spec z0 i), (Nat.ltb_spec i z0); try lia; rewrite ?andb_false_r; auto. all: destruct (j =? c)%nat; auto.
    + intros i s5 Hi He5. eapply wp_wr_w; [exact HI|exact He5|lia|lia|]. intros s6 _ He6. eapply effw_ext; [exact He6|]. intros i' j' Hi' Hj'. unfold fupd.
      destruct (Nat.eqb_spec i' i), (Nat.eqb_spec j' c), (Nat.leb_spec z0 i'), (Nat.ltb_spec i' i), (Nat.ltb_spec i' (S i)); cbn [andb]; try lia; auto.
    + intros s5 He5. eapply effw_ext; [exact He5|]. intros i j Hi Hj. cbv beta. unfold fupd.
      destruct (Nat.eqb_spec j c) as [->|]; cbn [andb].
      2:{ rewrite andb_false_r. destruct (inbox_spec a b c (S c) i j); [lia|]. reflexivity. }
      assert (Hup : u pos = 1). { unfold u. rewrite embw_in by lia. unfold hvec. replace (pos - a)%nat with (hpos dir (b - a)) by lia. rewrite Nat.eqb_refl. auto. }
      assert (HZi := HZ i Hi). unfold refl. rewrite Hup, conj_1.
      destruct (Nat.leb_spec z0 i), (Nat.ltb_spec i z1); cbn [andb].
      1:{ unfold u. rewrite embw_out by tauto. unfold idm. destruct (Nat.eqb_spec i pos); [lia|]. ring. }
      all: assert (Hi2 : (a <= i < b)%nat) by lia; destruct (Nat.eqb_spec i pos) as [->|]; cbn [andb]; [rewrite Hup; unfold idm; rewrite Nat.eqb_refl; ring|].
      all: destruct (inbox_spec a b c (S c) i c); [|lia]; rewrite Hvc by lia; unfold idm; destruct (Nat.eqb_spec i pos); [lia|]; unfold u; rewrite embw_in by lia; unfold hvec;
        destruct (Nat.eqb_spec (i - a) (hpos dir (b - a))); [lia|]; replace (a + (i - a))%nat with i by lia; ring.
Qed.

Lemma ung_row dir F s1 a b c d0 d1 t z0 z1 : (a < b <= nc A)%nat -> (c < nr A)%nat -> (d0 <= d1 <= nr A)%nat -> (c < d0 \/ d1 <= c)%nat -> (z0 <= z1)%nat ->
  (forall i, (i < nc A)%nat -> ~ (a <= i < b)%nat <-> (z0 <= i < z1)%nat) -> (z1 <= nc A)%nat ->
  (b - a <= 1 \/ d1 - d0 = 0 \/ wk_ok work (d1 - d0))%nat -> effw A F (inview (lview work)) s s1 ->
  let pos := (a + hpos dir (b - a))%nat in let u := embw a b (hvec dir (b - a) (fun r => conj (F c (a + r)%nat))) in
  wp (larf_work Right dir Rowwise (vrow A c a b) t (subv A d0 d1 a b) work;; scal (- t) (vrow A c a b);; wr A c pos (1 - t);; for_ i in z0 upto z1 do wr A c i 0)
    (fun _ s2 => effw A (fun i j => if (i =? c)%nat then refl t u pos j else if ((d0 <=? i) && (i <? d1))%nat then mmul (nc A) F (refl t u) i j else F i j) (inview (lview work)) s s2) noX s1.
Proof.
  intros Hab Hc Hd Hcd Hz HZ HZ1 HW He pos u. assert (Hp : (a <= pos < b)%nat) by (unfold pos; destruct dir; cbn; lia). apply wp_bind.
  assert (Hvin : forall l, inview (vrow A c a b) l -> inview A l) by (intros l; apply inview_vrow; lia).
  eapply wp_use; [apply (larf_part_r dir Rowwise (vrow A c a b) t A work s1 a b d0 d1); auto; try lia|].
  - split; reflexivity.
  - intros i j i' j' Hi Hj Hi' Hj' e. cbn in *. apply HI in e; lia.
  - eapply disj_inc; [|exact Hvin|exact W3]; auto.
  - intros r1 s2 HL. cbv beta in HL. set (D := fun i j => if ((d0 <=? i) && (i <? d1))%nat then mmul (nc A) F (refl t u) i j else F i j).
    assert (HD : effw A D (inview (lview work)) s s2).
    { destruct He as (E1 & E2 & E3), HL as (L1 & L2 & L3). split; [|split; [intros; rewrite L2; auto|congruence]]. intros i j Hi Hj. rewrite L1 by auto. unfold D.
      destruct ((d0 <=? i) && (i <? d1))%nat; [|apply E1; auto]. apply mmul_ext; intros l Hl; [apply E1; auto|].
      apply refl_ext; unfold u, embw, hvec; cbn [hst]; [destruct (Nat.leb_spec a l), (Nat.ltb_spec l b)|destruct (Nat.leb_spec a j), (Nat.ltb_spec j b)]; cbn [andb]; auto; destruct (_ =? _)%nat; auto; f_equal; apply E1; lia. }
    clear HL. assert (HDc : forall i, D c i = F c i). { intros i. unfold D. destruct (Nat.leb_spec d0 c), (Nat.ltb_spec c d1); try lia; auto. }
    apply wp_bind. eapply wp_use; [apply (scal_run (- t) (vrow A c a b) s2); [reflexivity|apply vinj_vrow; auto; lia]|].
    intros r2 s3 HS. cbv beta in HS. apply veff_eff in HS; [|reflexivity]. assert (HS' := eff_vrow A c a b _ _ _ _ _ HI ltac:(lia) ltac:(lia) (effw_here _ _ _ _ _ HD) HS). assert (HD3 := effw_eff _ _ _ _ _ _ _ HD HS'). clear HS'.
    assert (Hvc : forall i, (a <= i < b)%nat -> vval (vrow A c a b) s2 (i - a) = F c i).
    { intros i Hi. unfold vval, val. cbn [ad vrow]. replace (a + (i - a))%nat with i by lia. destruct HD as (D1 & _). rewrite <- HDc. apply D1; lia. }
    apply wp_bind. eapply wp_wr_w; [exact HI|exact HD3|lia|lia|]. intros s4 _ HD4. clear HD3.
    apply (wp_forup (fun k s' => effw A (fun i j => if ((i =? c) && (z0 <=? j) && (j <? k))%nat then 0 else fupd (fun i j => if inbox c (S c) a b i j then vval (vrow A c a b) s2 (j - a) * - t else D i j) c pos (1 - t) i j) (inview (lview work)) s s')); [lia| | |].
    + eapply effw_ext; [exact HD4|]. intros j i Hj Hi. cbv beta. destruct (Nat.leb_spec z0 i), (Nat.ltb_spec i z0); try lia; rewrite ?andb_false_r; auto. all: destruct (j =? c)%nat; auto.
    + intros i s5 Hi He5. eapply wp_wr_w; [exact HI|exact He5|lia|lia|]. intros s6 _ He6. eapply effw_ext; [exact He6|]. intros j' i' Hj' Hi'. unfold fupd.
      destruct (Nat.eqb_spec i' i), (Nat.eqb_spec j' c), (Nat.leb_spec z0 i'), (Nat.ltb_spec i' i), (Nat.ltb_spec i' (S i)); cbn [andb]; try lia; auto.
    + intros s5 He5. eapply effw_ext; [exact He5|]. intros j i Hj Hi. cbv beta. unfold fupd.
      destruct (Nat.eqb_spec j c) as [->|]; cbn [andb].
      2:{ destruct (inbox_spec c (S c) a b j i); [lia|]. reflexivity. }
      assert (Hup : u pos = 1). { unfold u. rewrite embw_in by lia. unfold hvec. replace (pos - a)%nat with (hpos dir (b - a)) by lia. rewrite Nat.eqb_refl. auto. }
      assert (HZi := HZ i Hi). unfold refl. rewrite Hup.
      destruct (Nat.leb_spec z0 i), (Nat.ltb_spec i z1); cbn [andb].
      1:{ unfold u. rewrite embw_out by tauto. unfold idm. destruct (Nat.eqb_spec pos i); [lia|]. rewrite conj_0. ring. }
      all: assert (Hi2 : (a <= i < b)%nat) by lia; destruct (Nat.eqb_spec i pos) as [->|]; cbn [andb]; [rewrite Hup, conj_1; unfold idm; rewrite Nat.eqb_refl; ring|].
      all: destruct (inbox_spec c (S c) a b c i); [|lia]; rewrite Hvc by lia; unfold idm; destruct (Nat.eqb_spec pos i); [lia|]; unfold u; rewrite embw_in by lia; unfold hvec;
        destruct (Nat.eqb_spec (i - a) (hpos dir (b - a))); [lia|]; replace (a + (i - a))%nat with i by lia; rewrite conj_conj; ring.
Qed.

Lemma laset_part a b c d al be F s1 : (a <= b <= nr A)%nat -> (c <= d <= nc A)%nat -> effw A F (inview (lview work)) s s1 ->
  wp (laset General al be (subv A a b c d)) (fun _ s2 => effw A (fun i j => if inbox a b c d i j then (if (i - a =? j - c)%nat then be else al) else F i j) (inview (lview work)) s s2) noX s1.
Proof.
  intros Hab Hcd He. eapply wp_conseq; [apply (laset_run General al be (subv A a b c d) s1); [reflexivity|apply vinj_subv; auto; lia]| |auto].
  intros r s2 (H1 & H2 & H3). cbn [nr nc subv] in *. assert (K : eff (subv A a b c d) (fun i j => if (i =? j)%nat then be else al) s1 s2).
  { split; [intros; apply H1; cbn; auto|split; auto]. intros l Hl. apply H2. intros (p & q & Hp & Hq & _ & e). apply Hl. exists p, q. auto. }
  assert (K' := eff_sub A a b c d _ _ _ _ _ HI ltac:(lia) ltac:(lia) (effw_here _ _ _ _ _ He) K). eapply effw_eff; eauto.
Qed.

Hypothesis Htau : nc tau = 1%nat.
Hypothesis HtA : disj tau A.
Hypothesis W2 : disj (lview work) tau.
Hypothesis Wl : lok work.
Hypothesis Wc : contiguous work = true.
Let m := nr A. Let n := nc A. Let k := nr tau.

Definition gvec (dir : direction_t) (sm : storev_t) : mat := fun r i =>
  match sm, dir with Columnwise, Backward => val A s r (n - k + i)%nat | Rowwise, Backward => val A s (m - k + r)%nat i | _, _ => val A s r i end.

Lemma tau_at F s1 i : effw A F (inview (lview work)) s s1 -> (i < k)%nat -> vval tau s1 i = vval tau s i.
Proof.
  intros (E1 & E2 & E3) Hi. apply E2; intros (p & q & Hp & Hq & e); [apply (HtA i 0%nat p q)|apply (W2 p q i 0%nat)]; auto; lia.
Qed.
Lemma wk_any q : (q <= lm work * ln work)%nat -> wk_ok work q.
Proof. apply wk_ok_contig; auto. Qed.

Lemma ungq_cf : (k <= n <= m)%nat -> (m <= 1 \/ n <= 1 \/ n - 1 <= lm work * ln work)%nat ->
  runs (ungq_level2_work Forward Columnwise A tau work) s (fun r s' => r = 0%Z /\
    effw A (fun i j => qof Forward Columnwise m (gvec Forward Columnwise) (vval tau s) k i j) (inview (lview work)) s s').
Proof.
  intros Hkn HW. unfold runs, ungq_level2_work. cbv zeta. fold m n k. apply wp_bind, wp_check.
  { destruct (Nat.leb_spec n m), (Nat.leb_spec k n); auto; lia. }
  destruct ((m <=? 0) || (n <=? 0))%bool eqn:Eq.
  { apply wp_ret. split; auto. apply orb_true_iff in Eq. rewrite !Nat.leb_le in Eq. eapply effw_ext; [apply effw_refl|]. intros i0 j0 Hi0 Hj0; unfold m, n in *; lia. }
  set (H := fun i => refl (vval tau s i) (rvec Forward Columnwise m k (val A s) i)).
  set (D := fun j i c => if (j <=? c)%nat then tprod m H j (k - j) i c else val A s i c).
  assert (HW' : forall j, (j < k)%nat -> (m - j <= 1 \/ n - (j + 1) = 0 \/ wk_ok work (n - (j + 1)))%nat).
  { intros j Hj. destruct HW as [|[|]]; [lia|lia|]. right; right. apply wk_any. lia. }
  apply wp_bind. apply wp_bind, wp_slc; [fold m n; lia..|]. apply wp_bind, wp_slc; [fold m n; lia..|].
  apply wp_bind. eapply wp_use; [apply (laset_part 0 k k n 0 0 (val A s)); [fold m n; lia..|apply effw_refl]|]. intros r1 s1 He1. cbv beta in He1.
  apply wp_bind. eapply wp_use; [eapply (laset_part k m k n 0 1); [fold m n; lia..|exact He1]|]. clear s1 He1 r1. intros r1 s1 He1. cbv beta in He1.
  apply (wp_fordown (fun j s' => effw A (D j) (inview (lview work)) s s')); [lia| | |].
  - eapply effw_ext; [exact He1|]. intros i j Hi Hj. fold m n in Hi, Hj. unfold D. rewrite Nat.sub_diag. cbn [tprod]. cbv beta.
    destruct (inbox_spec k m k n i j); [|destruct (inbox_spec 0 k k n i j)]; destruct (Nat.leb_spec k j); try lia; auto; unfold idm.
    + destruct (Nat.eqb_spec (i - k) (j - k)), (Nat.eqb_spec i j); auto; lia.
    + destruct (i - 0 =? j - k)%nat; destruct (Nat.eqb_spec i j); auto; lia.
  - clear s1 He1. intros j s1 Hj He. apply wp_bind. unfold rdv. apply wp_rd; [fold k; lia|lia|]. change (val tau s1 j 0) with (vval tau s1 j). rewrite (tau_at _ _ _ He) by lia.
    apply wp_bind, wp_slcol; [fold m n; lia..|]. apply wp_bind, wp_slc; [fold m n; lia..|].
    assert (Hu : forall r, (r < m)%nat -> embw j m (hvec Forward (m - j) (fun l => D (S j) (j + l)%nat j)) r = rvec Forward Columnwise m k (val A s) j r).
    { intros r Hr. unfold embw, hvec, rvec, D. cbn [hpos rpos]. destruct (Nat.leb_spec (S j) j); [lia|]. destruct (Nat.leb_spec j r), (Nat.ltb_spec r m), (Nat.eqb_spec (r - j) 0), (Nat.eqb_spec r j), (Nat.ltb_spec r j); try lia; cbn [andb]; auto. f_equal; lia. }
    assert (P := ung_col Forward (D (S j)) s1 j m j (j + 1) n (vval tau s j) 0 j). fold m n in P. cbn [hpos] in P. rewrite Nat.add_0_r in P.
    eapply wp_conseq; [apply P; auto; try lia| |auto]. { apply HW'; lia. }
    intros r s2 HL. cbv beta in HL. eapply effw_ext; [exact HL|]. intros i c Hi Hc. fold m n in Hi, Hc. cbv beta.
    assert (HR : forall a b, (a < m)%nat -> (b < m)%nat -> refl (vval tau s j) (embw j m (hvec Forward (m - j) (fun l => D (S j) (j + l)%nat j))) a b = H j a b).
    { intros a b Ha Hb. apply refl_ext; auto. }
    assert (HT : D j i c = if (j <=? c)%nat then mmul m (H j) (tprod m H (S j) (k - S j)) i c else val A s i c).
    { unfold D. replace (k - j)%nat with (S (k - S j)) by lia. reflexivity. }
    rewrite HT. destruct (Nat.eqb_spec c j) as [->|Hcj].
    + rewrite HR by lia. destruct (Nat.leb_spec j j); [|lia]. symmetry. transitivity (mmul m (H j) idm i j); [|apply mmul_id_r; lia].
      apply mmul_ext; auto. intros l Hl. apply tprod_col; auto; [lia|]. intros i' l' Hi' Hl'. unfold H, refl, rvec. cbn [rpos].
      destruct (Nat.eqb_spec j i'); [lia|]. destruct (Nat.ltb_spec j i'); [|lia]. rewrite conj_0. ring.
    + destruct (Nat.leb_spec (j + 1) c), (Nat.ltb_spec c n), (Nat.leb_spec j c); try lia; cbn [andb].
      * apply mmul_ext; intros l Hl; [apply HR; auto|]. unfold D. destruct (Nat.leb_spec (S j) c); [auto|lia].
      * unfold D. destruct (Nat.leb_spec (S j) c); [lia|auto].
  - clear s1 He1. intros s1 He. cbv beta in He. apply wp_ret. split; auto. eapply effw_ext; [exact He|]. intros i j Hi Hj. fold m n in Hi, Hj. unfold D. cbn [Nat.leb]. rewrite Nat.sub_0_r.
    rewrite <- mprod_tprod by lia. reflexivity.
Qed.

Lemma ungq_cb : (k <= n <= m)%nat -> (m <= 1 \/ n <= 1 \/ n - 1 <= lm work * ln work)%nat ->
  runs (ungq_level2_work Backward Columnwise A tau work) s (fun r s' => r = 0%Z /\
    effw A (fun i j => qof Backward Columnwise m (gvec Backward Columnwise) (vval tau s) k i (m - n + j)%nat) (inview (lview work)) s s').
Proof.
  intros Hkn HW. unfold runs, ungq_level2_work. cbv zeta. fold m n k. apply wp_bind, wp_check.
  { destruct (Nat.leb_spec n m), (Nat.leb_spec k n); auto; lia. }
  destruct ((m <=? 0) || (n <=? 0))%bool eqn:Eq.
  { apply wp_ret. split; auto. apply orb_true_iff in Eq. rewrite !Nat.leb_le in Eq. eapply effw_ext; [apply effw_refl|]. intros i0 j0 Hi0 Hj0; unfold m, n in *; lia. }
  set (H := fun i => refl (vval tau s i) (rvec Backward Columnwise m k (gvec Backward Columnwise) i)).
  set (D := fun j i c => if (c <? n - k + j)%nat then rprod m H j i (m - n + c)%nat else val A s i c).
  apply wp_bind. apply wp_bind, wp_slc; [fold m n; lia..|]. apply wp_bind, wp_slc; [fold m n; lia..|]. apply wp_bind, wp_slc; [fold m n; lia..|].
  apply wp_bind. eapply wp_use; [apply (laset_part 0 (m - n) 0 (n - k) 0 0 (val A s)); [fold m n; lia..|apply effw_refl]|]. intros r1 s1 He1. cbv beta in He1.
  apply wp_bind. eapply wp_use; [eapply (laset_part (m - n) (m - k) 0 (n - k) 0 1); [fold m n; lia..|exact He1]|]. clear s1 He1 r1. intros r1 s1 He1. cbv beta in He1.
  apply wp_bind. eapply wp_use; [eapply (laset_part (m - k) m 0 (n - k) 0 0); [fold m n; lia..|exact He1]|]. clear s1 He1 r1. intros r1 s1 He1. cbv beta in He1.
  apply (wp_forup (fun j s' => effw A (D j) (inview (lview work)) s s')); [lia| | |].
  - eapply effw_ext; [exact He1|]. intros i j Hi Hj. fold m n in Hi, Hj. unfold D. cbn [rprod]. rewrite Nat.add_0_r. cbv beta. unfold idm.
    destruct (inbox_spec (m - k) m 0 (n - k) i j); [|destruct (inbox_spec (m - n) (m - k) 0 (n - k) i j); [|destruct (inbox_spec 0 (m - n) 0 (n - k) i j)]]; destruct (Nat.ltb_spec j (n - k)); try lia; auto;
    destruct (Nat.eqb_spec i (m - n + j)); try lia;
    match goal with |- context [if ?c then _ else _] => destruct c eqn:E0 end; auto; apply Nat.eqb_eq in E0 || apply Nat.eqb_neq in E0; lia.
  - clear s1 He1. intros j s1 Hj He. apply wp_bind. unfold rdv. apply wp_rd; [fold k; lia|lia|]. change (val tau s1 j 0) with (vval tau s1 j). rewrite (tau_at _ _ _ He) by lia.
    set (b := (m - k + j + 1)%nat). set (jj := (n - k + j)%nat).
    apply wp_bind, wp_slcol; [fold m n; unfold b, jj; lia..|]. apply wp_bind, wp_slc; [fold m n; unfold b, jj; lia..|].
    assert (Hu : forall r, (r < m)%nat -> embw 0 b (hvec Backward (b - 0) (fun l => D j (0 + l)%nat jj)) r = rvec Backward Columnwise m k (gvec Backward Columnwise) j r).
    { intros r Hr. unfold embw, hvec, rvec, D, gvec, jj. cbn [hpos rpos Nat.leb andb Nat.add]. destruct (Nat.ltb_spec (n - k + j) (n - k + j)); [lia|].
      unfold b. destruct (Nat.ltb_spec r (m - k + j + 1)), (Nat.eqb_spec (r - 0) (m - k + j + 1 - 0 - 1)), (Nat.eqb_spec r (m - k + j)), (Nat.ltb_spec (m - k + j) r); try lia; auto. f_equal; lia. }
    assert (P := ung_col Backward (D j) s1 0 b jj 0 jj (vval tau s j) b m). fold m n in P. cbn [hpos] in P.
    replace (0 + (b - 0 - 1))%nat with (b - 1)%nat in P by lia.
    eapply wp_conseq; [apply P; auto; unfold b, jj in *; try lia| |auto].
    { destruct HW as [|[|]]; [lia|lia|]. right; right. apply wk_any. lia. }
    intros r s2 HL. cbv beta in HL. eapply effw_ext; [exact HL|]. intros i c Hi Hc. fold m n in Hi, Hc. cbv beta.
    assert (HR : forall a b', (a < m)%nat -> (b' < m)%nat -> refl (vval tau s j) (embw 0 b (hvec Backward (b - 0) (fun l => D j (0 + l)%nat jj))) a b' = H j a b').
    { intros a b' Ha Hb. apply refl_ext; auto. }
    assert (HT : D (S j) i c = if (c <=? jj)%nat then mmul m (H j) (rprod m H j) i (m - n + c)%nat else val A s i c).
    { unfold D, jj. destruct (Nat.ltb_spec c (n - k + S j)), (Nat.leb_spec c (n - k + j)); try lia; reflexivity. }
    rewrite HT. destruct (Nat.eqb_spec c jj) as [->|Hcj].
    + rewrite HR by (unfold b; lia). destruct (Nat.leb_spec jj jj); [|lia]. replace (m - n + jj)%nat with (b - 1)%nat by (unfold b, jj; lia).
      symmetry. transitivity (mmul m (H j) idm i (b - 1)%nat); [|apply mmul_id_r; unfold b; lia].
      apply mmul_ext; auto. intros l Hl. apply rprod_col; auto; [unfold b; lia|]. intros i' l' Hi' Hl'. unfold H, refl, rvec. cbn [rpos].
      unfold b. destruct (Nat.eqb_spec (m - k + j + 1 - 1) (m - k + i')); [lia|]. destruct (Nat.ltb_spec (m - k + i') (m - k + j + 1 - 1)); [|lia]. rewrite conj_0. ring.
    + cbn [Nat.leb andb]. destruct (Nat.ltb_spec c jj), (Nat.leb_spec c jj); try lia; cbn [andb].
      * apply sum_ext; intros l Hl. rewrite HR by auto. f_equal. unfold D. fold jj. destruct (Nat.ltb_spec c jj); [auto|lia].
      * unfold D. fold jj. destruct (Nat.ltb_spec c jj); [lia|auto].
  - clear s1 He1. intros s1 He. cbv beta in He. apply wp_ret. split; auto. eapply effw_ext; [exact He|]. intros i j Hi Hj. fold m n in Hi, Hj. unfold D.
    destruct (Nat.ltb_spec j (n - k + k)); [|lia]. reflexivity.
Qed.

Lemma ungq_rf : (k <= m <= n)%nat -> (m <= 1 \/ n <= 1 \/ m - 1 <= lm work * ln work)%nat ->
  runs (ungq_level2_work Forward Rowwise A tau work) s (fun r s' => r = 0%Z /\
    effw A (fun i j => qof Forward Rowwise n (gvec Forward Rowwise) (vval tau s) k i j) (inview (lview work)) s s').
Proof.
  intros Hkn HW. unfold runs, ungq_level2_work. cbv zeta. fold m n k. apply wp_bind, wp_check.
  { destruct (Nat.leb_spec m n), (Nat.leb_spec k m); auto; lia. }
  destruct ((m <=? 0) || (n <=? 0))%bool eqn:Eq.
  { apply wp_ret. split; auto. apply orb_true_iff in Eq. rewrite !Nat.leb_le in Eq. eapply effw_ext; [apply effw_refl|]. intros i0 j0 Hi0 Hj0; unfold m, n in *; lia. }
  set (H := fun i => refl (conj (vval tau s i)) (rvec Forward Rowwise n k (val A s) i)).
  set (D := fun j r c => if (j <=? r)%nat then tsprod n H j (k - j) r c else val A s r c).
  assert (HW' : forall j, (j < k)%nat -> (n - j <= 1 \/ m - (j + 1) = 0 \/ wk_ok work (m - (j + 1)))%nat).
  { intros j Hj. destruct HW as [|[|]]; [lia|lia|]. right; right. apply wk_any. lia. }
  apply wp_bind. apply wp_bind, wp_slc; [fold m n; lia..|]. apply wp_bind, wp_slc; [fold m n; lia..|].
  apply wp_bind. eapply wp_use; [apply (laset_part k m 0 k 0 0 (val A s)); [fold m n; lia..|apply effw_refl]|]. intros r1 s1 He1. cbv beta in He1.
  apply wp_bind. eapply wp_use; [eapply (laset_part k m k n 0 1); [fold m n; lia..|exact He1]|]. clear s1 He1 r1. intros r1 s1 He1. cbv beta in He1.
  apply (wp_fordown (fun j s' => effw A (D j) (inview (lview work)) s s')); [lia| | |].
  - eapply effw_ext; [exact He1|]. intros i j Hi Hj. fold m in Hi. fold n in Hj. unfold D. rewrite Nat.sub_diag. cbn [tsprod]. cbv beta.
    destruct (inbox_spec k m k n i j); [|destruct (inbox_spec k m 0 k i j)]; destruct (Nat.leb_spec k i); try lia; auto; unfold idm.
    + destruct (Nat.eqb_spec (i - k) (j - k)), (Nat.eqb_spec i j); auto; lia.
    + destruct (i - k =? j - 0)%nat; destruct (Nat.eqb_spec i j); auto; lia.
  - clear s1 He1. intros j s1 Hj He. apply wp_bind. unfold rdv. apply wp_rd; [fold k; lia|lia|]. change (val tau s1 j 0) with (vval tau s1 j). rewrite (tau_at _ _ _ He) by lia.
    apply wp_bind, wp_slrow; [fold m n; lia..|]. apply wp_bind, wp_slc; [fold m n; lia..|].
    assert (Hu : forall r, (r < n)%nat -> embw j n (hvec Forward (n - j) (fun l => conj (D (S j) j (j + l)%nat))) r = rvec Forward Rowwise n k (val A s) j r).
    { intros r Hr. unfold embw, hvec, rvec, D. cbn [hpos rpos]. destruct (Nat.leb_spec (S j) j); [lia|]. destruct (Nat.leb_spec j r), (Nat.ltb_spec r n), (Nat.eqb_spec (r - j) 0), (Nat.eqb_spec r j), (Nat.ltb_spec r j); try lia; cbn [andb]; auto. do 2 f_equal; lia. }
    assert (P := ung_row Forward (D (S j)) s1 j n j (j + 1) m (conj (vval tau s j)) 0 j). fold m n in P. cbn [hpos] in P. rewrite Nat.add_0_r in P.
    eapply wp_conseq; [apply P; auto; try lia| |auto]. { apply HW'; lia. }
    intros r s2 HL. cbv beta in HL. eapply effw_ext; [exact HL|]. intros i c Hi Hc. fold m in Hi. fold n in Hc. cbv beta.
    assert (HR : forall a b, (a < n)%nat -> (b < n)%nat -> refl (conj (vval tau s j)) (embw j n (hvec Forward (n - j) (fun l => conj (D (S j) j (j + l)%nat)))) a b = H j a b).
    { intros a b Ha Hb. apply refl_ext; auto. }
    assert (HT : D j i c = if (j <=? i)%nat then mmul n (tsprod n H (S j) (k - S j)) (H j) i c else val A s i c).
    { unfold D. replace (k - j)%nat with (S (k - S j)) by lia. reflexivity. }
    rewrite HT. destruct (Nat.eqb_spec i j) as [->|Hcj].
    + rewrite HR by lia. destruct (Nat.leb_spec j j); [|lia]. symmetry. transitivity (mmul n idm (H j) j c); [|apply mmul_id_l; lia].
      apply mmul_ext; auto. intros l Hl. apply tsprod_row; auto; [lia|]. intros i' l' Hi' Hl'. unfold H, refl, rvec. cbn [rpos].
      destruct (Nat.eqb_spec j i'); [lia|]. destruct (Nat.ltb_spec j i'); [|lia]. ring.
    + destruct (Nat.leb_spec (j + 1) i), (Nat.ltb_spec i m), (Nat.leb_spec j i); try lia; cbn [andb].
      * apply mmul_ext; intros l Hl; [|apply HR; auto]. unfold D. destruct (Nat.leb_spec (S j) i); [auto|lia].
      * unfold D. destruct (Nat.leb_spec (S j) i); [lia|auto].
  - clear s1 He1. intros s1 He. cbv beta in He. apply wp_ret. split; auto. eapply effw_ext; [exact He|]. intros i j Hi Hj. fold m in Hi. fold n in Hj. unfold D. cbn [Nat.leb]. rewrite Nat.sub_0_r.
    rewrite <- rprod_tsprod by lia. unfold qof. cbn [hprod]. cbv zeta. rewrite ctr_mprod by lia. apply rprod_ext; [|lia|lia]. intros. symmetry. apply ctr_refl.
Qed.

Lemma ungq_rb : (k <= m <= n)%nat -> (m <= 1 \/ n <= 1 \/ m - 1 <= lm work * ln work)%nat ->
  runs (ungq_level2_work Backward Rowwise A tau work) s (fun r s' => r = 0%Z /\
    effw A (fun i j => qof Backward Rowwise n (gvec Backward Rowwise) (vval tau s) k (n - m + i)%nat j) (inview (lview work)) s s').
Proof.
  intros Hkn HW. unfold runs, ungq_level2_work. cbv zeta. fold m n k. apply wp_bind, wp_check.
  { destruct (Nat.leb_spec m n), (Nat.leb_spec k m); auto; lia. }
  destruct ((m <=? 0) || (n <=? 0))%bool eqn:Eq.
  { apply wp_ret. split; auto. apply orb_true_iff in Eq. rewrite !Nat.leb_le in Eq. eapply effw_ext; [apply effw_refl|]. intros i0 j0 Hi0 Hj0; unfold m, n in *; lia. }
  set (H := fun i => refl (conj (vval tau s i)) (rvec Backward Rowwise n k (gvec Backward Rowwise) i)).
  set (D := fun j r c => if (r <? m - k + j)%nat then mprod n H j (n - m + r)%nat c else val A s r c).
  apply wp_bind. apply wp_bind, wp_slc; [fold m n; lia..|]. apply wp_bind, wp_slc; [fold m n; lia..|]. apply wp_bind, wp_slc; [fold m n; lia..|].
  apply wp_bind. eapply wp_use; [apply (laset_part 0 (m - k) 0 (n - m) 0 0 (val A s)); [fold m n; lia..|apply effw_refl]|]. intros r1 s1 He1. cbv beta in He1.
  apply wp_bind. eapply wp_use; [eapply (laset_part 0 (m - k) (n - m) (n - k) 0 1); [fold m n; lia..|exact He1]|]. clear s1 He1 r1. intros r1 s1 He1. cbv beta in He1.
  apply wp_bind. eapply wp_use; [eapply (laset_part 0 (m - k) (n - k) n 0 0); [fold m n; lia..|exact He1]|]. clear s1 He1 r1. intros r1 s1 He1. cbv beta in He1.
  apply (wp_forup (fun j s' => effw A (D j) (inview (lview work)) s s')); [lia| | |].
  - eapply effw_ext; [exact He1|]. intros j i Hj Hi. fold m in Hj. fold n in Hi. unfold D. cbn [mprod]. rewrite Nat.add_0_r. cbv beta. unfold idm.
    destruct (inbox_spec 0 (m - k) (n - k) n j i); [|destruct (inbox_spec 0 (m - k) (n - m) (n - k) j i); [|destruct (inbox_spec 0 (m - k) 0 (n - m) j i)]]; destruct (Nat.ltb_spec j (m - k)); try lia; auto;
    destruct (Nat.eqb_spec (n - m + j) i); try lia;
    match goal with |- context [if ?c then _ else _] => destruct c eqn:E0 end; auto; apply Nat.eqb_eq in E0 || apply Nat.eqb_neq in E0; lia.
  - clear s1 He1. intros j s1 Hj He. apply wp_bind. unfold rdv. apply wp_rd; [fold k; lia|lia|]. change (val tau s1 j 0) with (vval tau s1 j). rewrite (tau_at _ _ _ He) by lia.
    set (b := (n - k + j + 1)%nat). set (jj := (m - k + j)%nat).
    apply wp_bind, wp_slrow; [fold m n; unfold b, jj; lia..|]. apply wp_bind, wp_slc; [fold m n; unfold b, jj; lia..|].
    assert (Hu : forall r, (r < n)%nat -> embw 0 b (hvec Backward (b - 0) (fun l => conj (D j jj (0 + l)%nat))) r = rvec Backward Rowwise n k (gvec Backward Rowwise) j r).
    { intros r Hr. unfold embw, hvec, rvec, D, gvec, jj. cbn [hpos rpos Nat.leb andb Nat.add]. destruct (Nat.ltb_spec (m - k + j) (m - k + j)); [lia|].
      unfold b. destruct (Nat.ltb_spec r (n - k + j + 1)), (Nat.eqb_spec (r - 0) (n - k + j + 1 - 0 - 1)), (Nat.eqb_spec r (n - k + j)), (Nat.ltb_spec (n - k + j) r); try lia; auto. do 2 f_equal; lia. }
    assert (P := ung_row Backward (D j) s1 0 b jj 0 jj (conj (vval tau s j)) b n). fold m n in P. cbn [hpos] in P.
    replace (0 + (b - 0 - 1))%nat with (b - 1)%nat in P by lia.
    eapply wp_conseq; [apply P; auto; unfold b, jj in *; try lia| |auto].
    { destruct HW as [|[|]]; [lia|lia|]. right; right. apply wk_any. lia. }
    intros r s2 HL. cbv beta in HL. eapply effw_ext; [exact HL|]. intros c i Hc Hi. fold m in Hc. fold n in Hi. cbv beta.
    assert (HR : forall a b', (a < n)%nat -> (b' < n)%nat -> refl (conj (vval tau s j)) (embw 0 b (hvec Backward (b - 0) (fun l => conj (D j jj (0 + l)%nat)))) a b' = H j a b').
    { intros a b' Ha Hb. apply refl_ext; auto. }
    assert (HT : D (S j) c i = if (c <=? jj)%nat then mmul n (mprod n H j) (H j) (n - m + c)%nat i else val A s c i).
    { unfold D, jj. destruct (Nat.ltb_spec c (m - k + S j)), (Nat.leb_spec c (m - k + j)); try lia; reflexivity. }
    rewrite HT. destruct (Nat.eqb_spec c jj) as [->|Hcj].
    + rewrite HR by (unfold b; lia). destruct (Nat.leb_spec jj jj); [|lia]. replace (n - m + jj)%nat with (b - 1)%nat by (unfold b, jj; lia).
      symmetry. transitivity (mmul n idm (H j) (b - 1)%nat i); [|apply mmul_id_l; unfold b; lia].
      apply mmul_ext; auto. intros l Hl. apply mprod_row; auto; [unfold b; lia|]. intros i' l' Hi' Hl'. unfold H, refl, rvec. cbn [rpos].
      unfold b. destruct (Nat.eqb_spec (n - k + j + 1 - 1) (n - k + i')); [lia|]. destruct (Nat.ltb_spec (n - k + i') (n - k + j + 1 - 1)); [|lia]. ring.
    + cbn [Nat.leb andb]. destruct (Nat.ltb_spec c jj), (Nat.leb_spec c jj); try lia; cbn [andb].
      * apply sum_ext; intros l Hl. rewrite HR by auto. f_equal. unfold D. fold jj. destruct (Nat.ltb_spec c jj); [auto|lia].
      * unfold D. fold jj. destruct (Nat.ltb_spec c jj); [lia|auto].
  - clear s1 He1. intros s1 He. cbv beta in He. apply wp_ret. split; auto. eapply effw_ext; [exact He|]. intros j i Hj Hi. fold m in Hj. fold n in Hi. unfold D.
    destruct (Nat.ltb_spec j (m - k + k)); [|lia]. unfold qof. cbn [hprod]. cbv zeta. rewrite ctr_rprod by lia. apply mprod_ext; [|lia|lia]. intros. symmetry. apply ctr_refl.
Qed.
End G.
