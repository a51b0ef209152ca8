(** * unmq: the blocked application of a product of reflectors *)
From Coq Require Import Bool Arith ZArith Lia.
From Verif.Core Require Import Scalar Prog View Slice Loops WorkEff.
From Verif.Model Require Import Gemm Blas3 Legacy Work Householder QGen QFact BlockQ.
From Verif.Spec Require Import Outcome LinAlg Householder.
From Verif.Proof Require Import SumLemmas SliceTac LegacyProof BlockAlg PotrfProof Blas1Proof LaAuxProof LarfProof LarfgProof QRProof WorkProof QGenProof LarftProof LarfbProof BlockProof BlockFact.
Local Open Scope T_scope.

Section U.
Context {E : Env} {FL : FieldLaws E} {CL : ConjLaws E}.
Add Field Tfu : fth.

Lemma effw_sub A i0 i1 j0 j1 F G (P P' : Z -> Prop) s0 s s' : vinj A -> (i1 <= nr A)%nat -> (j1 <= nc A)%nat ->
  (forall l, P' l -> P l) -> (forall l, inview A l -> ~ P' l) -> effw A F P s0 s -> effw (subv A i0 i1 j0 j1) G P' s s' ->
  effw A (fun i j => if inbox i0 i1 j0 j1 i j then G (i - i0)%nat (j - j0)%nat else F i j) P s0 s'.
Proof.
  intros HI Hi Hj HP HA (E1 & E2 & E3) (K1 & K2 & K3). split; [|split; [|congruence]].
  - intros i j Hi' Hj'. cbv beta. destruct (inbox_spec i0 i1 j0 j1 i j) as [[Ha Hb]|Hn].
    + rewrite <- K1 by (cbn [nr nc subv]; lia). unfold val. cbn [ad subv]. do 2 f_equal; lia.
    + rewrite <- E1 by auto. apply K2; [|apply HA; exists i, j; auto]. intros (i' & j' & H1 & H2 & e). cbn [nr nc ad subv] in *. apply HI in e; lia.
  - intros l Hl Hp. rewrite K2; [apply E2; auto| |auto]. intros H. apply Hl. revert H. apply inview_subv; auto.
Qed.
Lemma rprod_app m (H : nat -> mat) a b : forall r c, (r < m)%nat -> (c < m)%nat -> rprod m H (a + b) r c = mmul m (rprod m (fun u => H (a + u)%nat) b) (rprod m H a) r c.
Proof.
  induction b as [|b IH]; intros r c Hr Hc.
  - rewrite Nat.add_0_r. cbn [rprod]. rewrite mmul_id_l; auto.
  - rewrite Nat.add_succ_r. cbn [rprod]. rewrite <- mmul_assoc. apply mmul_ext; intros; auto.
Qed.
Lemma rapply_ext side G G' F F' m n i j : (i < m)%nat -> (j < n)%nat -> (forall a b, (a < sel side m n)%nat -> (b < sel side m n)%nat -> G a b = G' a b) -> (forall a b, (a < m)%nat -> (b < n)%nat -> F a b = F' a b) ->
  rapply side (sel side m n) G F i j = rapply side (sel side m n) G' F' i j.
Proof. intros Hi Hj HG HF. unfold rapply. destruct side; cbn [sel] in *; apply mmul_ext; auto. Qed.
Lemma rapply_2 side G G' F m n i j : (i < m)%nat -> (j < n)%nat -> rapply side (sel side m n) G (rapply side (sel side m n) G' F) i j =
  rapply side (sel side m n) (match side with Left => mmul m G G' | Right => mmul n G' G end) F i j.
Proof. intros Hi Hj. unfold rapply. destruct side; cbn [sel] in *; [rewrite <- mmul_assoc|rewrite mmul_assoc]; auto. Qed.
Lemma rapply_id side F m n i j : (i < m)%nat -> (j < n)%nat -> rapply side (sel side m n) idm F i j = F i j.
Proof. intros Hi Hj. unfold rapply. destruct side; cbn [sel]; [apply mmul_id_l|apply mmul_id_r]; auto. Qed.

(** the reflectors of the block [i, i + ib) of V, seen from the whole *)
Lemma rvec_blk dir sm nq k i ib (V V' : mat) u r : (i + ib <= k)%nat -> (k <= nq)%nat -> (u < ib)%nat -> (r < nq)%nat ->
  let a := match dir with Forward => i | Backward => 0%nat end in let b := match dir with Forward => nq | Backward => (nq + i + ib - k)%nat end in
  (forall l, (l < b - a)%nat -> match sm with Columnwise => V' l u = V (a + l)%nat (i + u)%nat | Rowwise => V' u l = V (i + u)%nat (a + l)%nat end) ->
  embw a b (rvec dir sm (b - a) ib V' u) r = rvec dir sm nq k V (i + u) r.
Proof.
  intros Hi Hk Hu Hr a b HV. unfold embw, rvec, a, b in *. clear a b. destruct dir; cbn [rpos].
  - destruct (Nat.leb_spec i r); cbn [andb].
    + destruct (Nat.ltb_spec r nq); [|lia]. destruct (Nat.eqb_spec (r - i) u), (Nat.eqb_spec r (i + u)); try lia; auto.
      destruct (Nat.ltb_spec r (i + u)), (Nat.ltb_spec (r - i) u); try lia; auto. specialize (HV (r - i)%nat ltac:(lia)). replace (i + (r - i))%nat with r in HV by lia. destruct sm; congruence.
    + destruct (Nat.eqb_spec r (i + u)); [lia|]. destruct (Nat.ltb_spec r (i + u)); [auto|lia].
  - cbn [Nat.leb andb]. rewrite !Nat.sub_0_r in *. destruct (Nat.ltb_spec r (nq + i + ib - k)).
    + destruct (Nat.eqb_spec r (nq + i + ib - k - ib + u)), (Nat.eqb_spec r (nq - k + (i + u))); try lia; auto.
      destruct (Nat.ltb_spec (nq - k + (i + u)) r), (Nat.ltb_spec (nq + i + ib - k - ib + u) r); try lia; auto.
      specialize (HV r ltac:(lia)). cbn [Nat.add] in HV. destruct sm; congruence.
    + destruct (Nat.eqb_spec r (nq - k + (i + u))); [lia|]. destruct (Nat.ltb_spec (nq - k + (i + u)) r); [auto|lia].
Qed.
(** the product of the reflectors of the block, seen from the whole *)
Lemma vprod_blk dir sm nq k i ib (V V' : mat) (tau tau' : nat -> T) : (i + ib <= k)%nat -> (k <= nq)%nat ->
  let a := match dir with Forward => i | Backward => 0%nat end in let b := match dir with Forward => nq | Backward => (nq + i + ib - k)%nat end in
  (forall u, (u < ib)%nat -> tau' u = tau (i + u)%nat) ->
  (forall u l, (u < ib)%nat -> (l < b - a)%nat -> match sm with Columnwise => V' l u = V (a + l)%nat (i + u)%nat | Rowwise => V' u l = V (i + u)%nat (a + l)%nat end) ->
  forall r c, (r < nq)%nat -> (c < nq)%nat ->
  embm a b (vprod dir sm (b - a) ib V' tau') r c = hprod dir nq (fun u => refl (tau (i + u)%nat) (rvec dir sm nq k V (i + u))) ib r c.
Proof.
  intros Hi Hk a b Ht HV r c Hr Hc. assert (Hab : (a <= b <= nq)%nat) by (unfold a, b; destruct dir; lia). unfold vprod. rewrite <- (embm_hprod dir nq a b) by auto. apply hprod_ext; auto.
  intros u x y Hu Hx Hy. rewrite embm_refl, Ht by auto. apply refl_ext; apply (rvec_blk dir sm nq k i ib V V' u); auto; intros; apply HV; auto.
Qed.
End U.

Section N.
Context {E : Env} {FL : FieldLaws E} {CL : ConjLaws E} {QL : EqbLaws E} {XL : CplxLaws E}.
Add Field Tfn : fth.
Variables (nb : nat) (side : side_t) (trans : op_t) (dir : direction_t) (sm : storev_t) (V tau C Tm : view) (work1 : lmat) (P : Z -> Prop) (s : state).
Let m := nr C. Let n := nc C. Let k := nr tau. Let nQ := sel side m n.
Hypothesis Ht : trans_ok trans.
Hypothesis HV : match sm with Columnwise => nc V = k /\ nr V = nQ | Rowwise => nr V = k /\ nc V = nQ end.
Hypothesis Htau : nc tau = 1%nat.
Hypothesis Hk : (k <= nQ)%nat.
Hypothesis HI : vinj C.
Hypothesis HVC : disj V C.
Hypothesis HtC : disj tau C.
Hypothesis HT1 : nr Tm = nb.
Hypothesis HT2 : nc Tm = nb.
Hypothesis HTI : vinj Tm.
Hypothesis Hwk : forall ib, (ib <= nb)%nat -> wkm_ok work1 (sel side ib m) (sel side n ib).
Hypothesis HTw : disj Tm (lview work1).
Hypothesis HTP : forall l, inview Tm l -> P l.
Hypothesis HWP : forall l, inview (lview work1) l -> P l.
Hypothesis HPV : forall l, inview V l -> ~ P l.
Hypothesis HPt : forall l, inview tau l -> ~ P l.
Hypothesis HPC : forall l, inview C l -> ~ P l.

Definition bpl : bool := match dir, ucj trans sm with Forward, true | Backward, false => true | _, _ => false end.
Definition bG (i ib : nat) : mat := (if bpl then rprod nQ else mprod nQ) (fun u => uG side trans dir sm V tau C s (i + u)%nat) ib.

Lemma unmq_bstep_run i F s1 : (i < k)%nat -> effw C F P s s1 ->
  wp (unmq_bstep nb side trans dir sm V tau C Tm work1 i) (fun _ s2 => effw C (rapply side nQ (bG i (Nat.min nb (k - i))) F) P s s2) noX s1.
Proof.
  intros Hi He. unfold unmq_bstep. cbv zeta. fold m n k nQ. set (ib := Nat.min nb (k - i)).
  set (a := match dir with Forward => i | Backward => 0%nat end). set (b := match dir with Forward => nQ | Backward => (nQ + i + ib - k)%nat end).
  assert (Hib : (ib <= nb /\ i + ib <= k)%nat) by (unfold ib; lia).
  assert (Hab : (a <= b <= nQ)%nat) by (unfold a, b; destruct dir; lia). assert (Hib2 : (ib <= b - a)%nat) by (unfold a, b; destruct dir; lia).
  apply wp_bind. assert (Hr : brange dir nQ k i ib = ret (a, b)).
  { unfold brange, a, b. destruct dir; auto. destruct (Nat.leb_spec k (nQ + i + ib)); [reflexivity|lia]. }
  rewrite Hr. apply wp_ret. cbn [fst snd]. apply wp_bind.
  set (Vi := match sm with Columnwise => subv V a b i (i + ib) | Rowwise => subv V i (i + ib) a b end).
  assert (HVi : wp (match sm with Columnwise => slc V a b i (i + ib) | Rowwise => slc V i (i + ib) a b end) (fun v s' => v = Vi /\ s' = s1) noX s1).
  { unfold Vi. destruct sm; destruct HV as [V1 V2]; apply wp_slc; auto; lia. }
  eapply wp_conseq; [exact HVi| |auto]. intros v s1' [-> ->]. clear HVi.
  assert (Hvg : match sm with Columnwise => nr Vi = (b - a)%nat /\ nc Vi = ib | Rowwise => nr Vi = ib /\ nc Vi = (b - a)%nat end).
  { unfold Vi. destruct sm; cbn [nr nc subv]; lia. }
  assert (Hvin : forall l, inview Vi l -> inview V l).
  { unfold Vi. intros l. destruct sm; apply inview_subv; lia. }
  apply wp_bind, wp_slvec; [lia|fold k; lia|]. set (ti := Slice.vsub tau i (i + ib)).
  assert (Hti : nr ti = ib) by (unfold ti; cbn [nr Slice.vsub]; lia).
  assert (Htin : forall l, inview ti l -> inview tau l) by (intros l; apply inview_vsub; [fold k; lia|lia]).
  apply wp_bind, wp_slc; [lia..|]. set (Ti := subv Tm 0 ib 0 ib).
  assert (HTi : forall l, inview Ti l -> inview Tm l) by (intros l; apply inview_subv; lia).
  set (r0 := sel side a 0%nat). set (r1 := sel side b m). set (c0 := sel side 0%nat a). set (c1 := sel side n b). set (Ci := subv C r0 r1 c0 c1).
  assert (Hbox : (r0 <= r1 <= m /\ c0 <= c1 <= n)%nat). { unfold r0, r1, c0, c1, nQ in *. destruct side; cbn [sel] in *; lia. }
  assert (HCi : forall l, inview Ci l -> inview C l) by (intros l; apply inview_subv; fold m n; lia).
  assert (HvalV : forall p q, (p < nr V)%nat -> (q < nc V)%nat -> val V s1 p q = val V s p q).
  { intros p q Hp Hq. apply He; [|apply HPV; exists p, q; auto]. intros (p' & q' & Hp' & Hq' & e). apply (HVC p q p' q'); auto. }
  assert (Hvalt : forall p, (p < k)%nat -> vval tau s1 p = vval tau s p).
  { intros p Hp. apply He; [|apply HPt; exists p, 0%nat; repeat split; auto; lia]. intros (p' & q' & Hp' & Hq' & e). apply (HtC p 0%nat p' q'); auto; lia. }
  set (tr := match sm with Columnwise => trans | Rowwise => match trans with NoTrans => ConjTrans | _ => NoTrans end end).
  assert (Htr : trans_ok tr) by (unfold tr; destruct sm; auto; destruct trans; exact I).
  assert (HnQ : sel side (nr Ci) (nc Ci) = (b - a)%nat). { unfold Ci, r0, r1, c0, c1. cbn [nr nc subv]. destruct side; reflexivity. }
  assert (dsj : forall X Y (Q1 Q2 : Z -> Prop), (forall l, inview X l -> Q1 l) -> (forall l, inview Y l -> Q2 l) -> (forall l, Q1 l -> ~ Q2 l) -> disj X Y).
  { intros X Y Q1 Q2 H1 H2 H3 p q p' q' Hp Hq Hp' Hq' e. apply (H3 (ad X p q)); [apply H1|rewrite e; apply H2]; [exists p, q|exists p', q']; auto. }
  assert (HB := blk_apply side tr dir sm Vi ti Ti Ci work1 s1). cbv zeta in HB. rewrite HnQ, Hti in HB. fold r0 r1 c0 c1 in HB.
  assert (HB' : runs (larft dir sm Vi ti Ti;; larfb_work side tr dir sm Vi Ti Ci work1) s1 (fun _ s' =>
    effw Ci (rapply side (b - a) (opm tr (vprod dir sm (b - a) ib (val Vi s1) (vval ti s1))) (val Ci s1)) (fun l => inview Ti l \/ inview (lview work1) l) s1 s')).
  { apply HB; auto.
    - unfold Ti. cbn [nr subv]. lia.
    - unfold Ti. cbn [nc subv]. lia.
    - apply vinj_subv; auto; fold m n; lia.
    - apply vinj_subv; auto; lia.
    - apply (dsj Vi Ci (inview V) (inview C)); auto. intros l. apply nin_disj; auto.
    - apply (dsj Vi Ti (inview V) P); auto.
    - apply (dsj ti Ti (inview tau) P); auto.
    - apply (dsj Ci Ti (inview C) P); auto.
    - right. right. right. unfold Ci. cbn [nr nc subv].
      assert (K := Hwk ib ltac:(lia)). unfold r0, r1, c0, c1 in *. destruct side; cbn [sel] in *; rewrite Nat.sub_0_r; auto.
    - apply (dsj Vi (lview work1) (inview V) P); auto.
    - apply (dsj Ti (lview work1) (inview Tm) (inview (lview work1))); auto. intros l. apply nin_disj; auto.
    - apply (dsj Ci (lview work1) (inview C) P); auto. }
  clear HB. apply wp_bind. eapply wp_conseq; [apply (wp_seq_inv (V := Z) (V' := Z) _ _ _ _ _ HB')| |auto].
  intros z s2 HL. cbv beta in HL. apply wp_bind.
  assert (HC : wp (match side with Left => slc C a b 0 n | Right => slc C 0 m a b end) (fun v s' => v = Ci /\ s' = s2) noX s2).
  { unfold Ci, r0, r1, c0, c1 in *. destruct side; cbn [sel] in *; apply wp_slc; auto; fold m n; lia. }
  eapply wp_conseq; [exact HC| |auto]. intros v s2' [-> ->]. clear HC. apply wp_bind. fold tr. eapply wp_conseq; [exact HL| |auto].
  intros z' s3 HK. cbv beta in HK. apply wp_ret.
  eapply effw_ext; [eapply (effw_sub C r0 r1 c0 c1 F _ P (fun l => inview Ti l \/ inview (lview work1) l) s s1 s3 HI); [fold m; lia|fold n; lia| | |exact He|exact HK]|].
  { intros l [Hl|Hl]; auto. }
  { intros l Hl [Hl'|Hl']; apply (HPC l); auto. }
  clear HK HL HB'. intros p q Hp Hq. cbv beta. fold m in Hp. fold n in Hq.
  assert (HG : forall x y, (x < nQ)%nat -> (y < nQ)%nat -> bG i ib x y = embm a b (opm tr (vprod dir sm (b - a) ib (val Vi s1) (vval ti s1))) x y).
  { intros x y Hx Hy. set (W := vprod dir sm (b - a) ib (val Vi s1) (vval ti s1)).
    assert (HW : forall x y, (x < nQ)%nat -> (y < nQ)%nat -> embm a b W x y = hprod dir nQ (fun u => uH side dir sm V tau C s (i + u)) ib x y).
    { intros x' y' Hx' Hy'. apply (vprod_blk dir sm nQ k i ib (val V s) (val Vi s1) (vval tau s) (vval ti s1)); auto; [lia|..].
      - intros u Hu. apply (Hvalt (i + u)%nat). lia.
      - intros u l Hu Hl. unfold Vi. fold a b in Hl. destruct sm; destruct HV as [V1 V2]; [apply (HvalV (a + l)%nat (i + u)%nat)|apply (HvalV (i + u)%nat (a + l)%nat)]; lia. }
    transitivity (embm a b (if ucj trans sm then ctr W else W) x y).
    2:{ apply embm_ext. intros x' y' _ _. unfold tr, ucj. destruct sm, trans; try contradiction; auto. unfold ctr. cbn [opm]. apply real_type. exact Ht. }
    unfold bG, bpl, uG. destruct (ucj trans sm).
    - rewrite <- embm_ctr. unfold ctr. rewrite HW by auto. fold (ctr (hprod dir nQ (fun u => uH side dir sm V tau C s (i + u)) ib) x y). destruct dir; cbn [hprod]; [rewrite ctr_mprod by auto|rewrite ctr_rprod by auto]; reflexivity.
    - rewrite HW by auto. destruct dir; reflexivity. }
  symmetry. transitivity (rapply side nQ (embm a b (opm tr (vprod dir sm (b - a) ib (val Vi s1) (vval ti s1)))) F p q).
  { unfold nQ. apply rapply_ext; auto. }
  set (O := opm tr (vprod dir sm (b - a) ib (val Vi s1) (vval ti s1))). clearbody O. assert (HF : forall x y, (x < m)%nat -> (y < n)%nat -> val C s1 x y = F x y) by (intros; apply He; auto).
  assert (Es := side_cases side). unfold rapply, Ci, r0, r1, c0, c1 in *. destruct Es as [Es|Es]; assert (En : nQ = sel side m n) by reflexivity; rewrite !Es; rewrite Es in En; cbn [sel] in *; rewrite En in *.
  - rewrite embm_l by auto. destruct (win_spec a b p), (inbox_spec a b 0 n p q); try lia; auto. rewrite Nat.sub_0_r. apply mmul_ext; intros l Hl; auto. symmetry. apply HF; lia.
  - rewrite embm_r by auto. destruct (win_spec a b q), (inbox_spec 0 m a b p q); try lia; auto. rewrite Nat.sub_0_r. apply mmul_ext; intros l Hl; auto. symmetry. apply HF; lia.
Qed.

Lemma unmq_bloop : (0 < nb <= k)%nat -> let nblk := ((k - 1) / nb + 1)%nat in
  let step b := unmq_bstep nb side trans dir sm V tau C Tm work1 (b * nb) in
  wp (if match side with Left => bpl | Right => negb bpl end then for_ b in 0 upto nblk do step b else ford_ b in 0 upto nblk do step b)
    (fun _ s' => effw C (rapply side nQ (opm trans (qof dir sm nQ (val V s) (vval tau s) k)) (val C s)) P s s') noX s.
Proof.
  intros Hnb nblk step. set (c := fun b => Nat.min (b * nb) k).
  assert (Hc : forall b, (b < nblk)%nat -> (b * nb < k)%nat /\ c b = (b * nb)%nat /\ c (S b) = (c b + Nat.min nb (k - b * nb))%nat).
  { intros b Hb. unfold c. assert (b * nb <= k - 1)%nat. { transitivity ((k - 1) / nb * nb)%nat; [apply Nat.mul_le_mono_r; unfold nblk in Hb; lia|]. rewrite Nat.mul_comm. apply Nat.mul_div_le. lia. } cbn [Nat.mul]. lia. }
  assert (Hcn : c nblk = k). { unfold c, nblk. assert (D := Nat.mul_succ_div_gt (k - 1) nb ltac:(lia)). rewrite Nat.add_1_r, (Nat.mul_comm (S _)). lia. }
  assert (Hc0 : c 0%nat = 0%nat) by reflexivity. clearbody c nblk. set (g := uG side trans dir sm V tau C s).
  assert (Hfin : forall x y, (x < nQ)%nat -> (y < nQ)%nat -> (if bpl then rprod nQ g k else mprod nQ g k) x y = opm trans (qof dir sm nQ (val V s) (vval tau s) k) x y).
  { intros x y Hx Hy. unfold nQ, k, m, n. rewrite <- (ulast_ok side trans dir sm V tau C s) by auto. unfold ulast, bpl. destruct dir, (ucj trans sm); reflexivity. }
  assert (HU : forall D : nat -> mat, (forall x y, (x < nQ)%nat -> (y < nQ)%nat -> D 0%nat x y = idm x y) ->
     (forall b p q, (b < nblk)%nat -> (p < m)%nat -> (q < n)%nat -> rapply side nQ (bG (b * nb) (Nat.min nb (k - b * nb))) (rapply side nQ (D b) (val C s)) p q = rapply side nQ (D (S b)) (val C s) p q) ->
     (forall x y, (x < nQ)%nat -> (y < nQ)%nat -> D nblk x y = (if bpl then rprod nQ g k else mprod nQ g k) x y) ->
     wp (for_ b in 0 upto nblk do step b) (fun _ s' => effw C (rapply side nQ (opm trans (qof dir sm nQ (val V s) (vval tau s) k)) (val C s)) P s s') noX s).
  { intros D D0 DS DK. apply (wp_forup (fun b s' => effw C (rapply side nQ (D b) (val C s)) P s s')); [lia| | |].
    - eapply effw_ext; [apply effw_refl|]. intros p q Hp Hq. symmetry. transitivity (rapply side nQ idm (val C s) p q); [unfold nQ; apply rapply_ext; auto|unfold nQ; apply rapply_id; auto].
    - intros b s' Hb He. eapply wp_conseq; [apply (unmq_bstep_run (b * nb)); [apply Hc; lia|exact He]| |auto]. intros r s2 HL. cbv beta in HL. eapply effw_ext; [exact HL|]. intros; apply DS; auto; lia.
    - intros s' He. eapply effw_ext; [exact He|]. intros p q Hp Hq. unfold nQ. apply rapply_ext; auto. intros x y Hx Hy. rewrite <- Hfin by auto. apply DK; auto. }
  assert (HN : forall D : nat -> mat, (forall x y, (x < nQ)%nat -> (y < nQ)%nat -> D nblk x y = idm x y) ->
     (forall b p q, (b < nblk)%nat -> (p < m)%nat -> (q < n)%nat -> rapply side nQ (bG (b * nb) (Nat.min nb (k - b * nb))) (rapply side nQ (D (S b)) (val C s)) p q = rapply side nQ (D b) (val C s) p q) ->
     (forall x y, (x < nQ)%nat -> (y < nQ)%nat -> D 0%nat x y = (if bpl then rprod nQ g k else mprod nQ g k) x y) ->
     wp (ford_ b in 0 upto nblk do step b) (fun _ s' => effw C (rapply side nQ (opm trans (qof dir sm nQ (val V s) (vval tau s) k)) (val C s)) P s s') noX s).
  { intros D D0 DS DK. apply (wp_fordown (fun b s' => effw C (rapply side nQ (D b) (val C s)) P s s')); [lia| | |].
    - eapply effw_ext; [apply effw_refl|]. intros p q Hp Hq. symmetry. transitivity (rapply side nQ idm (val C s) p q); [unfold nQ; apply rapply_ext; auto|unfold nQ; apply rapply_id; auto].
    - intros b s' Hb He. eapply wp_conseq; [apply (unmq_bstep_run (b * nb)); [apply Hc; lia|exact He]| |auto]. intros r s2 HL. cbv beta in HL. eapply effw_ext; [exact HL|]. intros; apply DS; auto; lia.
    - intros s' He. eapply effw_ext; [exact He|]. intros p q Hp Hq. unfold nQ. apply rapply_ext; auto. intros x y Hx Hy. rewrite <- Hfin by auto. apply DK; auto. }
  assert (HEM : forall b x y, (b < nblk)%nat -> (x < nQ)%nat -> (y < nQ)%nat -> mmul nQ (mprod nQ g (c b)) (mprod nQ (fun u => g (b * nb + u)%nat) (Nat.min nb (k - b * nb))) x y = mprod nQ g (c (S b)) x y).
  { intros b x y Hb Hx Hy. destruct (Hc b Hb) as (K1 & K2 & K3). rewrite K3, K2. symmetry. apply mprod_app; auto. }
  assert (HER : forall b x y, (b < nblk)%nat -> (x < nQ)%nat -> (y < nQ)%nat -> mmul nQ (rprod nQ (fun u => g (b * nb + u)%nat) (Nat.min nb (k - b * nb))) (rprod nQ g (c b)) x y = rprod nQ g (c (S b)) x y).
  { intros b x y Hb Hx Hy. destruct (Hc b Hb) as (K1 & K2 & K3). rewrite K3, K2. symmetry. apply rprod_app; auto. }
  assert (HEM' : forall b x y, (b < nblk)%nat -> (x < nQ)%nat -> (y < nQ)%nat -> mmul nQ (mprod nQ (fun u => g (b * nb + u)%nat) (Nat.min nb (k - b * nb))) (mprod nQ (fun u => g (c (S b) + u)%nat) (k - c (S b))) x y = mprod nQ (fun u => g (c b + u)%nat) (k - c b) x y).
  { intros b x y Hb Hx Hy. destruct (Hc b Hb) as (K1 & K2 & K3). symmetry. replace (k - c b)%nat with (Nat.min nb (k - b * nb) + (k - c (S b)))%nat by lia. rewrite mprod_app by auto.
    apply mmul_ext; intros l Hl; apply mprod_ext; auto; intros u p q Hu Hp Hq; [rewrite K2|rewrite K3, K2]; auto. replace (b * nb + (Nat.min nb (k - b * nb) + u))%nat with (b * nb + Nat.min nb (k - b * nb) + u)%nat by lia. auto. }
  assert (HER' : forall b x y, (b < nblk)%nat -> (x < nQ)%nat -> (y < nQ)%nat -> mmul nQ (rprod nQ (fun u => g (c (S b) + u)%nat) (k - c (S b))) (rprod nQ (fun u => g (b * nb + u)%nat) (Nat.min nb (k - b * nb))) x y = rprod nQ (fun u => g (c b + u)%nat) (k - c b) x y).
  { intros b x y Hb Hx Hy. destruct (Hc b Hb) as (K1 & K2 & K3). symmetry. replace (k - c b)%nat with (Nat.min nb (k - b * nb) + (k - c (S b)))%nat by lia. rewrite rprod_app by auto.
    apply mmul_ext; intros l Hl; apply rprod_ext; auto; intros u p q Hu Hp Hq; [rewrite K3, K2|rewrite K2]; auto. replace (b * nb + (Nat.min nb (k - b * nb) + u))%nat with (b * nb + Nat.min nb (k - b * nb) + u)%nat by lia. auto. }
  assert (R2 := fun G G' p q => rapply_2 side G G' (val C s) m n p q). fold nQ in R2. unfold bG in HU, HN. fold g in HU, HN.
  assert (RE : forall G G' p q, (p < m)%nat -> (q < n)%nat -> (forall a b, (a < nQ)%nat -> (b < nQ)%nat -> G a b = G' a b) -> rapply side nQ G (val C s) p q = rapply side nQ G' (val C s) p q).
  { intros. unfold nQ. apply rapply_ext; auto. }
  clear Hfin Hwk HV. destruct (side_cases side) as [Es|Es]; replace (match side with Left => bpl | Right => negb bpl end) with (sel side bpl (negb bpl)) by (destruct side; reflexivity); rewrite Es at 1; cbn [sel]; destruct bpl; cbn [negb].
  - apply (HU (fun b => rprod nQ g (c b))); [intros; rewrite Hc0; reflexivity| |intros; rewrite Hcn; auto].
    intros b p q Hb Hp Hq. rewrite R2 by auto. apply RE; auto. intros x y Hx Hy. rewrite Es. replace m with nQ by (unfold nQ; rewrite Es; auto). auto.
  - apply (HN (fun b => mprod nQ (fun u => g (c b + u)%nat) (k - c b))); [intros; rewrite Hcn, Nat.sub_diag; reflexivity| |intros; rewrite Hc0, Nat.sub_0_r; auto].
    intros b p q Hb Hp Hq. rewrite R2 by auto. apply RE; auto. intros x y Hx Hy. rewrite Es. replace m with nQ by (unfold nQ; rewrite Es; auto). auto.
  - apply (HN (fun b => rprod nQ (fun u => g (c b + u)%nat) (k - c b))); [intros; rewrite Hcn, Nat.sub_diag; reflexivity| |intros; rewrite Hc0, Nat.sub_0_r; auto].
    intros b p q Hb Hp Hq. rewrite R2 by auto. apply RE; auto. intros x y Hx Hy. rewrite Es. replace n with nQ by (unfold nQ; rewrite Es; auto). auto.
  - apply (HU (fun b => mprod nQ g (c b))); [intros; rewrite Hc0; reflexivity| |intros; rewrite Hcn; auto].
    intros b p q Hb Hp Hq. rewrite R2 by auto. apply RE; auto. intros x y Hx Hy. rewrite Es. replace n with nQ by (unfold nQ; rewrite Es; auto). auto.
Qed.
End N.

Section W.
Context {E : Env} {FL : FieldLaws E} {CL : ConjLaws E} {QL : EqbLaws E} {XL : CplxLaws E}.
Lemma unmq_work_run nbo side trans dir sm V tau C work s :
  let m := nr C in let n := nc C in let k := nr tau in let nQ := sel side m n in let nb := Nat.min nbo k in
  trans_ok trans ->
  match sm with Columnwise => nc V = k /\ nr V = nQ | Rowwise => nr V = k /\ nc V = nQ end ->
  nc tau = 1%nat -> (k <= nQ)%nat -> vinj C -> disj V C -> disj tau C ->
  (m = 0 \/ n = 0 \/ k = 0 \/ 0 < nbo /\ lok work /\ contiguous work = true /\ nb * nb + nb * sel side n m <= lm work * ln work)%nat ->
  disj (lview work) V -> disj (lview work) tau -> disj (lview work) C ->
  runs (unmq_work nbo side trans dir sm V tau C work) s (fun r s' => r = 0%Z /\
    effw C (rapply side nQ (opm trans (qof dir sm nQ (val V s) (vval tau s) k)) (val C s)) (inview (lview work)) s s').
Proof.
  intros m n k nQ nb Ht HV Htau Hk HI HVC HtC Hw W1 W2 W3. unfold runs, unmq_work. cbv zeta. fold m n k nQ nb. apply wp_bind, wp_check.
  { destruct trans; auto; try contradiction. rewrite Ht. auto. }
  apply wp_bind, wp_check. { destruct sm; destruct HV as [-> ->]; rewrite !Nat.eqb_refl; auto. }
  destruct ((m <=? 0) || (n <=? 0) || (k <=? 0))%bool eqn:Eq.
  { apply wp_ret. split; auto. eapply effw_ext; [apply effw_refl|]. intros p q Hp Hq. fold m in Hp. fold n in Hq. assert (Hk0 : k = 0%nat).
    { destruct (Nat.leb_spec m 0), (Nat.leb_spec n 0), (Nat.leb_spec k 0); try lia; discriminate. }
    rewrite Hk0. symmetry. transitivity (rapply side nQ idm (val C s) p q); [|unfold nQ; apply rapply_id; auto]. unfold nQ. apply rapply_ext; auto.
    intros x y Hx Hy. unfold qof. cbv zeta. destruct dir, sm, trans; try contradiction; cbn [opm hprod mprod rprod]; rewrite ?ctr_idm; unfold idm; try (rewrite (Nat.eqb_sym x y); destruct (y =? x)%nat); rewrite ?conj_1, ?conj_0; auto; try (unfold ctr; rewrite ?Nat.eqb_refl; auto; destruct (Nat.eqb_spec y x); auto; rewrite ?conj_1, ?conj_0; auto). }
  assert (Hpos : (0 < m /\ 0 < n /\ 0 < k)%nat) by (destruct (Nat.leb_spec m 0), (Nat.leb_spec n 0), (Nat.leb_spec k 0); try lia; discriminate).
  destruct Hw as [?|[?|[?|(N0 & L1 & L2 & L3)]]]; [lia..|].
  apply wp_bind, wp_wk_matc; auto; [lia|]. intros Tm w1 T1 T2 T3 T4 T5 T6 T7 T8 T9. cbn [fst snd].
  assert (Hnb : (0 < nb <= k)%nat) by (unfold nb; lia).
  apply wp_bind, wp_assert; [apply Nat.ltb_lt; lia|].
  match goal with |- wp (bind (if ?c then _ else _) _) _ _ _ => replace c with (match side with Left => bpl trans dir sm | Right => negb (bpl trans dir sm) end) by (unfold bpl, ucj; destruct side, dir, sm, trans; reflexivity) end.
  apply wp_bind. eapply wp_conseq; [apply (unmq_bloop nb side trans dir sm V tau C Tm w1 (inview (lview work)) s); auto| |auto].
  - intros ib Hib. apply wkm_ok_contig; auto. fold m n. assert (ib * sel side n m <= nb * sel side n m)%nat by (apply Nat.mul_le_mono_r; auto). destruct side; cbn [sel] in *; lia.
  - intros l Hl Hl'. apply (nin_disj _ _ l W1); auto.
  - intros l Hl Hl'. apply (nin_disj _ _ l W2); auto.
  - intros l Hl Hl'. apply (nin_disj _ _ l W3); auto.
  - intros r s' HL. cbv beta in HL. apply wp_ret. auto.
Qed.
End W.
