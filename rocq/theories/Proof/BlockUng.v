(** * ungq: the blocked generation of Q *)
From Coq Require Import Bool Arith ZArith Lia.
From Verif.Core Require Import Scalar Prog View Slice Loops WorkEff.
From Verif.Model Require Import Gemm Blas3 Legacy LaAux Work Householder QGen QFact BlockQ.
From Verif.Spec Require Import Outcome LinAlg Householder.
From Verif.Proof Require Import SumLemmas SliceTac LegacyProof BlockAlg PotrfProof Blas1Proof LaAuxProof LarfProof LarfgProof QRProof WorkProof QGenProof QFactProof LarftProof LarfbProof BlockProof BlockFact BlockUnm.
Local Open Scope T_scope.

Lemma dir_cases d : {d = Forward} + {d = Backward}.
Proof. destruct d; auto. Qed.

Section G.
Context {E : Env} {FL : FieldLaws E} {CL : ConjLaws E} {QL : EqbLaws E} {XL : CplxLaws E}.
Add Field Tfg : fth.
Variables (sm : storev_t) (dir : direction_t) (A tau : view) (work : lmat) (s : state).
Let m := nr A. Let n := nc A. Let k := nr tau.
Let M' := match sm with Columnwise => m | Rowwise => n end.
Let N' := match sm with Columnwise => n | Rowwise => m end.
Hypothesis HI : vinj A.
Hypothesis Htau : nc tau = 1%nat.
Hypothesis HtA : disj tau A.
Hypothesis W1 : disj (lview work) A.
Hypothesis W2 : disj (lview work) tau.
Hypothesis Wl : lok work.
Hypothesis Wc : contiguous work = true.

(** the elements of A in the coordinates of a columnwise storage are those of F *)
Definition effx (F : mat) (s' : state) : Prop := effw A (xof sm F) (inview (lview work)) s s'.
Lemma effx_ext F G s' : effx F s' -> (forall r j, (r < M')%nat -> (j < N')%nat -> F r j = G r j) -> effx G s'.
Proof. intros H HE. eapply effw_ext; [exact H|]. intros i j Hi Hj. unfold M', N', m, n in HE. clear - HE Hi Hj. destruct sm; cbn [xof]; [|unfold ctr]; rewrite HE; auto. Qed.
Lemma effx_box F G H a b c d s' : (a <= b <= M')%nat -> (c <= d <= N')%nat ->
  effw A (fun i j => if (match sm with Columnwise => inbox a b c d | Rowwise => inbox c d a b end) i j
                     then match sm with Columnwise => H (i - a)%nat (j - c)%nat | Rowwise => H (i - c)%nat (j - a)%nat end else xof sm F i j) (inview (lview work)) s s' ->
  (forall r j, (r < b - a)%nat -> (j < d - c)%nat -> xof sm H r j = G r j) ->
  effx (fun r j => if inbox a b c d r j then G (r - a)%nat (j - c)%nat else F r j) s'.
Proof.
  intros Hab Hcd He HG. eapply effw_ext; [exact He|]. intros i j Hi Hj. cbv beta. clear - HG CL. destruct sm; cbn [xof] in *.
  - destruct (inbox_spec a b c d i j); auto. apply HG; lia.
  - unfold ctr in *. destruct (inbox_spec c d a b i j), (inbox_spec a b c d j i); try lia; auto. rewrite <- HG by lia. rewrite conj_conj. auto.
Qed.
Lemma bsub_x a b c d : (a <= b <= M')%nat -> (c <= d <= N')%nat -> let B := bsub sm A a b c d in
  match sm with Columnwise => nr B = b - a /\ nc B = d - c | Rowwise => nr B = d - c /\ nc B = b - a end%nat /\ vinj B /\ (forall l, inview B l -> inview A l).
Proof.
  intros Hab Hcd B. unfold B, bsub, M', N', m, n in *. clear - Hab Hcd HI. destruct sm; cbn [nr nc subv]; (split; [lia|]); (split; [apply vinj_subv; auto; lia|intros l; apply inview_subv; lia]).
Qed.
Lemma wp_bslc a b c d (Q : view -> state -> Prop) X s1 : (a <= b <= M')%nat -> (c <= d <= N')%nat -> Q (bsub sm A a b c d) s1 -> wp (bslc sm A a b c d) Q X s1.
Proof. intros Hab Hcd HQ. unfold bslc, bsub, M', N', m, n in *. clear - Hab Hcd HQ. destruct sm; apply wp_slc; auto; lia. Qed.
Lemma gdsj (X Y : view) (Q1 Q2 : Z -> Prop) : (forall l, inview X l -> Q1 l) -> (forall l, inview Y l -> Q2 l) -> (forall l, Q1 l -> ~ Q2 l) -> disj X Y.
Proof. intros H1 H2 H3 p q p' q' Hp Hq Hp' Hq' e. apply (H3 (ad X p q)); [apply H1|rewrite e; apply H2]; [exists p, q|exists p', q']; auto. Qed.

Lemma g_laset a b c d al be F s1 : conj al = al -> conj be = be -> (a <= b <= M')%nat -> (c <= d <= N')%nat -> effx F s1 ->
  wp (laset General al be (bsub sm A a b c d)) (fun _ s2 => effx (fun r j => if inbox a b c d r j then (if (r - a =? j - c)%nat then be else al) else F r j) s2) noX s1.
Proof.
  intros Ha Hb Hab Hcd He. assert (P := fun a b c d => laset_part A work s HI a b c d al be (xof sm F) s1).
  assert (K : wp (laset General al be (bsub sm A a b c d)) (fun _ s2 => effw A (fun i j => if (match sm with Columnwise => inbox a b c d | Rowwise => inbox c d a b end) i j
                     then match sm with Columnwise => (fun x y => if (x =? y)%nat then be else al) (i - a)%nat (j - c)%nat | Rowwise => (fun x y => if (x =? y)%nat then be else al) (i - c)%nat (j - a)%nat end else xof sm F i j) (inview (lview work)) s s2) noX s1).
  { unfold effx in He. unfold bsub, M', N', m, n in *. clear - P Hab Hcd He. destruct sm; apply P; auto. }
  eapply wp_conseq; [exact K| |auto]. intros r s2 HL. cbv beta in HL. apply (effx_box F (fun x y => if (x =? y)%nat then be else al) (fun x y => if (x =? y)%nat then be else al)); auto.
  intros x y _ _. clear - Ha Hb. destruct sm; cbn [xof]; auto. unfold ctr. rewrite Nat.eqb_sym. destruct (x =? y)%nat; auto.
Qed.

(** the vectors and scalars of a block *)
Definition vblk (F : mat) (a c : nat) : mat := match sm with Columnwise => fun l u => F (a + l)%nat (c + u)%nat | Rowwise => fun u l => conj (F (a + l)%nat (c + u)%nat) end.
Definition tblk (i : nat) (u : nat) : T := vval tau s (i + u).
Lemma val_blk F s1 a b c ib i t : effx F s1 -> (a <= b <= M')%nat -> (c + ib <= N')%nat -> (i < nr (bsub sm A a b c (c + ib)))%nat -> (t < nc (bsub sm A a b c (c + ib)))%nat ->
  val (bsub sm A a b c (c + ib)) s1 i t = vblk F a c i t.
Proof.
  intros (H & _) Hab Hcd Hi Ht. unfold vblk, bsub, M', N', m, n in *. clear - H Hab Hcd Hi Ht. destruct sm; cbn [nr nc subv] in *; unfold val; cbn [ad subv]; change (mem s1 (ad A (a + i) (c + t))) with (val A s1 (a + i)%nat (c + t)%nat) || change (mem s1 (ad A (c + i) (a + t))) with (val A s1 (c + i)%nat (a + t)%nat); rewrite H by lia; reflexivity.
Qed.
Lemma vprod_ext nq ib V V' t t' : (ib <= nq)%nat -> (forall u, (u < ib)%nat -> t u = t' u) ->
  (forall u r, (u < ib)%nat -> (r < nq)%nat -> match sm with Columnwise => V r u = V' r u | Rowwise => V u r = V' u r end) ->
  forall r c, (r < nq)%nat -> (c < nq)%nat -> vprod dir sm nq ib V t r c = vprod dir sm nq ib V' t' r c.
Proof.
  intros Hib Ht HV r c Hr Hc. unfold vprod. apply hprod_ext; auto. intros u x y Hu Hx Hy. rewrite Ht by auto.
  apply refl_ext; unfold rvec; destruct (_ =? _)%nat; auto; match goal with |- (if ?c then _ else _) = _ => destruct c end; auto;
  [specialize (HV u x Hu Hx)|specialize (HV u y Hu Hy)]; destruct sm; rewrite HV; auto.
Qed.
Lemma g_tau F s1 i : effx F s1 -> (i < k)%nat -> vval tau s1 i = vval tau s i.
Proof. intros H Hi. eapply tau_at; [exact Htau|exact HtA|exact W2|exact H|exact Hi]. Qed.

Lemma g_blk a b c ib d0 d1 t0 Tm work1 F s1 : (a <= b <= M')%nat -> (c + ib <= N')%nat -> (d0 <= d1 <= N')%nat -> (ib <= b - a)%nat -> (d1 <= c \/ c + ib <= d0)%nat -> (t0 + ib <= k)%nat ->
  (ib <= nr Tm)%nat -> (ib <= nc Tm)%nat -> vinj Tm -> disj Tm (lview work1) -> (forall l, inview Tm l -> inview (lview work) l) -> (forall l, inview (lview work1) l -> inview (lview work) l) ->
  lok work1 -> contiguous work1 = true -> (ib * (d1 - d0) <= lm work1 * ln work1)%nat -> effx F s1 ->
  let V := bsub sm A a b c (c + ib) in let tj := Slice.vsub tau t0 (t0 + ib) in
  wp (Tj <- slc Tm 0 ib 0 ib;; C <- bslc sm A a b d0 d1;; larft dir sm V tj Tj;; larfb_work (xside sm) (match sm with Columnwise => NoTrans | Rowwise => ConjTrans end) dir sm V Tj C work1;; ret tt)
    (fun _ s2 => effx (fun r j => if inbox a b d0 d1 r j then mmul (b - a) (vprod dir sm (b - a) ib (vblk F a c) (tblk t0)) (fun l j => F (a + l)%nat j) (r - a)%nat j else F r j) s2) noX s1.
Proof.
  intros Hab Hc Hd Hib Hdc Ht0 T1 T2 T3 T4 T5 T6 L1 L2 L3 He V tj.
  apply wp_bind, wp_slc; [lia..|]. set (Tj := subv Tm 0 ib 0 ib). apply wp_bind, wp_bslc; auto. set (C := bsub sm A a b d0 d1).
  destruct (bsub_x a b c (c + ib) Hab ltac:(lia)) as (V1 & V2 & V3). fold V in V1, V2, V3. destruct (bsub_x a b d0 d1 Hab Hd) as (C1 & C2 & C3). fold C in C1, C2, C3.
  assert (HTj : forall l, inview Tj l -> inview Tm l) by (intros l; apply inview_subv; lia).
  assert (Htj : forall l, inview tj l -> inview tau l) by (intros l; apply inview_vsub; [fold k; lia|lia]).
  assert (Htn : nr tj = ib) by (unfold tj; cbn [nr Slice.vsub]; lia).
  assert (P1 : forall l, inview A l -> ~ inview (lview work) l) by (intros l Hl Hl'; apply (nin_disj _ _ l W1); auto).
  assert (P2 : forall l, inview tau l -> ~ inview (lview work) l) by (intros l Hl Hl'; apply (nin_disj _ _ l W2); auto).
  assert (HVC : disj V C).
  { unfold V, C, bsub, M', N', m, n in *. clear - HI Hab Hc Hd Hdc. intros p q p' q' Hp Hq Hp' Hq'. destruct sm; cbn [nr nc subv ad] in *; intros e; apply HI in e; lia. }
  assert (HB := blk_apply (xside sm) (match sm with Columnwise => NoTrans | Rowwise => ConjTrans end) dir sm V tj Tj C work1 s1). cbv zeta in HB. rewrite Htn in HB.
  assert (HnQ : sel (xside sm) (nr C) (nc C) = (b - a)%nat) by (clear - C1; destruct sm; cbn [sel xside]; lia). rewrite HnQ in HB.
  set (tr := match sm with Columnwise => NoTrans | Rowwise => ConjTrans end) in *.
  assert (HB' : runs (larft dir sm V tj Tj;; larfb_work (xside sm) tr dir sm V Tj C work1) s1 (fun _ s' =>
    effw C (rapply (xside sm) (b - a) (opm tr (vprod dir sm (b - a) ib (val V s1) (vval tj s1))) (val C s1)) (fun l => inview Tj l \/ inview (lview work1) l) s1 s')).
  { apply HB.
    - unfold tr. clear. destruct sm; exact I.
    - clear - V1. destruct sm; lia.
    - reflexivity.
    - unfold Tj. cbn [nr subv]. lia.
    - unfold Tj. cbn [nc subv]. lia.
    - auto.
    - auto.
    - apply vinj_subv; auto; lia.
    - auto.
    - apply (gdsj V Tj (inview A) (inview (lview work))); auto.
    - apply (gdsj tj Tj (inview tau) (inview (lview work))); auto.
    - apply (gdsj C Tj (inview A) (inview (lview work))); auto.
    - right. right. right. apply wkm_ok_contig; auto. clear - C1 L3. destruct sm; cbn [sel xside]; destruct C1 as [Q1 Q2]; rewrite ?Q1, ?Q2; lia.
    - apply (gdsj V (lview work1) (inview A) (inview (lview work))); auto.
    - apply (gdsj Tj (lview work1) (inview Tm) (inview (lview work1))); auto. intros l. apply nin_disj; auto.
    - apply (gdsj C (lview work1) (inview A) (inview (lview work))); auto. }
  clear HB. apply wp_bind. eapply wp_conseq; [apply (wp_seq_inv (V := Z) (V' := Z) _ _ _ _ _ HB')| |auto]. intros z s2 HL. cbv beta in HL. apply wp_bind. eapply wp_conseq; [exact HL| |auto].
  intros z' s3 HK. cbv beta in HK. apply wp_ret.
  set (W := vprod dir sm (b - a) ib (vblk F a c) (tblk t0)).
  assert (HW : forall r c, (r < b - a)%nat -> (c < b - a)%nat -> vprod dir sm (b - a) ib (val V s1) (vval tj s1) r c = W r c).
  { intros r c' Hr Hc'. unfold W. apply vprod_ext; auto.
    - intros u Hu. change (vval tau s1 (t0 + u) = vval tau s (t0 + u)). eapply g_tau; eauto. lia.
    - intros u x Hu Hx. assert (VB := fun i t => val_blk F s1 a b c ib i t He Hab Hc). fold V in VB. clear - VB V1 Hu Hx. destruct sm; apply VB; lia. }
  assert (HF : forall r j, (r < M')%nat -> (j < N')%nat -> xof sm (val A s1) r j = F r j).
  { destruct He as (H1 & _). unfold M', N', m, n. intros r j Hr Hj. clear - H1 Hr Hj CL. destruct sm; cbn [xof] in *; [auto|unfold ctr in *; rewrite H1, conj_conj; auto]. }
  apply effx_ext with (F := fun r j => if inbox a b d0 d1 r j then (fun x y => mmul (b - a) W (fun l j => F (a + l)%nat (d0 + j)%nat) x y) (r - a)%nat (j - d0)%nat else F r j).
  2:{ intros r j Hr Hj. cbv beta. destruct (inbox_spec a b d0 d1 r j); auto. unfold mmul. apply sum_ext. intros l Hl. do 2 f_equal. lia. }
  eapply (effx_box F (fun x y => mmul (b - a) W (fun l j => F (a + l)%nat (d0 + j)%nat) x y) (rapply (xside sm) (b - a) (opm tr (vprod dir sm (b - a) ib (val V s1) (vval tj s1))) (val C s1))); auto.
  - unfold effx in He. unfold C, bsub, M', N', m, n in *. clear - HK He HI Hab Hd P1 T5 T6 HTj. destruct sm.
    + eapply (effw_sub A a b d0 d1 _ _ (inview (lview work)) (fun l => inview Tj l \/ inview (lview work1) l)); [exact HI|lia|lia| | |exact He|exact HK].
      * intros l [Hl|Hl]; auto.
      * intros l Hl [Hl'|Hl']; apply (P1 l); auto.
    + eapply (effw_sub A d0 d1 a b _ _ (inview (lview work)) (fun l => inview Tj l \/ inview (lview work1) l)); [exact HI|lia|lia| | |exact He|exact HK].
      * intros l [Hl|Hl]; auto.
      * intros l Hl [Hl'|Hl']; apply (P1 l); auto.
  - intros r j Hr Hj. set (W1' := vprod dir sm (b - a) ib (val V s1) (vval tj s1)) in *. clearbody W1' W.
    unfold tr, C, bsub, xside, rapply, M', N' in *. clear - HW HF Hr Hj Hab Hd FL CL. destruct sm; cbn [xof opm] in *.
    + apply mmul_ext; intros l Hl; auto. apply (HF (a + l)%nat (d0 + j)%nat); lia.
    + unfold ctr at 1. unfold mmul. rewrite sum_conj. apply sum_ext. intros l Hl. rewrite conj_mul. cbn [opm]. rewrite conj_conj. rewrite HW by auto.
      assert (H := HF (a + l)%nat (d0 + j)%nat ltac:(lia) ltac:(lia)). unfold ctr in H. unfold val in H |- *. cbn [ad subv]. rewrite H. ring.
Qed.

Lemma g_un a b c ib t0 F s1 : (a <= b <= M')%nat -> (c + ib <= N')%nat -> (ib <= b - a)%nat -> (t0 + ib <= k)%nat -> (ib - 1 <= lm work * ln work)%nat -> effx F s1 ->
  wp (ungq_level2_work dir sm (bsub sm A a b c (c + ib)) (Slice.vsub tau t0 (t0 + ib)) work)
    (fun _ s2 => effx (fun r j => if inbox a b c (c + ib) r j then vprod dir sm (b - a) ib (vblk F a c) (tblk t0) (r - a)%nat (match dir with Forward => 0 | Backward => b - a - ib end + (j - c))%nat else F r j) s2) noX s1.
Proof.
  intros Hab Hc Hib Ht0 Hw He. set (V := bsub sm A a b c (c + ib)). set (tj := Slice.vsub tau t0 (t0 + ib)).
  destruct (bsub_x a b c (c + ib) Hab ltac:(lia)) as (V1 & V2 & V3). fold V in V1, V2, V3.
  assert (Htj : forall l, inview tj l -> inview tau l) by (intros l; apply inview_vsub; [fold k; lia|lia]).
  assert (Htn : nr tj = ib) by (unfold tj; cbn [nr Slice.vsub]; lia).
  assert (D1 : disj tj V) by (apply (gdsj tj V (inview tau) (inview A)); auto; intros l; apply nin_disj; auto).
  assert (D2 : disj (lview work) V) by (apply (gdsj (lview work) V (inview (lview work)) (inview A)); auto; intros l; apply nin_disj; auto).
  assert (D3 : disj (lview work) tj) by (apply (gdsj (lview work) tj (inview (lview work)) (inview tau)); auto; intros l; apply nin_disj; auto).
  set (off := match dir with Forward => 0%nat | Backward => (b - a - ib)%nat end).
  set (W := fun r j => vprod dir sm (b - a) ib (val V s1) (vval tj s1) r (off + j)%nat).
  assert (K : wp (ungq_level2_work dir sm V tj work) (fun _ s2 => effw V (xof sm W) (inview (lview work)) s1 s2) noX s1).
  { replace (c + ib - c)%nat with ib in V1 by lia.
    assert (Cf := fun H => ungq_cf V tj work s1 V2 D2 eq_refl D1 D3 Wl Wc H). assert (Cb := fun H => ungq_cb V tj work s1 V2 D2 eq_refl D1 D3 Wl Wc H).
    assert (Rf := fun H => ungq_rf V tj work s1 V2 D2 eq_refl D1 D3 Wl Wc H). assert (Rb := fun H => ungq_rb V tj work s1 V2 D2 eq_refl D1 D3 Wl Wc H).
    assert (HG : forall r j, (r < nr V)%nat -> (j < nc V)%nat -> qpart dir sm (nr V) (nc V) (qof dir sm (b - a) (stored dir sm (nr V) (nc V) ib (val V s1)) (vval tj s1) ib) r j = xof sm W r j).
    { intros r j Hr Hj. unfold W, off, qpart, qof. cbv zeta. clear - V1 Hr Hj Hib FL. 
      assert (HS : forall r j, stored dir sm (nr V) (nc V) ib (val V s1) r j = val V s1 r j).
      { intros. unfold stored. destruct sm, dir; auto; f_equal; lia. }
      assert (HP : forall x y, hprod dir (b - a) (fun i => refl (vval tj s1 i) (rvec dir sm (b - a) ib (stored dir sm (nr V) (nc V) ib (val V s1)) i)) ib x y = vprod dir sm (b - a) ib (val V s1) (vval tj s1) x y).
      { intros x y. unfold vprod. assert (forall i x, rvec dir sm (b - a) ib (stored dir sm (nr V) (nc V) ib (val V s1)) i x = rvec dir sm (b - a) ib (val V s1) i x).
        { intros. unfold rvec. destruct (_ =? _)%nat; auto. match goal with |- (if ?c then _ else _) = _ => destruct c end; auto. destruct sm; rewrite HS; auto. }
        assert (forall i r c, refl (vval tj s1 i) (rvec dir sm (b - a) ib (stored dir sm (nr V) (nc V) ib (val V s1)) i) r c = refl (vval tj s1 i) (rvec dir sm (b - a) ib (val V s1) i) r c) as HR.
        { intros. unfold refl. rewrite !H. auto. }
        clear - HR. set (h := fun i => refl (vval tj s1 i) (rvec dir sm (b - a) ib (stored dir sm (nr V) (nc V) ib (val V s1)) i)). set (h' := fun i => refl (vval tj s1 i) (rvec dir sm (b - a) ib (val V s1) i)).
        change (forall i r c, h i r c = h' i r c) in HR. clearbody h h'. generalize ib. intros q. destruct dir; cbn [hprod]; revert x y; (induction q as [|q IH]; intros x y; [reflexivity|cbn [mprod rprod]; unfold mmul; apply sum_ext; intros l Hl; rewrite IH, HR; auto]). }
      destruct sm, dir; cbn [xof Nat.add]; unfold ctr; rewrite HP; auto.
      - f_equal. lia.
      - do 2 f_equal. lia. }
    assert (Hk' : forall x, x = ib -> forall v, qof dir sm (b - a) (stored dir sm (nr V) (nc V) x (val V s1)) v x = qof dir sm (b - a) (stored dir sm (nr V) (nc V) ib (val V s1)) v ib) by (intros x -> v; auto).
    clear - Cf Cb Rf Rb HG V1 Htn Hib Hw Hk'. destruct sm, dir; destruct V1 as [Vr Vc].
    - eapply wp_conseq; [apply Cf; lia| |auto]. intros z s2 [_ HL]. eapply effw_ext; [exact HL|]. intros r j Hr Hj. rewrite <- HG by auto. cbv beta. cbn [qpart]. rewrite <- (Hk' (nr tj)) by auto. rewrite Vr. reflexivity.
    - eapply wp_conseq; [apply Cb; lia| |auto]. intros z s2 [_ HL]. eapply effw_ext; [exact HL|]. intros r j Hr Hj. rewrite <- HG by auto. cbv beta. cbn [qpart]. rewrite <- (Hk' (nr tj)) by auto. rewrite Vr. reflexivity.
    - eapply wp_conseq; [apply Rf; lia| |auto]. intros z s2 [_ HL]. eapply effw_ext; [exact HL|]. intros r j Hr Hj. rewrite <- HG by auto. cbv beta. cbn [qpart]. rewrite <- (Hk' (nr tj)) by auto. rewrite Vc. reflexivity.
    - eapply wp_conseq; [apply Rb; lia| |auto]. intros z s2 [_ HL]. eapply effw_ext; [exact HL|]. intros r j Hr Hj. rewrite <- HG by auto. cbv beta. cbn [qpart]. rewrite <- (Hk' (nr tj)) by auto. rewrite Vc. reflexivity. }
  eapply wp_conseq; [exact K| |auto]. intros z s2 HK. cbv beta in HK.
  assert (P1 : forall l, inview A l -> ~ inview (lview work) l) by (intros l Hl Hl'; apply (nin_disj _ _ l W1); auto).
  apply (effx_box F (fun x y => vprod dir sm (b - a) ib (vblk F a c) (tblk t0) x (off + y)%nat) (xof sm W)); auto; [lia|..].
  - unfold effx in He. unfold V, bsub, M', N', m, n in *. clear - HK He HI Hab Hc P1. destruct sm;
    (eapply effw_sub with (P' := inview (lview work)); [exact HI|lia|lia| | |exact He|exact HK]; auto).
  - intros r j Hr Hj. transitivity (W r j). { clear - CL. destruct sm; cbn [xof]; auto. unfold ctr. apply conj_conj. }
    unfold W. apply vprod_ext; auto.
    + intros u Hu. change (vval tau s1 (t0 + u) = vval tau s (t0 + u)). eapply g_tau; eauto. lia.
    + intros u x Hu Hx. assert (VB := fun i t => val_blk F s1 a b c ib i t He Hab Hc). fold V in VB. clear - VB V1 Hu Hx. destruct sm; apply VB; lia.
    + unfold off. clear - Hib Hj. destruct dir; lia.
Qed.

(** ** the block step *)
Definition gV : mat := stored dir sm m n k (val A s).
Definition gH (i : nat) : mat := refl (vval tau s i) (rvec dir sm M' k gV i).
Definition X0 : mat := xof sm (val A s).
Definition gD (j : nat) : mat := fun r c =>
  match dir with
  | Forward => if (j <=? c)%nat then mprod M' (fun u => gH (j + u)%nat) (k - j) r c else X0 r c
  | Backward => if (c <? N' - k + j)%nat then rprod M' gH j r (M' - N' + c)%nat else X0 r c
  end.
Definition ga (j : nat) := match dir with Forward => j | Backward => 0%nat end.
Definition gb (j ib : nat) := match dir with Forward => M' | Backward => (M' - k + j + ib)%nat end.
Definition gc (j : nat) := match dir with Forward => j | Backward => (N' - k + j)%nat end.
Definition gd0 (j ib : nat) := match dir with Forward => (j + ib)%nat | Backward => 0%nat end.
Definition gd1 (j : nat) := match dir with Forward => N' | Backward => (N' - k + j)%nat end.
Definition gz0 (j ib : nat) := match dir with Forward => 0%nat | Backward => (M' - k + j + ib)%nat end.
Definition gz1 (j : nat) := match dir with Forward => j | Backward => M' end.
(** before and after the step *)
Definition gbef (j ib : nat) := match dir with Forward => gD (j + ib) | Backward => gD j end.
Definition gaft (j ib : nat) := match dir with Forward => gD j | Backward => gD (j + ib) end.

(** the loop body, in these coordinates *)
Definition gprog (nb : nat) (Tm : view) (work1 : lmat) (j : nat) : M unit :=
  let ib := Nat.min nb (k - j) in
  tauj <- slvec tau j (j + ib);;
  V <- bslc sm A (ga j) (gb j ib) (gc j) (gc j + ib);;
  (if (gd0 j ib <? gd1 j)%nat then
     Tj <- slc Tm 0 ib 0 ib;; C <- bslc sm A (ga j) (gb j ib) (gd0 j ib) (gd1 j);;
     larft dir sm V tauj Tj;; larfb_work (xside sm) (match sm with Columnwise => NoTrans | Rowwise => ConjTrans end) dir sm V Tj C work1;; ret tt
   else ret tt);;
  A0 <- bslc sm A (gz0 j ib) (gz1 j) (gc j) (gc j + ib);;
  match dir with
  | Forward => laset General 0 0 A0;; ungq_level2_work dir sm V tauj work;; ret tt
  | Backward => ungq_level2_work dir sm V tauj work;; laset General 0 0 A0
  end.
End G.

Section G2.
Context {E : Env} {FL : FieldLaws E} {CL : ConjLaws E} {QL : EqbLaws E} {XL : CplxLaws E}.
Add Field Tfg2 : fth.
Variables (sm : storev_t) (dir : direction_t) (A tau : view) (work : lmat) (s : state).
Variables (m n k M' N' : nat).
Hypothesis Em : nr A = m.
Hypothesis En : nc A = n.
Hypothesis Ek : nr tau = k.
Hypothesis EM : match sm with Columnwise => nr A | Rowwise => nc A end = M'.
Hypothesis EN : match sm with Columnwise => nc A | Rowwise => nr A end = N'.
Hypothesis HI : vinj A.
Hypothesis Htau : nc tau = 1%nat.
Hypothesis HtA : disj tau A.
Hypothesis W1 : disj (lview work) A.
Hypothesis W2 : disj (lview work) tau.
Hypothesis Wl : lok work.
Hypothesis Wc : contiguous work = true.
Hypothesis Hk : (k <= N' <= M')%nat.
Local Notation effx := (BlockUng.effx sm A work s).
Local Notation vblk := (BlockUng.vblk sm).
Local Notation tblk := (BlockUng.tblk tau s).
Local Notation gV := (BlockUng.gV sm dir A tau s).
Local Notation gH := (BlockUng.gH sm dir A tau s).
Local Notation X0 := (BlockUng.X0 sm A s).
Local Notation gD := (BlockUng.gD sm dir A tau s).
Local Notation ga := (BlockUng.ga dir).
Local Notation gb := (BlockUng.gb sm dir A tau).
Local Notation gc := (BlockUng.gc sm dir A tau).
Local Notation gd0 := (BlockUng.gd0 dir).
Local Notation gd1 := (BlockUng.gd1 sm dir A tau).
Local Notation gz0 := (BlockUng.gz0 sm dir A tau).
Local Notation gz1 := (BlockUng.gz1 sm dir A).
Local Notation gbef := (BlockUng.gbef sm dir A tau s).
Local Notation gaft := (BlockUng.gaft sm dir A tau s).
Local Notation gprog := (BlockUng.gprog sm dir A tau work).

Ltac gu := unfold BlockUng.ga, BlockUng.gb, BlockUng.gc, BlockUng.gd0, BlockUng.gd1, BlockUng.gz0, BlockUng.gz1, BlockUng.gbef, BlockUng.gaft, BlockUng.gD in *; rewrite ?EM, ?EN, ?Ek in *.
Lemma gblk_stored j ib : (j + ib <= k)%nat -> forall r c, (r < M')%nat -> (c < M')%nat ->
  embm (ga j) (gb j ib) (vprod dir sm (gb j ib - ga j) ib (vblk (gbef j ib) (ga j) (gc j)) (tblk j)) r c = hprod dir M' (fun u => gH (j + u)%nat) ib r c.
Proof.
  intros Hj r c Hr Hc. assert (EV := vprod_blk dir sm M' k j ib gV (vblk (gbef j ib) (ga j) (gc j)) (vval tau s) (tblk j) ltac:(lia) ltac:(lia)). cbv zeta in EV.
  assert (Hb : gb j ib = match dir with Forward => M' | Backward => (M' + j + ib - k)%nat end) by (gu; destruct dir; lia). rewrite Hb. unfold BlockUng.gH. rewrite ?EM, ?Ek. apply EV; auto; clear EV.
  intros u l Hu Hl. gu; unfold BlockUng.vblk, BlockUng.gV, stored, BlockUng.X0 in *; rewrite ?Em, ?En, ?Ek in *. clear - Hu Hl Hj Hk CL EM EN. destruct sm, dir; cbn [xof] in *; rewrite <- EM, <- EN in *; clear EM EN.
  - destruct (Nat.leb_spec (j + ib) (j + u)); [lia|auto].
  - destruct (Nat.ltb_spec (n - k + j + u) (n - k + j)); [lia|]. f_equal; lia.
  - destruct (Nat.leb_spec (j + ib) (j + u)); [lia|]. unfold ctr. rewrite conj_conj. auto.
  - destruct (Nat.ltb_spec (m - k + j + u) (m - k + j)); [lia|]. unfold ctr. rewrite conj_conj. f_equal; lia.
Qed.
Lemma gH_col i l x : (i < k)%nat -> (x < M')%nat -> match dir with Forward => x < i | Backward => M' - k + i < x end%nat -> gH i l x = idm l x.
Proof.
  intros Hi Hx Hd. unfold BlockUng.gH, refl; rewrite ?EM, ?Ek. replace (rvec dir sm M' k gV i x) with (0 : T); [rewrite conj_0; ring|]. unfold rvec, rpos. clear - Hd. destruct dir.
  - destruct (Nat.eqb_spec x i); [lia|]. destruct (Nat.ltb_spec x i); [auto|lia].
  - destruct (Nat.eqb_spec x (M' - k + i)); [lia|]. destruct (Nat.ltb_spec (M' - k + i) x); [auto|lia].
Qed.
Lemma mprod_col mm (H : nat -> mat) cnt x : (x < mm)%nat -> (forall i l, (i < cnt)%nat -> (l < mm)%nat -> H i l x = idm l x) -> forall l, (l < mm)%nat -> mprod mm H cnt l x = idm l x.
Proof. intros Hx HH l Hl. rewrite mprod_tprod by auto. apply tprod_col; auto. intros; apply HH; auto; lia. Qed.

Lemma gstep_math j ib (G : mat) : (j + ib <= k)%nat ->
  let W := vprod dir sm (gb j ib - ga j) ib (vblk (gbef j ib) (ga j) (gc j)) (tblk j) in
  (forall r c, (r < M')%nat -> (c < N')%nat -> G r c =
     if inbox (gz0 j ib) (gz1 j) (gc j) (gc j + ib) r c then 0
     else if inbox (ga j) (gb j ib) (gc j) (gc j + ib) r c then W (r - ga j)%nat (match dir with Forward => 0 | Backward => gb j ib - ga j - ib end + (c - gc j))%nat
     else if inbox (ga j) (gb j ib) (gd0 j ib) (gd1 j) r c then mmul (gb j ib - ga j) W (fun l c => gbef j ib (ga j + l)%nat c) (r - ga j)%nat c
     else gbef j ib r c) ->
  forall r c, (r < M')%nat -> (c < N')%nat -> G r c = gaft j ib r c.
Proof.
  intros Hj W HG r c Hr Hc. rewrite HG by auto. clear HG G. assert (EW := gblk_stored j ib Hj). fold W in EW. clearbody W.
  assert (GC := gH_col). assert (EL := fun B r c => embm_l M' (ga j) (gb j ib) W B r c).
  gu. set (h := gH) in *. clearbody h. destruct dir.
  - specialize (fun B r c => EL B r c ltac:(lia)). cbn [hprod] in EW.
    assert (HA : forall r c, (r < M')%nat -> (c < M')%nat -> mprod M' (fun u => h (j + u)%nat) (k - j) r c = mmul M' (embm j M' W) (mprod M' (fun u => h (j + ib + u)%nat) (k - (j + ib))) r c).
    { intros r' c' Hr' Hc'. replace (k - j)%nat with (ib + (k - (j + ib)))%nat by lia. rewrite mprod_app by auto. apply mmul_ext; intros l Hl; [symmetry; apply EW; auto|].
      apply mprod_ext; auto. intros u p q Hu Hp Hq. replace (j + (ib + u))%nat with (j + ib + u)%nat by lia. auto. }
    destruct (Nat.leb_spec j c).
    2:{ destruct (inbox_spec 0 j j (j + ib) r c), (inbox_spec j M' j (j + ib) r c), (inbox_spec j M' (j + ib) N' r c), (Nat.leb_spec (j + ib) c); try lia. auto. }
    rewrite HA by lia. destruct (Nat.leb_spec (j + ib) c).
    + destruct (inbox_spec 0 j j (j + ib) r c), (inbox_spec j M' j (j + ib) r c); try lia. rewrite EL by auto. destruct (win_spec j M' r), (inbox_spec j M' (j + ib) N' r c); try lia; auto.
      apply sum_ext. intros l Hl. destruct (Nat.leb_spec (j + ib) c); [auto|lia].
    + transitivity (embm j M' W r c).
      2:{ symmetry. transitivity (mmul M' (embm j M' W) idm r c); [|apply mmul_id_r; lia]. apply mmul_ext; auto. intros l Hl. apply mprod_col; auto; [lia|]. intros; apply GC; lia. }
      unfold embm. destruct (win_spec j M' r), (win_spec j M' c), (inbox_spec 0 j j (j + ib) r c), (inbox_spec j M' j (j + ib) r c); try lia; cbn [andb Nat.add]; auto.
      unfold idm. destruct (Nat.eqb_spec r c); [lia|auto].
  - specialize (fun B r c => EL B r c ltac:(lia)). cbn [hprod] in EW. rewrite !Nat.sub_0_r in *. cbn [Nat.add] in *. set (b := (M' - k + j + ib)%nat) in *. set (jj := (N' - k + j)%nat) in *.
    assert (HA : forall r c, (r < M')%nat -> (c < M')%nat -> rprod M' h (j + ib) r c = mmul M' (embm 0 b W) (rprod M' h j) r c).
    { intros r' c' Hr' Hc'. rewrite rprod_app by auto. apply mmul_ext; intros l Hl; auto. symmetry; apply EW; auto. }
    destruct (Nat.ltb_spec c (N' - k + (j + ib))).
    2:{ destruct (inbox_spec b M' jj (jj + ib) r c), (inbox_spec 0 b jj (jj + ib) r c), (inbox_spec 0 b 0 jj r c), (Nat.ltb_spec c jj); unfold jj in *; try lia. auto. }
    rewrite HA by lia. destruct (Nat.ltb_spec c jj) as [L|L].
    + destruct (inbox_spec b M' jj (jj + ib) r c), (inbox_spec 0 b jj (jj + ib) r c); try lia. rewrite EL by auto. destruct (win_spec 0 b r), (inbox_spec 0 b 0 jj r c); try lia; auto.
      rewrite Nat.sub_0_r. apply sum_ext. intros l Hl. destruct (Nat.ltb_spec c jj); [auto|lia].
    + transitivity (embm 0 b W r (M' - N' + c)%nat).
      2:{ symmetry. transitivity (mmul M' (embm 0 b W) idm r (M' - N' + c)%nat); [|apply mmul_id_r; lia]. apply mmul_ext; auto. intros l Hl. apply rprod_col; auto; [lia|]. intros; apply GC; unfold jj in *; lia. }
      unfold embm. destruct (win_spec 0 b r), (win_spec 0 b (M' - N' + c)), (inbox_spec b M' jj (jj + ib) r c), (inbox_spec 0 b jj (jj + ib) r c); unfold b, jj in *; try lia; cbn [andb Nat.add]; rewrite ?Nat.sub_0_r; auto.
      * f_equal; lia.
      * unfold idm. destruct (Nat.eqb_spec r (M' - N' + c)); [lia|auto].
Qed.

Lemma gprog_run nb j Tm work1 s1 : (j < k)%nat -> (nb <= k)%nat -> let ib := Nat.min nb (k - j) in
  (gd0 j ib < gd1 j -> (nb <= nr Tm /\ nb <= nc Tm)%nat /\ vinj Tm /\ disj Tm (lview work1) /\ (forall l, inview Tm l -> inview (lview work) l) /\ (forall l, inview (lview work1) l -> inview (lview work) l) /\
     lok work1 /\ contiguous work1 = true /\ (ib * (gd1 j - gd0 j ib) <= lm work1 * ln work1)%nat)%nat ->
  (nb - 1 <= lm work * ln work)%nat -> effx (gbef j ib) s1 ->
  wp (gprog nb Tm work1 j) (fun _ s2 => effx (gaft j ib) s2) noX s1.
Proof.
  intros Hj Hnb ib Hw Hw1 He. unfold BlockUng.gprog. cbv zeta. rewrite Ek. fold ib. assert (Hib : (j + ib <= k)%nat) by (unfold ib; lia).
  assert (Hib' : (ib <= nb)%nat) by (unfold ib; lia). clearbody ib.
  apply wp_bind. apply wp_slvec; [lia|lia|]. set (tj := Slice.vsub tau j (j + ib)).
  assert (Hab : (ga j <= gb j ib <= M')%nat) by (gu; clear - Hk Hib; destruct dir; lia).
  assert (Hc : (gc j + ib <= N')%nat) by (gu; clear - Hk Hib; destruct dir; lia).
  assert (Hd : (gd0 j ib <= gd1 j <= N')%nat) by (gu; clear - Hk Hib; destruct dir; lia).
  assert (Hiba : (ib <= gb j ib - ga j)%nat) by (gu; clear - Hk Hib; destruct dir; lia).
  assert (Hdc : (gd1 j <= gc j \/ gc j + ib <= gd0 j ib)%nat) by (gu; clear - Hk Hib; destruct dir; lia).
  assert (Hz : (gz0 j ib <= gz1 j <= M')%nat) by (gu; clear - Hk Hib; destruct dir; lia).
  set (W := vprod dir sm (gb j ib - ga j) ib (vblk (gbef j ib) (ga j) (gc j)) (tblk j)).
  set (F1 := fun r c => if inbox (ga j) (gb j ib) (gd0 j ib) (gd1 j) r c then mmul (gb j ib - ga j) W (fun l c => gbef j ib (ga j + l)%nat c) (r - ga j)%nat c else gbef j ib r c).
  set (V := bsub sm A (ga j) (gb j ib) (gc j) (gc j + ib)).
  assert (PB : forall (cond : bool), cond = (gd0 j ib <? gd1 j)%nat ->
    wp (if cond then Tj <- slc Tm 0 ib 0 ib;; C <- bslc sm A (ga j) (gb j ib) (gd0 j ib) (gd1 j);; larft dir sm V tj Tj;; larfb_work (xside sm) (match sm with Columnwise => NoTrans | Rowwise => ConjTrans end) dir sm V Tj C work1;; ret tt else ret tt)
      (fun _ s2 => effx F1 s2) noX s1).
  { intros cond ->. destruct (Nat.ltb_spec (gd0 j ib) (gd1 j)) as [L|L].
    - destruct (Hw L) as ([T1 T2] & T3 & T4 & T5 & T6 & T7 & T8 & T9). apply (g_blk sm dir A tau work s HI Htau HtA W1 W2 (ga j) (gb j ib) (gc j) ib (gd0 j ib) (gd1 j) j Tm work1); auto; rewrite ?EM, ?EN, ?Ek; auto; lia.
    - apply wp_ret. eapply effx_ext; [exact He|]. rewrite EM, EN. intros r c Hr Hc'. unfold F1. destruct (inbox_spec (ga j) (gb j ib) (gd0 j ib) (gd1 j) r c); [lia|auto]. }
  assert (HVB : forall F, (forall r c, (r < M')%nat -> (gc j <= c < gc j + ib)%nat -> (ga j <= r < gb j ib)%nat -> F r c = gbef j ib r c) -> forall r c, (r < gb j ib - ga j)%nat -> (c < gb j ib - ga j)%nat -> vprod dir sm (gb j ib - ga j) ib (vblk F (ga j) (gc j)) (tblk j) r c = W r c).
  { intros F HF r c Hr Hc'. unfold W. apply (vprod_ext sm dir A); auto. intros u x Hu Hx. unfold BlockUng.vblk. clear - HF Hu Hx Hab. destruct sm; rewrite HF; auto; lia. }
  assert (HF1 : forall r c, (r < M')%nat -> (gc j <= c < gc j + ib)%nat -> F1 r c = gbef j ib r c).
  { intros r c Hr Hc'. unfold F1. destruct (inbox_spec (ga j) (gb j ib) (gd0 j ib) (gd1 j) r c); [lia|auto]. }
  assert (GM := gstep_math j ib). cbv zeta in GM. fold W in GM.
  assert (PU : forall F s2, effx F s2 -> wp (ungq_level2_work dir sm V tj work) (fun _ s3 => effx (fun r c => if inbox (ga j) (gb j ib) (gc j) (gc j + ib) r c then vprod dir sm (gb j ib - ga j) ib (vblk F (ga j) (gc j)) (tblk j) (r - ga j)%nat (match dir with Forward => 0 | Backward => gb j ib - ga j - ib end + (c - gc j))%nat else F r c) s3) noX s2).
  { intros F s2 HF. apply (g_un sm dir A tau work s); auto; rewrite ?EM, ?EN, ?Ek; auto; lia. }
  assert (PL : forall F s2, effx F s2 -> wp (laset General 0 0 (bsub sm A (gz0 j ib) (gz1 j) (gc j) (gc j + ib))) (fun _ s3 => effx (fun r c => if inbox (gz0 j ib) (gz1 j) (gc j) (gc j + ib) r c then 0 else F r c) s3) noX s2).
  { intros F s2 HF. eapply wp_conseq; [apply (g_laset sm A work s HI (gz0 j ib) (gz1 j) (gc j) (gc j + ib) 0 0 F s2); auto; try apply conj_0; rewrite ?EM, ?EN; auto; lia| |auto].
    intros r s3 HL. cbv beta in HL. eapply effx_ext; [exact HL|]. rewrite EM, EN. intros r' c' _ _. cbv beta. destruct (r' - gz0 j ib =? c' - gc j)%nat; auto. }
  (* both orders *)
  assert (OUT : forall r c off, inbox (ga j) (gb j ib) (gc j) (gc j + ib) r c = true -> off = match dir with Forward => 0%nat | Backward => (gb j ib - ga j - ib)%nat end -> (r - ga j < gb j ib - ga j)%nat /\ (off + (c - gc j) < gb j ib - ga j)%nat).
  { intros r c off Hi ->. destruct (inbox_spec (ga j) (gb j ib) (gc j) (gc j + ib) r c) as [Hi'|]; [|discriminate]. clear - Hi' Hiba. destruct dir; lia. }
  assert (P1 : dir = Forward -> forall s2, effx F1 s2 -> wp (laset General 0 0 (bsub sm A (gz0 j ib) (gz1 j) (gc j) (gc j + ib));; ungq_level2_work dir sm V tj work;; ret tt) (fun _ s2 => effx (gaft j ib) s2) noX s2).
  { intros Ed s2 H2. apply wp_bind. eapply wp_conseq; [apply PL; exact H2| |auto]. intros r s3 H3. cbv beta in H3. apply wp_bind. eapply wp_conseq; [apply PU; exact H3| |auto]. intros z s4 H4. cbv beta in H4. apply wp_ret.
    eapply effx_ext; [exact H4|]. rewrite EM, EN. refine (GM _ Hib _). intros r' c Hr Hc'. cbv beta. 
    destruct (inbox (ga j) (gb j ib) (gc j) (gc j + ib) r' c) eqn:I1.
    - assert (HO := OUT r' c _ I1 eq_refl). destruct (inbox_spec (ga j) (gb j ib) (gc j) (gc j + ib) r' c) as [I1'|]; [|discriminate]. destruct (inbox_spec (gz0 j ib) (gz1 j) (gc j) (gc j + ib) r' c) as [I2|I2].
      { exfalso. gu. rewrite Ed in *. lia. }
      destruct HO. apply HVB; auto. intros x y Hx Hy Hx'. cbv beta. destruct (inbox_spec (gz0 j ib) (gz1 j) (gc j) (gc j + ib) x y) as [I3|I3]; [|apply HF1; auto].
      exfalso. gu. rewrite Ed in *. lia.
    - reflexivity. }
  assert (P2 : dir = Backward -> forall s2, effx F1 s2 -> wp (ungq_level2_work dir sm V tj work;; laset General 0 0 (bsub sm A (gz0 j ib) (gz1 j) (gc j) (gc j + ib))) (fun _ s2 => effx (gaft j ib) s2) noX s2).
  { intros Ed s2 H2. apply wp_bind. eapply wp_conseq; [apply PU; exact H2| |auto]. intros r s3 H3. cbv beta in H3. eapply wp_conseq; [apply PL; exact H3| |auto]. intros z s4 H4. cbv beta in H4.
    eapply effx_ext; [exact H4|]. rewrite EM, EN. refine (GM _ Hib _). intros r' c Hr Hc'. cbv beta. destruct (inbox (gz0 j ib) (gz1 j) (gc j) (gc j + ib) r' c); auto.
    destruct (inbox (ga j) (gb j ib) (gc j) (gc j + ib) r' c) eqn:I1; [|reflexivity]. destruct (OUT r' c _ I1 eq_refl). apply HVB; auto. }
  clear PU PL HVB HF1 GM Hw OUT He. apply wp_bind. apply wp_bslc; rewrite ?EM, ?EN; auto; [lia|]. apply wp_bind. eapply wp_conseq; [apply PB; reflexivity| |auto].
  intros z s2 H2. cbv beta in H2. apply wp_bind. apply wp_bslc; rewrite ?EM, ?EN; auto; [lia|]. specialize (fun H => P1 H s2 H2). specialize (fun H => P2 H s2 H2). clear - P1 P2. destruct dir; [apply (P1 eq_refl)|apply (P2 eq_refl)].
Qed.

Lemma ungq_bstep_run nb j Tm work1 s1 : (j < k)%nat -> (nb <= k)%nat -> let ib := Nat.min nb (k - j) in
  (gd0 j ib < gd1 j -> (nb <= nr Tm /\ nb <= nc Tm)%nat /\ vinj Tm /\ disj Tm (lview work1) /\ (forall l, inview Tm l -> inview (lview work) l) /\ (forall l, inview (lview work1) l -> inview (lview work) l) /\
     lok work1 /\ contiguous work1 = true /\ (ib * (gd1 j - gd0 j ib) <= lm work1 * ln work1)%nat)%nat ->
  (nb - 1 <= lm work * ln work)%nat -> effx (gbef j ib) s1 ->
  wp (ungq_bstep nb dir sm A tau Tm work work1 j) (fun _ s2 => effx (gaft j ib) s2) noX s1.
Proof.
  intros Hj Hnb ib Hw Hw1 He. assert (K := gprog_run nb j Tm work1 s1 Hj Hnb Hw Hw1 He).
  replace (ungq_bstep nb dir sm A tau Tm work work1 j) with (gprog nb Tm work1 j); [exact K|]. clear. unfold BlockUng.gprog, ungq_bstep. destruct sm, dir; reflexivity.
Qed.

(** the columns outside the stored block *)
Lemma g_init : wp (match sm, dir with
   | Columnwise, Forward => A0 <- slc A 0 k k n;; A1 <- slc A k m k n;; laset General 0 0 A0;; laset General 0 1 A1
   | Columnwise, Backward =>
     A0 <- slc A 0 (m - n) 0 (n - k);; A1 <- slc A (m - n) (m - k) 0 (n - k);; A2 <- slc A (m - k) m 0 (n - k);;
     laset General 0 0 A0;; laset General 0 1 A1;; laset General 0 0 A2
   | Rowwise, Forward => A0 <- slc A k m 0 k;; A1 <- slc A k m k n;; laset General 0 0 A0;; laset General 0 1 A1
   | Rowwise, Backward =>
     A0 <- slc A 0 (m - k) 0 (n - m);; A1 <- slc A 0 (m - k) (n - m) (n - k);; A2 <- slc A 0 (m - k) (n - k) n;;
     laset General 0 0 A0;; laset General 0 1 A1;; laset General 0 0 A2
   end) (fun _ s1 => effx (gD (match dir with Forward => k | Backward => 0 end)) s1) noX s.
Proof.
  set (p := match dir with
    | Forward => A0 <- bslc sm A 0 k k N';; A1 <- bslc sm A k M' k N';; laset General 0 0 A0;; laset General 0 1 A1
    | Backward => A0 <- bslc sm A 0 (M' - N') 0 (N' - k);; A1 <- bslc sm A (M' - N') (M' - k) 0 (N' - k);; A2 <- bslc sm A (M' - k) M' 0 (N' - k);;
        laset General 0 0 A0;; laset General 0 1 A1;; laset General 0 0 A2 end).
  assert (E0 : effx X0 s).
  { eapply effw_ext; [apply effw_refl|]. intros i j Hi Hj. unfold BlockUng.X0. clear - CL. destruct sm; cbn [xof]; auto. unfold ctr. rewrite conj_conj. auto. }
  assert (LS : forall a b c d (be : T) F s1, (a <= b <= M')%nat -> (c <= d <= N')%nat -> conj be = be -> effx F s1 ->
    wp (laset General 0 be (bsub sm A a b c d)) (fun _ s2 => effx (fun r j => if inbox a b c d r j then (if (r - a =? j - c)%nat then be else 0) else F r j) s2) noX s1).
  { intros a b c d be F s1 Hab Hcd Hb HF. apply (g_laset sm A work s HI a b c d 0 be F s1); auto; [apply conj_0|rewrite EM; auto|rewrite EN; auto]. }
  assert (BS : forall a b c d (Q : view -> state -> Prop) s1, (a <= b <= M')%nat -> (c <= d <= N')%nat -> Q (bsub sm A a b c d) s1 -> wp (bslc sm A a b c d) Q noX s1).
  { intros. apply wp_bslc; rewrite ?EM, ?EN; auto. }
  assert (K : wp p (fun _ s1 => effx (gD (match dir with Forward => k | Backward => 0 end)) s1) noX s).
  { assert (Fin : forall F s1, effx F s1 -> (forall r c, (r < M')%nat -> (c < N')%nat -> F r c = gD (match dir with Forward => k | Backward => 0 end) r c) -> effx (gD (match dir with Forward => k | Backward => 0 end)) s1).
    { intros F s1 HF HE. eapply effx_ext; [exact HF|]. rewrite EM, EN. exact HE. }
    unfold p. unfold BlockUng.gD in *. rewrite ?EM, ?EN, ?Ek in *. set (h := gH) in *. clearbody h. clear - FL CL Hk E0 LS BS Fin. destruct dir.
    - apply wp_bind, BS; [lia..|]. apply wp_bind, BS; [lia..|].
      apply wp_bind. eapply wp_conseq; [apply (LS 0%nat k k N' 0 X0); auto; [lia..|apply conj_0]| |auto]. intros z s1 H1. cbv beta in H1.
      eapply wp_conseq; [eapply (LS k M' k N' 1); [lia..|apply conj_1|exact H1]| |auto]. intros z' s2 H2. cbv beta in H2. eapply Fin; [exact H2|]. clear.
      intros r c Hr Hc. cbv beta. rewrite Nat.sub_diag. cbn [mprod].
      destruct (inbox_spec k M' k N' r c) as [I1|I1]; [|destruct (inbox_spec 0 k k N' r c) as [I2|I2]]; destruct (Nat.leb_spec k c); try lia; auto; unfold idm.
      + destruct (Nat.eqb_spec (r - k) (c - k)), (Nat.eqb_spec r c); auto; lia.
      + destruct (r - 0 =? c - k)%nat; destruct (Nat.eqb_spec r c); auto; lia.
    - apply wp_bind, BS; [lia..|]. apply wp_bind, BS; [lia..|]. apply wp_bind, BS; [lia..|].
      apply wp_bind. eapply wp_conseq; [apply (LS 0%nat (M' - N')%nat 0%nat (N' - k)%nat 0 X0); auto; [lia..|apply conj_0]| |auto]. intros z s1 H1. cbv beta in H1.
      apply wp_bind. eapply wp_conseq; [eapply (LS (M' - N')%nat (M' - k)%nat 0%nat (N' - k)%nat 1); [lia..|apply conj_1|exact H1]| |auto]. intros z1 s2 H2. cbv beta in H2.
      eapply wp_conseq; [eapply (LS (M' - k)%nat M' 0%nat (N' - k)%nat 0); [lia..|apply conj_0|exact H2]| |auto]. intros z' s3 H3. cbv beta in H3. eapply Fin; [exact H3|]. clear - Hk.
      intros r c Hr Hc. cbv beta. rewrite Nat.add_0_r. cbn [rprod]. unfold idm.
      destruct (inbox_spec (M' - k) M' 0 (N' - k) r c); [|destruct (inbox_spec (M' - N') (M' - k) 0 (N' - k) r c); [|destruct (inbox_spec 0 (M' - N') 0 (N' - k) r c)]]; destruct (Nat.ltb_spec c (N' - k)); try lia; auto;
      destruct (Nat.eqb_spec r (M' - N' + c)); try lia;
      match goal with |- context [if ?c then _ else _] => destruct c eqn:E0 end; auto; apply Nat.eqb_eq in E0 || apply Nat.eqb_neq in E0; lia. }
  replace (match sm, dir with Columnwise, Forward => _ | _, _ => _ end) with p; [exact K|]. unfold p. clear - Em En EM EN. destruct sm; rewrite <- EM, <- EN, <- ?Em, <- ?En; destruct dir; reflexivity.
Qed.

(** the workspace that suffices *)
Definition gsz_ok (nb sz : nat) : Prop :=
  if (nb <? N')%nat then (nb * nb + nb * match dir with Forward => N' - nb | Backward => N' - k + (k - 1) / nb * nb end <= sz)%nat else (nb - 1 <= sz)%nat.

Lemma ungq_work_run fuel nbo : (0 < k)%nat -> (0 < nbo)%nat -> (k <= fuel)%nat -> gsz_ok (Nat.min nbo k) (lm work * ln work) ->
  runs (ungq_work_f fuel nbo dir sm A tau work) s (fun r s' => r = 0%Z /\ effw A (qpart dir sm m n (qof dir sm M' gV (vval tau s) k)) (inview (lview work)) s s').
Proof.
  intros Hk0 Hnbo Hfuel Hsz. unfold runs, ungq_work_f. cbv zeta. rewrite Em, En, Ek. set (nb := Nat.min nbo k) in *. assert (Hnb : (0 < nb <= k)%nat) by (unfold nb; lia). clearbody nb.
  apply wp_bind, wp_check. { rewrite <- EM, <- EN in Hk. clear - Hk Em En. destruct sm; rewrite Em, En in Hk; apply andb_true_iff; split; apply Nat.leb_le; lia. }
  assert (Hmin : Nat.min m n = N'). { rewrite <- EM, <- EN in Hk. rewrite <- EN. clear - Hk Em En. destruct sm; lia. }
  destruct ((m <=? 0) || (n <=? 0))%bool eqn:Eq.
  { exfalso. clear - Hmin Hk Hk0 Eq. apply orb_true_iff in Eq. rewrite !Nat.leb_le in Eq. lia. }
  rewrite Hmin. assert (Hsz1 : (nb - 1 <= lm work * ln work)%nat). { unfold gsz_ok in Hsz. destruct (nb <? N')%nat; [nia|auto]. }
  assert (PW : wp (if (nb <? N')%nat then wk_mat work nb nb else wk_mat work 0 0) (fun tw s1 => s1 = s /\
     forall j, (j < k)%nat -> (exists b, j = b * nb)%nat -> let ib := Nat.min nb (k - j) in
     (gd0 j ib < gd1 j -> (nb <= nr (fst tw) /\ nb <= nc (fst tw))%nat /\ vinj (fst tw) /\ disj (fst tw) (lview (snd tw)) /\ (forall l, inview (fst tw) l -> inview (lview work) l) /\ (forall l, inview (lview (snd tw)) l -> inview (lview work) l) /\
       lok (snd tw) /\ contiguous (snd tw) = true /\ (ib * (gd1 j - gd0 j ib) <= lm (snd tw) * ln (snd tw))%nat)%nat) noX s).
  { unfold gsz_ok in Hsz. destruct (Nat.ltb_spec nb N') as [L|L].
    - apply wp_wk_matc; auto; [lia|]. intros Tm w1 T1 T2 T3 T4 T5 T6 T7 T8 T9. split; auto. intros j Hj [bq Hb] ib Hd. cbn [fst snd]. repeat (split; auto); try lia. rewrite T7.
      assert (Hib : (ib <= nb)%nat) by (unfold ib; lia). transitivity (nb * (gd1 j - gd0 j ib))%nat; [apply Nat.mul_le_mono_r; auto|].
      enough (gd1 j - gd0 j ib <= match dir with Forward => N' - nb | Backward => N' - k + (k - 1) / nb * nb end)%nat by nia.
      unfold BlockUng.gd0, BlockUng.gd1. rewrite EN, Ek. assert (Hj2 : (j <= (k - 1) / nb * nb)%nat).
      { subst j. apply Nat.mul_le_mono_r. apply Nat.div_le_lower_bound; lia. }
      assert (Hj3 : (nb <= j + ib)%nat). { unfold ib. destruct bq as [|bq]; [cbn in Hb; lia|]. assert (nb <= j)%nat by (rewrite Hb; cbn [Nat.mul]; lia). lia. }
      clear - Hj2 Hj3. destruct dir; lia.
    - unfold wk_mat. destruct (reshape work 0 0) as [[w r]|] eqn:Er.
      + apply wp_ret. split; auto. intros j Hj [bq Hb] Hd. exfalso. assert (j = 0)%nat. { destruct bq as [|bq]; [auto|]. cbn [Nat.mul] in Hb. lia. }
        unfold BlockUng.gd0, BlockUng.gd1 in Hd. rewrite EN, Ek in Hd. clear - H Hd Hk Hnb L. destruct dir; lia.
      + exfalso. unfold reshape in Er. rewrite Wc in Er. destruct (Nat.ltb_spec (lm work * ln work) (0 * 0)); [lia|discriminate]. }
  apply wp_bind. eapply wp_conseq; [exact PW| |auto]. clear PW. intros tw s1 HH. cbv beta in HH. destruct HH as [-> HW].
  apply wp_bind. eapply wp_conseq; [exact g_init| |auto]. intros z s1 H1. cbv beta in H1.
  assert (Fin : forall s2, effx (gD (match dir with Forward => 0 | Backward => k end)) s2 -> effw A (qpart dir sm m n (qof dir sm M' gV (vval tau s) k)) (inview (lview work)) s s2).
  { intros s2 H2. eapply effw_ext; [exact H2|]. intros i j Hi Hj. rewrite Em in Hi. rewrite En in Hj. unfold BlockUng.gD, BlockUng.gH, qpart, qof. rewrite EM, EN, Ek. cbv zeta.
    clear - Hi Hj EM EN Em En Hk. rewrite <- EM, <- EN in *. destruct sm, dir; cbn [xof hprod Nat.leb Nat.add]; rewrite ?Nat.sub_0_r, ?Em, ?En in *; auto; unfold ctr.
    - destruct (Nat.ltb_spec j (n - k + k)); [auto|lia].
    - destruct (Nat.ltb_spec i (m - k + k)); [auto|lia]. }
  assert (ST := fun j s2 Hj Hb => ungq_bstep_run nb j (fst tw) (snd tw) s2 Hj (proj2 Hnb) (HW j Hj Hb) Hsz1). cbv zeta in ST. unfold BlockUng.gbef, BlockUng.gaft in ST.
  apply wp_bind.
  assert (PL : wp (match dir with
     | Forward => assert_ (0 <? nb)%nat;; ford_ b in 0 upto ((k - 1) / nb + 1) do ungq_bstep nb dir sm A tau (fst tw) work (snd tw) (b * nb)%nat
     | Backward => blkret (A:=unit) fuel 0 k nb (fun j => ungq_bstep nb dir sm A tau (fst tw) work (snd tw) j;; ret None);; ret tt end) (fun _ s2 => effx (gD (match dir with Forward => 0 | Backward => k end)) s2) noX s1).
  { set (step := ungq_bstep nb dir sm A tau (fst tw) work (snd tw)) in *. set (eD := fun j => effx (gD j)) in *.
    assert (ST' : forall j s2, (j < k)%nat -> (exists b, j = b * nb)%nat -> match dir with Forward => eD (j + Nat.min nb (k - j))%nat | Backward => eD j end s2 -> wp (step j) (fun _ s3 => match dir with Forward => eD j | Backward => eD (j + Nat.min nb (k - j))%nat end s3) noX s2).
    { intros j s2 Hj Hb H2. specialize (ST j s2 Hj Hb). unfold step, eD in *. clear - ST H2. destruct dir; apply ST; exact H2. }
    change (eD (match dir with Forward => k | Backward => 0%nat end) s1) in H1. change (wp (match dir with
     | Forward => assert_ (0 <? nb)%nat;; ford_ b in 0 upto ((k - 1) / nb + 1) do step (b * nb)%nat
     | Backward => blkret (A:=unit) fuel 0 k nb (fun j => step j;; ret None);; ret tt end) (fun _ s2 => eD (match dir with Forward => 0%nat | Backward => k end) s2) noX s1).
    clear ST. clearbody step eD. clear - ST' H1 Hnb Hk0 Hfuel. destruct dir.
    - apply wp_bind, wp_assert; [apply Nat.ltb_lt; lia|]. set (nblk := ((k - 1) / nb + 1)%nat).
      apply (wp_fordown (fun b s2 => eD (Nat.min (b * nb) k) s2)); [lia| | |].
      + replace (Nat.min (nblk * nb) k) with k; auto. unfold nblk. assert (D := Nat.mul_succ_div_gt (k - 1) nb ltac:(lia)). rewrite Nat.add_1_r, (Nat.mul_comm (S _)). lia.
      + intros b s2 Hb H2. assert (Hj : (b * nb <= k - 1)%nat). { transitivity ((k - 1) / nb * nb)%nat; [apply Nat.mul_le_mono_r; unfold nblk in Hb; lia|]. rewrite Nat.mul_comm. apply Nat.mul_div_le. lia. }
        eapply wp_conseq; [apply (ST' (b * nb)%nat); [lia|eauto|]| |auto].
        * replace (b * nb + Nat.min nb (k - b * nb))%nat with (Nat.min (S b * nb) k) by (cbn [Nat.mul]; lia). exact H2.
        * intros z2 s3 H3. cbv beta in H3. replace (Nat.min (b * nb) k) with (b * nb)%nat by lia. exact H3.
      + intros s2 H2. exact H2.
    - apply wp_bind. apply (wp_blkret unit (fun j s2 => (j = k \/ exists b, j = b * nb)%nat /\ eD j s2) fuel 0 k nb); [lia|lia| | |].
      + replace (Nat.min 0 k) with 0%nat by lia. split; auto. right. exists 0%nat. auto.
      + intros j s2 Hj [[Hb|Hb] H2]; [lia|]. apply wp_bind. eapply wp_conseq; [apply (ST' j s2); auto| |auto]. intros z2 s3 H3. cbv beta in H3. apply wp_ret. split.
        * destruct (Nat.le_gt_cases k (j + nb)); [left; lia|right]. destruct Hb as [b ->]. exists (S b). cbn [Nat.mul]. lia.
        * replace (Nat.min (j + nb) k) with (j + Nat.min nb (k - j))%nat by lia. exact H3.
      + intros s2 [_ H2]. apply wp_ret. exact H2. }
  eapply wp_conseq; [exact PL| |auto]. intros z2 s2 H2. cbv beta in H2. apply wp_ret. auto.
Qed.
End G2.
