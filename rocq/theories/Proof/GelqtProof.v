(** * gelqt *)
From Coq Require Import Bool Arith ZArith Lia Reals Lra Ring Field.
From Verif.Core Require Import Scalar Prog View Slice Loops WorkEff Instances RealLaws.
From Verif.Spec Require Import LinAlg Outcome Norms Householder.
From Verif.Model Require Import Gemm Blas1 Blas2 Blas3 Legacy LaAux Norms Work Householder QGen QFact BlockQ Gelqt.
From Verif.Proof Require Import SumLemmas Tactics SliceTac PotrfProof BlockAlg LarfProof LarfgProof QRProof WorkProof QGenProof QFactProof LarftProof LarfbProof BlockProof BlockFact.
Local Open Scope T_scope.

Section G.
Context {E : Env} {FL : FieldLaws E} {CL : ConjLaws E} {OL : ROrdLaws E} {QL : EqbLaws E} {XL : CplxLaws E} {RL : RLaws E} {NL : FinLaws E}.
Add Field Tf : fth.
Variables (h : hconst) (st bt hsm : R) (A : view) (TT work G : lmat) (m n : nat) (s : state).
Hypothesis Hh : hconst_ok h st bt hsm.
Hypothesis HS : nr A = m /\ nc A = n.
Hypothesis HI : vinj A.
Hypothesis HIT : vinj (lview TT).
Hypothesis HD : disj A (lview TT).
Hypothesis HwA : disj (lview work) A.
Hypothesis HwT : disj (lview work) (lview TT).
Hypothesis HmT : (m <= lm TT)%nat.
Hypothesis LT : lok TT.
Hypothesis LW1 : lok work.
Hypothesis LW2 : contiguous work = true.
Let nb := ln TT.
Let k := Nat.min m n.
Hypothesis Hnb : (0 < nb)%nat.
Hypothesis LW3 : (Nat.min nb k - 1 <= lm work * ln work)%nat.
Hypothesis HG : forall l, inview (lview TT) l \/ inview (lview work) l -> inview (lview G) l.
Hypothesis Hnorm : forall i, (i < m)%nat -> (vsq n (fun j => val A s i j) <= bt * bt)%R.
(** where the scalar factors are *)
Definition gtau : view := mkview k 1 (fun r _ => laddr TT r (r mod nb)).
Definition gvec (j ib : nat) (s1 : state) : nat -> nat -> T := rvec Forward Rowwise (n - j) ib (fun a b => val A s1 (j + a)%nat (j + b)%nat).
Definition gblk (j ib : nat) (s1 : state) : Prop := forall r c, (r < n - j)%nat -> (c < n - j)%nat ->
  mprod (n - j) (fun i => refl (mem s1 (laddr TT (j + i) i)) (gvec j ib s1 i)) ib r c = blkrefl ib (trim Upper NonUnit (fun a b => mem s1 (laddr TT (j + a) b))) (gvec j ib s1) r c.

Lemma first_run t s1 : (t < k)%nat -> let ib := Nat.min nb (k - t) in
  (forall i, (t <= i < t + ib)%nat -> (vsq (n - t) (fun j => val A s1 i (t + j)%nat) <= bt * bt)%R) ->
  wp (gelq2_work h (subv A t (t + ib) t n) (vdiag (subv (lview TT) t (t + ib) 0 ib)) work;; larft Forward Rowwise (subv A t (t + ib) t n) (vdiag (subv (lview TT) t (t + ib) 0 ib)) (subv (lview TT) t (t + ib) 0 ib))
  (fun _ s3 => exists s2, finv Rowwise Forward (subv A t (t + ib) t n) (vdiag (subv (lview TT) t (t + ib) 0 ib)) work s1 ib s2 /\
    (forall i, (i < ib)%nat -> mem s3 (laddr TT (t + i) i) = mem s2 (laddr TT (t + i) i)) /\
    (forall l, ~ inview (subv (lview TT) t (t + ib) 0 ib) l -> mem s3 l = mem s2 l) /\ imem s3 = imem s2 /\ gblk t ib s3) noX s1.
Proof.
  intros Ht ib Hv. assert (Hib : (0 < ib)%nat) by (unfold ib; lia). assert (Htb : (t + ib <= k)%nat) by (unfold ib; lia). assert (Hin : (ib <= nb)%nat) by (unfold ib; lia).
  set (A1 := subv A t (t + ib) t n). set (T1 := subv (lview TT) t (t + ib) 0 ib). destruct HS as [Hm Hn].
  assert (LTT : nr (lview TT) = lm TT /\ nc (lview TT) = nb) by (split; reflexivity). destruct LTT as [LT1 LT2].
  assert (N1 : nr A1 = ib) by (unfold A1; cbn [nr subv]; lia). assert (N2 : nc A1 = (n - t)%nat) by reflexivity.
  assert (M1 : nr T1 = ib) by (unfold T1; cbn [nr subv]; lia). assert (M2 : nc T1 = ib) by (unfold T1; cbn [nc subv]; lia).
  assert (Nt : nr (vdiag T1) = ib) by (unfold vdiag; cbn [nr]; lia).
  assert (I1 : vinj A1) by (apply vinj_subv; auto; unfold k in *; lia).
  assert (I2 : vinj T1) by (apply vinj_subv; auto; unfold k in *; lia).
  assert (I3 : vinj (vdiag T1)). { intros i j i' j' Hi Hj Hi' Hj' e. rewrite Nt in Hi, Hi'. cbn [nc vdiag ad] in *. apply I2 in e; lia. }
  assert (SA : forall l, inview A1 l -> inview A l) by (intros l K; apply inview_subv in K; auto; unfold k in *; lia).
  assert (ST : forall l, inview T1 l -> inview (lview TT) l) by (intros l K; apply inview_subv in K; auto; unfold k in *; lia).
  assert (Sd : forall l, inview (vdiag T1) l -> inview T1 l).
  { intros l (i & j & Hi & Hj & e). rewrite Nt in Hi. cbn [vdiag ad] in e. exists i, i. repeat split; auto; lia. }
  assert (DAT : disj A1 T1) by (eapply disj_inc; [| |exact HD]; auto).
  assert (DAt : disj A1 (vdiag T1)) by (eapply disj_inc; [| |exact DAT]; auto).
  assert (Dw1 : disj (lview work) A1) by (eapply disj_inc; [| |exact HwA]; auto).
  assert (DwT : disj (lview work) T1) by (eapply disj_inc; [| |exact HwT]; auto).
  assert (Dwt : disj (lview work) (vdiag T1)) by (eapply disj_inc; [| |exact DwT]; auto).
  assert (Kin : Nat.min (nr A1) (nc A1) = ib) by (unfold k in *; lia).
  apply wp_bind. eapply wp_use.
  { apply (gelq2_finv h st bt hsm A1 (vdiag T1) work s1); auto; try lia.
    - intros i Hi. rewrite N1 in Hi. rewrite N2. apply (Hv (t + i)%nat). lia.
    - right. right. repeat split; auto. rewrite N1. unfold ib. lia. }
  intros z s2 HL. cbv beta in HL. destruct HL as [-> HL]. rewrite Kin in HL.
  eapply wp_conseq; [apply (larft_diag Forward Rowwise A1 T1 s2); auto; unfold k in *; lia| |auto].
  intros z s3 HL3. cbv beta in HL3. destruct HL3 as (-> & F & (Q1 & Q2 & Q3) & HB & HF). exists s2. split; auto. rewrite M1 in HF.
  assert (VD : forall i, (i < ib)%nat -> mem s3 (laddr TT (t + i) i) = mem s2 (laddr TT (t + i) i)).
  { intros i Hi. assert (e := Q1 i i ltac:(lia) ltac:(lia)). change (mem s3 (laddr TT (t + i) (0 + i)) = if tri_in Forward (nr T1) i i then F i i else mem s2 (laddr TT (t + i) (0 + i))) in e. cbn [Nat.add] in e. rewrite e.
    destruct (tri_in _ _ _ _); auto. rewrite HF by auto. reflexivity. }
  split; [exact VD|]. split; [exact Q2|]. split; [exact Q3|].
  intros r c Hr Hc. assert (e := HB r c ltac:(lia) ltac:(lia)). rewrite M1 in e. rewrite N2 in e.
  assert (EV : forall i x, (i < ib)%nat -> (x < n - t)%nat -> gvec t ib s3 i x = rvec Forward Rowwise (n - t) ib (val A1 s2) i x).
  { intros i x Hi Hx. unfold gvec, rvec. destruct (_ =? _)%nat; auto. destruct (_ <? _)%nat; auto. f_equal. change (mem s3 (ad A1 i x) = mem s2 (ad A1 i x)). apply Q2. apply (nin_disj A1 T1); auto. exists i, x. repeat split; lia. }
  transitivity (blkrefl ib (trim (tupl Forward) NonUnit F) (rvec Forward Rowwise (n - t) ib (val A1 s2)) r c).
  - rewrite <- e. apply mprod_ext; auto. intros u a b Hu Ha Hb. unfold refl. rewrite VD by auto. rewrite !EV by auto. reflexivity.
  - apply blkrefl_ext; [|intros a Ha; symmetry; apply EV; auto..]. intros a b Ha Hb. unfold trim, tupl, intri.
    assert (EE : forall a b, (a < ib)%nat -> (b < ib)%nat -> (a <= b)%nat -> F a b = mem s3 (laddr TT (t + a) b)).
    { intros a' b' Ha' Hb' Hab. assert (e' := Q1 a' b' ltac:(lia) ltac:(lia)). change (mem s3 (laddr TT (t + a') (0 + b')) = if tri_in Forward (nr T1) a' b' then F a' b' else mem s2 (laddr TT (t + a') (0 + b'))) in e'. cbn [Nat.add] in e'. rewrite e'.
      rewrite M1. unfold tri_in. destruct (Nat.leb_spec a' b'), (Nat.ltb_spec b' ib); try lia. reflexivity. }
    destruct (Nat.eqb_spec a b); [apply EE; lia|]. destruct (Nat.leb_spec a b); [apply EE; lia|auto].
Qed.

(** a tall A with a single block: nothing is done to its last m - n rows *)
Lemma tall_run : (n < m)%nat -> (0 < n <= nb)%nat -> wp (gelqt_work h A TT work) (fun z s' => z = 0%Z /\
  (forall i j, (n <= i < m)%nat -> (j < n)%nat -> val A s' i j = val A s i j) /\
  (forall l, ~ inview A l -> ~ inview (lview TT) l -> ~ inview (lview work) l -> mem s' l = mem s l) /\ imem s' = imem s) noX s.
Proof.
  intros Hnm Hn0. unfold gelqt_work, gelqt_work_f. destruct HS as [Hm Hn]. rewrite Hm, Hn. change (Nat.min m n) with k. change (ln TT) with nb. assert (Hk : k = n) by (unfold k; lia).
  apply wp_bind, wp_check. { destruct (Nat.ltb_spec (lm TT) m); [lia|]. rewrite Nat.ltb_irrefl. reflexivity. }
  apply wp_bind. apply (wp_blkret _ (fun t s' => (t = 0%nat /\ s' = s) \/ (t = k /\ (forall i j, (n <= i < m)%nat -> (j < n)%nat -> val A s' i j = val A s i j) /\
    (forall l, ~ inview A l -> ~ inview (lview TT) l -> ~ inview (lview work) l -> mem s' l = mem s l) /\ imem s' = imem s))).
  - exact Hnb.
  - lia.
  - rewrite Nat.min_0_l. auto.
  - intros i s1 Hi [[-> ->]|[-> _]]; [|lia].
    unfold gelqt_step. cbv zeta. rewrite Hm, Hn. change (ln TT) with nb. change (Nat.min m n) with k. assert (LT1 : nr (lview TT) = lm TT) by reflexivity. assert (LT2 : nc (lview TT) = nb) by reflexivity.
    apply wp_bind. apply wp_slc; [lia..|]. apply wp_bind. apply wp_slc; [lia..|].
    apply wp_bind. eapply wp_conseq; [eapply wp_seq_inv; apply (first_run 0 s)| |auto]; [lia| |].
    { intros i Hi'. rewrite Nat.sub_0_r. apply Hnorm. lia. }
    intros z s2' HL. cbv beta in HL. apply wp_bind. eapply wp_conseq; [exact HL| |auto]. clear z s2' HL.
    intros z s3 HQ. cbv beta zeta in HQ. destruct HQ as (s2 & HF & VD & FR & FI & HB). destruct HF as (_ & _ & _ & L4 & L5).
    replace (Nat.min nb (k - 0)) with k in * by lia. cbn [Nat.add] in *. rewrite Nat.ltb_irrefl. apply wp_bind. apply wp_ret. apply wp_ret. right. split; [lia|].
    assert (SA : forall l, inview (subv A 0 k 0 n) l -> inview A l) by (intros l K; apply inview_subv in K; auto; lia).
    assert (ST : forall l, inview (subv (lview TT) 0 k 0 k) l -> inview (lview TT) l) by (intros l K; apply inview_subv in K; auto; cbn [nr nc lview]; lia).
    assert (Sd : forall l, inview (vdiag (subv (lview TT) 0 k 0 k)) l -> inview (subv (lview TT) 0 k 0 k) l).
    { intros l (i & j & Hi' & Hj & e). cbn [vdiag ad nr nc subv] in *. exists i, i. cbn [nr nc subv]. repeat split; auto; lia. }
    assert (FR' : forall l, ~ inview (subv A 0 k 0 n) l -> ~ inview (lview TT) l -> ~ inview (lview work) l -> mem s3 l = mem s l).
    { intros l V1 V2 V3. rewrite FR by auto. apply L4; auto. }
    split; [|split; [intros; apply FR'; auto|congruence]].
    intros i j Hi' Hj. assert (IA : inview A (ad A i j)) by (exists i, j; repeat split; lia). apply FR'.
    + intros (x & y & Hx & Hy & e). cbn [nr nc ad subv] in *. apply HI in e; lia.
    + revert IA. apply nin_disj; auto.
    + revert IA. apply nin_disj; apply LarfbProof.disj_sym; auto.
  - intros s1 [[e _]|[_ J]]; [lia|]. apply wp_ret. auto.
Qed.
Hypothesis Hmn : (m <= n)%nat.
Definition ginv (t : nat) (s1 : state) : Prop :=
  finv Rowwise Forward A gtau G s t s1 /\ (t = k \/ exists q, t = q * nb)%nat /\
  (forall l, ~ inview A l -> ~ inview (lview TT) l -> ~ inview (lview work) l -> mem s1 l = mem s l) /\ imem s1 = imem s /\
  (forall q, (q * nb < t)%nat -> gblk (q * nb) (Nat.min nb (k - q * nb)) s1).
Lemma gblk_ext j ib s1 s2 : (j + ib <= m)%nat -> (forall a b, (a < ib)%nat -> (b < n - j)%nat -> val A s2 (j + a) (j + b) = val A s1 (j + a) (j + b)) ->
  (forall a b, (a < ib)%nat -> (b < ib)%nat -> mem s2 (laddr TT (j + a) b) = mem s1 (laddr TT (j + a) b)) -> gblk j ib s1 -> gblk j ib s2.
Proof.
  intros Hj H1 H2 H3 r c Hr Hc. assert (e := H3 r c Hr Hc).
  assert (EV : forall i x, (i < ib)%nat -> (x < n - j)%nat -> gvec j ib s2 i x = gvec j ib s1 i x).
  { intros i x Hi Hx. unfold gvec, rvec. destruct (_ =? _)%nat; auto. destruct (_ <? _)%nat; auto. f_equal. apply H1; auto. }
  transitivity (mprod (n - j) (fun i => refl (mem s1 (laddr TT (j + i) i)) (gvec j ib s1 i)) ib r c).
  - apply mprod_ext; auto. intros u a b Hu Ha Hb. unfold refl. rewrite H2 by auto. rewrite !EV by auto. reflexivity.
  - rewrite e. apply blkrefl_ext; [|intros a Ha; symmetry; apply EV; auto..]. intros a b Ha Hb. unfold trim. rewrite !H2 by auto. reflexivity.
Qed.
Lemma gstep_run t s1 : (t < k)%nat -> ginv t s1 -> wp (gelqt_step h A TT work t) (fun r s' => match r with None => ginv (Nat.min (t + nb) k) s' | Some _ => False end) noX s1.
Proof.
  intros Ht (J1 & J2 & J3 & J4 & J5). destruct J2 as [J2|[q J2]]; [lia|]. assert (Hkm : k = m) by (unfold k; lia).
  set (ib := Nat.min nb (k - t)). replace (Nat.min (t + nb) k) with (t + ib)%nat by (unfold ib; lia).
  assert (Hib : (0 < ib)%nat) by (unfold ib; lia). assert (Htb : (t + ib <= k)%nat) by (unfold ib; lia). assert (Hin : (ib <= nb)%nat) by (unfold ib; lia).
  destruct HS as [Hm Hn]. assert (LT1 : nr (lview TT) = lm TT) by reflexivity. assert (LT2 : nc (lview TT) = nb) by reflexivity.
  assert (Hmod : forall i, (i < ib)%nat -> ((t + i) mod nb = i)%nat).
  { intros i Hi. rewrite J2, Nat.add_comm, Nat.mod_add by lia. apply Nat.mod_small. lia. }
  assert (Hmlt : forall j, (j mod nb < nb)%nat) by (intros j; apply Nat.mod_upper_bound; lia).
  assert (HTin : forall i j, (i < lm TT)%nat -> (j < nb)%nat -> inview (lview TT) (laddr TT i j)) by (intros i j Hi Hj; exists i, j; auto).
  assert (HTeq : forall i j i' j', (i < lm TT)%nat -> (j < nb)%nat -> (i' < lm TT)%nat -> (j' < nb)%nat -> laddr TT i j = laddr TT i' j' -> i = i' /\ j = j') by (intros i j i' j' U1 U2 U3 U4 e; apply (HIT i j i' j'); auto).
  assert (Hnrm : forall i, (t <= i < t + ib)%nat -> (vsq (n - t) (fun j => val A s1 i (t + j)%nat) <= bt * bt)%R).
  { intros i Hi. eapply Rle_trans; [apply (vsq_tail t n (fun j => val A s1 i j)); lia|].
    rewrite <- Hn. rewrite <- (ctr_norm A s1 i). apply (finv_norm bt Rowwise Forward A gtau G s) with (t := t) (s1 := s1) (c := i); auto; cbn [nr]; rewrite ?Hm, ?Hn; try lia.
    intros c Hc. cbn [xof]. rewrite <- Hn. rewrite ctr_norm, Hn. apply Hnorm. auto. }
  unfold gelqt_step. cbv zeta. rewrite Hm, Hn. change (ln TT) with nb. change (Nat.min m n) with k. change (Nat.min nb (k - t)) with ib.
  apply wp_bind. apply wp_slc; [lia..|]. apply wp_bind. apply wp_slc; [lia..|].
  set (A1 := subv A t (t + ib) t n). set (T1 := subv (lview TT) t (t + ib) 0 ib).
  apply wp_bind. eapply wp_conseq; [eapply wp_seq_inv; apply (first_run t s1 Ht Hnrm)| |auto].
  intros z s2' HL. cbv beta in HL. apply wp_bind. eapply wp_conseq; [exact HL| |auto]. clear z s2' HL.
  intros z s3 HQ.
  assert (HQ' : exists s2, finv Rowwise Forward A1 (vdiag T1) work s1 ib s2 /\ (forall i, (i < ib)%nat -> mem s3 (laddr TT (t + i) i) = mem s2 (laddr TT (t + i) i)) /\
    (forall l, ~ inview T1 l -> mem s3 l = mem s2 l) /\ imem s3 = imem s2 /\ gblk t ib s3) by exact HQ.
  clear HQ. destruct HQ' as (s2 & HF & VD & FR & FI & HB).
  pose proof HF as (_ & _ & _ & L4 & L5).
  assert (SA : forall l, inview A1 l -> inview A l) by (intros l K; apply inview_subv in K; auto; lia).
  assert (ST : forall l, inview T1 l -> inview (lview TT) l) by (intros l K; apply inview_subv in K; auto; lia).
  assert (Nt : nr (vdiag T1) = ib) by (unfold vdiag, T1; cbn [nr nc subv]; lia).
  assert (Sd : forall l, inview (vdiag T1) l -> inview T1 l).
  { intros l (i & j & Hi & Hj & e). rewrite Nt in Hi. cbn [vdiag ad] in e. exists i, i. unfold T1 in *. cbn [nr nc subv] in *. repeat split; auto; lia. }
  assert (HATn : forall l, inview A l -> ~ inview (lview TT) l) by (intros l; apply nin_disj; auto).
  assert (HAwn : forall l, inview A l -> ~ inview (lview work) l) by (intros l; apply nin_disj; apply LarfbProof.disj_sym; auto).
  assert (HTAn : forall l, inview (lview TT) l -> ~ inview A l) by (intros l; apply nin_disj; apply LarfbProof.disj_sym; auto).
  assert (HTwn : forall l, inview (lview TT) l -> ~ inview (lview work) l) by (intros l; apply nin_disj; apply LarfbProof.disj_sym; auto).
  assert (T1r : forall i j, (i < lm TT)%nat -> (j < nb)%nat -> ~ (t <= i < t + ib)%nat -> ~ inview T1 (laddr TT i j)).
  { intros i j Hi Hj Hn' (x & y & Hx & Hy & e). unfold T1 in *. cbn [nr nc ad subv lview] in *. apply HTeq in e; lia. }
  assert (A1r : forall i j, (i < m)%nat -> (j < n)%nat -> ~ (t <= i < t + ib /\ t <= j)%nat -> ~ inview A1 (ad A i j)).
  { intros i j Hi Hj Hn' (x & y & Hx & Hy & e). unfold A1 in *. cbn [nr nc ad subv] in *. apply HI in e; lia. }
  assert (A_s2 : forall i j, (i < m)%nat -> (j < n)%nat -> ~ (t <= i < t + ib /\ t <= j)%nat -> val A s2 i j = val A s1 i j).
  { intros i j Hi Hj Hn'. assert (IA : inview A (ad A i j)) by (exists i, j; repeat split; lia). apply L4; [apply A1r; auto|intros K; apply (HATn _ IA); auto|auto]. }
  assert (A_s3 : forall i j, (i < m)%nat -> (j < n)%nat -> val A s3 i j = val A s2 i j).
  { intros i j Hi Hj. assert (IA : inview A (ad A i j)) by (exists i, j; repeat split; lia). apply FR. intros K. apply (HATn _ IA). auto. }
  assert (T_s2 : forall i j, (i < lm TT)%nat -> (j < nb)%nat -> ~ (t <= i < t + ib)%nat -> mem s2 (laddr TT i j) = mem s1 (laddr TT i j)).
  { intros i j Hi Hj Hn'. assert (IT := HTin i j Hi Hj). apply L4; [intros K; apply (HTAn _ IT); auto|intros K; apply (T1r i j Hi Hj Hn'); auto|auto]. }
  assert (T_s3 : forall i j, (i < lm TT)%nat -> (j < nb)%nat -> ~ (t <= i < t + ib)%nat -> mem s3 (laddr TT i j) = mem s2 (laddr TT i j)) by (intros; apply FR; auto).
  assert (NA : nr A1 = ib) by (unfold A1; cbn [nr subv]; lia).
  assert (EG : forall r c, (r < n - t)%nat -> (c < n - t)%nat -> mprod (n - t) (fun u => Hr Rowwise Forward A1 (vdiag T1) s2 (idx Forward A1 u)) ib r c = mprod (n - t) (fun i => refl (mem s3 (laddr TT (t + i) i)) (gvec t ib s3 i)) ib r c).
  { intros r c Hr' Hc'. assert (e := vprod_Hr Rowwise Forward A1 (vdiag T1) s2 r c). cbv zeta in e. rewrite NA in e. change (nc A1) with (n - t)%nat in e. rewrite <- e by lia.
    unfold vprod. cbn [hprod]. apply mprod_ext; auto. intros u a b Hu Ha Hb.
    assert (EV : forall x, (x < n - t)%nat -> rvec Forward Rowwise (n - t) ib (val A1 s2) u x = gvec t ib s3 u x).
    { intros x Hx. unfold gvec, rvec. destruct (_ =? _)%nat; auto. destruct (_ <? _)%nat; auto. f_equal. symmetry. apply A_s3; lia. }
    unfold refl. rewrite VD by auto. rewrite <- !EV by auto. reflexivity. }
  (* what the rest of the body has to give *)
  assert (FIN : forall s4, (forall i j, (i < m)%nat -> (j < n)%nat -> ~ (t + ib <= i /\ t <= j)%nat -> val A s4 i j = val A s3 i j) ->
    (forall i j, (i < m - (t + ib))%nat -> (j < n - t)%nat -> val A s4 (t + ib + i) (t + j) = mmul (n - t) (fun a b => val A s3 (t + ib + a)%nat (t + b)%nat) (mprod (n - t) (fun i => refl (mem s3 (laddr TT (t + i) i)) (gvec t ib s3 i)) ib) i j) ->
    (forall i j, (i < lm TT)%nat -> (j < nb)%nat -> (i < t + ib)%nat -> mem s4 (laddr TT i j) = mem s3 (laddr TT i j)) ->
    (forall l, ~ inview A l -> ~ inview (lview TT) l -> ~ inview (lview work) l -> mem s4 l = mem s3 l) -> imem s4 = imem s3 -> ginv (t + ib) s4).
  { intros s4 G1 G2 G3 G4 G5. split; [|split; [|split; [|split]]].
    - assert (Htb' : (t + ib <= Nat.min (nr A) (nc A))%nat) by (rewrite Hm, Hn; exact Htb).
      apply (block_inv Rowwise Forward A gtau A1 (vdiag T1) G s t ib) with (s1 := s1) (s2 := s2); auto; cbn [da db ta wb wa ca xof]; rewrite ?Hm, ?Hn.
      + unfold A1. cbn [nc subv]. reflexivity.
      + intros s0 i Hi. unfold vval, val, gtau. cbn [ad vdiag]. rewrite Hmod by auto. reflexivity.
      + destruct HF as (U1 & U2 & U3 & U4 & U5). split; [exact U1|]. split; [exact U2|]. split; [exact U3|]. split; [|exact U5]. intros l V1 V2 V3. apply U4; auto.
      + intros r j Hr Hj Hn'. unfold ctr. f_equal. apply A_s2; auto. lia.
      + intros j Hj Hn'. unfold vval, val, gtau. cbn [ad vdiag]. apply T_s2; auto; lia.
      + intros r j Hr Hj Hn'. unfold ctr. f_equal. rewrite G1 by (auto; lia). apply A_s3; auto.
      + intros r j Hr Hj. unfold ctr at 1. replace j with (t + ib + (j - (t + ib)))%nat at 1 by lia. replace r with (t + (r - t))%nat at 1 by lia. rewrite G2 by lia.
        transitivity (ctr (mmul (n - t) (fun a b => val A s3 (t + ib + a)%nat (t + b)%nat) (mprod (n - t) (fun i => refl (mem s3 (laddr TT (t + i) i)) (gvec t ib s3 i)) ib)) (r - t)%nat (j - (t + ib))%nat); [reflexivity|].
        rewrite ctr_mmul. unfold mmul. apply sum_ext. intros l Hl. f_equal.
        * unfold ctr, Gin. f_equal. symmetry. cbn [wb wa]. rewrite Hn. apply EG; lia.
        * unfold ctr. f_equal. rewrite A_s3 by lia. f_equal. lia.
      + intros j Hj Hlt. unfold vval, val, gtau. cbn [ad vdiag]. rewrite G3 by (auto; lia). destruct (Nat.lt_ge_cases j t) as [Hl|Hl]; [apply T_s3; auto; lia|].
        replace j with (t + (j - t))%nat by lia. rewrite Hmod by lia. apply VD. lia.
      + intros l V1 V2 V3. assert (~ inview (lview TT) l) by auto. assert (~ inview (lview work) l) by auto. rewrite G4 by auto. rewrite FR by auto. apply L4; auto.
      + congruence.
    - destruct (Nat.eq_dec (t + ib) k); auto. right. exists (S q). unfold ib in *. cbn [Nat.mul]. lia.
    - intros l V1 V2 V3. rewrite G4, FR by auto. rewrite L4 by auto. auto.
    - congruence.
    - intros q' Hq'. destruct (Nat.lt_ge_cases (q' * nb) t) as [Hl|Hl].
      + assert (Hle : (q' * nb + nb <= t)%nat). { rewrite J2 in *. assert (q' < q)%nat by nia. nia. }
        apply (gblk_ext _ _ s1); auto; [lia| |].
        * intros a b Ha Hb. rewrite G1, A_s3, A_s2; auto; lia.
        * intros a b Ha Hb. rewrite G3, T_s3, T_s2; auto; lia.
      + assert (q' * nb = t)%nat as ->. { rewrite J2 in *. assert (q' = q)%nat; [|subst; auto]. unfold ib in *. nia. }
        change (Nat.min nb (k - t)) with ib. apply (gblk_ext _ _ s3); auto; [lia| |].
        * intros a b Ha Hb. apply G1; lia.
        * intros a b Ha Hb. apply G3; lia. }
  apply wp_bind. destruct (Nat.ltb_spec (t + ib) k) as [Hlt|Hge].
  2: { apply wp_ret. apply wp_ret. apply FIN; auto; intros; lia. }
  apply wp_bind. apply wp_slc; [lia..|]. apply wp_bind. apply wp_assert.
  { rewrite !andb_true_iff, !Nat.leb_le. change (ln TT) with nb. lia. }
  set (A2 := subv A (t + ib) m t n). set (W1 := slice TT (t + ib) m 0 ib).
  assert (SA2 : forall l, inview A2 l -> inview A l) by (intros l K; apply inview_subv in K; auto; lia).
  assert (WA : forall i j, laddr W1 i j = laddr TT (t + ib + i) j).
  { intros i j. unfold W1, laddr, slice. cbn [lay lptr ldim]. destruct (is_col (lay TT)); lia. }
  assert (SW : forall l, inview (lview W1) l -> exists i j, (t + ib <= i < m)%nat /\ (j < ib)%nat /\ laddr TT i j = l).
  { intros l (i & j & Hi & Hj & e). cbn [lview nr nc ad] in *. unfold W1 in Hi, Hj. cbn [lm ln slice] in Hi, Hj. rewrite WA in e. exists (t + ib + i)%nat, j. repeat split; auto; lia. }
  assert (SWT : forall l, inview (lview W1) l -> inview (lview TT) l).
  { intros l K. destruct (SW l K) as (i & j & Hi & Hj & <-). apply HTin; lia. }
  assert (I1 : vinj A2) by (apply vinj_subv; auto; lia).
  assert (D1 : disj A1 A2). { intros x y x' y' U1 U2 U3 U4 e. unfold A1, A2 in *. cbn [nr nc ad subv] in *. apply HI in e; lia. }
  assert (DT2 : disj T1 A2) by (eapply disj_inc; [| |apply LarfbProof.disj_sym; exact HD]; auto).
  assert (DW1 : disj A1 (lview W1)) by (eapply disj_inc; [| |exact HD]; auto).
  assert (DW2 : disj A2 (lview W1)) by (eapply disj_inc; [| |exact HD]; auto).
  assert (DWT : disj T1 (lview W1)).
  { intros x y x' y' U1 U2 U3 U4 e. unfold T1 in *. cbn [nr nc ad subv lview] in *. unfold W1 in U3, U4. cbn [lm ln slice] in U3, U4. rewrite WA in e. apply HTeq in e; lia. }
  apply wp_bind. eapply wp_conseq; [apply (larfb_work_run Right NoTrans Forward Rowwise A1 T1 A2 W1 s3); cbn [sel]; auto| |auto].
  - unfold T1. cbn [nr nc subv]. lia.
  - unfold T1, A2. cbn [nr nc subv]. lia.
  - right. right. right. split.
    + unfold lok, W1, slice in *. cbn [lay lm ln ldim]. destruct (is_col (lay TT)); [|change (ln TT) with nb in LT]; lia.
    + assert (Z1 : nr A2 = lm W1) by reflexivity. assert (Z2 : nr T1 = ln W1) by (unfold T1, W1; cbn [nr subv ln slice]; lia). rewrite Z1, Z2. unfold reshape. rewrite Nat.ltb_irrefl.
      destruct (contiguous W1); [eauto|]. rewrite Nat.eqb_refl. cbn [orb]. eauto.
  - intros z4 s4 HL. cbv beta in HL. destruct HL as (_ & L1 & L2 & L3). apply wp_ret. apply wp_ret. apply FIN.
    + intros i j Hi Hj Hn'. apply L2.
      * intros (x & y & Hx & Hy & e). unfold A2 in *. cbn [nr nc ad subv] in *. apply HI in e; lia.
      * intros K. apply SWT in K. revert K. apply HATn. exists i, j. repeat split; lia.
    + intros i j Hi Hj. change (val A s4 (t + ib + i)%nat (t + j)%nat) with (val A2 s4 i j). rewrite L1 by (unfold A2; cbn [nr nc subv]; lia).
      unfold rapply. cbn [sel]. replace (nr T1) with ib by (unfold T1; cbn [nr subv]; lia). change (nc A2) with (n - t)%nat. apply mmul_ext; intros l Hl; auto.
      symmetry. cbn [opm]. apply (HB l j); auto.
    + intros i j Hi Hj Hlt'. apply L2.
      * intros K. apply SA2 in K. revert K. apply HTAn. auto.
      * intros K. apply SW in K. destruct K as (x & y & Hx & Hy & e). apply HTeq in e; lia.
    + intros l V1 V2 V3. apply L2; auto.
    + auto.
Qed.
Lemma gelqt_work_run : wp (gelqt_work h A TT work) (fun z s' => z = 0%Z /\ ginv k s') noX s.
Proof.
  unfold gelqt_work, gelqt_work_f. destruct HS as [Hm Hn]. rewrite Hm, Hn. change (Nat.min m n) with k. change (ln TT) with nb.
  apply wp_bind, wp_check. { destruct (Nat.ltb_spec (lm TT) m); [lia|]. rewrite Nat.ltb_irrefl. reflexivity. }
  apply wp_bind. apply (wp_blkret _ ginv).
  - exact Hnb.
  - lia.
  - rewrite Nat.min_0_l. split; [apply finv_0|]. split; [right; exists 0%nat; reflexivity|]. split; auto. split; auto. intros q Hq. lia.
  - intros i s1 Hi J. eapply wp_conseq; [apply gstep_run; auto| |auto]. intros [z|] s2 HL; [contradiction|exact HL].
  - intros s1 J. apply wp_ret. auto.
Qed.
End G.
Lemma lview_bound (L : lmat) : exists lo N, forall l, inview (lview L) l -> (lo <= l < lo + Z.of_nat N)%Z.
Proof.
  exists (lptr L), (lm L + ln L + lm L * ldim L + ln L * ldim L + 1)%nat. intros l (i & j & Hi & Hj & e). cbn [lview nr nc ad] in *. unfold laddr in e.
  assert (i * ldim L <= lm L * ldim L)%nat by (apply Nat.mul_le_mono_r; lia). assert (j * ldim L <= ln L * ldim L)%nat by (apply Nat.mul_le_mono_r; lia).
  destruct (is_col (lay L)); subst l; rewrite <- Nat2Z.inj_mul; lia.
Qed.
Lemma ghost_ex (L1 L2 : lmat) : exists G, forall l, inview (lview L1) l \/ inview (lview L2) l -> inview (lview G) l.
Proof.
  destruct (lview_bound L1) as (a & N & Ha). destruct (lview_bound L2) as (b & M & Hb).
  set (lo := Z.min a b). set (hi := Z.max (a + Z.of_nat N) (b + Z.of_nat M)). exists (mklmat (Z.to_nat (hi - lo)) 1 lo (Z.to_nat (hi - lo)) ColMajor).
  intros l HL. assert (lo <= l < hi)%Z by (destruct HL as [HL|HL]; [apply Ha in HL|apply Hb in HL]; lia).
  exists (Z.to_nat (l - lo)), 0%nat. cbn [lview nr nc ad lm ln]. split; [lia|]. split; [lia|]. unfold laddr. cbn [lay is_col lptr ldim]. lia.
Qed.
