(** * gehrd: the loop over blocks and the whole routine *)
From Coq Require Import Bool Arith ZArith Lia Reals Lra Ring Field.
From Verif.Core Require Import Scalar Prog View Slice Loops WorkEff RealLaws.
From Verif.Spec Require Import LinAlg Outcome Norms Householder Reduce Parts.
From Verif.Model Require Import Gemm Blas1 Blas2 Blas3 Legacy LaAux Norms Work Householder QGen QFact BlockQ Reduce Gehrd.
From Verif.Proof Require Import SumLemmas Tactics SliceTac LegacyProof PotrfProof BlockAlg LaAuxProof LarfProof LarfgProof QRProof QGenProof QFactProof LarfbProof ReduceMath ReduceProof HessProof GehrdBlock.
Local Open Scope T_scope.

Lemma reshape_contig A m n : contiguous A = true -> (m * n <= lm A * ln A)%nat -> exists R, reshape A m n = Some (new_lmat0 m n (lptr A) (lay A), R) /\ lok R /\ contiguous R = true /\ (lm R * ln R = lm A * ln A - m * n)%nat.
Proof.
  intros Hc Hm. unfold reshape. destruct (Nat.ltb_spec (lm A * ln A) (m * n)); [lia|]. rewrite Hc. eexists. split; [reflexivity|].
  destruct (is_col (lay A)); cbn [lm ln]; (split; [apply lok_new0|split; [apply contig_new0|cbn; lia]]).
Qed.
Lemma reshape_00 A : exists P R, reshape A 0 0 = Some (P, R) /\ ln P = 0%nat.
Proof.
  unfold reshape. cbn [Nat.mul]. destruct (Nat.ltb_spec (lm A * ln A) 0); [lia|]. destruct (contiguous A); [eexists; eexists; split; [reflexivity|reflexivity]|].
  rewrite Nat.eqb_refl, orb_true_r. eexists; eexists. split; [reflexivity|reflexivity].
Qed.
Lemma tview_inview A l : inview (lview (transpose_view A)) l <-> inview (lview A) l.
Proof.
  unfold inview. cbn [nr nc ad lview lm ln]. split; intros (i & j & Hi & Hj & ->); exists j, i; repeat apply Logic.conj; auto; [apply transpose_elem|symmetry; apply transpose_elem].
Qed.
Lemma tview_ok A : lok A -> lok (transpose_view A).
Proof. unfold lok, transpose_view. cbn. destruct (lay A); cbn; auto. Qed.
Lemma tview_contig A : contiguous (transpose_view A) = contiguous A.
Proof. unfold contiguous, transpose_view. cbn. rewrite (Nat.mul_comm (ln A)). destruct (lay A); cbn; rewrite ?orb_false_r; auto. Qed.

Section G.
Context {E : Env} {FL : FieldLaws E} {CL : ConjLaws E} {OL : ROrdLaws E} {QL : EqbLaws E} {XL : CplxLaws E} {RL : RLaws E} {NL : FinLaws E}.
Variables (h : hconst) (st bt hsm : R) (ilo ihi n : nat) (A tau : view) (work : lmat) (s : state).
Hypothesis Hh : hconst_ok h st bt hsm.
Hypothesis HA : nr A = n /\ nc A = n.
Hypothesis HI : vinj A.
Hypothesis HIt : vinj tau.
Hypothesis Ht1 : nc tau = 1%nat.
Hypothesis Hlen : (n - 1 <= nr tau)%nat.
Hypothesis HD : disj A tau.
Hypothesis HwA : disj (lview work) A.
Hypothesis Hwt : disj (lview work) tau.
Hypothesis Hihi : (0 < ihi <= n)%nat.
Hypothesis Hin : hess_input n ilo ihi (val A s).
Hypothesis Hnorm : (fro2 n n (val A s) <= bt * bt)%R.
Hypothesis Hwork : (ihi <= ilo + 2 \/ lok work /\ contiguous work = true /\ Nat.max ihi (n - ilo - 1) <= lm work * ln work)%nat.

(** the unblocked code finishes a reduction that has already done t columns *)
Lemma gehd2_rest t s1 : (t = 0 \/ ilo + t <= ihi - 1)%nat -> hinv ilo ihi n A tau work s t s1 ->
  wp (gehd2_work h (ilo + t) ihi A tau work) (fun r s' => r = 0%Z /\ hinv ilo ihi n A tau work s (ihi - 1 - ilo) s') noX s1.
Proof.
  intros Ht Hv. destruct HA as [HA1 HA2]. unfold gehd2_work. rewrite HA1, HA2. cbv zeta. apply wp_bind. apply wp_check; [apply Nat.eqb_refl|].
  apply wp_bind. apply wp_check. { destruct (Nat.eqb_spec n 0), (Nat.ltb_spec (nr tau) (n - 1)); try lia; reflexivity. }
  destruct (Nat.leb_spec n 0); [lia|]. apply wp_bind, wp_assert; [apply Nat.ltb_lt; lia|]. apply wp_bind.
  destruct (Nat.le_gt_cases (ihi - 1) (ilo + t)) as [Hz|Hz].
  - replace (ihi - 1 - ilo)%nat with t by lia. unfold forup, foldup. replace (ihi - 1 - (ilo + t))%nat with 0%nat by lia. cbn [forn]. do 2 apply wp_ret. split; auto.
  - apply (wp_forup (fun i s' => hinv ilo ihi n A tau work s (i - ilo) s')).
    + lia.
    + replace (ilo + t - ilo)%nat with t by lia. exact Hv.
    + intros i s2 Hr HJ. assert (K := hess_step_run h st bt hsm ilo ihi n A tau work s Hh HA1 HA2 HI HIt Ht1 Hlen HD HwA Hwt Hihi Hin Hnorm Hwork (i - ilo) s2 ltac:(lia) HJ).
      cbv zeta in K. replace (ilo + (i - ilo))%nat with i in K by lia. replace (S i - ilo)%nat with (S (i - ilo)) by lia. exact K.
    + intros s2 HJ. apply wp_ret. split; auto.
Qed.

Section L.
Variables (nb nx : nat) (Y mT : view) (Yt : lmat).
Hypothesis Htl : (ihi <= nr tau)%nat.
Hypothesis Hnb : (0 < nb <= nx)%nat.
Hypothesis HY : nr Y = n /\ nc Y = nb.
Hypothesis HT : nr mT = nb /\ nc mT = nb.
Hypothesis IT : vinj mT.
Hypothesis IY : vinj Y.
Hypothesis DTY : disj mT Y.
Hypothesis WY : forall l, inview Y l -> inview (lview work) l.
Hypothesis WT : forall l, inview mT l -> inview (lview work) l.
Hypothesis HYt : forall l, inview (lview Yt) l -> inview Y l.
Hypothesis HYw : forall d, (d <= n)%nat -> wkm_ok Yt nb d.
Lemma gehrd_loop_run fuel : forall t s1, (ihi - (ilo + t) <= fuel)%nat -> (t = 0 \/ ilo + t <= ihi - 1)%nat -> hinv ilo ihi n A tau work s t s1 ->
  wp (gehrd_loop fuel h ihi nb nx (ilo + t) A tau Y mT Yt) (fun i s' => exists t', i = (ilo + t')%nat /\ (t' = 0 \/ ilo + t' <= ihi - 1)%nat /\ hinv ilo ihi n A tau work s t' s') noX s1.
Proof.
  induction fuel as [|fuel IH]; intros t s1 Hf Ht Hv; cbn [gehrd_loop]; destruct (Nat.ltb_spec (ilo + t + nx) (ihi - 1)) as [Hl|Hl].
  - exfalso. clear - Hf Hl. lia.
  - apply wp_ret. exists t. auto.
  - apply wp_bind. eapply wp_use.
    { apply (block_run h st bt hsm ilo ihi n nb A tau Y mT Yt work s) with (t := t); auto; lia. }
    intros u0 s2 HL. cbv beta in HL. replace (ilo + t + nb)%nat with (ilo + (t + nb))%nat by lia. apply IH; auto; lia.
  - apply wp_ret. exists t. auto.
Qed.
End L.

(** outside the workspace nothing has changed yet *)
Lemma hinv_start s1 : (forall l, ~ inview (lview work) l -> mem s1 l = mem s l) -> imem s1 = imem s -> hinv ilo ihi n A tau work s 0 s1.
Proof.
  intros H1 H2. destruct HA as [HA1 HA2].
  assert (EA : forall r c, (r < n)%nat -> (c < n)%nat -> val A s1 r c = val A s r c).
  { intros r c Hr Hc. apply H1. apply nin; [apply disj_sym; exact HwA|lia|lia]. }
  assert (ET : forall j, (j < nr tau)%nat -> vval tau s1 j = vval tau s j).
  { intros j Hj. apply H1. apply nin; [apply disj_sym; exact Hwt|lia|lia]. }
  destruct (hinv_0 ilo ihi n A tau work s HA1 HA2 Ht1 Hlen Hihi Hwork) as (I1 & I2 & I3 & I4 & I5 & I6 & I7 & I8).
  repeat apply Logic.conj; auto.
  - intros r c Hr Hc. rewrite I2 by auto. apply mmul_ext; auto. intros l Hl. apply mmul_ext; auto. intros q Hq. unfold masked. destruct (hel _ _ _ _ _); auto. symmetry; auto.
  - intros u Hu. lia.
Qed.

Lemma gehrd_work_run nbo nxo : let nb := gehrd_nb nbo ilo ihi in (ilo < n)%nat ->
  (gehrd_blocked nbo nxo ilo ihi = true -> (0 < nbo)%nat /\ (ihi <= nr tau)%nat /\ (n * nb + nb * nb <= lm work * ln work)%nat) ->
  runs (gehrd_work h nbo nxo ilo ihi A tau work) s (fun r s' => r = 0%Z /\ hinv ilo ihi n A tau work s (ihi - 1 - ilo) s').
Proof.
  intros nb Hilo Hb. pose proof HA as [HA1 HA2]. unfold runs, gehrd_work. rewrite HA1, HA2. cbv zeta. change (gehrd_nb nbo ilo ihi) with nb.
  apply wp_bind, wp_check; [apply Nat.ltb_lt; auto|]. apply wp_bind, wp_check; [apply Nat.leb_le; lia|]. apply wp_bind, wp_check; [apply Nat.eqb_refl|].
  apply wp_bind. apply wp_check. { destruct (Nat.eqb_spec n 0), (Nat.ltb_spec (nr tau) (n - 1)); try lia; reflexivity. }
  destruct (Nat.leb_spec n 0); [lia|]. destruct (gehrd_blocked nbo nxo ilo ihi) eqn:Eb.
  - destruct (Hb eq_refl) as (Hn0 & Htl & Hsz). clear Hb. unfold gehrd_blocked in Eb. change (gehrd_nb nbo ilo ihi) with nb in Eb. apply andb_prop in Eb. destruct Eb as [Eb1 Eb2].
    apply Nat.ltb_lt in Eb1, Eb2. assert (Hnb : (0 < nb)%nat). { unfold nb, gehrd_nb. destruct (Nat.ltb_spec ilo ihi); lia. }
    assert (Hw : lok work /\ contiguous work = true). { destruct Hwork as [|(W1 & W2 & W3)]; auto; lia. } destruct Hw as [W1 W2].
    destruct (reshape_contig work n nb W2 ltac:(lia)) as (R1 & ER1 & R1o & R1c & R1s).
    destruct (reshape_ok work n nb _ R1 W1 ER1) as (P1 & P2 & P3 & P4 & P5 & P6). set (Y := new_lmat0 n nb (lptr work) (lay work)) in *.
    assert (EY : lm Y = n /\ ln Y = nb) by (apply P5; auto). destruct EY as [EY1 EY2].
    destruct (reshape_contig R1 nb nb R1c ltac:(lia)) as (R2 & ER2 & R2o & R2c & R2s).
    destruct (reshape_ok R1 nb nb _ R2 R1o ER2) as (Q1 & Q2 & Q3 & Q4 & Q5 & Q6). set (TT := new_lmat0 nb nb (lptr R1) (lay R1)) in *.
    assert (ET : lm TT = nb /\ ln TT = nb) by (apply Q5; auto). destruct ET as [ET1 ET2].
    apply wp_bind. unfold wk_lmat at 1. rewrite ER1. apply wp_ret. cbn [fst snd]. apply wp_bind. unfold wk_lmat. rewrite ER2. apply wp_ret. cbn [fst snd].
    apply wp_bind. eapply wp_use; [apply laset_run; [reflexivity|apply lview_inj; exact P1]|].
    intros u0 s1 HL. cbv beta in HL. destruct HL as (_ & HL1 & HL2).
    apply wp_bind, wp_assert; [apply Nat.ltb_lt; lia|]. apply wp_bind.
    rewrite <- (Nat.add_0_r ilo) at 1. eapply wp_use.
    { apply (gehrd_loop_run nb (Nat.max nb nxo) (lview Y) (lview TT) (transpose_view Y)) with (t := 0%nat); auto; try lia.
      - apply lview_inj; auto.
      - apply lview_inj; auto.
      - apply disj_sym. eapply disj_inc; [| |exact P3]; auto. intros l Hl. apply Q4. auto.
      - intros l Hl. apply P4. auto.
      - intros l Hl. apply P4. right. apply Q4. auto.
      - intros l Hl. apply tview_inview. auto.
      - intros d Hd. apply wkm_ok_contig; [apply tview_ok; auto|rewrite tview_contig; apply contig_new0|]. cbn [lm ln transpose_view]. rewrite EY1, EY2. apply Nat.mul_le_mono_l. auto.
      - apply hinv_start; auto. intros l Hl. apply HL1. intros (i & j & Hi & Hj & _ & ->). apply Hl. apply P4. left. exists i, j. auto. }
    intros i s2 HL. cbv beta in HL. destruct HL as (t & -> & Ht & Hv). apply gehd2_rest; auto.
  - destruct (reshape_00 work) as (P1 & R1 & ER1 & Z1). destruct (reshape_00 R1) as (P2 & R2 & ER2 & Z2).
    apply wp_bind. unfold wk_lmat at 1. rewrite ER1. apply wp_ret. cbn [fst snd]. apply wp_bind. unfold wk_lmat. rewrite ER2. apply wp_ret. cbn [fst snd].
    apply wp_bind. eapply wp_use; [apply laset_run; [reflexivity|]|].
    { intros i j i' j' Hi Hj. cbn in Hj. lia. }
    intros u0 s1 HL. cbv beta in HL. destruct HL as (_ & HL1 & HL2).
    apply wp_bind, wp_assert; [apply Nat.ltb_lt; lia|]. apply wp_bind.
    assert (El : gehrd_loop ihi h ihi nb (Nat.max nb nxo) ilo A tau (lview P1) (lview P2) (transpose_view P1) = ret ilo).
    { assert (K : (ilo + Nat.max nb nxo <? ihi - 1)%nat = false).
      { apply Nat.ltb_ge. unfold gehrd_blocked in Eb. change (gehrd_nb nbo ilo ihi) with nb in Eb. apply andb_false_iff in Eb. destruct Eb as [Eb|Eb]; apply Nat.ltb_ge in Eb; lia. }
      destruct ihi; cbn [gehrd_loop]; rewrite K; reflexivity. }
    rewrite El. apply wp_ret. rewrite <- (Nat.add_0_r ilo) at 1. apply gehd2_rest; auto. apply hinv_start; auto.
    intros l Hl. apply HL1. intros (i & j & Hi & Hj & _). cbn in Hj. lia.
Qed.
End G.
