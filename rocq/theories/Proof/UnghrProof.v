(** * unghr: generating the unitary matrix of a Hessenberg reduction *)
From Coq Require Import Bool Arith ZArith Lia Reals Lra Ring Field.
From Verif.Core Require Import Scalar Prog View Slice Loops WorkEff RealLaws.
From Verif.Spec Require Import LinAlg Outcome Norms Householder Reduce.
From Verif.Model Require Import Gemm Blas1 Blas2 Blas3 Legacy LaAux Norms Work Householder QGen QFact BlockQ Reduce.
From Verif.Proof Require Import SumLemmas Tactics SliceTac LegacyProof PotrfProof BlockAlg LarfProof LarfgProof QRProof QGenProof QFactProof ReduceMath ReduceProof HessProof TridProof.
From Verif.Properties Require Import BlockQ.
Local Open Scope T_scope.

Section P.
Context {E : Env} {FL : FieldLaws E} {CL : ConjLaws E}.
Add Field Tf : fth.

(** a product of reflectors acting on the window [a,b) is the identity outside the window *)
Definition embm (a b : nat) (Q : mat) : mat := fun r c =>
  if ((a <=? r) && (r <? b) && ((a <=? c) && (c <? b)))%nat then Q (r - a)%nat (c - a)%nat else idm r c.
Lemma mprod_embw n a b (tau : nat -> T) (u : nat -> nat -> T) k r c : (a <= b <= n)%nat -> (r < n)%nat -> (c < n)%nat ->
  mprod n (fun t => refl (tau t) (embw a b (u t))) k r c = embm a b (mprod (b - a) (fun t => refl (tau t) (u t)) k) r c.
Proof.
  intros Hab Hr. revert c. induction k as [|k IH]; intros c Hc; cbn [mprod].
  - unfold embm. destruct ((a <=? r)%nat && (r <? b)%nat && ((a <=? c)%nat && (c <? b)%nat)) eqn:Eb; auto. rewrite !andb_true_iff, !Nat.leb_le, !Nat.ltb_lt in Eb. unfold idm.
    destruct (Nat.eqb_spec r c), (Nat.eqb_spec (r - a) (c - a)); auto; lia.
  - rewrite embw_r by auto. destruct (Nat.leb_spec a c), (Nat.ltb_spec c b); cbn [andb].
    2-4: rewrite IH by auto; unfold embm; (destruct (Nat.leb_spec a c), (Nat.ltb_spec c b); try lia; cbn [andb]; rewrite !andb_false_r; reflexivity).
    unfold embm. destruct (Nat.leb_spec a c), (Nat.ltb_spec c b); try lia. cbn [andb]. rewrite andb_true_r. unfold mmul.
    destruct ((a <=? r)%nat && (r <? b)%nat) eqn:Eb.
    + apply sum_ext. intros l Hl. rewrite IH by lia. unfold embm. rewrite Eb. destruct (Nat.leb_spec a (a + l)), (Nat.ltb_spec (a + l) b); try lia. cbn [andb]. f_equal. f_equal. lia.
    + rewrite sum_0. { unfold idm. destruct (Nat.eqb_spec r c) as [->|]; auto. rewrite andb_false_iff, Nat.leb_gt, Nat.ltb_ge in Eb. lia. }
      intros l Hl. rewrite IH by lia. unfold embm. rewrite Eb. cbn [andb]. unfold idm. rewrite andb_false_iff, Nat.leb_gt, Nat.ltb_ge in Eb. destruct (Nat.eqb_spec r (a + l)); [lia|]. ring.
Qed.

(** ** The loops that shift the vectors *)
Section L.
Variables (A : view) (s0 : state) (n : nat).
Hypothesis HI : vinj A.
Hypothesis HA1 : nr A = n.
Hypothesis HA2 : nc A = n.
Lemma col_const F s1 lo hi j x : eff A F s0 s1 -> (lo <= hi <= n)%nat -> (j < n)%nat ->
  wp (for_ i in lo upto hi do wr A i j x) (fun _ s' => eff A (fun r c => if (lo <=? r) && (r <? hi) && (c =? j) then x else F r c)%nat s0 s') noX s1.
Proof.
  intros HF Hlh Hj. apply (wp_forup (fun t s' => eff A (fun r c => if (lo <=? r) && (r <? t) && (c =? j) then x else F r c)%nat s0 s')); [lia| | |auto].
  - eapply eff_ext; [exact HF|]. intros r c Hr Hc. cbv beta. destruct (Nat.leb_spec lo r), (Nat.ltb_spec r lo); try lia; cbn [andb]; auto.
  - intros t s2 Ht He. apply wp_wr; [lia|lia|]. eapply eff_ext; [apply (eff_set _ _ _ _ t j x He HI); lia|]. intros r c Hr Hc. unfold fupd.
    destruct (Nat.eqb_spec r t), (Nat.eqb_spec c j), (Nat.leb_spec lo r), (Nat.ltb_spec r t), (Nat.ltb_spec r (S t)); cbn [andb]; auto; lia.
Qed.
Lemma col_copy F s1 lo hi j j' : eff A F s0 s1 -> (lo <= hi <= n)%nat -> (j < n)%nat -> (j' < n)%nat -> j <> j' ->
  wp (for_ i in lo upto hi do (a <- rd A i j';; wr A i j a)) (fun _ s' => eff A (fun r c => if (lo <=? r) && (r <? hi) && (c =? j) then F r j' else F r c)%nat s0 s') noX s1.
Proof.
  intros HF Hlh Hj Hj' Hne. apply (wp_forup (fun t s' => eff A (fun r c => if (lo <=? r) && (r <? t) && (c =? j) then F r j' else F r c)%nat s0 s')); [lia| | |auto].
  - eapply eff_ext; [exact HF|]. intros r c Hr Hc. cbv beta. destruct (Nat.leb_spec lo r), (Nat.ltb_spec r lo); try lia; cbn [andb]; auto.
  - intros t s2 Ht He. apply wp_bind. apply wp_rd; [lia|lia|]. rewrite (proj1 He) by lia. cbv beta. destruct (Nat.eqb_spec j' j); [lia|]. rewrite andb_false_r.
    apply wp_wr; [lia|lia|]. eapply eff_ext; [apply (eff_set _ _ _ _ t j _ He HI); lia|]. intros r c Hr Hc. unfold fupd.
    destruct (Nat.eqb_spec r t), (Nat.eqb_spec c j), (Nat.leb_spec lo r), (Nat.ltb_spec r t), (Nat.ltb_spec r (S t)); cbn [andb]; auto; try lia; subst; auto.
Qed.
(** columns of the identity *)
Lemma cols_id F s1 lo hi : eff A F s0 s1 -> (lo <= hi <= n)%nat ->
  wp (for_ j in lo upto hi do ((for_ i in 0 upto n do wr A i j 0);; wr A j j 1)) (fun _ s' => eff A (fun r c => if (lo <=? c) && (c <? hi) then idm r c else F r c)%nat s0 s') noX s1.
Proof.
  intros HF Hlh. apply (wp_forup (fun t s' => eff A (fun r c => if (lo <=? c) && (c <? t) then idm r c else F r c)%nat s0 s')); [lia| | |auto].
  - eapply eff_ext; [exact HF|]. intros r c Hr Hc. cbv beta. destruct (Nat.leb_spec lo c), (Nat.ltb_spec c lo); try lia; cbn [andb]; auto.
  - intros t s2 Ht He. apply wp_bind. eapply wp_conseq; [apply (col_const _ s2 0 n t 0 He); lia|cbv beta; intros u s3 H3|auto].
    apply wp_wr; [lia|lia|]. eapply eff_ext; [apply (eff_set _ _ _ _ t t 1 H3 HI); lia|]. intros r c Hr Hc. unfold fupd, idm.
    destruct (Nat.eqb_spec r t), (Nat.eqb_spec c t), (Nat.leb_spec lo c), (Nat.ltb_spec c t), (Nat.ltb_spec c (S t)); cbn [andb]; try lia; auto.
    all: repeat (match goal with |- context[(?x =? ?y)%nat] => destruct (Nat.eqb_spec x y); try lia end); repeat (match goal with |- context[(?x <=? ?y)%nat] => destruct (Nat.leb_spec x y); try lia end); repeat (match goal with |- context[(?x <? ?y)%nat] => destruct (Nat.ltb_spec x y); try lia end); cbn [andb]; auto; lia.
Qed.
End L.

Section U.
Context {OL : ROrdLaws E} {QL : EqbLaws E} {XL : CplxLaws E} {RL : RLaws E} {NL : FinLaws E}.
Variables (nbo ilo ihi n : nat) (A tau : view) (work : lmat) (s : state).
Hypothesis HA1 : nr A = n.
Hypothesis HA2 : nc A = n.
Hypothesis HI : vinj A.
Hypothesis Ht1 : nc tau = 1%nat.
Hypothesis HD : disj tau A.
Hypothesis Hb : (ilo < n /\ 0 < ihi <= n /\ ilo <= ihi)%nat.
Hypothesis Hlen : (n <= nr tau + 1)%nat.
Hypothesis Hnb : (0 < nbo)%nat.
Hypothesis HwA : disj (lview work) A.
Hypothesis Hwt : disj (lview work) tau.
Let nh := (ihi - 1 - ilo)%nat.
Hypothesis Hwork : (nh = 0 \/ lok work /\ contiguous work = true /\ ungq_need (Nat.min nbo nh) Forward nh nh <= lm work * ln work)%nat.
Lemma subvec_qvec (F : mat) t r : (t < nh)%nat -> subvec ihi F (ilo + t) r = embw (ilo + 1) ihi (rvec Forward Columnwise nh nh (fun r c => F (ilo + 1 + r)%nat (ilo + c)%nat) t) r.
Proof.
  intros Ht. unfold subvec, embw, rvec. cbn [rpos]. unfold nh in *.
  destruct (Nat.eqb_spec r (ilo + t + 1)), (Nat.leb_spec (ilo + 1) r), (Nat.ltb_spec r ihi), (Nat.ltb_spec (ilo + t + 1) r); cbn [andb]; try lia; auto.
  - destruct (Nat.eqb_spec (r - (ilo + 1)) t); [auto|lia].
  - destruct (Nat.eqb_spec (r - (ilo + 1)) t); [lia|]. destruct (Nat.ltb_spec (r - (ilo + 1)) t); [lia|]. f_equal; lia.
  - destruct (Nat.eqb_spec (r - (ilo + 1)) t); [lia|]. destruct (Nat.ltb_spec (r - (ilo + 1)) t); [auto|lia].
Qed.
Lemma hessq_emb (F : mat) (tv : nat -> T) r c : (r < n)%nat -> (c < n)%nat -> (0 < nh)%nat ->
  hessq n ilo ihi F tv r c = embm (ilo + 1) ihi (mprod nh (fun t => refl (tv (ilo + t)%nat) (rvec Forward Columnwise nh nh (fun r c => F (ilo + 1 + r)%nat (ilo + c)%nat) t)) nh) r c.
Proof.
  intros Hr Hc Hh. unfold hessq. transitivity (mprod n (fun t => refl (tv (ilo + t)%nat) (embw (ilo + 1) ihi (rvec Forward Columnwise nh nh (fun r c => F (ilo + 1 + r)%nat (ilo + c)%nat) t))) nh r c).
  - apply mprod_ext; auto. intros t r' c' Ht _ _. apply refl_ext; apply subvec_qvec; auto.
  - rewrite mprod_embw by (auto; unfold nh in *; lia). replace (ihi - (ilo + 1))%nat with nh by (unfold nh; lia). reflexivity.
Qed.
Let shf (F : mat) (j : nat) : mat := fun r c => if ((j <=? c) && (c <? ihi))%nat then (if (r =? c)%nat then F r c else if ((c <? r) && (r <? ihi))%nat then F r (c - 1)%nat else 0) else F r c.
Lemma unghr_work_run : runs (unghr_work nbo ilo ihi A tau work) s (fun r s' => r = 0%Z /\ effw A (hessq n ilo ihi (val A s) (vval tau s)) (inview (lview work)) s s').
Proof.
  unfold runs, unghr_work. rewrite HA1, HA2. cbv zeta. rewrite Nat.min_id.
  replace (if (ilo + 1 <? ihi)%nat then (ihi - 1 - ilo)%nat else 0%nat) with nh by (unfold nh; destruct (Nat.ltb_spec (ilo + 1) ihi); lia).
  apply wp_bind, wp_check; [apply negb_true_iff, Nat.ltb_ge; lia|]. apply wp_bind, wp_assert; [apply Nat.ltb_lt; lia|].
  set (F0 := val A s).
  apply wp_bind. apply wp_conseq with (X := noX) (Q := fun _ s1 => eff A (shf F0 (ilo + 1)) s s1).
  { destruct (Nat.le_gt_cases (ilo + 1) ihi) as [Hle|Hgt].
    - apply (wp_fordown (fun j s' => eff A (shf F0 j) s s')); [lia| | |auto].
      + eapply eff_ext; [apply eff_refl|]. intros r c Hr Hc. unfold shf. destruct (Nat.leb_spec ihi c), (Nat.ltb_spec c ihi); cbn [andb]; auto; lia.
      + intros j s1 Hj He. apply wp_bind. eapply wp_conseq; [apply (col_const A s n HI HA1 HA2 _ s1 0 j j 0 He); lia|cbv beta; intros u0 s2 H2|auto].
        apply wp_bind. eapply wp_conseq; [apply (col_copy A s n HI HA1 HA2 _ s2 (j + 1) ihi j (j - 1) H2); lia|cbv beta; intros u1 s3 H3|auto].
        eapply wp_conseq; [apply (col_const A s n HI HA1 HA2 _ s3 ihi n j 0 H3); lia|cbv beta; intros u2 s4 H4|auto].
        eapply eff_ext; [exact H4|]. intros r c Hr Hc. cbv beta. unfold shf.
        destruct (Nat.eqb_spec c j) as [->|Hne].
        * rewrite !andb_true_r. destruct (Nat.leb_spec j j); [|lia]. destruct (Nat.leb_spec (S j) j); [lia|]. destruct (Nat.ltb_spec j ihi); [|lia]. cbn [andb].
          destruct (Nat.leb_spec (S j) (j - 1)); [lia|]. destruct (Nat.eqb_spec (j - 1) j); [lia|]. rewrite !andb_false_r. cbn [andb].
          destruct (Nat.leb_spec ihi r), (Nat.ltb_spec r n), (Nat.leb_spec (j + 1) r), (Nat.ltb_spec r ihi), (Nat.ltb_spec r j), (Nat.eqb_spec r j), (Nat.ltb_spec j r); cbn [andb]; try lia; auto.
        * rewrite !andb_false_r. destruct (Nat.leb_spec (S j) c), (Nat.leb_spec j c); try lia; auto.
    - unfold fordown, folddown. replace (ihi - (ilo + 1))%nat with 0%nat by lia. cbn [fornd]. apply wp_ret.
      eapply eff_ext; [apply eff_refl|]. intros r c Hr Hc. unfold shf. destruct (Nat.leb_spec (ilo + 1) c), (Nat.ltb_spec c ihi); cbn [andb]; auto; lia. }
  2: auto. intros u0 s1 H1. cbv beta in H1.
  apply wp_bind. eapply wp_conseq; [apply (cols_id A s n HI HA1 HA2 _ s1 0 (ilo + 1) H1); lia|cbv beta; intros u1 s2 H2|auto].
  apply wp_bind. eapply wp_conseq; [apply (cols_id A s n HI HA1 HA2 _ s2 ihi n H2); lia|cbv beta; intros u2 s3 H3|auto].
  destruct (Nat.ltb_spec 0 nh) as [Hnh|Hnh].
  - destruct Hwork as [|(W1 & W2 & W3)]; [lia|].
    apply wp_bind, wp_slc; [unfold nh in *; lia..|]. apply wp_bind, wp_slvec; [unfold nh in *; lia..|].
    set (As := subv A (ilo + 1) ihi (ilo + 1) ihi). set (ts := Slice.vsub tau ilo (ihi - 1)).
    assert (Nas : shape As nh nh) by (split; cbn; unfold nh; lia). assert (Nts : isvec ts nh) by (split; cbn; auto; unfold nh; lia).
    assert (DtA : disj ts As). { intros x y x' y' Hx Hy Hx' Hy'. cbn [nr nc ad ts As subv Slice.vsub] in *. apply HD; unfold nh in *; lia. }
    assert (IA : forall l, inview As l -> inview A l). { intros l. apply inview_subv; unfold nh in *; lia. }
    eapply wp_use.
    { apply runs_returns. apply (ungq_work_correct_partial nbo Forward Columnwise As ts work s3 nh nh nh); auto.
      - apply vinj_subv; auto; lia.
      - rewrite Nat.min_id. auto.
      - eapply disj_inc; [| |exact HwA]; auto.
      - eapply disj_inc; [| |exact Hwt]; auto. intros l (x & y & Hx & Hy & ->). cbn [nr nc ad ts Slice.vsub] in *. exists (ilo + x)%nat, 0%nat. repeat split; unfold nh in *; lia. }
    cbv zeta. intros r s4 HL. cbv beta in HL. destruct HL as [-> (L1 & L2 & L3)]. split; auto.
    assert (Et : forall t, (t < nh)%nat -> vval ts s3 t = vval tau s (ilo + t)%nat).
    { intros t Ht. change (vval ts s3 t) with (vval tau s3 (ilo + t)%nat). apply H3. apply nin; auto; unfold nh in *; lia. }
    assert (Es : forall r t, (r < nh)%nat -> (t < r)%nat -> val As s3 r t = F0 (ilo + 1 + r)%nat (ilo + t)%nat).
    { intros r t Hr Ht. change (val As s3 r t) with (val A s3 (ilo + 1 + r)%nat (ilo + 1 + t)%nat). rewrite (proj1 H3) by (unfold nh in *; lia). cbv beta.
      destruct (Nat.leb_spec ihi (ilo + 1 + t)); [unfold nh in *; lia|]. cbn [andb]. destruct (Nat.ltb_spec (ilo + 1 + t) (ilo + 1)); [lia|]. rewrite andb_false_r.
      unfold shf. destruct (Nat.leb_spec (ilo + 1) (ilo + 1 + t)); [|lia]. destruct (Nat.ltb_spec (ilo + 1 + t) ihi); [|lia]. cbn [andb].
      destruct (Nat.eqb_spec (ilo + 1 + r) (ilo + 1 + t)); [lia|]. destruct (Nat.ltb_spec (ilo + 1 + t) (ilo + 1 + r)), (Nat.ltb_spec (ilo + 1 + r) ihi); try (unfold nh in *; lia). cbn [andb]. f_equal; lia. }
    split; [|split; [|rewrite L3; apply H3]].
    + intros r c Hr Hc. rewrite hessq_emb by (auto; lia). unfold embm. change (val As s3) with (fun r c => val A s3 (ilo + 1 + r)%nat (ilo + 1 + c)%nat) in *.
      destruct ((ilo + 1 <=? r)%nat && (r <? ihi)%nat && ((ilo + 1 <=? c)%nat && (c <? ihi)%nat)) eqn:Eb.
      * rewrite !andb_true_iff, !Nat.leb_le, !Nat.ltb_lt in Eb. transitivity (val As s4 (r - (ilo + 1))%nat (c - (ilo + 1))%nat); [unfold val, As; cbn [ad subv]; f_equal; f_equal; lia|].
        rewrite L1 by (cbn; lia). unfold qpart, qof, hprod. apply mprod_ext; try (unfold nh in *; lia). intros t r' c' Ht Hr' Hc'. rewrite Et by auto.
        apply refl_ext; unfold rvec, stored; cbn [rpos]; (match goal with |- context[(?q =? t)%nat] => destruct (Nat.eqb_spec q t), (Nat.ltb_spec q t); auto end; apply Es; auto; lia).
      * transitivity (val A s3 r c).
        { apply L2; [|apply nin; auto; apply disj_sym; auto]. intros (x & y & Hx & Hy & e). cbn [nr nc ad As subv] in *. apply HI in e; try lia.
          rewrite !andb_false_iff, !Nat.leb_gt, !Nat.ltb_ge in Eb. lia. }
        rewrite (proj1 H3) by lia. cbv beta. rewrite !andb_false_iff, !Nat.leb_gt, !Nat.ltb_ge in Eb.
        destruct (Nat.leb_spec ihi c), (Nat.ltb_spec c n); try lia; cbn [andb]; auto. destruct (Nat.ltb_spec c (ilo + 1)); cbn [andb Nat.leb]; auto.
        unfold shf. destruct (Nat.leb_spec (ilo + 1) c), (Nat.ltb_spec c ihi); try lia. cbn [andb]. unfold idm.
        destruct (Nat.eqb_spec r c); [lia|]. destruct (Nat.ltb_spec c r), (Nat.ltb_spec r ihi); cbn [andb]; auto; lia.
    + intros l N1 N2. rewrite L2; auto. apply H3; auto.
  - apply wp_ret. split; auto. split; [|split; [intros l N1 _; apply H3; auto|apply H3]].
    intros r c Hr Hc. rewrite (proj1 H3) by auto. cbv beta. unfold hessq. replace (ihi - 1 - ilo)%nat with 0%nat by (unfold nh in *; lia). cbn [mprod].
    destruct (Nat.leb_spec ihi c), (Nat.ltb_spec c n); try lia; cbn [andb]; auto. destruct (Nat.ltb_spec c (ilo + 1)); cbn [andb Nat.leb]; auto. unfold nh in *. lia.
Qed.
End U.
End P.
