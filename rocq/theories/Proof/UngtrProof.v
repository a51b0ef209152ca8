(** * ungtr, ungbr, unmhr: generating and applying the unitary matrices of the reductions *)
From Coq Require Import Bool Arith ZArith Lia Reals Lra Ring Field.
From Verif.Core Require Import Scalar Prog View Slice Loops WorkEff RealLaws.
From Verif.Spec Require Import LinAlg Outcome Norms Householder Reduce.
From Verif.Model Require Import Gemm Blas1 Blas2 Blas3 Legacy LaAux Norms Work Householder QGen QFact BlockQ Reduce ReduceQ.
From Verif.Proof Require Import SumLemmas Tactics SliceTac LegacyProof PotrfProof BlockAlg LarfProof LarfgProof QRProof QGenProof QFactProof WorkProof ReduceMath ReduceProof HessProof TridProof UnghrProof BlockProof.
From Verif.Properties Require QGen.
From Verif.Properties Require Import BlockQ.
Local Open Scope T_scope.

Ltac bcase := repeat (match goal with
  | |- context[(?x =? ?y)%nat] => destruct (Nat.eqb_spec x y); try lia
  | |- context[(?x <? ?y)%nat] => destruct (Nat.ltb_spec x y); try lia
  | |- context[(?x <=? ?y)%nat] => destruct (Nat.leb_spec x y); try lia
  end; cbn [andb orb]); auto.

Section P.
Context {E : Env} {FL : FieldLaws E} {CL : ConjLaws E}.
Add Field Tf : fth.

(** ** Reflectors acting on a window *)
Lemma qwin d sm n a b nh (tau : nat -> T) (w : nat -> nat -> T) (V : mat) : (a <= b <= n)%nat -> nh = (b - a)%nat ->
  (forall t r, (t < nh)%nat -> (r < n)%nat -> w t r = embw a b (rvec d sm nh nh V t) r) -> forall r c, (r < n)%nat -> (c < n)%nat ->
  (match sm with Columnwise => hprod d n (fun t => refl (tau t) (w t)) nh | Rowwise => ctr (hprod d n (fun t => refl (tau t) (w t)) nh) end) r c = embm a b (qof d sm nh V tau nh) r c.
Proof.
  intros Hab Hnh Hw. assert (K : forall r c, (r < n)%nat -> (c < n)%nat -> hprod d n (fun t => refl (tau t) (w t)) nh r c = embm a b (hprod d nh (fun t => refl (tau t) (rvec d sm nh nh V t)) nh) r c).
  { intros r c Hr Hc. replace (hprod d nh) with (@hprod E d (b - a)) by (rewrite <- Hnh; auto). rewrite <- (embm_hprod d n) by auto. apply hprod_ext; auto. intros t r' c' Ht Hr' Hc'.
    rewrite embm_refl. apply refl_ext; apply Hw; auto. }
  intros r c Hr Hc. unfold qof. destruct sm; [apply K; auto|]. unfold ctr at 1. rewrite K by auto. change (conj ((embm a b (hprod d nh (fun t => refl (tau t) (rvec d Rowwise nh nh V t)) nh)) c r)) with (ctr (embm a b (hprod d nh (fun t => refl (tau t) (rvec d Rowwise nh nh V t)) nh)) r c).
  apply embm_ctr.
Qed.
Lemma sub_win ihi ilo (F : mat) t r : (t < ihi - 1 - ilo)%nat -> let nh := (ihi - 1 - ilo)%nat in
  subvec ihi F (ilo + t) r = embw (ilo + 1) ihi (rvec Forward Columnwise nh nh (fun r c => F (ilo + 1 + r)%nat (ilo + c)%nat) t) r.
Proof. intros Ht nh. unfold nh in *. unfold subvec, embw, rvec. cbn [rpos]. bcase. f_equal; lia. Qed.
Lemma suprow_win n (F : mat) t r : (t < n - 1)%nat -> suprow n F t r = embw 1 n (rvec Forward Rowwise (n - 1) (n - 1) (fun r c => F r (1 + c)%nat) t) r.
Proof. intros Ht. unfold suprow, subvec, embw, rvec, ctr. cbn [rpos]. bcase. f_equal. f_equal; lia. Qed.
Lemma supvec_win n (F : mat) t r : (t < n - 1)%nat -> (r < n)%nat -> supvec F t r = embw 0 (n - 1) (rvec Backward Columnwise (n - 1) (n - 1) (fun r c => F r (c + 1)%nat) t) r.
Proof.
  intros Ht Hr. unfold supvec, embw, rvec. cbn [rpos]. rewrite Nat.sub_diag, Nat.sub_0_r. cbn [Nat.add]. bcase.
Qed.

(** ** Loops *)
Section L.
Variables (A : view) (s0 : state).
Hypothesis HI : vinj A.
Lemma wp_set F i j x s1 (Q : unit -> state -> Prop) : eff A F s0 s1 -> (i < nr A)%nat -> (j < nc A)%nat ->
  (forall s', eff A (fupd F i j x) s0 s' -> Q tt s') -> wp (wr A i j x) Q noX s1.
Proof. intros HF Hi Hj HQ. apply wp_wr; auto. apply HQ. apply eff_set; auto. Qed.
Lemma ccopy F s1 lo hi j j' : eff A F s0 s1 -> (lo <= hi <= nr A)%nat -> (j < nc A)%nat -> (j' < nc A)%nat -> j <> j' ->
  wp (for_ i in lo upto hi do (a <- rd A i j';; wr A i j a)) (fun _ s' => eff A (fun r c => if (lo <=? r) && (r <? hi) && (c =? j) then F r j' else F r c)%nat s0 s') noX s1.
Proof.
  intros HF Hlh Hj Hj' Hne. apply (wp_forup (fun t s' => eff A (fun r c => if (lo <=? r) && (r <? t) && (c =? j) then F r j' else F r c)%nat s0 s')); [lia| | |auto].
  - eapply eff_ext; [exact HF|]. intros r c Hr Hc. cbv beta. bcase.
  - intros t s2 Ht He. apply wp_bind. apply wp_rd; [lia|lia|]. rewrite (proj1 He) by lia. cbv beta. destruct (Nat.eqb_spec j' j); [lia|]. rewrite andb_false_r.
    apply (wp_set _ _ _ _ _ _ He); try lia. intros s3 H3. eapply eff_ext; [exact H3|]. intros r c Hr Hc. unfold fupd. bcase; subst; auto.
Qed.
(** a column shifted down, from the bottom *)
Lemma cshift F s1 hi j : eff A F s0 s1 -> (1 <= hi <= nr A)%nat -> (j < nc A)%nat ->
  wp (ford_ i in 1 upto hi do (a <- rd A (i - 1) j;; wr A i j a)) (fun _ s' => eff A (fun r c => if (1 <=? r) && (r <? hi) && (c =? j) then F (r - 1)%nat j else F r c)%nat s0 s') noX s1.
Proof.
  intros HF Hlh Hj. apply (wp_fordown (fun t s' => eff A (fun r c => if (t <=? r) && (r <? hi) && (c =? j) then F (r - 1)%nat j else F r c)%nat s0 s')); [lia| | |auto].
  - eapply eff_ext; [exact HF|]. intros r c Hr Hc. cbv beta. bcase.
  - intros t s2 Ht He. apply wp_bind. apply wp_rd; [lia|lia|]. rewrite (proj1 He) by lia. cbv beta. destruct (Nat.leb_spec (S t) (t - 1)); [lia|]. cbn [andb].
    apply (wp_set _ _ _ _ _ _ He); try lia. intros s3 H3. eapply eff_ext; [exact H3|]. intros r c Hr Hc. unfold fupd. bcase; subst; auto.
Qed.
Lemma cconst F s1 lo hi j x : eff A F s0 s1 -> (lo <= hi <= nr A)%nat -> (j < nc A)%nat ->
  wp (for_ i in lo upto hi do wr A i j x) (fun _ s' => eff A (fun r c => if (lo <=? r) && (r <? hi) && (c =? j) then x else F r c)%nat s0 s') noX s1.
Proof.
  intros HF Hlh Hj. apply (wp_forup (fun t s' => eff A (fun r c => if (lo <=? r) && (r <? t) && (c =? j) then x else F r c)%nat s0 s')); [lia| | |auto].
  - eapply eff_ext; [exact HF|]. intros r c Hr Hc. cbv beta. bcase.
  - intros t s2 Ht He. apply (wp_set _ _ _ _ _ _ He); try lia. intros s3 H3. eapply eff_ext; [exact H3|]. intros r c Hr Hc. unfold fupd. bcase.
Qed.
(** the off-diagonal elements of row and column [q] *)
Lemma cross F s1 lo hi q : eff A F s0 s1 -> (lo <= hi <= nr A)%nat -> (hi <= nc A)%nat -> (q < nr A)%nat -> (q < nc A)%nat -> (q < lo \/ hi <= q)%nat ->
  wp (for_ i in lo upto hi do (wr A i q 0;; wr A q i 0))
    (fun _ s' => eff A (fun r c => if (((lo <=? r) && (r <? hi) && (c =? q)) || ((lo <=? c) && (c <? hi) && (r =? q)))%nat then 0 else F r c) s0 s') noX s1.
Proof.
  intros HF Hlh Hlh2 Hq1 Hq2 Hd. apply (wp_forup (fun t s' => eff A (fun r c => if (((lo <=? r) && (r <? t) && (c =? q)) || ((lo <=? c) && (c <? t) && (r =? q)))%nat then 0 else F r c) s0 s')); [lia| | |auto].
  - eapply eff_ext; [exact HF|]. intros r c Hr Hc. cbv beta. bcase.
  - intros t s2 Ht He. apply wp_bind. apply (wp_set _ _ _ _ _ _ He); try lia. intros s3 H3. apply (wp_set _ _ _ _ _ _ H3); try lia. intros s4 H4. eapply eff_ext; [exact H4|]. intros r c Hr Hc. unfold fupd. bcase.
Qed.
End L.
End P.

Section Q.
Context {E : Env} {FL : FieldLaws E} {CL : ConjLaws E} {OL : ROrdLaws E} {QL : EqbLaws E} {XL : CplxLaws E} {RL : RLaws E} {NL : FinLaws E}.
Add Field Tf2 : fth.
(** after the shifting loops, A is the identity in its leading q-by-q part outside the window [a,b), where it holds the
    vectors; then ungq leaves the matrix Q *)
Section W.
Variables (d : direction_t) (sm : storev_t) (A ts : view) (s0 s : state) (G F V : mat) (a b q nh : nat).
Hypothesis HI : vinj A.
Hypothesis HG : eff A G s0 s.
Hypothesis Hab : (a <= b <= q)%nat.
Hypothesis Hq : (q <= nr A /\ q <= nc A)%nat.
Hypothesis Hnh : nh = (b - a)%nat.
Hypothesis Ht : isvec ts nh.
Hypothesis HD : disj ts A.
Hypothesis Hout : forall i j, (i < nr A)%nat -> (j < nc A)%nat -> ~ ((a <= i < b) /\ (a <= j < b))%nat -> G i j = if ((i <? q) && (j <? q))%nat then idm i j else F i j.
Hypothesis Hin : forall t r, (t < nh)%nat -> (r < nh)%nat -> (match d with Forward => t < r | Backward => r < t end)%nat ->
  match sm with Columnwise => G (a + r)%nat (a + t)%nat = V r t | Rowwise => G (a + t)%nat (a + r)%nat = V t r end.
Let tv := vval ts s0.
Definition wpost : mat := fun i j => if ((i <? q) && (j <? q))%nat then embm a b (qof d sm nh V tv nh) i j else F i j.
Let As := subv A a b a b.
Lemma w_tau t : (t < nh)%nat -> vval ts s t = tv t.
Proof. intros H. destruct Ht as [T1 T2]. apply HG. apply nin; auto; lia. Qed.
Lemma w_q i j : (i < nh)%nat -> (j < nh)%nat -> qpart d sm nh nh (qof d sm nh (stored d sm nh nh nh (val As s)) (vval ts s) nh) i j = qof d sm nh V tv nh i j.
Proof.
  intros Hi Hj. assert (K : forall t r, (t < nh)%nat -> (r < nh)%nat -> rvec d sm nh nh (stored d sm nh nh nh (val As s)) t r = rvec d sm nh nh V t r).
  { intros t r Htt Hr. unfold rvec, stored. assert (EV : forall x y, (x < nh)%nat -> (y < nh)%nat -> val As s x y = G (a + x)%nat (a + y)%nat) by (intros; apply HG; lia).
    specialize (Hin t r Htt Hr). destruct d; cbn [rpos] in *; [|replace (nh - nh + t)%nat with t by lia]; (destruct sm; cbv beta match; bcase; try (rewrite EV by lia); try apply Hin; try lia; f_equal; try apply Hin; try lia).
    all: rewrite EV by lia; replace (nh - nh + t)%nat with t by lia; apply Hin; lia. }
  assert (KH : forall i j, (i < nh)%nat -> (j < nh)%nat -> hprod d nh (fun t => refl (vval ts s t) (rvec d sm nh nh (stored d sm nh nh nh (val As s)) t)) nh i j = hprod d nh (fun t => refl (tv t) (rvec d sm nh nh V t)) nh i j).
  { intros x y Hx Hy. apply hprod_ext; auto. intros t r c Htt Hr Hc. rewrite w_tau by auto. apply refl_ext; apply K; auto. }
  unfold qpart, qof. destruct sm, d; try (replace (nh - nh + j)%nat with j by lia); try (replace (nh - nh + i)%nat with i by lia); try apply KH; auto; unfold ctr; f_equal; apply KH; auto.
Qed.
Lemma w_fin (P : Z -> Prop) s' : (forall l, inview A l -> ~ P l) -> effw As (qpart d sm nh nh (qof d sm nh (stored d sm nh nh nh (val As s)) (vval ts s) nh)) P s s' -> effw A wpost P s0 s'.
Proof.
  intros HP (L1 & L2 & L3). split; [|split; [|rewrite L3; apply HG]].
  - intros i j Hi Hj. unfold wpost. destruct (win_spec a b i) as [Wi|Wi], (win_spec a b j) as [Wj|Wj].
    1: { transitivity (val As s' (i - a)%nat (j - a)%nat); [unfold val, As; cbn [ad subv]; f_equal; f_equal; lia|]. rewrite L1 by (cbn; lia). rewrite w_q by lia.
         destruct (Nat.ltb_spec i q); [|lia]. destruct (Nat.ltb_spec j q); [|lia]. cbn [andb]. unfold embm. destruct (win_spec a b i), (win_spec a b j); try lia. reflexivity. }
    all: assert (Ho : ~ ((a <= i < b) /\ (a <= j < b))%nat) by lia; transitivity (G i j);
      [transitivity (val A s i j); [apply L2; [intros (x & y & Hx & Hy & e); cbn [nr nc ad As subv] in *; apply HI in e; lia|apply HP; exists i, j; auto]|apply HG; auto]|];
      rewrite Hout by auto; destruct (i <? q)%nat, (j <? q)%nat; cbn [andb]; auto; unfold embm; destruct (win_spec a b i), (win_spec a b j); try lia; reflexivity.
  - intros l N1 N2. rewrite L2; auto; [apply HG; auto|]. intros K. apply N1. eapply inview_subv; [| |exact K]; lia.
Qed.
End W.

Lemma ford_empty lo hi (p : nat -> M unit) (Q : unit -> state -> Prop) s : (hi <= lo)%nat -> Q tt s -> wp (fordown lo hi p) Q noX s.
Proof. intros H HQ. unfold fordown, folddown. replace (hi - lo)%nat with 0%nat by lia. cbn [fornd]. apply wp_ret. auto. Qed.
Lemma for_empty lo hi (p : nat -> M unit) (Q : unit -> state -> Prop) s : (hi <= lo)%nat -> Q tt s -> wp (forup lo hi p) Q noX s.
Proof. intros H HQ. unfold forup, foldup. replace (hi - lo)%nat with 0%nat by lia. cbn [forn]. apply wp_ret. auto. Qed.

Section T.
Variables (p : Z) (l : layout_t) (nbo n : nat) (A tau : view) (s : state).
Hypothesis HA1 : nr A = n.
Hypothesis HA2 : nc A = n.
Hypothesis HI : vinj A.
Hypothesis Ht : isvec tau (n - 1).
Hypothesis HD : disj tau A.
Hypothesis Hnb : (0 < nbo)%nat.
Hypothesis Hn : (0 < n)%nat.
Let z d := ungq_bsize nbo d Columnwise (n - 1) (n - 1) (n - 1).
(** the last step of ungtr *)
Lemma ungtr_fin d a b G V s3 : (a + (n - 1) = b)%nat -> (b <= n)%nat -> eff A G s s3 -> fresh p (z d) A -> fresh p (z d) tau ->
  (forall i j, (i < n)%nat -> (j < n)%nat -> ~ ((a <= i < b) /\ (a <= j < b))%nat -> G i j = idm i j) ->
  (forall t r, (t < n - 1)%nat -> (r < n - 1)%nat -> (match d with Forward => t < r | Backward => r < t end)%nat -> G (a + r)%nat (a + t)%nat = V r t) ->
  wp (Qr <- slc A a b a b;; ungq p l nbo d Columnwise Qr tau) (fun r s' => r = 0%Z /\ effw A (embm a b (qof d Columnwise (n - 1) V (vval tau s) (n - 1))) (block p (z d)) s s') noX s3.
Proof.
  intros Hab Hb HG F1 F2 Ho Hi. apply wp_bind, wp_slc; [lia..|].
  assert (HP : forall l0, inview A l0 -> ~ block p (z d) l0). { intros l0 Hl K. destruct (F1 l0 Hl); unfold block in K; lia. }
  assert (FA : fresh p (z d) (subv A a b a b)). { intros l0 K. apply F1. eapply inview_subv; [| |exact K]; lia. }
  eapply wp_use; [apply runs_returns; apply (ungq_correct_partial p l nbo d Columnwise (subv A a b a b) tau s3 (n - 1) (n - 1) (n - 1)); auto; try lia|].
  - split; cbn; lia.
  - apply vinj_subv; auto; lia.
  - eapply disj_inc; [| |exact HD]; auto. intros l0 K. eapply inview_subv; [| |exact K]; lia.
  - cbv zeta. intros r s4 HL. cbv beta in HL. destruct HL as [-> HL]. split; auto.
    assert (K := w_fin d Columnwise A tau s s3 G (fun _ _ => 0) V a b n (n - 1) HI HG ltac:(lia) ltac:(lia) ltac:(lia) Ht HD).
    eapply effw_ext; [apply (K) with (P := block p (z d)); auto|].
    + intros i j Hi' Hj' Hd. rewrite HA1 in Hi'. rewrite HA2 in Hj'. destruct (Nat.ltb_spec i n); [|lia]. destruct (Nat.ltb_spec j n); [|lia]. cbn [andb]. apply Ho; auto.
    + intros i j Hi' Hj'. unfold wpost. destruct (Nat.ltb_spec i n); [|lia]. destruct (Nat.ltb_spec j n); [|lia]. reflexivity.
Qed.
Lemma ungtr_lower : fresh p (z Forward) A -> fresh p (z Forward) tau ->
  runs (ungtr p l nbo Lower A tau) s (fun r s' => r = 0%Z /\ effw A (tridq Lower n (val A s) (vval tau s)) (block p (z Forward)) s s').
Proof.
  intros F1 F2. unfold runs, ungtr. rewrite HA2. cbv zeta. destruct (Nat.eqb_spec n 0); [lia|]. set (F := val A s).
  apply wp_bind. apply wp_conseq with (X := noX) (Q := fun _ s1 => eff A (fun r c => if ((1 <=? c) && (c <? n - 1) && (c <? r))%nat then F r (c - 1)%nat else F r c) s s1).
  { destruct (Nat.le_gt_cases (n - 1) 1).
    - apply ford_empty; auto. eapply eff_ext; [apply eff_refl|]. intros r c Hr Hc. cbv beta. bcase.
    - apply (wp_fordown (fun j s' => eff A (fun r c => if ((j <=? c) && (c <? n - 1) && (c <? r))%nat then F r (c - 1)%nat else F r c) s s')); [lia| | |auto].
      + eapply eff_ext; [apply eff_refl|]. intros r c Hr Hc. cbv beta. bcase.
      + intros j s1 Hj He. eapply wp_conseq; [apply (ccopy A s HI _ s1 (j + 1) n j (j - 1) He); lia|cbv beta; intros u1 s3 H3|auto].
        eapply eff_ext; [exact H3|]. intros r c Hr Hc. cbv beta. bcase; subst; auto. }
  2: auto. intros u0 s1 H1. cbv beta in H1.
  apply wp_bind. eapply wp_conseq; [apply (cross A s HI _ s1 1 n 0 H1); lia|cbv beta; intros u1 s2 H2|auto].
  apply wp_bind. apply (wp_set A s HI _ _ _ _ _ _ H2); [lia|lia|]. intros s3 H3.
  eapply wp_conseq; [eapply (ungtr_fin Forward 1 n _ (fun r c => F (1 + r)%nat c) s3); [lia|lia|exact H3|auto|auto| |]| |auto].
  - intros i j Hi Hj Hd. unfold fupd, idm. bcase.
  - intros t r Ht' Hr Hlt. unfold fupd. bcase. f_equal. lia.
  - intros r s' [-> HL]. split; auto. eapply effw_ext; [exact HL|]. intros i j Hi Hj. rewrite HA1 in Hi. rewrite HA2 in Hj. symmetry.
    apply (qwin Forward Columnwise n 1 n (n - 1) (vval tau s) (fun t => subvec n F t) (fun r c => F (1 + r)%nat c)); auto; try lia.
    intros t r Ht' Hr. pose proof (sub_win n 0 F t r ltac:(lia)) as K. cbv zeta in K. rewrite Nat.sub_0_r in K. exact K.
Qed.
Lemma ungtr_upper : fresh p (z Backward) A -> fresh p (z Backward) tau ->
  runs (ungtr p l nbo Upper A tau) s (fun r s' => r = 0%Z /\ effw A (tridq Upper n (val A s) (vval tau s)) (block p (z Backward)) s s').
Proof.
  intros F1 F2. unfold runs, ungtr. rewrite HA2. cbv zeta. destruct (Nat.eqb_spec n 0); [lia|]. set (F := val A s).
  apply wp_bind. apply wp_conseq with (X := noX) (Q := fun _ s1 => eff A (fun r c => if ((1 <=? c) && (c <? n - 1) && (r <? c))%nat then F r (c + 1)%nat else F r c) s s1).
  { destruct (Nat.le_gt_cases (n - 1) 1).
    - apply for_empty; auto. eapply eff_ext; [apply eff_refl|]. intros r c Hr Hc. cbv beta. bcase.
    - apply (wp_forup (fun j s' => eff A (fun r c => if ((1 <=? c) && (c <? j) && (r <? c))%nat then F r (c + 1)%nat else F r c) s s')); [lia| | |auto].
      + eapply eff_ext; [apply eff_refl|]. intros r c Hr Hc. cbv beta. bcase.
      + intros j s1 Hj He. eapply wp_conseq; [apply (ccopy A s HI _ s1 0 j j (j + 1) He); lia|cbv beta; intros u1 s3 H3|auto].
        eapply eff_ext; [exact H3|]. intros r c Hr Hc. cbv beta. bcase; subst; auto. }
  2: auto. intros u0 s1 H1. cbv beta in H1.
  apply wp_bind. eapply wp_conseq; [apply (cross A s HI _ s1 0 (n - 1) (n - 1) H1); lia|cbv beta; intros u1 s2 H2|auto].
  apply wp_bind. apply (wp_set A s HI _ _ _ _ _ _ H2); [lia|lia|]. intros s3 H3.
  eapply wp_conseq; [eapply (ungtr_fin Backward 0 (n - 1) _ (fun r c => F r (c + 1)%nat) s3); [lia|lia|exact H3|auto|auto| |]| |auto].
  - intros i j Hi Hj Hd. unfold fupd, idm. bcase.
  - intros t r Ht' Hr Hlt. unfold fupd. cbn [Nat.add]. bcase.
  - intros r s' [-> HL]. split; auto. eapply effw_ext; [exact HL|]. intros i j Hi Hj. rewrite HA1 in Hi. rewrite HA2 in Hj. symmetry.
    apply (qwin Backward Columnwise n 0 (n - 1) (n - 1) (vval tau s) (fun t => supvec F t) (fun r c => F r (c + 1)%nat)); auto; try lia.
    intros t r Ht' Hr. apply supvec_win; auto.
Qed.
End T.

(** ** ungbr *)
Section B.
Variables (nbo k m n : nat) (A tau : view) (work : lmat) (s : state).
Hypothesis HA1 : nr A = m.
Hypothesis HA2 : nc A = n.
Hypothesis HI : vinj A.
Hypothesis HD : disj tau A.
Hypothesis Hnb : (0 < nbo)%nat.
Hypothesis HwA : disj (lview work) A.
Hypothesis Hwt : disj (lview work) tau.
(** the last step, for a window [1,q) *)
Lemma ungbr_fin sm q F G V s3 : (1 < q)%nat -> (q <= m)%nat -> (q <= n)%nat -> nc tau = 1%nat -> (q - 1 <= nr tau)%nat -> eff A G s s3 ->
  lok work -> contiguous work = true -> (ungq_need (Nat.min nbo (q - 1)) Forward (q - 1) (q - 1) <= lm work * ln work)%nat ->
  (forall i j, (i < m)%nat -> (j < n)%nat -> ~ ((1 <= i < q) /\ (1 <= j < q))%nat -> G i j = if ((i <? q) && (j <? q))%nat then idm i j else F i j) ->
  (forall t r, (t < q - 1)%nat -> (r < q - 1)%nat -> (t < r)%nat -> match sm with Columnwise => G (1 + r)%nat (1 + t)%nat = V r t | Rowwise => G (1 + t)%nat (1 + r)%nat = V t r end) ->
  wp (A2 <- slc A 1 q 1 q;; tau2 <- slvec tau 0 (q - 1);; ungq_work nbo Forward sm A2 tau2 work;; ret tt)
    (fun _ s' => effw A (fun i j => if ((i <? q) && (j <? q))%nat then embm 1 q (qof Forward sm (q - 1) V (vval tau s) (q - 1)) i j else F i j) (inview (lview work)) s s') noX s3.
Proof.
  intros Hq Hqm Hqn Ht1 Ht2 HG W1 W2 W3 Ho Hi. apply wp_bind, wp_slc; [lia..|]. apply wp_bind, wp_slvec; [lia..|]. set (ts := Slice.vsub tau 0 (q - 1)).
  assert (Nts : isvec ts (q - 1)) by (split; cbn; auto; lia).
  assert (DtA : disj ts A). { intros x y x' y' Hx Hy Hx' Hy'. cbn [nr nc ad ts Slice.vsub] in *. apply HD; lia. }
  assert (HP : forall l0, inview A l0 -> ~ inview (lview work) l0). { intros l0 (x & y & Hx & Hy & ->). apply nin; auto. apply disj_sym. auto. }
  apply wp_bind. eapply wp_use; [apply runs_returns; apply (ungq_work_correct_partial nbo Forward sm (subv A 1 q 1 q) ts work s3 (q - 1) (q - 1) (q - 1)); auto; try lia|].
  - split; cbn; lia.
  - destruct sm; lia.
  - apply vinj_subv; auto; lia.
  - eapply disj_inc; [| |exact DtA]; auto. intros l0 K. eapply inview_subv; [| |exact K]; lia.
  - rewrite Nat.min_id. auto.
  - eapply disj_inc; [| |exact HwA]; auto. intros l0 K. eapply inview_subv; [| |exact K]; lia.
  - eapply disj_inc; [| |exact Hwt]; auto. intros l0 (x & y & Hx & Hy & ->). cbn [nr nc ad ts Slice.vsub] in *. exists (0 + x)%nat, 0%nat. repeat split; lia.
  - cbv zeta. intros r s4 HL. cbv beta in HL. destruct HL as [_ HL]. apply wp_ret.
    replace (match sm with Columnwise => (q - 1)%nat | Rowwise => (q - 1)%nat end) with (q - 1)%nat in HL by (destruct sm; auto).
    apply (w_fin Forward sm A ts s s3 G F V 1 q q (q - 1) HI HG ltac:(lia) ltac:(lia) ltac:(lia) Nts DtA) with (P := inview (lview work)); auto.
    rewrite HA1, HA2. exact Ho.
Qed.

Hypothesis Ht1 : nc tau = 1%nat.
Let F := val A s.
Let tv := vval tau s.
Lemma ungbr_q_run : (0 < k)%nat -> (0 < m)%nat -> nr tau = Nat.min m k -> (k <= m /\ k <= n <= m \/ m < k /\ m <= n)%nat ->
  (if k <=? m then lok work /\ contiguous work = true /\ ungq_need (Nat.min nbo k) Forward n k <= lm work * ln work
   else m = 1 \/ lok work /\ contiguous work = true /\ ungq_need (Nat.min nbo (m - 1)) Forward (m - 1) (m - 1) <= lm work * ln work)%nat ->
  runs (ungbr_q_work nbo k A tau work) s (fun r s' => r = 0%Z /\ effw A (fun i j => if (j <? m)%nat then bidq m k F tv i j else F i j) (inview (lview work)) s s').
Proof.
  intros Hk Hm Htl Hd HW. unfold runs, ungbr_q_work. rewrite HA1. cbv zeta. apply wp_bind. destruct (Nat.leb_spec k m) as [Hkm|Hkm].
  - destruct HW as (W1 & W2 & W3). destruct Hd as [Hd|]; [|lia].
    apply wp_bind. eapply wp_use; [apply runs_returns; apply (ungq_work_correct_partial nbo Forward Columnwise A tau work s m n k); auto; try lia|].
    + split; auto.
    + split; auto; lia.
    + replace (Nat.min m n) with n by lia. auto.
    + cbv zeta. intros r s4 HL. cbv beta in HL. destruct HL as [_ HL]. apply wp_ret. apply wp_ret. split; auto. eapply effw_ext; [exact HL|]. intros i j Hi Hj. rewrite HA1 in Hi. rewrite HA2 in Hj.
      destruct (Nat.ltb_spec j m); [|lia]. unfold bidq, qpart, qof. cbn [hprod]. destruct (Nat.leb_spec k m); [|lia]. apply mprod_ext; auto; try lia.
      intros t r0 c0 Ht' Hr Hc. apply refl_ext; unfold rvec, qvec, stored; cbn [rpos]; bcase.
  - apply wp_bind, wp_assert; [apply Nat.ltb_lt; lia|]. destruct Hd as [|Hd]; [lia|].
    apply wp_bind. apply wp_conseq with (X := noX) (Q := fun _ s1 => eff A (fun r c => if ((1 <=? c) && (c <? m))%nat then if (r =? 0)%nat then 0 else if (c <? r)%nat then F r (c - 1)%nat else F r c else F r c) s s1).
    { apply (wp_fordown (fun j s' => eff A (fun r c => if ((j <=? c) && (c <? m))%nat then if (r =? 0)%nat then 0 else if (c <? r)%nat then F r (c - 1)%nat else F r c else F r c) s s')); [lia| | |auto].
      + eapply eff_ext; [apply eff_refl|]. intros r c Hr Hc. cbv beta. bcase.
      + intros j s1 Hj He. apply wp_bind. apply (wp_set A s HI _ _ _ _ _ _ He); [lia|lia|]. intros s2 H2.
        eapply wp_conseq; [apply (ccopy A s HI _ s2 (j + 1) m j (j - 1) H2); lia|cbv beta; intros u1 s3 H3|auto].
        eapply eff_ext; [exact H3|]. intros r c Hr Hc. unfold fupd. bcase; subst; auto. }
    2: auto. intros u0 s1 H1. cbv beta in H1.
    apply wp_bind. apply (wp_set A s HI _ _ _ _ _ _ H1); [lia|lia|]. intros s2 H2.
    apply wp_bind. eapply wp_conseq; [apply (cconst A s HI _ s2 1 m 0 0 H2); lia|cbv beta; intros u1 s3 H3|auto].
    assert (EQ : forall i j, (i < m)%nat -> (j < m)%nat -> bidq m k F tv i j = embm 1 m (qof Forward Columnwise (m - 1) (fun r c => F (1 + r)%nat c) tv (m - 1)) i j).
    { intros i j Hi Hj. unfold bidq. destruct (Nat.leb_spec k m); [lia|]. apply (qwin Forward Columnwise m 1 m (m - 1) tv (fun t => subvec m F t) (fun r c => F (1 + r)%nat c)); auto; try lia.
      intros t r Ht' Hr. pose proof (sub_win m 0 F t r ltac:(lia)) as K. cbv zeta in K. rewrite Nat.sub_0_r in K. exact K. }
    destruct (Nat.ltb_spec 1 m) as [Hm1|Hm1].
    + destruct HW as [|(W1 & W2 & W3)]; [lia|]. eapply wp_conseq; [eapply (ungbr_fin Columnwise m F _ (fun r c => F (1 + r)%nat c) s3); [lia|lia|lia|auto|lia|exact H3|auto|auto|auto| |]| |auto].
      * intros i j Hi Hj Hd'. unfold fupd, idm. bcase.
      * intros t r Ht' Hr Hlt. unfold fupd. bcase. f_equal; lia.
      * intros u2 s4 HL. cbv beta in HL. apply wp_ret. split; auto. eapply effw_ext; [exact HL|]. intros i j Hi Hj. rewrite HA1 in Hi. rewrite HA2 in Hj. cbv beta.
        destruct (Nat.ltb_spec i m); [|lia]. destruct (Nat.ltb_spec j m); cbn [andb]; auto. symmetry. apply EQ; auto.
    + apply wp_ret. apply wp_ret. split; auto. eapply effw_ext; [apply (effw_eff A F _ _ s s); [apply effw_refl|exact H3]|]. intros i j Hi Hj. rewrite HA1 in Hi. rewrite HA2 in Hj. cbv beta.
      assert (m = 1%nat) by lia. destruct (Nat.ltb_spec j m); [rewrite EQ by lia; unfold embm, win, idm, fupd; bcase|unfold fupd; bcase].
Qed.
Lemma ungbr_p_run : (0 < k)%nat -> (0 < n)%nat -> nr tau = Nat.min k n -> (k < n /\ k <= m <= n \/ n <= k /\ n <= m)%nat ->
  (if k <? n then lok work /\ contiguous work = true /\ ungq_need (Nat.min nbo k) Forward m k <= lm work * ln work
   else n = 1 \/ lok work /\ contiguous work = true /\ ungq_need (Nat.min nbo (n - 1)) Forward (n - 1) (n - 1) <= lm work * ln work)%nat ->
  runs (ungbr_p_work nbo k A tau work) s (fun r s' => r = 0%Z /\ effw A (fun i j => if (i <? n)%nat then ctr (bidz k n F tv) i j else F i j) (inview (lview work)) s s').
Proof.
  intros Hk Hn Htl Hd HW. unfold runs, ungbr_p_work. rewrite HA2. cbv zeta. apply wp_bind. destruct (Nat.ltb_spec k n) as [Hkn|Hkn].
  - destruct HW as (W1 & W2 & W3). destruct Hd as [Hd|]; [|lia].
    apply wp_bind. eapply wp_use; [apply runs_returns; apply (ungq_work_correct_partial nbo Forward Rowwise A tau work s m n k); auto; try lia|].
    + split; auto.
    + split; auto; lia.
    + replace (Nat.min m n) with m by lia. auto.
    + cbv zeta. intros r s4 HL. cbv beta in HL. destruct HL as [_ HL]. apply wp_ret. apply wp_ret. split; auto. eapply effw_ext; [exact HL|]. intros i j Hi Hj. rewrite HA1 in Hi. rewrite HA2 in Hj.
      destruct (Nat.ltb_spec i n); [|lia]. unfold bidz, qpart, qof, ctr. cbn [hprod]. destruct (Nat.leb_spec n k); [lia|]. f_equal. apply mprod_ext; auto; try lia.
      intros t r0 c0 Ht' Hr Hc. apply refl_ext; unfold rvec, qvec, stored, ctr; cbn [rpos]; bcase.
  - destruct Hd as [|Hd]; [lia|].
    apply wp_bind. apply (wp_set A s HI F _ _ _ _ _ (eff_refl A s)); [lia|lia|]. intros s1 H1.
    apply wp_bind. eapply wp_conseq; [apply (cconst A s HI _ s1 1 n 0 0 H1); lia|cbv beta; intros u1 s2 H2|auto].
    apply wp_bind. apply wp_conseq with (X := noX) (Q := fun _ s3 => eff A (fun r c => if ((1 <=? c) && (c <? n))%nat then if (r =? 0)%nat then 0 else if (r <? c)%nat then F (r - 1)%nat c else F r c
        else if ((r <? n) && (c =? 0))%nat then idm r c else F r c) s s3).
    { apply (wp_forup (fun j s3 => eff A (fun r c => if ((1 <=? c) && (c <? j))%nat then if (r =? 0)%nat then 0 else if (r <? c)%nat then F (r - 1)%nat c else F r c
        else if ((r <? n) && (c =? 0))%nat then idm r c else F r c) s s3)); [lia| | |auto].
      + eapply eff_ext; [exact H2|]. intros r c Hr Hc. unfold fupd, idm. bcase.
      + intros j s3 Hj He. apply wp_bind. eapply wp_conseq; [apply (cshift A s HI _ s3 j j He); lia|cbv beta; intros u3 s4 H4|auto].
        apply (wp_set A s HI _ _ _ _ _ _ H4); [lia|lia|]. intros s5 H5. eapply eff_ext; [exact H5|]. intros r c Hr Hc. unfold fupd. bcase; subst; auto. }
    2: auto. intros u3 s3 H3. cbv beta in H3.
    assert (EQ : forall i j, (i < n)%nat -> (j < n)%nat -> ctr (bidz k n F tv) i j = embm 1 n (qof Forward Rowwise (n - 1) (fun r c => F r (1 + c)%nat) tv (n - 1)) i j).
    { intros i j Hi Hj. unfold bidz. destruct (Nat.leb_spec n k); [|lia]. apply (qwin Forward Rowwise n 1 n (n - 1) tv (fun t => suprow n F t) (fun r c => F r (1 + c)%nat)); auto; try lia.
      intros t r Ht' Hr. apply suprow_win; auto. }
    destruct (Nat.ltb_spec 1 n) as [Hn1|Hn1].
    + destruct HW as [|(W1 & W2 & W3)]; [lia|]. eapply wp_conseq; [eapply (ungbr_fin Rowwise n F _ (fun r c => F r (1 + c)%nat) s3); [lia|lia|lia|auto|lia|exact H3|auto|auto|auto| |]| |auto].
      * intros i j Hi Hj Hd'. unfold idm. bcase.
      * intros t r Ht' Hr Hlt. cbv beta. bcase. f_equal; lia.
      * intros u2 s4 HL. cbv beta in HL. apply wp_ret. split; auto. eapply effw_ext; [exact HL|]. intros i j Hi Hj. rewrite HA1 in Hi. rewrite HA2 in Hj. cbv beta.
        destruct (Nat.ltb_spec j n); [|lia]. destruct (Nat.ltb_spec i n); cbn [andb]; auto. symmetry. apply EQ; auto.
    + apply wp_ret. apply wp_ret. split; auto. eapply effw_ext; [apply (effw_eff A F _ _ s s); [apply effw_refl|exact H3]|]. intros i j Hi Hj. rewrite HA1 in Hi. rewrite HA2 in Hj. cbv beta.
      assert (n = 1%nat) by lia. destruct (Nat.ltb_spec i n); [rewrite EQ by lia; unfold embm, win, idm; bcase|bcase].
Qed.
End B.

(** ** unmhr *)
Section H.
Variables (side : side_t) (trans : op_t) (ilo ihi m n : nat) (A tau C : view) (work : lmat) (s : state).
Let nq := sel side m n.
Hypothesis HC : shape C m n.
Hypothesis Hop : QGen.op_ok trans.
Hypothesis Hb : (ilo < ihi /\ ihi <= nq)%nat.
Hypothesis HA : (ihi <= nr A /\ ihi - 1 <= nc A)%nat.
Hypothesis Htau : (nc tau = 1 /\ ihi - 1 <= nr tau)%nat.
Hypothesis HI : vinj C.
Hypothesis D1 : disj A C.
Hypothesis D2 : disj tau C.
Hypothesis D3 : disj (lview work) A.
Hypothesis D4 : disj (lview work) tau.
Hypothesis D5 : disj (lview work) C.
Let nh := (ihi - 1 - ilo)%nat.
Hypothesis HW : (nh <= 1 \/ lok work /\ contiguous work = true /\ sel side n m <= lm work * ln work)%nat.
Lemma unmhr_run : let Q := hessq nq ilo ihi (val A s) (vval tau s) in
  runs (unmhr_work side trans ilo ihi A tau C work) s (fun r s' => r = 0%Z /\
    effw C (match side with Left => mmul m (opm trans Q) (val C s) | Right => mmul n (val C s) (opm trans Q) end) (inview (lview work)) s s').
Proof.
  destruct HC as [C1 C2]. intros Q. unfold runs, unmhr_work, unmhr_slices. apply wp_bind. apply wp_bind, wp_assert; [apply Nat.ltb_lt; lia|].
  apply wp_bind, wp_slc; [lia..|]. apply wp_bind, wp_slvec; [lia..|].
  set (As := subv A (ilo + 1) ihi ilo (ihi - 1)). set (ts := Slice.vsub tau ilo (ihi - 1)).
  set (Cs := match side with Left => subv C (ilo + 1) ihi 0 n | Right => subv C 0 m (ilo + 1) ihi end).
  apply wp_bind. eapply wp_use with (Q := fun x s1 => x = Cs /\ s1 = s).
  { unfold Cs. rewrite C1, C2. destruct side; unfold nq in Hb; cbn [sel] in Hb; apply wp_slc; try lia; auto. }
  intros x s1 [-> ->]. apply wp_ret. cbn [fst snd].
  assert (IC : forall l, inview Cs l -> inview C l). { intros l. unfold Cs. unfold nq in Hb. destruct side; cbn [sel] in Hb; apply inview_subv; lia. }
  assert (IA : forall l, inview As l -> inview A l). { intros l. apply inview_subv; lia. }
  assert (IT : forall l, inview ts l -> inview tau l). { intros l (x & y & Hx & Hy & ->). cbn [nr nc ad ts Slice.vsub] in *. exists (ilo + x)%nat, 0%nat. repeat split; lia. }
  assert (NCs : shape Cs (match side with Left => nh | Right => m end) (match side with Left => n | Right => nh end)). { unfold Cs, nh. destruct side; split; cbn; lia. }
  set (mc := match side with Left => nh | Right => m end) in *. set (ncc := match side with Left => n | Right => nh end) in *.
  assert (Esel : sel side mc ncc = nh) by (unfold mc, ncc; destruct side; auto).
  destruct NCs as [N1 N2]. assert (Nts : nr ts = nh) by (cbn; unfold nh; lia).
  eapply wp_use; [apply (unmq_level2_work_run side trans Forward Columnwise As ts Cs work s); auto|].
  - rewrite N1, N2, Esel, Nts. split; cbn; unfold nh; lia.
  - rewrite N1, N2, Esel, Nts. lia.
  - unfold Cs. unfold nq in Hb. destruct side; cbn [sel] in Hb; apply vinj_subv; auto; lia.
  - eapply disj_inc; [| |exact D1]; auto.
  - eapply disj_inc; [| |exact D2]; auto.
  - rewrite N1, N2, Esel. destruct HW as [|(W1 & W2 & W3)]; auto. right. right. apply wk_ok_contig; auto. unfold mc, ncc. destruct side; cbn [sel] in *; auto.
  - eapply disj_inc; [| |exact D3]; auto.
  - eapply disj_inc; [| |exact D4]; auto.
  - eapply disj_inc; [| |exact D5]; auto.
  - rewrite N1, N2, Esel, Nts. intros r s' HL. cbv beta in HL. destruct HL as [-> (L1 & L2 & L3)]. split; auto. unfold uact in L1. rewrite ?N1, ?N2 in L1.
    set (Qw := qof Forward Columnwise nh (val As s) (vval ts s) nh) in *.
    assert (EQ : forall i j, (i < nq)%nat -> (j < nq)%nat -> Q i j = embm (ilo + 1) ihi Qw i j).
    { intros i j Hi Hj. unfold Q, hessq. apply (qwin Forward Columnwise nq (ilo + 1) ihi nh (fun t => vval tau s (ilo + t)%nat) (fun t => subvec ihi (val A s) (ilo + t)) (val As s)); auto; try lia; unfold nh; try lia.
      intros t r Ht' Hr. rewrite sub_win by (auto; lia). reflexivity. }
    assert (EO : forall i j, (i < nq)%nat -> (j < nq)%nat -> opm trans Q i j = embm (ilo + 1) ihi (opm trans Qw) i j).
    { intros i j Hi Hj. destruct trans; cbn [opm].
      - apply EQ; auto.
      - unfold embm at 1. rewrite andb_comm. rewrite (EQ j i) by auto. unfold embm. destruct (_ && _); auto. unfold idm. rewrite Nat.eqb_sym. auto.
      - transitivity (ctr (embm (ilo + 1) ihi Qw) i j); [unfold ctr; rewrite <- EQ by auto; reflexivity|]. rewrite embm_ctr. reflexivity.
      - contradiction Hop. }
    assert (Hout : forall i j, (i < m)%nat -> (j < n)%nat -> ~ (ilo + 1 <= match side with Left => i | Right => j end < ihi)%nat -> val C s' i j = val C s i j).
    { intros i j Hi Hj Ho. apply L2.
      - unfold Cs. intros (x & y & Hx & Hy & e). unfold nq in Hb. destruct side; cbn [sel nr nc ad subv] in *; apply HI in e; lia.
      - apply nin; try lia. apply disj_sym; auto. }
    split; [|split; [|auto]].
    + intros i j Hi Hj. rewrite C1 in Hi. rewrite C2 in Hj. specialize (Hout i j Hi Hj). unfold mc, ncc, Cs, nq in *. destruct side; cbn [sel] in *.
      * transitivity (mmul m (embm (ilo + 1) ihi (opm trans Qw)) (val C s) i j); [|apply mmul_ext; auto; intros; symmetry; apply EO; auto].
        rewrite embm_l by lia. destruct (win_spec (ilo + 1) ihi i); [|auto]. replace (ihi - (ilo + 1))%nat with nh by (unfold nh; lia).
        specialize (L1 (i - (ilo + 1))%nat j). cbn [nr nc subv] in L1. specialize (L1 ltac:(lia) ltac:(lia)).
        transitivity (val (subv C (ilo + 1) ihi 0 n) s' (i - (ilo + 1)) j); [unfold val; cbn [ad subv]; f_equal; f_equal; lia|]. rewrite L1. reflexivity.
      * transitivity (mmul n (val C s) (embm (ilo + 1) ihi (opm trans Qw)) i j); [|apply mmul_ext; auto; intros; symmetry; apply EO; auto].
        rewrite embm_r by lia. destruct (win_spec (ilo + 1) ihi j); [|auto]. replace (ihi - (ilo + 1))%nat with nh by (unfold nh; lia).
        specialize (L1 i (j - (ilo + 1))%nat). cbn [nr nc subv] in L1. specialize (L1 ltac:(lia) ltac:(lia)).
        transitivity (val (subv C 0 m (ilo + 1) ihi) s' i (j - (ilo + 1))); [unfold val; cbn [ad subv]; f_equal; f_equal; lia|]. rewrite L1. reflexivity.
    + intros l N3 N4. apply L2; auto.
Qed.
End H.
End Q.
