(** * geqrt3: the recursion *)
From Coq Require Import Bool Arith ZArith Lia Reals Lra Ring Field.
From Verif.Core Require Import Scalar Prog View Slice Loops WorkEff Instances RealLaws.
From Verif.Spec Require Import LinAlg Outcome Norms Householder.
From Verif.Model Require Import Gemm Blas1 Blas2 Blas3 Legacy LaAux Norms Work Householder QGen QFact BlockQ Geqrt3.
From Verif.Proof Require Import SumLemmas Tactics SliceTac PotrfProof BlockAlg LarfProof LarfgProof QRProof WorkProof QGenProof QFactProof LarftProof LarfbProof BlockProof BlockFact Geqrt3Math Geqrt3Proof.
From Verif.Properties Require QFact BlockQ.
Local Open Scope T_scope.

Section R.
Context {E : Env} {FL : FieldLaws E} {CL : ConjLaws E} {OL : ROrdLaws E} {QL : EqbLaws E} {XL : CplxLaws E} {RL : RLaws E} {NL : FinLaws E}.
Add Field Tf : fth.
Variables (p : Z) (ly : layout_t) (h : hconst) (st bt hsm : R) (nx : nat).
Hypothesis Hh : hconst_ok h st bt hsm.
Lemma refl_blk1 t u Tm (U : nat -> nat -> T) r c : Tm 0%nat 0%nat = t -> U 0%nat r = u r -> U 0%nat c = u c -> refl t u r c = blkrefl 1 Tm U r c.
Proof. intros e1 e2 e3. unfold refl, blkrefl. cbn [sum]. rewrite e1, e2, e3. ring. Qed.
(** one column *)
Lemma one_run A Tm Bk isw s : nc A = 1%nat -> (1 <= nr A)%nat -> nr Tm = 1%nat -> nc Tm = 1%nat -> vinj A -> disj A Tm ->
  (vsq (nr A) (fun i => val A s i 0%nat) <= bt * bt)%R ->
  wp (a <- slcol A 0 (nr A) 0;; t <- larfg h Forward Columnwise a;; wr Tm 0 0 t) (fun _ s' => gq isw A Tm Bk s s') noX s.
Proof.
  intros Hn Hm HT1 HT2 HI HD Hv. set (m := nr A) in *. apply wp_bind, wp_slcol; [lia..|]. apply wp_bind.
  assert (Nv : nr (vcol A 0 m 0) = m) by (cbn; lia).
  eapply wp_use.
  { apply (larfg_reflects h st bt hsm Forward Columnwise (vcol A 0 m 0) s); auto; [lia|apply vinj_vcol; auto; lia|].
    left. rewrite Nv. exact Hv. }
  intros t s1 HL. cbv beta in HL. destruct HL as ((_ & F1 & I1) & HR). rewrite Nv in HR. apply wp_wr; [lia|lia|].
  set (s2 := setm s1 (ad Tm 0%nat 0%nat) t).
  assert (VA : forall i, (i < m)%nat -> val A s2 i 0%nat = val A s1 i 0%nat).
  { intros i Hi. unfold val, s2, setm. cbn [mem]. destruct (Z.eqb_spec (ad A i 0) (ad Tm 0 0)) as [e|]; auto. apply HD in e; [tauto|lia..]. }
  assert (VT : val Tm s2 0%nat 0%nat = t) by (unfold val, s2, setm; cbn [mem]; rewrite Z.eqb_refl; auto).
  unfold gq. change (nr A) with m. rewrite Hn. cbv zeta. set (U := rvec Forward Columnwise m 1 (val A s2)).
  set (u := hvec Forward m (hst Columnwise (vval (vcol A 0 m 0) s1))).
  assert (EU : forall r, (r < m)%nat -> U 0%nat r = u r).
  { intros r Hr. unfold U, u, rvec, rpos, hvec, hpos, hst. destruct (Nat.eqb_spec r 0); auto. destruct (Nat.ltb_spec r 0); [lia|]. rewrite VA by auto. reflexivity. }
  assert (EQ : forall r c, (r < m)%nat -> (c < m)%nat -> mprod m (fun i => refl (val Tm s2 i i) (U i)) 1 r c = refl t u r c).
  { intros r c Hr Hc. cbn [mprod]. rewrite mmul_id_l by auto. rewrite VT. unfold refl. rewrite !EU by auto. auto. }
  destruct HR as [Rb _ Ru Ra _ _]. change (unitary m (refl t u)) in Ru.
  split; [eapply unitary_ext; [|exact Ru]; intros; symmetry; apply EQ; auto|]. split; [|split; [|split; [|split; [|split]]]].
  - intros i j Hi Hj. assert (j = 0%nat) by lia. subst j.
    transitivity (mmul m (refl t u) (rtri (val A s2)) i 0%nat); [|apply mmul_ext; auto; intros; symmetry; apply EQ; auto].
    symmetry. apply (unitary_solve m (refl t u) (val A s)); auto. intros l Hl. assert (e := Ra l Hl). cbn [happly] in e.
    change (mmul m (ctr (refl t u)) (val A s) l 0%nat = (if (l =? hpos Forward m)%nat then val A s1 0%nat 0%nat else 0)) in e. rewrite e.
    unfold rtri, hpos. destruct (Nat.leb_spec l 0), (Nat.eqb_spec l 0); try lia; auto. subst l. apply VA. lia.
  - intros i Hi. assert (i = 0%nat) by lia. subst i. rewrite VA by lia. exact Rb.
  - intros _ r c Hr Hc. rewrite EQ by auto. apply refl_blk1; [exact VT|apply EU; auto..].
  - intros; lia.
  - intros l H1 H2 _. unfold s2, setm. cbn [mem]. destruct (Z.eqb_spec l (ad Tm 0 0)) as [->|]; [exfalso; apply H2; exists 0%nat, 0%nat; repeat split; lia|].
    apply F1. intros K. apply H1. apply inview_vcol in K; auto; lia.
  - exact I1.
Qed.
(** few columns: geqrf, then larft *)
Lemma base_run A Tm (Bk : Z -> Prop) isw s : let m := nr A in let n := nc A in (n <= m)%nat -> nr Tm = n -> nc Tm = n -> vinj A -> vinj Tm -> disj A Tm ->
  (forall l, Bk l -> ~ inview A l) -> (forall l, Bk l -> ~ inview Tm l) -> (forall l, block p (BlockQ.bsize Columnwise 32 m n) l -> Bk l) ->
  (forall j, (j < n)%nat -> (vsq m (fun i => val A s i j) <= bt * bt)%R) ->
  wp (geqrf p ly h 32 A (vdiag Tm);; larft Forward Columnwise A (vdiag Tm) Tm;; ret tt) (fun _ s' => gq isw A Tm Bk s s') noX s.
Proof.
  intros m n Hmn HT1 HT2 HI HIT HD BA BT HB Hv. set (z := BlockQ.bsize Columnwise 32 m n) in *.
  assert (Ek : nr (vdiag Tm) = n) by (unfold vdiag; cbn [nr]; lia).
  assert (IV : forall l, inview (vdiag Tm) l -> inview Tm l).
  { intros l (i & j & Hi & Hj & e). rewrite Ek in Hi. cbn in e. exists i, i. repeat split; auto; lia. }
  assert (HDd : disj A (vdiag Tm)).
  { intros i j i' j' Hi Hj Hi' Hj'. rewrite Ek in Hi'. apply HD; auto; lia. }
  assert (HId : vinj (vdiag Tm)).
  { intros i j i' j' Hi Hj Hi' Hj' e. rewrite Ek in Hi, Hi'. cbn [nc vdiag ad] in *. apply HIT in e; lia. }
  assert (FR : forall B, (forall l, Bk l -> ~ inview B l) -> fresh p z B).
  { intros B HBk l Hl. destruct (Z.lt_ge_cases l p); [left; auto|]. destruct (Z.lt_ge_cases l (p + Z.of_nat z)); [|right; auto]. exfalso. apply (HBk l); auto. apply HB. split; auto. }
  apply wp_bind. 
  assert (G := BlockQ.geqrf_correct p ly h st bt hsm 32 A (vdiag Tm) s m n Hh (Logic.conj eq_refl eq_refl) eq_refl ltac:(lia) ltac:(lia) HI HId HDd).
  cbv zeta in G. change (BlockQ.bsize Columnwise 32 m n) with z in G. specialize (G (FR A BA)). specialize (G (FR (vdiag Tm) ltac:(intros l Hl K; apply (BT l Hl); auto)) Hv).
  destruct G as (r0 & s1 & G0 & -> & (UQ & FQ & DQ) & FC). unfold wp at 1. rewrite G0.
  apply wp_bind. eapply wp_conseq; [apply (larft_diag Forward Columnwise A Tm s1); auto; try lia| |auto].
  intros z0 s2 (-> & Gm & He & HQ & HG). apply wp_ret. rewrite HT1 in HG.
  assert (EA : forall i j, (i < m)%nat -> (j < n)%nat -> val A s2 i j = val A s1 i j).
  { intros i j Hi Hj. apply (val_frame Tm _ A s1 s2 He); auto. intros l Hl. apply (nin_disj A Tm); auto. }
  assert (ED : forall r i, (r < m)%nat -> (i < n)%nat -> rvec Forward Columnwise m n (val A s2) i r = rvec Forward Columnwise m n (val A s1) i r).
  { intros r i Hr Hi. unfold rvec. destruct (Nat.eqb _ _); auto. destruct (Nat.ltb _ _); auto. }
  assert (FQ' := FQ). assert (UQ' := UQ). assert (DQ' := DQ). rewrite (Nat.min_r m n) in FQ', UQ', DQ' by lia.
  assert (ET : forall i, (i < n)%nat -> val Tm s2 i i = val Tm s1 i i).
  { intros i Hi. rewrite (proj1 He) by lia. rewrite HT1. destruct (tri_in _ _ _ _); auto. }
  set (Q1 := qof Forward Columnwise m (stored Forward Columnwise m n n (val A s1)) (vval (vdiag Tm) s1) n) in *.
  set (Q2 := mprod m (fun i => refl (val Tm s2 i i) (rvec Forward Columnwise m n (val A s2) i)) n).
  assert (EQ : forall r c, (r < m)%nat -> (c < m)%nat -> Q2 r c = Q1 r c).
  { intros r c Hr Hc. unfold Q1, Q2, qof, hprod. apply mprod_ext; auto. intros u a b Hu Ha Hb. unfold refl. rewrite ET by auto. rewrite !ED by auto. reflexivity. }
  unfold gq. change (nr A) with m. change (nc A) with n. cbv zeta. change (mprod m (fun i => refl (val Tm s2 i i) (rvec Forward Columnwise m n (val A s2) i)) n) with Q2.
  split; [eapply unitary_ext; [|exact UQ']; intros; symmetry; apply EQ; auto|]. split; [|split; [|split; [|split; [|split]]]].
  - intros i j Hi Hj. rewrite (FQ' i j Hi Hj). apply mmul_ext; auto; intros k Hk; [symmetry; apply EQ; auto|]. unfold trap, rtri. destruct (Nat.leb_spec k j); auto. symmetry. apply EA; auto.
  - intros i Hi. assert (e := DQ' i Hi). cbv beta zeta in e. unfold trap in e. rewrite Nat.leb_refl in e. rewrite EA by lia. exact e.
  - intros _ r c Hr Hc. rewrite EQ by auto. transitivity (hprod Forward m (fun i => refl (val Tm s1 i i) (rvec Forward Columnwise m n (val A s1) i)) n r c); [reflexivity|].
    assert (e := HQ r c Hr Hc). rewrite HT1 in e. etransitivity; [exact e|]. apply blkrefl_ext; [|intros a Ha; symmetry; apply ED; auto..].
    intros a b Ha Hb. unfold trim, tupl. rewrite !(proj1 He) by lia. rewrite HT1. unfold tri_in, intri. destruct (Nat.leb_spec a a); [|lia]. destruct (Nat.ltb_spec b n), (Nat.ltb_spec a n); try lia. destruct (Nat.eqb_spec a b), (Nat.leb_spec a b); cbn [andb]; auto; lia.
  - intros i j Hij. rewrite (proj1 He) by lia. rewrite HT1. unfold tri_in. destruct (Nat.leb_spec i j); [lia|]. cbn [andb]. unfold val. apply FC. intros [K|[K|K]].
    + revert K. apply (nin_disj Tm A); [apply LarfbProof.disj_sym; auto|]. exists i, j. repeat split; lia.
    + destruct K as (a & b & Ha & Hb & e). rewrite Ek in Ha. cbn [ad vdiag] in e. apply HIT in e; lia.
    + apply (BT _ (HB _ K)). exists i, j. repeat split; lia.
  - intros l H1 H2 H3. rewrite (proj1 (proj2 He)) by auto. apply FC. intros [K|[K|K]]; auto.
  - rewrite (proj2 (proj2 He)). apply FC.
Qed.
Lemma bsize_le m n : (BlockQ.bsize Columnwise 32 m n <= Nat.min 32 n * n)%nat.
Proof.
  unfold BlockQ.bsize, BlockQ.binfo. cbv zeta. set (b := Nat.min 32 (Nat.min m n)). assert (Hb : (b <= Nat.min 32 n)%nat) by (unfold b; lia). assert (Hb' : (b <= n)%nat) by lia.
  apply Nat.le_trans with (b * n)%nat; [|apply Nat.mul_le_mono_r; auto]. generalize dependent b. intros b _ Hb.
  assert (W : exists k c, (k <= b - 1)%nat /\ (if (1 <? b)%nat then larf_worksize Left m (b - 1) else winfo_v 0) = mkwinfo k 1 false true /\ c = k).
  { destruct (Nat.ltb_spec 1 b); [|exists 0%nat, 0%nat; repeat split; lia]. unfold larf_worksize, larf_worksize1, winfo_v. cbn [sel].
    destruct (_ <? _)%nat; [destruct (_ && _)|]; eexists; eexists; (split; [|split; [reflexivity|reflexivity]]); lia. }
  destruct W as (k & c & Hk & -> & _). destruct (Nat.ltb_spec b n); [|unfold wsize; cbn [wm wn]; nia].
  unfold larfb_worksize, wminmax, wadd, winfo_m, winfo_v, wsize. cbn [wm wn wcontig wvec].
  repeat match goal with |- context[if ?c then _ else _] => let q := fresh in destruct c eqn:q; cbn [wm wn wcontig wvec] in * end.
  all:   repeat match goal with H : (_ =? _)%nat = true |- _ => apply Nat.eqb_eq in H | H : (_ =? _)%nat = false |- _ => apply Nat.eqb_neq in H | H : (_ <=? _)%nat = true |- _ => apply Nat.leb_le in H | H : (_ <=? _)%nat = false |- _ => apply Nat.leb_gt in H end.
  all: try lia. all: try nia.
Qed.
Lemma geqrt3_run fuel : forall isw A Tm (Bk : Z -> Prop) s, let m := nr A in let n := nc A in (n <= fuel)%nat -> (n <= m)%nat -> nr Tm = n -> nc Tm = n -> vinj A -> vinj Tm -> disj A Tm ->
  (forall l, Bk l -> ~ inview A l) -> (forall l, Bk l -> ~ inview Tm l) -> (forall m' n' l, (n' <= Nat.min nx n)%nat -> block p (BlockQ.bsize Columnwise 32 m' n') l -> Bk l) ->
  (forall j, (j < n)%nat -> (vsq m (fun i => val A s i j) <= bt * bt)%R) ->
  wp (geqrt3_f fuel p ly h 32 nx isw A Tm) (fun _ s' => gq isw A Tm Bk s s') noX s.
Proof.
  induction fuel as [|fuel IH]; intros isw A Tm Bk s m n Hf Hmn HT1 HT2 HI HIT HD BA BT HB Hv; cbn [geqrt3_f].
  - change (nr A) with m. change (nc A) with n. destruct (Nat.ltb_spec m n); [lia|]. destruct (Nat.eqb_spec n 1); [lia|]. destruct (Nat.leb_spec n nx); [|lia].
    apply base_run; auto. intros l Hl. apply (HB m n l); auto. change (nc A) with n. lia.
  - cbv zeta. change (nr A) with m. change (nc A) with n. destruct (Nat.ltb_spec m n); [lia|]. destruct (Nat.eqb_spec n 1) as [e1|].
    { apply one_run; auto; try congruence. change (nr A) with m. lia. apply Hv. lia. }
    destruct (Nat.leb_spec n nx).
    { apply base_run; auto. intros l Hl. apply (HB m n l); auto. change (nc A) with n. lia. }
    assert (Hn1 : (1 <= n / 2 /\ n / 2 < n)%nat) by (split; [apply Nat.div_le_lower_bound; lia|apply Nat.div_lt; lia]).
    set (n1 := (n / 2)%nat) in *. 
    do 11 (apply wp_bind, wp_slc; [lia..|]).
    assert (HS : nr A = m /\ nc A = n) by auto. assert (HTT : nr Tm = n /\ nc Tm = n) by auto.
    apply wp_bind. eapply wp_use.
    { apply (IH false (subv A 0 m 0 n1) (subv Tm 0 n1 0 n1) Bk s); cbn [nr nc subv]; try lia.
      - apply vinj_subv; auto; lia.
      - apply vinj_subv; auto; lia.
      - apply disj_sub_l; [lia..|]. apply disj_sub_r; [lia..|]. auto.
      - intros l Hl K. apply inview_subv in K; [|lia..]. apply (BA l); auto.
      - intros l Hl K. apply inview_subv in K; [|lia..]. apply (BT l); auto.
      - intros m' n' l Hn'. apply HB. lia.
      - intros j Hj. cbn [nr subv] in *. rewrite Nat.sub_0_r. apply (Hv j). lia. }
    intros u0 s1 K1. cbv beta in K1.
    apply wp_bind. eapply wp_use; [apply (update_run A Tm m n n1 s1); auto; lia|].
    intros u1 s2 K2. cbv beta in K2.
    apply wp_bind. eapply wp_use.
    { apply (IH isw (subv A n1 m n1 n) (subv Tm n1 n n1 n) Bk s2); cbn [nr nc subv]; try lia.
      - apply vinj_subv; auto; lia.
      - apply vinj_subv; auto; lia.
      - apply disj_sub_l; [lia..|]. apply disj_sub_r; [lia..|]. auto.
      - intros l Hl K. apply inview_subv in K; [|lia..]. apply (BA l); auto.
      - intros l Hl K. apply inview_subv in K; [|lia..]. apply (BT l); auto.
      - intros m' n' l Hn'. apply HB. lia.
      - intros j Hj. eapply Rle_trans; [|apply (Hv (n1 + j)%nat); lia].
        eapply Rle_trans; [apply (vsq_tail n1 m (fun i => val A s2 i (n1 + j)%nat)); lia|].
        right. assert (UQ := Q1_u A Tm m n n1 Bk s s1 HS HTT ltac:(lia) ltac:(lia) K1).
        match type of UQ with unitary _ ?Q => set (Q1 := Q) in * end.
        apply (unitary_vsq m (ctr Q1)); [apply unitary_ctr; auto|].
        intros i Hi. assert (e := proj1 K2 i j ltac:(cbn; lia) ltac:(cbn; cbn in Hj; lia)). change (val A s2 (0 + i)%nat (n1 + j)%nat = mmul m (blkrefl n1 (ctr (trim Upper NonUnit (val (subv Tm 0 n1 0 n1) s1))) (Uv A m n1 s1)) (val (subv A 0 m n1 n) s1) i j) in e.
        cbn [Nat.add] in e. rewrite e. unfold mmul, mvmul. apply sum_ext. intros k Hk. f_equal.
        + rewrite blkrefl_ctr. unfold ctr. f_equal. symmetry. apply (Q1_blk A Tm m n n1 Bk s s1); auto; lia.
        + change (val A s1 (0 + k)%nat (n1 + j)%nat = val A s k (n1 + j)%nat). apply (a_right01 A Tm m n n1 Bk s s1); auto; lia. }
    intros u2 s3 K3. cbv beta in K3.
    destruct isw.
    + apply wp_ret. apply (gq_join A Tm m n n1 Bk true s s1 s2 s3 s3); auto; lia.
    + eapply wp_conseq; [apply (t12_run A Tm m n n1 s3); auto; lia| |auto].
      intros u3 s4 K4. cbv beta in K4. apply (gq_join A Tm m n n1 Bk false s s1 s2 s3 s4); auto; lia.
Qed.
End R.
