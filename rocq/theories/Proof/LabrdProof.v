(** * labrd: one block of the bidiagonal reduction *)
From Coq Require Import Bool Arith ZArith Lia Reals Lra Ring Field.
From Verif.Core Require Import Scalar Prog View Slice Loops RealLaws WorkEff.
From Verif.Spec Require Import LinAlg Norms Householder Reduce.
From Verif.Model Require Import Gemm Blas1 Blas2 LaAux Householder QGen Gebrd.
From Verif.Proof Require Import SumLemmas Tactics SliceTac LowOps ExactBlas Blas1Proof Blas2Proof LaAuxProof PotrfProof BlockAlg LarfProof LarfgProof QRProof QGenProof QFactProof ReduceMath ReduceProof HessProof BidProof LarftProof GehrdProof Lahr2Proof GebrdMath LabrdOps.
Local Open Scope T_scope.

Section A.
Context {E : Env} {FL : FieldLaws E} {CL : ConjLaws E} {OL : ROrdLaws E} {QL : EqbLaws E} {XL : CplxLaws E} {RL : RLaws E} {NL : FinLaws E}.
Add Field Tf : fth.
Lemma wp_tail (p : M unit) (Q : unit -> state -> Prop) X s : wp (p;; ret tt) Q X s -> wp p Q X s.
Proof. unfold wp, bind, ret. destruct (p s) as [[] ?| | |]; auto. Qed.

Section S.
Variables (A X Y tq tp : view) (s0 : state).
Variables m n nb : nat.
Hypothesis HA : nr A = m /\ nc A = n.
Hypothesis HX : nr X = m /\ nc X = nb.
Hypothesis HY : nr Y = n /\ nc Y = nb.
Hypothesis Htq : nc tq = 1%nat /\ (nb <= nr tq)%nat.
Hypothesis Htp : nc tp = 1%nat /\ (nb <= nr tp)%nat.
Hypothesis IA : vinj A.
Hypothesis IX : vinj X.
Hypothesis IY : vinj Y.
Hypothesis Iq : vinj tq.
Hypothesis Ip : vinj tp.
Hypothesis DAX : disj A X.
Hypothesis DAY : disj A Y.
Hypothesis DXY : disj X Y.
Hypothesis DAq : disj A tq.
Hypothesis DAp : disj A tp.
Hypothesis DXq : disj X tq.
Hypothesis DXp : disj X tp.
Hypothesis DYq : disj Y tq.
Hypothesis DYp : disj Y tp.
Hypothesis Dqp : disj tq tp.
Let ST := ST A X Y tq tp s0 m n nb.
Let colr := col_run A X Y tq tp s0 m n nb HA HX HY Htq Htp IA IY DAX DAY DXY DAq DAp DYq DYp.
Let rowr := row_run A X Y tq tp s0 m n nb HA HX HY Htq Htp IA IX DAX DAY DXY DAq DAp DXq DXp.
Let xr := x_run A X Y tq tp s0 m n nb HA HX HY Htq Htp IA IX DAX DAY DXY DAq DAp DXq DXp.
Let yr := y_run A X Y tq tp s0 m n nb HA HX HY Htq Htp IY DAY DXY DYq DYp.
Let sA1 := ST_A1 A X Y tq tp s0 m n nb HA HX HY Htq Htp IA DAX DAY DAq DAp.
Let sext := ST_ext A X Y tq tp s0 m n nb.

Variables (h : hconst) (st bt hsm : R).
Hypothesis Hh : hconst_ok h st bt hsm.
Lemma hcol_run i0 j a x y q t s (B : Type) (K : T -> M B) (Q : B -> state -> Prop) : (i0 < m)%nat -> (j < n)%nat -> ST a x y q t s -> (vsq (m - i0) (fun r => a (i0 + r)%nat j) <= bt * bt)%R ->
  (forall tau s' a', ST a' x y q t s' -> refc Forward (m - i0) (fun r => a (i0 + r)%nat j) tau (fun r => a' (i0 + r)%nat j) -> (forall r c, ~ (c = j /\ i0 <= r)%nat -> a' r c = a r c) -> wp (K tau) Q noX s') ->
  wp (t <- larfg h Forward Columnwise (vcol A i0 m j);; K t) Q noX s.
Proof.
  intros Hi Hj HS HN HQ. destruct HA as [HA1 HA2]. apply wp_bind. eapply wp_use.
  { apply (larfg_reflects h st bt hsm Forward Columnwise (vcol A i0 m j) s); auto; [cbn; lia|apply vinj_vcol; auto; lia|]. left. cbn [nr vcol].
    rewrite (vsq_ext _ _ (fun r => a (i0 + r)%nat j)); auto. intros r Hr. apply (st_A _ _ _ _ _ _ _ _ _ _ _ _ _ _ _ HS); lia. }
  intros tau s' HL. cbv beta in HL. destruct HL as [HE HR]. apply reflects_refc in HR. cbn [hst nr vcol] in HR.
  apply (ST_Acol A X Y tq tp s0 m n nb HA HX HY Htq Htp IA DAX DAY DAq DAp a x y q t s s' i0 m j) in HE; auto. eapply HQ; [exact HE| |].
  - eapply refc_ext; [lia|exact HR| |].
    + intros r Hr. apply (st_A _ _ _ _ _ _ _ _ _ _ _ _ _ _ _ HS); lia.
    + intros r Hr. cbv beta. rewrite Nat.eqb_refl. destruct (Nat.leb_spec i0 (i0 + r)), (Nat.ltb_spec (i0 + r) m); try lia. cbn [andb]. replace (i0 + r - i0)%nat with r by lia. reflexivity.
  - intros r c Hn. cbv beta. destruct (Nat.eqb_spec c j), (Nat.leb_spec i0 r); cbn [andb]; auto. lia.
Qed.
Lemma hrow_run i j0 a x y q t s (B : Type) (K : T -> M B) (Q : B -> state -> Prop) : (i < m)%nat -> (j0 < n)%nat -> ST a x y q t s -> (vsq (n - j0) (fun c => a i (j0 + c)%nat) <= bt * bt)%R ->
  (forall tau s' a', ST a' x y q t s' -> refc Forward (n - j0) (fun c => a i (j0 + c)%nat) tau (fun c => a' i (j0 + c)%nat) -> (forall r c, ~ (r = i /\ j0 <= c)%nat -> a' r c = a r c) -> wp (K tau) Q noX s') ->
  wp (t <- larfg h Forward Columnwise (vrow A i j0 n);; K t) Q noX s.
Proof.
  intros Hi Hj HS HN HQ. destruct HA as [HA1 HA2]. apply wp_bind. eapply wp_use.
  { apply (larfg_reflects h st bt hsm Forward Columnwise (vrow A i j0 n) s); auto; [cbn; lia|apply vinj_vrow; auto; lia|]. left. cbn [nr vrow].
    rewrite (vsq_ext _ _ (fun c => a i (j0 + c)%nat)); auto. intros r Hr. apply (st_A _ _ _ _ _ _ _ _ _ _ _ _ _ _ _ HS); lia. }
  intros tau s' HL. cbv beta in HL. destruct HL as [HE HR]. apply reflects_refc in HR. cbn [hst nr vrow] in HR.
  apply (ST_Arow A X Y tq tp s0 m n nb HA HX HY Htq Htp IA DAX DAY DAq DAp a x y q t s s' i j0 n) in HE; auto. eapply HQ; [exact HE| |].
  - eapply refc_ext; [lia|exact HR| |].
    + intros r Hr. apply (st_A _ _ _ _ _ _ _ _ _ _ _ _ _ _ _ HS); lia.
    + intros r Hr. cbv beta. rewrite Nat.eqb_refl. destruct (Nat.leb_spec j0 (j0 + r)), (Nat.ltb_spec (j0 + r) n); try lia. cbn [andb]. replace (j0 + r - j0)%nat with r by lia. reflexivity.
  - intros r c Hn. cbv beta. destruct (Nat.eqb_spec r i), (Nat.leb_spec j0 c); cbn [andb]; auto. lia.
Qed.
Lemma crow_run i j0 a x y q t s (B : Type) (K : M B) (Q : B -> state -> Prop) : (i < m)%nat -> ST a x y q t s ->
  (forall s', ST (fun r c => if ((r =? i) && (j0 <=? c))%nat then conj (a r c) else a r c) x y q t s' -> wp K Q noX s') ->
  wp (conjugate (vrow A i j0 n);; K) Q noX s.
Proof.
  intros Hi HS HQ. destruct HA as [HA1 HA2]. apply wp_bind. eapply wp_use; [apply (conjugate_run (vrow A i j0 n) s); [reflexivity|]|].
  { apply vinj_vrow; auto; lia. }
  intros u0 s' HL. cbv beta in HL. apply HQ.
  apply (ST_Arow A X Y tq tp s0 m n nb HA HX HY Htq Htp IA DAX DAY DAq DAp a x y q t s s' i j0 n) in HL; auto. eapply sext; [exact HL| |auto..].
  intros r c Hr Hc. cbv beta. destruct (Nat.eqb_spec r i) as [e|], (Nat.leb_spec j0 c), (Nat.ltb_spec c n); cbn [andb]; auto; try lia. f_equal.
  rewrite e. transitivity (val A s i (j0 + (c - j0))%nat); [reflexivity|]. rewrite (st_A _ _ _ _ _ _ _ _ _ _ _ _ _ _ _ HS) by lia. f_equal. lia.
Qed.

(** ** In the whole matrix, of which the block starts at (o, o) *)
Variables (o M N : nat) (X0 : mat) (ag : mat) (g1 g2 : nat -> T).
Definition gm (a : mat) : mat := fun r c => if ((o <=? r) && (o <=? c))%nat then a (r - o)%nat (c - o)%nat else ag r c.
Definition sh (x : mat) : mat := fun r l => x (r - o)%nat l.
Definition gt (q g : nat -> T) : nat -> T := fun k => if (k <? o)%nat then g k else q (k - o)%nat.
Lemma gm_in a r c : gm a (o + r)%nat (o + c)%nat = a r c.
Proof. unfold gm. destruct (Nat.leb_spec o (o + r)), (Nat.leb_spec o (o + c)); try lia. cbn [andb]. f_equal; lia. Qed.
Lemma sh_in x r l : sh x (o + r)%nat l = x r l.
Proof. unfold sh. f_equal. lia. Qed.
Lemma gt_in q g k : gt q g (o + k)%nat = q k.
Proof. unfold gt. destruct (Nat.ltb_spec (o + k) o); [lia|]. f_equal. lia. Qed.
Lemma qvec_in a l r : qvec (gm a) (o + l) (o + r)%nat = if (r <? l)%nat then 0 else if (r =? l)%nat then 1 else a r l.
Proof. unfold qvec. rewrite gm_in. destruct (Nat.ltb_spec (o + r) (o + l)), (Nat.ltb_spec r l), (Nat.eqb_spec (o + r) (o + l)), (Nat.eqb_spec r l); auto; lia. Qed.
Lemma qvec_ct a l r : qvec (ctr (gm a)) (o + l) (o + r)%nat = if (r <? l)%nat then 0 else if (r =? l)%nat then 1 else conj (a l r).
Proof. unfold qvec, ctr. rewrite gm_in. destruct (Nat.ltb_spec (o + r) (o + l)), (Nat.ltb_spec r l), (Nat.eqb_spec (o + r) (o + l)), (Nat.eqb_spec r l); auto; lia. Qed.
Lemma subvec_in a l c : (o + c < N)%nat -> subvec N (ctr (gm a)) (o + l) (o + c)%nat = if (c =? l + 1)%nat then 1 else if (l + 1 <? c)%nat then conj (a l c) else 0.
Proof.
  intros Hc. unfold subvec, ctr. rewrite gm_in. destruct (Nat.eqb_spec (o + c) (o + l + 1)), (Nat.eqb_spec c (l + 1)), (Nat.ltb_spec (o + l + 1) (o + c)), (Nat.ltb_spec (l + 1) c), (Nat.ltb_spec (o + c) N); cbn [andb]; auto; lia.
Qed.
Lemma subvec_ct a l c : (o + c < N)%nat -> subvec N (ctr (ctr (gm a))) (o + l) (o + c)%nat = if (c =? l + 1)%nat then 1 else if (l + 1 <? c)%nat then a c l else 0.
Proof.
  intros Hc. unfold subvec, ctr. rewrite gm_in. rewrite conj_conj. destruct (Nat.eqb_spec (o + c) (o + l + 1)), (Nat.eqb_spec c (l + 1)), (Nat.ltb_spec (o + l + 1) (o + c)), (Nat.ltb_spec (l + 1) c), (Nat.ltb_spec (o + c) N); cbn [andb]; auto; lia.
Qed.
Lemma sum_shift t k (f : nat -> T) : (forall r, (r < t)%nat -> f r = 0) -> sum (t + k) f = sum k (fun r => f (t + r)%nat).
Proof. intros Hf. rewrite sum_split. rewrite (sum_0 t f) by auto. ring. Qed.
(** ** n <= m *)
Section Tall.
Hypothesis HM : M = (o + m)%nat.
Hypothesis HN : N = (o + n)%nat.
Hypothesis Hnm : (n <= m)%nat.
Hypothesis Hnb : (nb <= n)%nat.
Hypothesis Hnorm : (fro2 M N X0 <= bt * bt)%R.
Definition JU (i : nat) (s : state) : Prop := exists a x y q p, ST a x y q p s /\ bidinv M N X0 (o + i) (vt N o i (gm a) (sh y) (sh x)) (gt q g1) (gt p g2).
Lemma vtU a x y i r c : (i <= r < m)%nat -> (i <= c < n)%nat -> vt N o i (gm a) (sh y) (sh x) (o + r)%nat (o + c)%nat = upd i i (fun r d => if ((0 <? i) && ((r =? i - 1) && (d =? i)))%nat then 1 else a r d) x y r c.
Proof.
  intros Hr Hc. unfold vt, upd. destruct (Nat.leb_spec (o + i) (o + r)), (Nat.leb_spec (o + i) (o + c)); try lia. cbn [andb]. rewrite gm_in.
  f_equal; [f_equal|].
  - destruct (Nat.ltb_spec 0 i), (Nat.eqb_spec r (i - 1)); cbn [andb]; auto; lia.
  - apply sum_ext. intros l Hl. rewrite qvec_in. destruct (Nat.ltb_spec r l), (Nat.eqb_spec r l); try lia. f_equal; [|f_equal; apply sh_in]. destruct (Nat.ltb_spec 0 i), (Nat.eqb_spec r (i - 1)); cbn [andb]; auto; lia.
  - apply sum_ext. intros l Hl. rewrite subvec_in, sh_in by lia. f_equal. destruct (Nat.eqb_spec c (l + 1)), (Nat.ltb_spec 0 i), (Nat.eqb_spec l (i - 1)), (Nat.eqb_spec c i); cbn [andb]; try lia; try apply conj_1; destruct (Nat.ltb_spec (l + 1) c); try lia; apply conj_conj.
Qed.
Lemma vtU' a x y i r c : (i <= r < m)%nat -> (i < c < n)%nat -> vt N o i (gm a) (sh y) (sh x) (o + r)%nat (o + c)%nat = upd i i a x y r c.
Proof.
  intros Hr Hc. rewrite vtU by lia. unfold upd. f_equal; [f_equal|].
  - destruct (Nat.eqb_spec c i); [lia|]. rewrite !andb_false_r. auto.
  - apply sum_ext. intros l Hl. destruct (Nat.eqb_spec l i); [lia|]. rewrite !andb_false_r. auto.
  - apply sum_ext. intros l Hl. destruct (Nat.eqb_spec c i); [lia|]. rewrite !andb_false_r. auto.
Qed.
Lemma upper_run i s : (i < nb)%nat -> JU i s -> wp (labrd_upper h A tq tp X Y i) (fun _ s' => JU (S i) s') noX s.
Proof.
  intros Hi (a & x & y & q & p & HS & HB). destruct HA as [HA1 HA2], Htq as [Hq1 Hq2], Htp as [Hp1 Hp2].
  set (V := fun r c => vt N o i (gm a) (sh y) (sh x) (o + r)%nat (o + c)%nat).
  unfold labrd_upper. rewrite HA1, HA2. cbv zeta. apply wp_bind.
  match goal with |- wp ?P ?R noX s => assert (WU : wp P (fun _ s1 => ST (fun r d => if ((d =? i) && (i <=? r))%nat then V r i else a r d) x y q p s1) noX s) end.
  { destruct (Nat.ltb_spec 0 i).
    - apply wp_tail. apply (colr true i i i i a x y q p s); auto; try lia.
      + intros _. split; [lia|]. destruct HB as (_ & _ & _ & HB). destruct (HB (o + (i - 1))%nat ltac:(lia)) as [_ HB2]. specialize (HB2 ltac:(lia)). unfold vt in HB2. destruct (Nat.leb_spec (o + i) (o + (i - 1))); [lia|]. cbn [andb] in HB2.
        replace (o + (i - 1) + 1)%nat with (o + i)%nat in HB2 by lia. rewrite gm_in in HB2. exact HB2.
      + intros s1 S1. apply wp_ret. eapply sext; [exact S1| |auto..]. intros r d Hr Hd. cbv beta. destruct (Nat.eqb_spec d i), (Nat.leb_spec i r); cbn [andb]; auto. unfold V. rewrite vtU by lia. destruct (Nat.ltb_spec 0 i); [|lia]. reflexivity.
    - apply wp_ret. eapply sext; [exact HS| |auto..]. intros r d Hr Hd. cbv beta. destruct (Nat.eqb_spec d i), (Nat.leb_spec i r); cbn [andb]; auto. unfold V. rewrite vtU by lia. replace i with 0%nat by lia. unfold upd. cbn [sum Nat.ltb Nat.leb andb]. replace d with 0%nat by lia. ring. }
  eapply wp_use; [exact WU|]. clear WU. intros u0 s1 S1. cbv beta in S1. clear u0 HS. apply wp_bind, wp_slcol; [lia..|].
  assert (EV : forall r, V r i = vt N o i (gm a) (sh y) (sh x) (o + r)%nat (o + i)%nat) by reflexivity.
  assert (NC := bidinv_col M N X0 ltac:(lia) bt Hnorm (o + i) _ _ _ ltac:(lia) HB).
  eapply (hcol_run i i _ x y q p s1); [lia|lia|exact S1| |].
  { rewrite (vsq_ext _ _ (fun r => vt N o i (gm a) (sh y) (sh x) (o + i + r)%nat (o + i)%nat)).
    - replace (m - i)%nat with (M - (o + i))%nat by lia. exact NC.
    - intros r Hr. cbv beta. rewrite Nat.eqb_refl. destruct (Nat.leb_spec i (i + r)); [|lia]. cbn [andb]. rewrite EV, Nat.add_assoc. reflexivity. }
  clear NC. intros t1 s2 b S2 R1 O1. cbv beta in O1. clear S1 s1.
  assert (R1' : refc Forward (M - (o + i)) (fun r => vt N o i (gm a) (sh y) (sh x) (o + i + r)%nat (o + i)%nat) t1 (fun r => b (i + r)%nat i)).
  { replace (M - (o + i))%nat with (m - i)%nat by lia. eapply refc_ext; [lia|exact R1| |auto]. intros r Hr. cbv beta. rewrite Nat.eqb_refl. destruct (Nat.leb_spec i (i + r)); [|lia]. cbn [andb]. rewrite EV, Nat.add_assoc. reflexivity. }
  clear R1. assert (O2 : forall r c, ~ (c = i /\ (i <= r)%nat) -> b r c = a r c).
  { intros r c Hn. rewrite O1 by auto. destruct (Nat.eqb_spec c i), (Nat.leb_spec i r); cbn [andb]; auto. lia. }
  clear O1. assert (Db : conj (b i i) = b i i). { assert (K := rc_beta _ _ _ _ _ R1'). cbn [hpos] in K. rewrite !Nat.add_0_r in K. exact K. }
  apply wp_bind. unfold wrv at 1. apply wp_wr; [lia|lia|]. apply (ST_tq A X Y tq tp s0 m n nb HA HX HY Htq Htp Iq DAq DXq DYq Dqp b x y q p i t1) in S2; [|lia].
  set (q1 := fun k => if (k =? i)%nat then t1 else q k) in S2. set (s1 := setm s2 (ad tq i 0) t1) in *. clearbody s1. clear s2. rename S2 into S1.
  assert (Eq1 : q1 i = t1) by (unfold q1; rewrite Nat.eqb_refl; auto).
  assert (Eg1 : gt q1 g1 (o + i)%nat = t1) by (rewrite gt_in; auto).
  assert (Egk : forall k, (k < o + i)%nat -> gt q1 g1 k = gt q g1 k).
  { intros k Hk. unfold gt, q1. destruct (Nat.ltb_spec k o); auto. destruct (Nat.eqb_spec (k - o) i); auto. lia. }
  replace (o + S i)%nat with (S (o + i)) in * by lia.
  destruct (Nat.ltb_spec i (n - 1)) as [Hlt|Hge].
  2:{ apply wp_ret. exists b, x, y, q1, p. split; [exact S1|]. replace (o + S i)%nat with (S (o + i)) by lia.
      apply (vt_last M N X0 ltac:(lia) o i (gm a) (sh y) (sh x) (gm b) (sh y) (sh x) (gt q g1) (gt p g2) (gt q1 g1) (gt p g2)); auto; try lia.
      - rewrite Eg1. eapply refc_ext; [lia|exact R1'|auto|]. intros r Hr. cbv beta. rewrite <- Nat.add_assoc, gm_in. auto.
      - intros r c Hr Hc K1 K2. unfold gm. destruct (Nat.leb_spec o r), (Nat.leb_spec o c); cbn [andb]; auto. apply O2. lia. }
  apply wp_bind, wp_rd; [lia|lia|]. replace (re (val A s1 i i)) with (b i i) by (rewrite (st_A _ _ _ _ _ _ _ _ _ _ _ _ _ _ _ S1) by lia; rewrite re_idem; auto).
  apply wp_bind, wp_wr; [lia|lia|]. apply (sA1 b x y q1 p s1 i i 1) in S1; [|lia|lia]. set (b1 := fun r c => if ((r =? i) && (c =? i))%nat then 1 else b r c) in S1.
  eapply (yr i (i + 1)%nat i i i b1 x y q1 p); try exact S1; try lia.
  clear S1 s1. intros s1 y' S1 Y1 Y2.
  assert (Bq : forall r, (i <= r)%nat -> b1 r i = if (r =? i)%nat then 1 else b r i).
  { intros r Hr. unfold b1. rewrite Nat.eqb_refl, andb_true_r. reflexivity. }
  assert (Bo : forall r c, c <> i -> b1 r c = a r c).
  { intros r c Hc. unfold b1. destruct (Nat.eqb_spec c i); [lia|]. rewrite andb_false_r. apply O2. lia. }
  assert (UV : forall r c, (i <= r < m)%nat -> (i < c < n)%nat -> upd i i b1 x y r c = V r c).
  { intros r c Hr Hc. unfold V. rewrite vtU' by lia. unfold upd. rewrite Bo by lia. f_equal; [f_equal|]; apply sum_ext; intros l Hl; rewrite Bo by lia; auto. }
  (* Ey *)
  assert (Qb : forall r, qvec (gm b) (o + i) (o + r)%nat = if (r <? i)%nat then 0 else b1 r i).
  { intros r. rewrite qvec_in. destruct (Nat.ltb_spec r i); auto. rewrite Bq by lia. destruct (_ =? _)%nat; auto. }
  assert (EY : forall z, (forall r, qvec z (o + i) (o + r)%nat = if (r <? i)%nat then 0 else b1 r i) -> forall c, (o + i < c < N)%nat -> sh y' c i = gt q1 g1 (o + i)%nat * sum M (fun r => conj (vt N o i (gm a) (sh y) (sh x) r c) * qvec z (o + i) r)).
  { intros z Hz c Hc. unfold sh at 1. rewrite Y2 by lia. rewrite Eq1, Eg1. f_equal. replace M with ((o + i) + (m - i))%nat by lia. rewrite sum_shift.
    - apply sum_ext. intros r Hr. rewrite UV by lia. replace (o + i + r)%nat with (o + (i + r))%nat by lia. rewrite Hz. destruct (Nat.ltb_spec (i + r) i); [lia|]. f_equal. f_equal. unfold V. f_equal. lia.
    - intros r Hr. unfold qvec. destruct (Nat.ltb_spec r (o + i)); [|lia]. ring. }
  apply wp_bind, wp_slrow; [lia..|]. apply (crow_run i (i + 1) b1 x y' q1 p s1); [lia|exact S1|]. clear s1 S1. intros s1 S1.
  set (b2 := fun r c => if ((r =? i) && (i + 1 <=? c))%nat then conj (b1 r c) else b1 r c) in S1.
  apply (rowr false i (i + 1)%nat (i + 1)%nat i b2 x y' q1 p s1); auto; try lia; try discriminate. cbn [andb]. clear s1 S1. intros s1 S1.
  apply wp_bind, wp_slrow; [lia..|].
  assert (S1' : ST (fun r c => if ((r =? i) && (i + 1 <=? c))%nat then conj (V i c - conj (y' c i)) else b1 r c) x y' q1 p s1).
  { eapply sext; [exact S1| |auto..]. intros r c Hr Hc. cbv beta. destruct (Nat.eqb_spec r i), (Nat.leb_spec (i + 1) c); cbn [andb].
    2:{ unfold b2. destruct (Nat.leb_spec (i + 1) c); [lia|]. rewrite andb_false_r. auto. }
    2-3: unfold b2; destruct (Nat.eqb_spec r i); [lia|]; reflexivity.
    rewrite <- UV by lia. unfold upd. replace (i + 1)%nat with (S i) by lia. cbn [sum].
    assert (E1 : b2 i c = conj (b1 i c)). { unfold b2. rewrite Nat.eqb_refl. destruct (Nat.leb_spec (i + 1) c); [|lia]. reflexivity. }
    assert (E2 : forall l, (l <= i)%nat -> b2 i l = b1 i l). { intros l Hl. unfold b2. destruct (Nat.leb_spec (i + 1) l); [lia|]. rewrite andb_false_r. reflexivity. }
    assert (E3 : forall l, (l < i)%nat -> b2 l c = b1 l c). { intros l Hl. unfold b2. destruct (Nat.eqb_spec l i); [lia|]. reflexivity. }
    rewrite E1. rewrite (sum_ext i (fun l => y' c l * conj (b2 i l)) (fun l => conj (b1 i l * conj (y c l)))) by (intros l Hl; rewrite E2, Y1, conj_mul, conj_conj by lia; ring).
    rewrite (sum_ext i (fun l => conj (b2 l c) * conj (x i l)) (fun l => conj (x i l * b1 l c))) by (intros l Hl; rewrite E3, conj_mul by lia; ring).
    rewrite <- !sum_conj. rewrite E2 by lia. rewrite (Bq i) by lia. rewrite Nat.eqb_refl, conj_1. rewrite !conj_sub, conj_conj. ring. }
  clear S1.
  assert (NR := vt_row M N X0 ltac:(lia) bt Hnorm o i (gm a) (sh y) (sh x) (gm b) (sh y') (gt q g1) (gt p g2) (gt q1 g1) ltac:(lia) HB).
  assert (Rb : refc Forward (M - (o + i)) (fun r => vt N o i (gm a) (sh y) (sh x) (o + i + r)%nat (o + i)%nat) (gt q1 g1 (o + i)%nat) (fun r => gm b (o + i + r)%nat (o + i)%nat)).
  { rewrite Eg1. eapply refc_ext; [lia|exact R1'|auto|]. intros r Hr. cbv beta. rewrite <- Nat.add_assoc, gm_in. auto. }
  specialize (NR Rb (EY _ Qb) ltac:(lia)).
  eapply (hrow_run i (i + 1) _ x y' q1 p s1); [lia|lia|exact S1'| |].
  { replace (n - (i + 1))%nat with (N - (o + i + 1))%nat by lia. erewrite vsq_ext; [exact NR|]. intros c Hc. cbv beta. rewrite Nat.eqb_refl. destruct (Nat.leb_spec (i + 1) (i + 1 + c)); [|lia]. cbn [andb]. unfold V. f_equal.
    replace (o + i + 1 + c)%nat with (o + (i + 1 + c))%nat by lia. rewrite sh_in. reflexivity. }
  clear NR. intros t2 s2 b4 S2 R2 O4. cbv beta in O4. clear S1' s1.
  assert (R2' : refc Forward (N - (o + i + 1)) (fun c => conj (vt N o i (gm a) (sh y) (sh x) (o + i)%nat (o + i + 1 + c)%nat - conj (sh y' (o + i + 1 + c)%nat i))) t2 (fun c => b4 i (i + 1 + c)%nat)).
  { replace (N - (o + i + 1))%nat with (n - (i + 1))%nat by lia. eapply refc_ext; [lia|exact R2| |auto]. intros c Hc. cbv beta. rewrite Nat.eqb_refl. destruct (Nat.leb_spec (i + 1) (i + 1 + c)); [|lia]. cbn [andb]. unfold V. f_equal.
    replace (o + i + 1 + c)%nat with (o + (i + 1 + c))%nat by lia. rewrite sh_in. reflexivity. }
  clear R2. assert (O5 : forall r c, ~ (r = i /\ (i < c)%nat) -> b4 r c = b1 r c).
  { intros r c Hn. rewrite O4 by lia. destruct (Nat.eqb_spec r i), (Nat.leb_spec (i + 1) c); cbn [andb]; auto. lia. }
  clear O4. assert (D4 : conj (b4 i (i + 1)%nat) = b4 i (i + 1)%nat). { assert (K := rc_beta _ _ _ _ _ R2'). cbn [hpos] in K. rewrite !Nat.add_0_r in K. exact K. }
  apply wp_bind. unfold wrv at 1. apply wp_wr; [lia|lia|]. apply (ST_tp A X Y tq tp s0 m n nb HA HX HY Htq Htp Ip DAp DXp DYp Dqp b4 x y' q1 p i t2) in S2; [|lia].
  set (p1 := fun k => if (k =? i)%nat then t2 else p k) in S2. set (s1 := setm s2 (ad tp i 0) t2) in *. clearbody s1. clear s2. rename S2 into S1.
  assert (Ep1 : p1 i = t2) by (unfold p1; rewrite Nat.eqb_refl; auto).
  assert (Eh1 : gt p1 g2 (o + i)%nat = t2) by (rewrite gt_in; auto).
  assert (Ehk : forall k, (k < o + i)%nat -> gt p1 g2 k = gt p g2 k).
  { intros k Hk. unfold gt, p1. destruct (Nat.ltb_spec k o); auto. destruct (Nat.eqb_spec (k - o) i); auto. lia. }
  apply wp_bind, wp_rd; [lia|lia|]. replace (re (val A s1 i (i + 1)%nat)) with (b4 i (i + 1)%nat) by (rewrite (st_A _ _ _ _ _ _ _ _ _ _ _ _ _ _ _ S1) by lia; rewrite re_idem; auto).
  apply wp_bind, wp_wr; [lia|lia|]. apply (sA1 b4 x y' q1 p1 s1 i (i + 1)%nat 1) in S1; [|lia|lia]. set (b5 := fun r c => if ((r =? i) && (c =? i + 1))%nat then 1 else b4 r c) in S1.
  eapply (xr true (i + 1)%nat (i + 1)%nat i i b5 x y' q1 p1); try exact S1; try lia.
  clear S1 s1. intros s1 x' S1 X1 X2.
  apply wp_bind, wp_wr; [lia|lia|]. apply (sA1 _ x' y' q1 p1 s1 i i (b i i)) in S1; [|lia|lia].
  apply wp_wr; [lia|lia|]. apply (sA1 _ x' y' q1 p1 _ i (i + 1)%nat (b4 i (i + 1)%nat)) in S1; [|lia|lia].
  set (a7 := fun r c => if ((r =? i) && (i <? c))%nat then conj (b4 i c) else b r c).
  exists a7, x', y', q1, p1. split.
  { eapply sext; [exact S1| |auto..]. intros r c Hr Hc. cbv beta. unfold a7. destruct (Nat.eqb_spec r i) as [->|Hri]; cbn [andb].
    - destruct (Nat.eqb_spec c (i + 1)) as [->|]; [destruct (Nat.ltb_spec i (i + 1)); [auto|lia]|]. destruct (Nat.eqb_spec c i) as [->|]; [destruct (Nat.ltb_spec i i); [lia|auto]|].
      unfold b5. rewrite Nat.eqb_refl. destruct (Nat.eqb_spec c (i + 1)); [lia|]. cbn [andb]. destruct (Nat.leb_spec (i + 1) c), (Nat.ltb_spec i c); try lia; auto. rewrite O5 by lia. unfold b1. destruct (Nat.eqb_spec c i); [lia|]. rewrite andb_false_r. reflexivity.
    - unfold b5. destruct (Nat.eqb_spec r i); [lia|]. cbn [andb]. rewrite O5 by lia. unfold b1. destruct (Nat.eqb_spec r i); [lia|]. reflexivity. }
  replace (o + S i)%nat with (S (o + i)) by lia.
  assert (A7c : forall r, a7 r i = b r i). { intros r. unfold a7. destruct (Nat.ltb_spec i i); [lia|]. rewrite andb_false_r. reflexivity. }
  assert (A7r : forall c, (i < c)%nat -> a7 i c = conj (b4 i c)). { intros c Hc. unfold a7. rewrite Nat.eqb_refl. destruct (Nat.ltb_spec i c); [|lia]. reflexivity. }
  assert (Q7 : forall r, qvec (gm a7) (o + i) (o + r)%nat = if (r <? i)%nat then 0 else b1 r i).
  { intros r. rewrite qvec_in. destruct (Nat.ltb_spec r i); auto. rewrite Bq by lia. rewrite A7c. destruct (_ =? _)%nat; auto. }
  apply (vt_next M N X0 ltac:(lia) o i (gm a) (sh y) (sh x) (gm a7) (sh y') (sh x') (gt q g1) (gt p g2) (gt q1 g1) (gt p1 g2)); auto; try lia.
  - eapply refc_ext; [lia|exact Rb|auto|]. intros r Hr. cbv beta. rewrite <- Nat.add_assoc, !gm_in. rewrite A7c. reflexivity.
  - intros r c Hr Hc K1 K2. unfold gm. destruct (Nat.leb_spec o r), (Nat.leb_spec o c); cbn [andb]; auto. unfold a7. destruct (Nat.eqb_spec (r - o) i), (Nat.ltb_spec i (c - o)); cbn [andb]; try lia; apply O2; lia.
  - rewrite Eh1. eapply refc_ext; [lia|exact R2'|auto|]. intros c Hc. cbv beta. replace (o + i + 1 + c)%nat with (o + (i + 1 + c))%nat by lia. rewrite gm_in. rewrite A7r by lia. rewrite conj_conj. reflexivity.
  - intros r Hr. unfold sh at 1. rewrite X2 by lia. rewrite Ep1, Eh1. f_equal. replace N with ((o + i + 1) + (n - (i + 1)))%nat by lia. rewrite sum_shift.
    + replace (o + i + 1 + (n - (i + 1)))%nat with N by lia. apply sum_ext. intros c Hc. replace r with (o + (r - o))%nat at 2 3 by lia. replace (o + i + 1 + c)%nat with (o + (i + 1 + c))%nat by lia. rewrite subvec_in, Q7, sh_in by lia.
      destruct (Nat.ltb_spec (r - o) i); [lia|]. change (vt N o i (gm a) (sh y) (sh x) (o + (r - o))%nat (o + (i + 1 + c))%nat) with (V (r - o)%nat (i + 1 + c)%nat). f_equal.
      * rewrite <- UV by lia. unfold upd. rewrite (sum_split i 1). cbn [sum]. rewrite Nat.add_0_r.
        assert (E5 : forall r c, r <> i -> b5 r c = b1 r c). { intros r' c' Hr'. unfold b5. destruct (Nat.eqb_spec r' i); [lia|]. cbn [andb]. apply O5. lia. }
        rewrite !E5 by lia. rewrite (sum_ext i (fun l => b5 (r - o)%nat l * conj (y' (i + 1 + c)%nat l)) (fun l => b1 (r - o)%nat l * conj (y (i + 1 + c)%nat l))) by (intros l Hl; rewrite E5, Y1 by lia; auto).
        rewrite (sum_ext i (fun l => x (r - o)%nat l * b5 l (i + 1 + c)%nat) (fun l => x (r - o)%nat l * b1 l (i + 1 + c)%nat)) by (intros l Hl; rewrite E5 by lia; auto). ring.
      * unfold b5. rewrite Nat.eqb_refl. cbn [andb]. destruct (Nat.eqb_spec (i + 1 + c) (i + 1)); auto. destruct (Nat.ltb_spec (i + 1) (i + 1 + c)); [|lia]. rewrite A7r by lia. rewrite conj_conj. reflexivity.
    + intros c Hc. unfold subvec. destruct (Nat.eqb_spec c (o + i + 1)); [lia|]. destruct (Nat.ltb_spec (o + i + 1) c); [lia|]. cbn [andb]. ring.
  - intros c l Hc Hl. unfold sh. apply Y1; lia.
  - intros r l Hr Hl. unfold sh. apply X1; lia.
Qed.
End Tall.

(** ** m <= n *)
Section Wide.
Hypothesis HM : M = (o + n)%nat.
Hypothesis HN : N = (o + m)%nat.
Hypothesis Hmn : (m <= n)%nat.
Hypothesis Hnb : (nb <= m)%nat.
Hypothesis Hnorm : (fro2 M N X0 <= bt * bt)%R.
Definition JL (i : nat) (s : state) : Prop := exists a x y q p, ST a x y q p s /\ bidinv M N X0 (o + i) (vt N o i (ctr (gm a)) (sh x) (sh y)) (gt p g1) (gt q g2).
Lemma conj_upd p k a x y r c : conj (upd p k a x y r c) = conj (a r c) - sum p (fun l => conj (a r l) * y c l) - sum k (fun l => conj (x r l) * conj (a l c)).
Proof.
  unfold upd. rewrite !conj_sub, !sum_conj. f_equal; [f_equal|]; apply sum_ext; intros l Hl; rewrite conj_mul; rewrite ?conj_conj; reflexivity.
Qed.
Lemma vtL a x y i r d : (i <= r < m)%nat -> (i <= d < n)%nat -> vt N o i (ctr (gm a)) (sh x) (sh y) (o + d)%nat (o + r)%nat = conj (upd i i (fun r' d => if ((0 <? i) && ((r' =? i) && (d =? i - 1)))%nat then 1 else a r' d) x y r d).
Proof.
  intros Hr Hd. rewrite conj_upd. unfold vt. destruct (Nat.leb_spec (o + i) (o + r)), (Nat.leb_spec (o + i) (o + d)); try lia. cbn [andb]. change (ctr (gm a) (o + d)%nat (o + r)%nat) with (conj (gm a (o + r)%nat (o + d)%nat)). rewrite gm_in.
  match goal with |- ?u - ?v - ?w = ?u' - ?v' - ?w' => assert (K1 : u = u'); [|assert (K2 : v = w'); [|assert (K3 : w = v'); [|rewrite K1, K2, K3; ring]]] end.
  - destruct (Nat.ltb_spec 0 i), (Nat.eqb_spec d (i - 1)); cbn [andb]; rewrite ?andb_false_r; auto; lia.
  - apply sum_ext. intros l Hl. rewrite qvec_ct, sh_in. destruct (Nat.ltb_spec d l), (Nat.eqb_spec d l); try lia. destruct (Nat.ltb_spec 0 i), (Nat.eqb_spec d (i - 1)); cbn [andb]; rewrite ?andb_false_r; try lia; ring.
  - apply sum_ext. intros l Hl. rewrite subvec_ct, sh_in by lia.
    assert (KK : (if (r =? l + 1)%nat then 1 else if (l + 1 <? r)%nat then a r l else 0) = if ((0 <? i) && ((r =? i) && (l =? i - 1)))%nat then 1 else a r l); [|rewrite KK; ring].
    destruct (Nat.eqb_spec r (l + 1)), (Nat.ltb_spec 0 i), (Nat.eqb_spec l (i - 1)), (Nat.eqb_spec r i); cbn [andb]; try lia; auto; destruct (Nat.ltb_spec (l + 1) r); try lia; auto.
Qed.
Lemma vtL' a x y i r d : (i < r < m)%nat -> (i <= d < n)%nat -> vt N o i (ctr (gm a)) (sh x) (sh y) (o + d)%nat (o + r)%nat = conj (upd i i a x y r d).
Proof.
  intros Hr Hd. rewrite vtL by lia. f_equal. unfold upd. f_equal; [f_equal|].
  - destruct (Nat.eqb_spec r i); [lia|]. rewrite ?andb_false_r. auto.
  - apply sum_ext. intros l Hl. destruct (Nat.eqb_spec r i); [lia|]. rewrite ?andb_false_r. auto.
  - apply sum_ext. intros l Hl. destruct (Nat.eqb_spec l i); [lia|]. rewrite ?andb_false_r. auto.
Qed.
Lemma lower_run i s : (i < nb)%nat -> JL i s -> wp (labrd_lower h A tq tp X Y i) (fun _ s' => JL (S i) s') noX s.
Proof.
  intros Hi (a & x & y & q & p & HS & HB). destruct HA as [HA1 HA2], Htq as [Hq1 Hq2], Htp as [Hp1 Hp2].
  set (V := fun d r => vt N o i (ctr (gm a)) (sh x) (sh y) (o + d)%nat (o + r)%nat).
  unfold labrd_lower. rewrite HA1, HA2. cbv zeta. apply wp_bind, wp_slrow; [lia..|].
  apply (crow_run i i a x y q p s); [lia|exact HS|]. clear s HS. intros s HS. set (b0 := fun r c => if ((r =? i) && (i <=? c))%nat then conj (a r c) else a r c) in HS.
  apply wp_bind.
  match goal with |- wp ?P ?R noX s => assert (WU : wp P (fun _ s1 => ST (fun r c => if ((r =? i) && (i <=? c))%nat then V c i else a r c) x y q p s1) noX s) end.
  { destruct (Nat.ltb_spec 0 i).
    - apply wp_tail. apply (rowr true i i i i b0 x y q p s); auto; try lia.
      + intros _. split; [lia|]. unfold b0. destruct (Nat.leb_spec i (i - 1)); [lia|]. rewrite andb_false_r. destruct HB as (_ & _ & _ & HB). destruct (HB (o + (i - 1))%nat ltac:(lia)) as [_ HB2]. specialize (HB2 ltac:(lia)). unfold vt in HB2. destruct (Nat.leb_spec (o + i) (o + (i - 1))); [lia|]. cbn [andb] in HB2.
        replace (o + (i - 1) + 1)%nat with (o + i)%nat in HB2 by lia. unfold ctr in HB2. rewrite gm_in, conj_conj in HB2. auto.
      + intros s1 S1. apply wp_ret. eapply sext; [exact S1| |auto..]. intros r d Hr Hd. cbv beta. destruct (Nat.eqb_spec r i), (Nat.leb_spec i d); cbn [andb].
        2:{ unfold b0. destruct (Nat.leb_spec i d); [lia|]. rewrite andb_false_r. auto. }
        2-3: unfold b0; destruct (Nat.eqb_spec r i); [lia|]; reflexivity.
        unfold V. rewrite vtL, conj_upd by lia. destruct (Nat.ltb_spec 0 i); [|lia]. cbn [andb].
        assert (E1 : b0 i d = conj (a i d)). { unfold b0. rewrite Nat.eqb_refl. destruct (Nat.leb_spec i d); [|lia]. reflexivity. }
        assert (E2 : forall l, (l < i)%nat -> b0 i l = a i l). { intros l Hl. unfold b0. destruct (Nat.leb_spec i l); [lia|]. rewrite andb_false_r. reflexivity. }
        assert (E3 : forall l, (l < i)%nat -> b0 l d = a l d). { intros l Hl. unfold b0. destruct (Nat.eqb_spec l i); [lia|]. reflexivity. }
        rewrite E1, Nat.eqb_refl. destruct (Nat.eqb_spec d (i - 1)); [lia|]. cbn [andb].
        match goal with |- ?u - ?v - ?w = ?u' - ?v' - ?w' => assert (K2 : v = v'); [|assert (K3 : w = w'); [|rewrite K2, K3; reflexivity]] end.
        * apply sum_ext. intros l Hl. destruct (Nat.eqb_spec l (i - 1)); [ring|]. rewrite E2 by lia. ring.
        * apply sum_ext. intros l Hl. rewrite E3 by lia. destruct (Nat.eqb_spec l i); [lia|]. cbn [andb]. ring.
    - apply wp_ret. eapply sext; [exact HS| |auto..]. intros r d Hr Hd. cbv beta. unfold b0. destruct (Nat.eqb_spec r i), (Nat.leb_spec i d); cbn [andb]; auto. unfold V. rewrite vtL, conj_upd by lia. replace i with 0%nat by lia. cbn [sum Nat.ltb Nat.leb andb]. replace r with 0%nat by lia. ring. }
  eapply wp_use; [exact WU|]. clear WU. intros u0 s1 S1. cbv beta in S1. clear u0 HS.
  assert (EV : forall c, V c i = vt N o i (ctr (gm a)) (sh x) (sh y) (o + c)%nat (o + i)%nat) by reflexivity.
  assert (NC := bidinv_col M N X0 ltac:(lia) bt Hnorm (o + i) _ _ _ ltac:(lia) HB).
  eapply (hrow_run i i _ x y q p s1); [lia|lia|exact S1| |].
  { rewrite (vsq_ext _ _ (fun r => vt N o i (ctr (gm a)) (sh x) (sh y) (o + i + r)%nat (o + i)%nat)).
    - replace (n - i)%nat with (M - (o + i))%nat by lia. exact NC.
    - intros r Hr. cbv beta. rewrite Nat.eqb_refl. destruct (Nat.leb_spec i (i + r)); [|lia]. cbn [andb]. rewrite EV, Nat.add_assoc. reflexivity. }
  clear NC. intros t1 s2 b S2 R1 O1. cbv beta in O1. clear S1 s1.
  assert (R1' : refc Forward (M - (o + i)) (fun r => vt N o i (ctr (gm a)) (sh x) (sh y) (o + i + r)%nat (o + i)%nat) t1 (fun r => b i (i + r)%nat)).
  { replace (M - (o + i))%nat with (n - i)%nat by lia. eapply refc_ext; [lia|exact R1| |auto]. intros r Hr. cbv beta. rewrite Nat.eqb_refl. destruct (Nat.leb_spec i (i + r)); [|lia]. cbn [andb]. rewrite EV, Nat.add_assoc. reflexivity. }
  clear R1. assert (O2 : forall r c, ~ (r = i /\ (i <= c)%nat) -> b r c = a r c).
  { intros r c Hn. rewrite O1 by auto. destruct (Nat.eqb_spec r i), (Nat.leb_spec i c); cbn [andb]; auto. lia. }
  clear O1. assert (Db : conj (b i i) = b i i). { assert (K := rc_beta _ _ _ _ _ R1'). cbn [hpos] in K. rewrite !Nat.add_0_r in K. exact K. }
  apply wp_bind. unfold wrv at 1. apply wp_wr; [lia|lia|]. apply (ST_tp A X Y tq tp s0 m n nb HA HX HY Htq Htp Ip DAp DXp DYp Dqp b x y q p i t1) in S2; [|lia].
  set (p1 := fun k => if (k =? i)%nat then t1 else p k) in S2. set (s1 := setm s2 (ad tp i 0) t1) in *. clearbody s1. clear s2. rename S2 into S1.
  assert (Ep1 : p1 i = t1) by (unfold p1; rewrite Nat.eqb_refl; auto).
  assert (Eg1 : gt p1 g1 (o + i)%nat = t1) by (rewrite gt_in; auto).
  assert (Egk : forall k, (k < o + i)%nat -> gt p1 g1 k = gt p g1 k).
  { intros k Hk. unfold gt, p1. destruct (Nat.ltb_spec k o); auto. destruct (Nat.eqb_spec (k - o) i); auto. lia. }
  destruct (Nat.ltb_spec (i + 1) m) as [Hlt|Hge].
  2:{ apply wp_tail. apply (crow_run i i b x y q p1 s1); [lia|exact S1|]. clear s1 S1. intros s1 S1. set (b' := fun r c => if ((r =? i) && (i <=? c))%nat then conj (b r c) else b r c) in S1.
      apply wp_ret. exists b', x, y, q, p1. split; [exact S1|]. replace (o + S i)%nat with (S (o + i)) by lia.
      apply (vt_last M N X0 ltac:(lia) o i (ctr (gm a)) (sh x) (sh y) (ctr (gm b')) (sh x) (sh y) (gt p g1) (gt q g2) (gt p1 g1) (gt q g2)); auto; try lia.
      - rewrite Eg1. eapply refc_ext; [lia|exact R1'|auto|]. intros r Hr. cbv beta. unfold ctr. rewrite <- Nat.add_assoc, gm_in. unfold b'. rewrite Nat.eqb_refl. destruct (Nat.leb_spec i (i + r)); [|lia]. cbn [andb]. rewrite conj_conj. auto.
      - intros r c Hr Hc K1 K2. unfold ctr. f_equal. unfold gm. destruct (Nat.leb_spec o r), (Nat.leb_spec o c); cbn [andb]; auto. unfold b'. destruct (Nat.eqb_spec (c - o) i), (Nat.leb_spec i (r - o)); cbn [andb]; try lia; apply O2; lia. }
  apply wp_bind, wp_rd; [lia|lia|]. replace (re (val A s1 i i)) with (b i i) by (rewrite (st_A _ _ _ _ _ _ _ _ _ _ _ _ _ _ _ S1) by lia; rewrite re_idem; auto).
  apply wp_bind, wp_wr; [lia|lia|]. apply (sA1 b x y q p1 s1 i i 1) in S1; [|lia|lia]. set (b1 := fun r c => if ((r =? i) && (c =? i))%nat then 1 else b r c) in S1.
  eapply (xr (0 <? i)%nat i i i i b1 x y q p1); try exact S1; try lia; [destruct (Nat.ltb_spec 0 i); [discriminate|lia]|].
  clear S1 s1. intros s1 x' S1 X1 X2. set (b2 := fun r c => if ((r =? i) && (i <=? c))%nat then conj (b1 r c) else b1 r c) in S1.
  assert (Bq : forall c, (i <= c)%nat -> b1 i c = if (c =? i)%nat then 1 else b i c).
  { intros r Hr. unfold b1. rewrite Nat.eqb_refl. reflexivity. }
  assert (Bo : forall r c, r <> i -> b1 r c = a r c).
  { intros r c Hc. unfold b1. destruct (Nat.eqb_spec r i); [lia|]. cbn [andb]. apply O2. lia. }
  assert (UV : forall r c, (i < r < m)%nat -> (i <= c < n)%nat -> upd i i b1 x y r c = conj (V c r)).
  { intros r c Hr Hc. unfold V. rewrite vtL', conj_conj by lia. unfold upd. rewrite Bo by lia. f_equal; [f_equal|]; apply sum_ext; intros l Hl; rewrite Bo by lia; auto. }
  assert (B2o : forall r c, r <> i -> b2 r c = b1 r c).
  { intros r c Hr. unfold b2. destruct (Nat.eqb_spec r i); [lia|]. reflexivity. }
  assert (B2i : forall c, (i <= c)%nat -> b2 i c = conj (b1 i c)).
  { intros c Hc. unfold b2. rewrite Nat.eqb_refl. destruct (Nat.leb_spec i c); [|lia]. reflexivity. }
  (* Ey *)
  assert (EY : forall z, (forall r, qvec z (o + i) (o + r)%nat = if (r <? i)%nat then 0 else b1 i r) -> forall c, (o + i < c < N)%nat -> sh x' c i = gt p1 g1 (o + i)%nat * sum M (fun r => conj (vt N o i (ctr (gm a)) (sh x) (sh y) r c) * qvec z (o + i) r)).
  { intros z Hz c Hc. unfold sh at 1. rewrite X2 by lia. rewrite Ep1, Eg1. f_equal. replace M with ((o + i) + (n - i))%nat by lia. rewrite sum_shift.
    - apply sum_ext. intros r Hr. rewrite UV by lia. replace (o + i + r)%nat with (o + (i + r))%nat by lia. rewrite Hz. destruct (Nat.ltb_spec (i + r) i); [lia|]. f_equal. f_equal. unfold V. f_equal. lia.
    - intros r Hr. unfold qvec. destruct (Nat.ltb_spec r (o + i)); [|lia]. ring. }
  apply (colr false (i + 1)%nat i i (i + 1)%nat b2 x' y q p1 s1); auto; try lia; try discriminate. cbn [andb]. clear s1 S1. intros s1 S1.
  apply wp_bind, wp_slcol; [lia..|].
  assert (S1' : ST (fun r c => if ((c =? i) && (i + 1 <=? r))%nat then conj (V i r - conj (x' r i)) else b2 r c) x' y q p1 s1).
  { eapply sext; [exact S1| |auto..]. intros r c Hr Hc. cbv beta. destruct (Nat.eqb_spec c i), (Nat.leb_spec (i + 1) r); cbn [andb]; auto.
    rewrite conj_sub, conj_conj, <- UV by lia. unfold upd. rewrite (sum_split i 1). cbn [sum]. rewrite Nat.add_0_r. rewrite (B2i i), (Bq i), Nat.eqb_refl, conj_1 by lia. rewrite B2o by lia.
    rewrite (sum_ext i (fun l => b2 r l * conj (y i l)) (fun l => b1 r l * conj (y i l))) by (intros l Hl; rewrite B2o by lia; auto).
    rewrite (sum_ext i (fun l => x' r l * b2 l i) (fun l => x r l * b1 l i)) by (intros l Hl; rewrite B2o, X1 by lia; auto). ring. }
  clear S1.
  set (a2 := fun r c => if ((r =? i) && (i <=? c))%nat then conj (b r c) else b r c).
  assert (Q2 : forall r, qvec (ctr (gm a2)) (o + i) (o + r)%nat = if (r <? i)%nat then 0 else b1 i r).
  { intros r. rewrite qvec_ct. destruct (Nat.ltb_spec r i); auto. rewrite Bq by lia. unfold a2. rewrite Nat.eqb_refl. destruct (Nat.leb_spec i r); [|lia]. cbn [andb]. rewrite conj_conj. destruct (_ =? _)%nat; auto. }
  assert (Rb : refc Forward (M - (o + i)) (fun r => vt N o i (ctr (gm a)) (sh x) (sh y) (o + i + r)%nat (o + i)%nat) (gt p1 g1 (o + i)%nat) (fun r => ctr (gm a2) (o + i + r)%nat (o + i)%nat)).
  { rewrite Eg1. eapply refc_ext; [lia|exact R1'|auto|]. intros r Hr. cbv beta. unfold ctr. rewrite <- Nat.add_assoc, gm_in. unfold a2. rewrite Nat.eqb_refl. destruct (Nat.leb_spec i (i + r)); [|lia]. cbn [andb]. rewrite conj_conj. auto. }
  assert (NR := vt_row M N X0 ltac:(lia) bt Hnorm o i (ctr (gm a)) (sh x) (sh y) (ctr (gm a2)) (sh x') (gt p g1) (gt q g2) (gt p1 g1) ltac:(lia) HB Rb (EY _ Q2) ltac:(lia)).
  eapply (hcol_run (i + 1) i _ x' y q p1 s1); [lia|lia|exact S1'| |].
  { replace (m - (i + 1))%nat with (N - (o + i + 1))%nat by lia. erewrite vsq_ext; [exact NR|]. intros c Hc. cbv beta. rewrite Nat.eqb_refl. destruct (Nat.leb_spec (i + 1) (i + 1 + c)); [|lia]. cbn [andb]. unfold V. f_equal.
    replace (o + i + 1 + c)%nat with (o + (i + 1 + c))%nat by lia. rewrite sh_in. reflexivity. }
  clear NR. intros t2 s2 b4 S2 R2 O4. cbv beta in O4. clear S1' s1.
  assert (R2' : refc Forward (N - (o + i + 1)) (fun c => conj (vt N o i (ctr (gm a)) (sh x) (sh y) (o + i)%nat (o + i + 1 + c)%nat - conj (sh x' (o + i + 1 + c)%nat i))) t2 (fun c => b4 (i + 1 + c)%nat i)).
  { replace (N - (o + i + 1))%nat with (m - (i + 1))%nat by lia. eapply refc_ext; [lia|exact R2| |auto]. intros c Hc. cbv beta. rewrite Nat.eqb_refl. destruct (Nat.leb_spec (i + 1) (i + 1 + c)); [|lia]. cbn [andb]. unfold V. f_equal.
    replace (o + i + 1 + c)%nat with (o + (i + 1 + c))%nat by lia. rewrite sh_in. reflexivity. }
  clear R2. assert (O5 : forall r c, ~ (c = i /\ (i < r)%nat) -> b4 r c = b2 r c).
  { intros r c Hn. rewrite O4 by lia. destruct (Nat.eqb_spec c i), (Nat.leb_spec (i + 1) r); cbn [andb]; auto. lia. }
  clear O4. assert (D4 : conj (b4 (i + 1)%nat i) = b4 (i + 1)%nat i). { assert (K := rc_beta _ _ _ _ _ R2'). cbn [hpos] in K. rewrite !Nat.add_0_r in K. exact K. }
  apply wp_bind. unfold wrv at 1. apply wp_wr; [lia|lia|]. apply (ST_tq A X Y tq tp s0 m n nb HA HX HY Htq Htp Iq DAq DXq DYq Dqp b4 x' y q p1 i t2) in S2; [|lia].
  set (q1 := fun k => if (k =? i)%nat then t2 else q k) in S2. set (s1 := setm s2 (ad tq i 0) t2) in *. clearbody s1. clear s2. rename S2 into S1.
  assert (Eq1 : q1 i = t2) by (unfold q1; rewrite Nat.eqb_refl; auto).
  assert (Eh1 : gt q1 g2 (o + i)%nat = t2) by (rewrite gt_in; auto).
  assert (Ehk : forall k, (k < o + i)%nat -> gt q1 g2 k = gt q g2 k).
  { intros k Hk. unfold gt, q1. destruct (Nat.ltb_spec k o); auto. destruct (Nat.eqb_spec (k - o) i); auto. lia. }
  apply wp_bind, wp_rd; [lia|lia|]. replace (re (val A s1 (i + 1)%nat i)) with (b4 (i + 1)%nat i) by (rewrite (st_A _ _ _ _ _ _ _ _ _ _ _ _ _ _ _ S1) by lia; rewrite re_idem; auto).
  apply wp_bind, wp_wr; [lia|lia|]. apply (sA1 b4 x' y q1 p1 s1 (i + 1)%nat i 1) in S1; [|lia|lia]. set (b5 := fun r c => if ((r =? i + 1) && (c =? i))%nat then 1 else b4 r c) in S1.
  eapply (yr (i + 1)%nat (i + 1)%nat i (i + 1)%nat i b5 x' y q1 p1); try exact S1; try lia.
  clear S1 s1. intros s1 y' S1 Y1 Y2.
  apply wp_bind, wp_wr; [lia|lia|]. apply (sA1 _ x' y' q1 p1 s1 i i (b i i)) in S1; [|lia|lia].
  apply wp_wr; [lia|lia|]. apply (sA1 _ x' y' q1 p1 _ (i + 1)%nat i (b4 (i + 1)%nat i)) in S1; [|lia|lia].
  set (a7 := fun r c => if ((c =? i) && (i <? r))%nat then b4 r i else a2 r c).
  exists a7, x', y', q1, p1. split.
  { eapply sext; [exact S1| |auto..]. intros r c Hr Hc. cbv beta. unfold a7, a2, b5. destruct (Nat.eqb_spec c i) as [->|Hci]; cbn [andb]; rewrite ?andb_true_r, ?andb_false_r.
    - destruct (Nat.eqb_spec r (i + 1)) as [->|]; [destruct (Nat.ltb_spec i (i + 1)); [auto|lia]|]. destruct (Nat.eqb_spec r i) as [->|].
      + destruct (Nat.ltb_spec i i); [lia|]. destruct (Nat.leb_spec i i); [|lia]. cbn [andb]. auto.
      + cbn [andb]. destruct (Nat.ltb_spec i r); auto. rewrite O5 by lia. rewrite B2o by lia. unfold b1. destruct (Nat.eqb_spec r i); [lia|]. reflexivity.
    - rewrite O5 by lia. unfold b2, b1. destruct (Nat.eqb_spec c i); [lia|]. rewrite andb_false_r. reflexivity. }
  replace (o + S i)%nat with (S (o + i)) by lia.
  assert (A7r : forall c, (i <= c)%nat -> a7 i c = conj (b i c)). { intros c Hc. unfold a7, a2. destruct (Nat.ltb_spec i i); [lia|]. rewrite andb_false_r, Nat.eqb_refl. destruct (Nat.leb_spec i c); [|lia]. reflexivity. }
  assert (A7c : forall r, (i < r)%nat -> a7 r i = b4 r i). { intros r Hr. unfold a7. rewrite Nat.eqb_refl. destruct (Nat.ltb_spec i r); [|lia]. reflexivity. }
  assert (Q7 : forall r, qvec (ctr (gm a7)) (o + i) (o + r)%nat = if (r <? i)%nat then 0 else b1 i r).
  { intros r. rewrite qvec_ct. destruct (Nat.ltb_spec r i); auto. rewrite Bq by lia. rewrite A7r, conj_conj by lia. destruct (_ =? _)%nat; auto. }
  apply (vt_next M N X0 ltac:(lia) o i (ctr (gm a)) (sh x) (sh y) (ctr (gm a7)) (sh x') (sh y') (gt p g1) (gt q g2) (gt p1 g1) (gt q1 g2)); auto; try lia.
  - rewrite Eg1. eapply refc_ext; [lia|exact R1'|auto|]. intros r Hr. cbv beta. unfold ctr. rewrite <- Nat.add_assoc, gm_in. rewrite A7r, conj_conj by lia. reflexivity.
  - intros r c Hr Hc K1 K2. unfold ctr. f_equal. unfold gm. destruct (Nat.leb_spec o r), (Nat.leb_spec o c); cbn [andb]; auto. unfold a7, a2.
    destruct (Nat.eqb_spec (r - o) i), (Nat.ltb_spec i (c - o)); cbn [andb]; try lia; destruct (Nat.eqb_spec (c - o) i), (Nat.leb_spec i (r - o)); cbn [andb]; try lia; apply O2; lia.
  - rewrite Eh1. eapply refc_ext; [lia|exact R2'|auto|]. intros c Hc. cbv beta. unfold ctr. replace (o + i + 1 + c)%nat with (o + (i + 1 + c))%nat by lia. rewrite gm_in. rewrite A7c by lia. rewrite conj_conj. reflexivity.
  - intros r Hr. unfold sh at 1. rewrite Y2 by lia. rewrite Eq1, Eh1. f_equal. replace N with ((o + i + 1) + (m - (i + 1)))%nat by lia. rewrite sum_shift.
    + replace (o + i + 1 + (m - (i + 1)))%nat with N by lia. apply sum_ext. intros c Hc. replace r with (o + (r - o))%nat at 2 3 by lia. replace (o + i + 1 + c)%nat with (o + (i + 1 + c))%nat by lia. rewrite subvec_ct, Q7, sh_in by lia.
      destruct (Nat.ltb_spec (r - o) i); [lia|]. change (vt N o i (ctr (gm a)) (sh x) (sh y) (o + (r - o))%nat (o + (i + 1 + c))%nat) with (V (r - o)%nat (i + 1 + c)%nat). f_equal.
      * rewrite <- (conj_conj (V _ _)), <- UV by lia. rewrite !conj_upd. rewrite (sum_split i 1). cbn [sum]. rewrite Nat.add_0_r.
        assert (E5 : forall r c, c <> i -> r <> i -> b5 r c = b1 r c). { intros r' c' Hc' Hr'. unfold b5. destruct (Nat.eqb_spec c' i); [lia|]. rewrite andb_false_r. rewrite O5 by lia. apply B2o. auto. }
        assert (E6 : b5 i (r - o)%nat = conj (b1 i (r - o)%nat)). { unfold b5. destruct (Nat.eqb_spec i (i + 1)); [lia|]. cbn [andb]. rewrite O5 by lia. apply B2i. lia. }
        rewrite E6, conj_conj. rewrite E5 by lia.
        rewrite (sum_ext i (fun l => conj (b5 (i + 1 + c)%nat l) * y (r - o)%nat l) (fun l => conj (b1 (i + 1 + c)%nat l) * y (r - o)%nat l)) by (intros l Hl; rewrite E5 by lia; auto).
        rewrite (sum_ext i (fun l => conj (x' (i + 1 + c)%nat l) * conj (b5 l (r - o)%nat)) (fun l => conj (x (i + 1 + c)%nat l) * conj (b1 l (r - o)%nat))) by (intros l Hl; rewrite E5, X1 by lia; auto). ring.
      * unfold b5. rewrite Nat.eqb_refl, andb_true_r. destruct (Nat.eqb_spec (i + 1 + c) (i + 1)); auto. destruct (Nat.ltb_spec (i + 1) (i + 1 + c)); [|lia]. rewrite A7c by lia. reflexivity.
    + intros c Hc. unfold subvec. destruct (Nat.eqb_spec c (o + i + 1)); [lia|]. destruct (Nat.ltb_spec (o + i + 1) c); [lia|]. cbn [andb]. ring.
  - intros c l Hc Hl. unfold sh. apply X1; lia.
  - intros r l Hr Hl. unfold sh. apply Y1; lia.
Qed.
End Wide.

End S.
End A.
