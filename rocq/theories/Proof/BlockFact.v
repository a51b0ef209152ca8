(** * Blocked orthogonal factorizations: geqrf, gelqf, geqlf, gerqf *)
From Coq Require Import Bool Arith ZArith Lia Reals Lra Ring Field.
From Verif.Core Require Import Scalar Prog View Slice Loops WorkEff Instances RealLaws.
From Verif.Spec Require Import LinAlg Outcome Norms Householder.
From Verif.Model Require Import Gemm Blas1 Blas2 Blas3 Legacy LaAux Norms Work Householder QGen QFact BlockQ.
From Verif.Proof Require Import SumLemmas SliceTac LegacyProof PotrfProof BlockAlg LarfProof LarfgProof QRProof WorkProof QGenProof QFactProof LarftProof LarfbProof BlockProof.
Local Open Scope T_scope.

Section P.
Context {E : Env} {FL : FieldLaws E} {CL : ConjLaws E} {OL : ROrdLaws E} {QL : EqbLaws E} {XL : CplxLaws E} {RL : RLaws E} {NL : FinLaws E}.
Add Field Tf : fth.

Lemma mprod_app m (H : nat -> mat) a b : forall r c, (r < m)%nat -> (c < m)%nat -> mprod m H (a + b) r c = mmul m (mprod m H a) (mprod m (fun u => H (a + u)%nat) b) r c.
Proof.
  induction b as [|b IH]; intros r c Hr Hc.
  - rewrite Nat.add_0_r. cbn [mprod]. rewrite mmul_id_r; auto.
  - rewrite Nat.add_succ_r. cbn [mprod]. rewrite mmul_assoc. apply mmul_ext; intros; auto.
Qed.

(** ** one block, in matrices *)
Section B.
Variables (sm : storev_t) (dir : direction_t) (A tau A1 tau1 : view) (work : lmat) (s : state) (t ib : nat).
Let m := nr A.
Let n := nc A.
Let M' := match sm with Columnwise => m | Rowwise => n end.
Let N' := match sm with Columnwise => n | Rowwise => m end.
Let k := Nat.min m n.
Let X (s1 : state) : mat := xof sm (val A s1).
Definition wa : nat := match dir with Forward => t | Backward => 0 end.
Definition wb (M : nat) : nat := match dir with Forward => M | Backward => M - t end.
Definition ca (N : nat) : nat := match dir with Forward => t | Backward => N - t - ib end.
Definition da : nat := match dir with Forward => t + ib | Backward => 0 end.
Definition db (N : nat) : nat := match dir with Forward => N | Backward => N - t - ib end.
Definition ta (K : nat) : nat := match dir with Forward => t | Backward => K - t - ib end.
Hypothesis Hib : (0 < ib)%nat.
Hypothesis Ht : (t + ib <= k)%nat.
Hypothesis E1 : match sm with Columnwise => nr A1 | Rowwise => nc A1 end = (wb M' - wa)%nat.
Hypothesis E2 : match sm with Columnwise => nc A1 | Rowwise => nr A1 end = ib.
Hypothesis E3 : forall s1 r c, (r < wb M' - wa)%nat -> (c < ib)%nat -> xof sm (val A1 s1) r c = X s1 (wa + r)%nat (ca N' + c)%nat.
Hypothesis E4 : forall s1 i, (i < ib)%nat -> vval tau1 s1 i = vval tau s1 (ta k + i)%nat.

Lemma kmin' : k = Nat.min M' N'.
Proof. unfold k, M', N', m, n. destruct sm; lia. Qed.
Lemma k_in : Nat.min (nr A1) (nc A1) = ib.
Proof.
  assert (H := kmin'). assert (Hi : (ib <= wb M' - wa)%nat) by (unfold wb, wa; destruct dir; lia). clear E3 Hib. destruct sm; lia.
Qed.
Lemma geo : (wa < wb M' <= M' /\ ib <= wb M' - wa /\ ca N' + ib <= N')%nat.
Proof. assert (H := kmin'). unfold wa, wb, ca. destruct dir; lia. Qed.
Lemma idx_in u : (u < ib)%nat -> idx dir A (t + u) = (ta k + idx dir A1 u)%nat.
Proof. intros Hu. assert (H := kmin'). unfold idx. rewrite k_in. fold m n. change (Nat.min m n) with k. unfold ta. destruct dir; lia. Qed.
Lemma idx_in_lt u : (u < ib)%nat -> (idx dir A1 u < ib)%nat.
Proof. intros Hu. unfold idx. rewrite k_in. destruct dir; lia. Qed.
Lemma ra_in i : (i < ib)%nat -> ra dir (ta k + i) = (wa + ra dir i)%nat.
Proof. intros Hi. unfold ra, ta, wa. destruct dir; lia. Qed.
Lemma rb_in i : (i < ib)%nat -> rb sm dir A (ta k + i) = (wa + rb sm dir A1 i)%nat /\ (ra dir i < rb sm dir A1 i)%nat /\ (rb sm dir A1 i <= wb M' - wa)%nat.
Proof.
  intros Hi. assert (H := kmin'). assert (G := geo). unfold rb, ra. rewrite k_in, E1. fold m n. change (Nat.min m n) with k. change (match sm with Columnwise => m | Rowwise => n end) with M'.
  unfold ta, wa, wb in *. destruct dir; lia.
Qed.
Lemma rc_in i : (i < ib)%nat -> rc sm dir A (ta k + i) = (ca N' + rc sm dir A1 i)%nat /\ rc sm dir A1 i = i.
Proof.
  intros Hi. assert (H := kmin'). unfold rc. rewrite k_in, E2. fold m n. change (Nat.min m n) with k. change (match sm with Columnwise => n | Rowwise => m end) with N'.
  unfold ta, ca. destruct dir; lia.
Qed.
Lemma Hr_in s1 i r c : (i < ib)%nat -> (r < M')%nat -> (c < M')%nat -> Hr sm dir A tau s1 (ta k + i) r c = embm wa (wb M') (Hr sm dir A1 tau1 s1 i) r c.
Proof.
  intros Hi Hr' Hc. unfold Hr. rewrite embm_refl. rewrite E4 by auto. rewrite ra_in by auto. destruct (rb_in i Hi) as (B1 & B2 & B3). destruct (rc_in i Hi) as [C1 C2]. rewrite B1, C1, C2.
  assert (G := geo). set (b := rb sm dir A1 i) in *. set (a := ra dir i) in *. clearbody a b.
  replace (wa + b - (wa + a))%nat with (b - a)%nat by lia.
  assert (HV : forall r, (r < M')%nat -> embw (wa + a) (wa + b) (hvec dir (b - a) (fun r0 => xof sm (val A s1) (wa + a + r0)%nat (ca N' + i)%nat)) r =
    embw wa (wb M') (embw a b (hvec dir (b - a) (fun r0 => xof sm (val A1 s1) (a + r0)%nat i))) r).
  { intros x Hx. unfold embw. destruct (Nat.leb_spec (wa + a) x), (Nat.ltb_spec x (wa + b)), (Nat.leb_spec wa x), (Nat.ltb_spec x (wb M')), (Nat.leb_spec a (x - wa)), (Nat.ltb_spec (x - wa) b); cbn [andb]; try lia; auto.
    unfold hvec. replace (x - (wa + a))%nat with (x - wa - a)%nat by lia. destruct (_ =? _)%nat; auto. rewrite E3 by lia. unfold X. replace (wa + (a + (x - wa - a)))%nat with (wa + a + (x - wa - a))%nat by lia. reflexivity. }
  apply refl_ext; apply HV; auto.
Qed.
(** the product of the reflectors of the block *)
Definition Gin (s1 : state) : mat := mprod (wb M' - wa) (fun u => Hr sm dir A1 tau1 s1 (idx dir A1 u)) ib.
Lemma Hblk s1 r c : (r < M')%nat -> (c < M')%nat -> mprod M' (fun u => Hr sm dir A tau s1 (idx dir A (t + u))) ib r c = embm wa (wb M') (Gin s1) r c.
Proof.
  intros Hr' Hc. assert (G := geo). unfold Gin. rewrite <- (embm_mprod M') by (auto; lia). apply mprod_ext; auto. intros u p q Hu Hp Hq. rewrite idx_in by auto. apply Hr_in; auto. apply idx_in_lt. auto.
Qed.
Lemma Hr_ext s1 s2 i : (i < k)%nat -> (forall r, (r < M')%nat -> X s2 r (rc sm dir A i) = X s1 r (rc sm dir A i)) -> vval tau s2 i = vval tau s1 i ->
  forall r c, (r < M')%nat -> (c < M')%nat -> Hr sm dir A tau s2 i r c = Hr sm dir A tau s1 i r c.
Proof.
  intros Hi HX Hta r c Hr' Hc. assert (H := kmin'). unfold Hr. rewrite Hta.
  assert (Gb : (rb sm dir A i <= M')%nat).
  { unfold rb. fold m n. change (Nat.min m n) with k. change (match sm with Columnwise => m | Rowwise => n end) with M'. destruct dir; lia. }
  apply refl_ext; unfold embw; match goal with |- (if ?c then _ else _) = _ => destruct c eqn:Ebb end; auto;
    apply andb_true_iff in Ebb; destruct Ebb as [F1 F2]; apply Nat.leb_le in F1; apply Nat.ltb_lt in F2; unfold hvec; destruct (_ =? _)%nat; auto; apply HX; lia.
Qed.
Lemma block_inv s1 s2 s3 :
  finv sm dir A tau work s t s1 -> finv sm dir A1 tau1 work s1 ib s2 ->
  (forall r j, (r < M')%nat -> (j < N')%nat -> ~ (wa <= r < wb M' /\ ca N' <= j < ca N' + ib)%nat -> X s2 r j = X s1 r j) ->
  (forall j, (j < k)%nat -> ~ (ta k <= j < ta k + ib)%nat -> vval tau s2 j = vval tau s1 j) ->
  (forall r j, (r < M')%nat -> (j < N')%nat -> ~ (wa <= r < wb M' /\ da <= j < db N')%nat -> X s3 r j = X s2 r j) ->
  (forall r j, (wa <= r < wb M')%nat -> (da <= j < db N')%nat -> X s3 r j = mmul (wb M' - wa) (ctr (Gin s2)) (fun l c => X s2 (wa + l)%nat c) (r - wa)%nat j) ->
  (forall j, (j < k)%nat -> (match dir with Forward => j < t + ib | Backward => ta k <= j end)%nat -> vval tau s3 j = vval tau s2 j) ->
  (forall l, ~ inview A l -> ~ inview tau l -> ~ inview (lview work) l -> mem s3 l = mem s1 l) -> imem s3 = imem s1 ->
  finv sm dir A tau work s (t + ib) s3.
Proof.
  intros (H1 & H2 & H3 & H4 & H5) (K1 & K2 & K3 & _ & _) F1 F2 F3 F4 F5 F6 F7. assert (G := geo). assert (Hk := kmin').
  fold m n in H1, H2, H3. change (match sm with Columnwise => m | Rowwise => n end) with M' in H1, H2. change (match sm with Columnwise => n | Rowwise => m end) with N' in H2.
  rewrite E1 in K1, K2. rewrite E2 in K2. change (unitary (wb M' - wa) (Gin s2)) in K1.
  assert (Hold : forall u, (u < t)%nat -> (forall r, (r < M')%nat -> X s3 r (rc sm dir A (idx dir A u)) = X s1 r (rc sm dir A (idx dir A u))) /\ vval tau s3 (idx dir A u) = vval tau s1 (idx dir A u)).
  { intros u Hu. unfold rc, idx. fold m n. change (Nat.min m n) with k. change (match sm with Columnwise => n | Rowwise => m end) with N'. split.
    - intros r Hr'. rewrite F3, F1; auto; unfold ca, da, db in *; destruct dir; lia.
    - rewrite F5, F2; auto; unfold ta in *; destruct dir; lia. }
  assert (Hidx : forall u, (u < k)%nat -> (idx dir A u < k)%nat) by (intros u Hu; unfold idx; fold m n; change (Nat.min m n) with k; destruct dir; lia).
  assert (HB3 : forall r c, (r < M')%nat -> (c < M')%nat -> mprod M' (fun u => Hr sm dir A tau s3 (idx dir A (t + u))) ib r c = embm wa (wb M') (Gin s2) r c).
  { intros r c Hr' Hc. rewrite <- Hblk by auto. apply mprod_ext; auto. intros u p q Hu Hp Hq. apply Hr_ext; auto; [apply Hidx; lia| |apply F5; [apply Hidx; lia|unfold idx, ta; fold m n; change (Nat.min m n) with k; destruct dir; lia]].
    intros x Hx. rewrite idx_in by auto. destruct (rc_in _ (idx_in_lt u Hu)) as [-> ->]. assert (Q1 := idx_in_lt u Hu). apply F3; auto; [lia|]. unfold ca, da, db in *. destruct dir; lia. }
  assert (EP : forall r c, (r < M')%nat -> (c < M')%nat -> mprod M' (fun u => Hr sm dir A tau s3 (idx dir A u)) (t + ib) r c = mmul M' (mprod M' (fun u => Hr sm dir A tau s1 (idx dir A u)) t) (embm wa (wb M') (Gin s2)) r c).
  { intros r c Hr' Hc. rewrite mprod_app by auto. apply mmul_ext; intros l Hl; [|apply HB3; auto]. apply mprod_ext; auto. intros u p q Hu Hp Hq. destruct (Hold u Hu) as [O1 O2]. apply Hr_ext; auto. apply Hidx. lia. }
  assert (UB : unitary M' (embm wa (wb M') (Gin s2))) by (apply unitary_embm; [lia|auto]).
  split; [|split; [|split; [|split]]].
  - fold m n. change (match sm with Columnwise => m | Rowwise => n end) with M'. eapply unitary_ext; [|apply (unitary_mul M' _ _ H1 UB)]. intros; symmetry; apply EP; auto.
  - fold m n. change (match sm with Columnwise => m | Rowwise => n end) with M'. change (match sm with Columnwise => n | Rowwise => m end) with N'.
    intros r j Hr' Hj. rewrite H2 by auto.
    transitivity (mmul M' (mmul M' (mprod M' (fun u => Hr sm dir A tau s1 (idx dir A u)) t) (embm wa (wb M') (Gin s2))) (masked (el sm dir A (t + ib)) (xof sm (val A s3))) r j);
      [|apply mmul_ext; intros l Hl; auto; symmetry; apply EP; auto].
    rewrite <- mmul_assoc. apply mmul_ext; intros l Hl; auto. clear r Hr'. rewrite embm_l by (auto; lia).
    unfold masked at 1. unfold el at 1. fold m n. change (match sm with Columnwise => m | Rowwise => n end) with M'. change (match sm with Columnwise => n | Rowwise => m end) with N'.
    assert (Cj : (ca N' <= j < ca N' + ib)%nat \/ (da <= j < db N')%nat \/ ((j < N')%nat /\ match dir with Forward => j < t | Backward => N' - t <= j end)%nat).
    { unfold ca, da, db in *. destruct dir; lia. }
    destruct Cj as [Cj|[Cj|Cj]].
    + replace (match dir with Forward => (j <? t) && (j <? l) | Backward => (N' - t <=? j) && (l + N' <? M' + j) end)%nat with false.
      2: { symmetry. unfold ca in *. destruct dir; apply andb_false_iff; left; [apply Nat.ltb_ge; lia|apply Nat.leb_gt; lia]. }
      destruct (win_spec wa (wb M') l) as [Hw|Hw].
      * assert (K2' := K2 (l - wa)%nat (j - ca N')%nat ltac:(lia) ltac:(lia)). rewrite E3 in K2' by lia. unfold X in K2'. replace (wa + (l - wa))%nat with l in K2' by lia. replace (ca N' + (j - ca N'))%nat with j in K2' by lia.
        rewrite K2'. unfold mmul. apply sum_ext. intros p Hp. f_equal. unfold masked, el. rewrite k_in || idtac. rewrite E1, E2. fold m n. change (match sm with Columnwise => m | Rowwise => n end) with M'. change (match sm with Columnwise => n | Rowwise => m end) with N'.
        replace (match dir with Forward => (j - ca N' <? ib) && (j - ca N' <? p) | Backward => (ib - ib <=? j - ca N') && (p + ib <? wb M' - wa + (j - ca N')) end)%nat with
          (match dir with Forward => (j <? t + ib) && (j <? wa + p) | Backward => (N' - (t + ib) <=? j) && (wa + p + N' <? M' + j) end)%nat.
        2: { unfold wa, wb, ca in *. destruct dir.
             - destruct (Nat.ltb_spec j (t + ib)), (Nat.ltb_spec j (t + p)), (Nat.ltb_spec (j - t) ib), (Nat.ltb_spec (j - t) p); try lia; auto.
             - destruct (Nat.leb_spec (N' - (t + ib)) j), (Nat.leb_spec (ib - ib) (j - (N' - t - ib))), (Nat.ltb_spec (0 + p + N') (M' + j)), (Nat.ltb_spec (p + ib) (M' - t - 0 + (j - (N' - t - ib)))); try lia; auto. }
        destruct (match dir with Forward => _ | Backward => _ end); auto. rewrite E3 by lia. replace (ca N' + (j - ca N'))%nat with j by lia. symmetry. apply F3; [lia|lia|]. unfold ca, da, db in *. destruct dir; lia.
      * unfold masked, el. fold m n. change (match sm with Columnwise => m | Rowwise => n end) with M'. change (match sm with Columnwise => n | Rowwise => m end) with N'.
        replace (match dir with Forward => (j <? t + ib) && (j <? l) | Backward => (N' - (t + ib) <=? j) && (l + N' <? M' + j) end)%nat with false.
        2: { symmetry. unfold ca, wa, wb in *. destruct dir; apply andb_false_iff; right; apply Nat.ltb_ge; lia. }
        change (X s1 l j = X s3 l j). rewrite F3, F1; auto; lia.
    + replace (match dir with Forward => (j <? t) && (j <? l) | Backward => (N' - t <=? j) && (l + N' <? M' + j) end)%nat with false.
      2: { symmetry. unfold da, db in *. destruct dir; apply andb_false_iff; left; [apply Nat.ltb_ge; lia|apply Nat.leb_gt; lia]. }
      assert (Ej : forall r, el sm dir A (t + ib) r j = false).
      { intros r. unfold el. change (match sm with Columnwise => nc A | Rowwise => nr A end) with N'. unfold da, db in *. destruct dir; apply andb_false_iff; left; [apply Nat.ltb_ge; lia|apply Nat.leb_gt; lia]. }
      assert (Nc : ~ (ca N' <= j < ca N' + ib)%nat) by (unfold ca, da, db in *; destruct dir; lia).
      destruct (win_spec wa (wb M') l) as [Hw|Hw].
      * symmetry. transitivity ((fun l c => X s2 (wa + l)%nat c) (l - wa)%nat j); [|cbv beta; replace (wa + (l - wa))%nat with l by lia; apply F1; auto; lia].
        apply (unitary_solve (wb M' - wa) (Gin s2) (fun l c => X s2 (wa + l)%nat c)); auto; [lia|]. intros p Hp. unfold masked. rewrite Ej. change (xof sm (val A s3) (wa + p)%nat j) with (X s3 (wa + p)%nat j). rewrite F4 by lia. f_equal. lia.
      * unfold masked. rewrite Ej. change (X s1 l j = X s3 l j). rewrite F3, F1; auto; lia.
    + assert (EX : forall r, (r < M')%nat -> X s3 r j = X s1 r j).
      { intros r Hr'. rewrite F3, F1; auto; unfold ca, da, db in *; destruct dir; lia. }
      assert (Ej : forall r, (wa <= r < wb M')%nat -> el sm dir A (t + ib) r j = true).
      { intros r Hr'. unfold el. change (match sm with Columnwise => nc A | Rowwise => nr A end) with N'. change (match sm with Columnwise => nr A | Rowwise => nc A end) with M'. unfold wa, wb in *.
        destruct dir; apply andb_true_iff; rewrite ?Nat.ltb_lt, ?Nat.leb_le; lia. }
      destruct (win_spec wa (wb M') l) as [Hw|Hw].
      * replace (match dir with Forward => (j <? t) && (j <? l) | Backward => (N' - t <=? j) && (l + N' <? M' + j) end)%nat with true.
        2: { symmetry. unfold wa, wb in *. destruct dir; apply andb_true_iff; rewrite ?Nat.ltb_lt, ?Nat.leb_le; lia. }
        symmetry. apply mmul_0_r. intros p Hp. unfold masked. rewrite Ej by lia. auto.
      * unfold masked, el. fold m n. change (match sm with Columnwise => m | Rowwise => n end) with M'. change (match sm with Columnwise => n | Rowwise => m end) with N'.
        replace (match dir with Forward => (j <? t + ib) && (j <? l) | Backward => (N' - (t + ib) <=? j) && (l + N' <? M' + j) end)%nat with
          (match dir with Forward => (j <? t) && (j <? l) | Backward => (N' - t <=? j) && (l + N' <? M' + j) end)%nat.
        2: { destruct dir; f_equal; [destruct (Nat.ltb_spec j t), (Nat.ltb_spec j (t + ib))|destruct (Nat.leb_spec (N' - t) j), (Nat.leb_spec (N' - (t + ib)) j)]; try lia; auto. }
        destruct (match dir with Forward => _ | Backward => _ end); auto. symmetry. apply EX. auto.
  - intros u Hu. cbv zeta. destruct (Nat.lt_ge_cases u t) as [Hl|Hl].
    + destruct (Hold u Hl) as [O1 _]. fold (X s3).
      assert (Gu : (ra dir (idx dir A u) + hpos dir (rb sm dir A (idx dir A u) - ra dir (idx dir A u)) < M')%nat).
      { assert (Q := Hidx u ltac:(lia)). unfold ra, rb, hpos. fold m n. change (Nat.min m n) with k. change (match sm with Columnwise => m | Rowwise => n end) with M'. destruct dir; lia. }
      rewrite O1 by auto. apply H3. auto.
    + replace u with (t + (u - t))%nat by lia. assert (Hu' : (u - t < ib)%nat) by lia. rewrite idx_in by auto. assert (Q := idx_in_lt _ Hu').
      assert (K3' := K3 _ Hu'). cbv zeta in K3'. set (i := idx dir A1 (u - t)) in *. rewrite ra_in by auto. destruct (rb_in i Q) as (B1 & B2 & B3). destruct (rc_in i Q) as [C1 C2]. rewrite B1, C1, C2 in *.
      replace (wa + rb sm dir A1 i - (wa + ra dir i))%nat with (rb sm dir A1 i - ra dir i)%nat by lia.
      assert (Hp := hpos_lt dir (rb sm dir A1 i - ra dir i) ltac:(lia)). rewrite E3 in K3' by lia.
      replace (wa + ra dir i + hpos dir (rb sm dir A1 i - ra dir i))%nat with (wa + (ra dir i + hpos dir (rb sm dir A1 i - ra dir i)))%nat by lia.
      change (xof sm (val A s3)) with (X s3). rewrite F3; auto; [lia|lia|]. unfold ca, da, db in *. destruct dir; lia.
  - intros l L1 L2 L3. rewrite F6 by auto. apply H4; auto.
  - congruence.
Qed.
End B.

(** ** the block reflector, in the coordinates of X *)
Lemma wp_seq_inv {V V' : Type} (a : M V) (b : V -> M V') Q X s : wp (v <- a;; b v) Q X s -> wp a (fun v s' => wp (b v) Q X s') X s.
Proof. unfold wp, bind. destruct (a s); auto. Qed.
Definition xside (sm : storev_t) : side_t := match sm with Columnwise => Left | Rowwise => Right end.
Definition xtrans (sm : storev_t) : op_t := match sm with Columnwise => ConjTrans | Rowwise => NoTrans end.
Lemma vprod_Hr sm dir A1 tau1 s2 r c : let Mi := match sm with Columnwise => nr A1 | Rowwise => nc A1 end in let ib := match sm with Columnwise => nc A1 | Rowwise => nr A1 end in
  (ib <= Mi)%nat -> (r < Mi)%nat -> (c < Mi)%nat ->
  vprod dir sm Mi ib (val A1 s2) (vval tau1 s2) r c = mprod Mi (fun u => Hr sm dir A1 tau1 s2 (idx dir A1 u)) ib r c.
Proof.
  intros Mi ib Hib Hr' Hc. assert (K : Nat.min (nr A1) (nc A1) = ib) by (unfold Mi, ib in *; destruct sm; lia).
  unfold vprod. rewrite <- K. unfold Mi in *. rewrite (hprod_idx sm dir A1) by auto. rewrite K. apply mprod_ext; auto. intros u p q Hu Hp Hq. unfold Hr.
  assert (Hi : (idx dir A1 u < ib)%nat) by (unfold idx; rewrite K; destruct dir; lia).
  assert (HV : forall x, (x < match sm with Columnwise => nr A1 | Rowwise => nc A1 end)%nat -> rvec dir sm (match sm with Columnwise => nr A1 | Rowwise => nc A1 end) ib (val A1 s2) (idx dir A1 u) x =
    embw (ra dir (idx dir A1 u)) (rb sm dir A1 (idx dir A1 u)) (hvec dir (rb sm dir A1 (idx dir A1 u) - ra dir (idx dir A1 u)) (fun r0 => xof sm (val A1 s2) (ra dir (idx dir A1 u) + r0)%nat (rc sm dir A1 (idx dir A1 u)))) x).
  { intros x Hx. rewrite <- rvec_X by (rewrite ?K; auto). rewrite K. unfold rvec. destruct (_ =? _)%nat; auto. destruct (match dir with Forward => _ | Backward => _ end); auto.
    unfold stored. unfold ib in *. destruct sm, dir; auto; f_equal; try f_equal; lia. }
  apply refl_ext; apply HV; auto.
Qed.
Lemma blk_X sm dir A1 tau1 TT1 A2 work2 s2 Mi Nr ib :
  match sm with Columnwise => nr A1 = Mi /\ nc A1 = ib /\ nr A2 = Mi /\ nc A2 = Nr | Rowwise => nc A1 = Mi /\ nr A1 = ib /\ nc A2 = Mi /\ nr A2 = Nr end ->
  (ib <= Mi)%nat -> nr tau1 = ib -> nc tau1 = 1%nat -> nr TT1 = ib -> nc TT1 = ib -> vinj A2 -> vinj TT1 -> disj A1 A2 -> disj A1 TT1 -> disj tau1 TT1 -> disj A2 TT1 ->
  lok work2 -> contiguous work2 = true -> (ib * Nr <= lm work2 * ln work2)%nat -> disj A1 (lview work2) -> disj TT1 (lview work2) -> disj A2 (lview work2) ->
  wp (larft dir sm A1 tau1 TT1;; larfb_work (xside sm) (xtrans sm) dir sm A1 TT1 A2 work2) (fun _ s3 =>
    (forall r j, (r < Mi)%nat -> (j < Nr)%nat -> xof sm (val A2 s3) r j = mmul Mi (ctr (mprod Mi (fun u => Hr sm dir A1 tau1 s2 (idx dir A1 u)) ib)) (xof sm (val A2 s2)) r j) /\
    (forall l, ~ inview A2 l -> ~ inview TT1 l -> ~ inview (lview work2) l -> mem s3 l = mem s2 l) /\ imem s3 = imem s2) noX s2.
Proof.
  intros HS Hib T1 T2 T3 T4 I1 I2 D1 D2 D3 D4 W1 W2 W3 D5 D6 D7.
  assert (HV := fun r c => vprod_Hr sm dir A1 tau1 s2 r c). cbv zeta in HV.
  destruct sm; destruct HS as (S1 & S2 & S3 & S4); cbn [xside xtrans]; rewrite S1, S2 in HV.
  - eapply wp_conseq; [apply (blk_apply Left ConjTrans dir Columnwise A1 tau1 TT1 A2 work2 s2); cbn [sel]; rewrite ?S1, ?S2, ?S3, ?S4, ?T1; auto; [exact I|]| |auto].
    + right. right. right. apply wkm_ok_contig; auto.
    + intros z s3 HL. cbv beta in HL. destruct HL as (L1 & L2 & L3). split; [|split; auto].
      * intros r j Hr' Hj. cbn [xof]. rewrite L1 by lia. unfold rapply. cbn [sel]. rewrite S3, T1. apply mmul_ext; intros l Hl; auto. cbn [opm]. unfold ctr. f_equal. apply HV; auto.
      * intros l H1 H2 H3. apply L2; tauto.
  - eapply wp_conseq; [apply (blk_apply Right NoTrans dir Rowwise A1 tau1 TT1 A2 work2 s2); cbn [sel]; rewrite ?S1, ?S2, ?S3, ?S4, ?T1; auto; [exact I|]| |auto].
    + right. right. right. apply wkm_ok_contig; auto. lia.
    + intros z s3 HL. cbv beta in HL. destruct HL as (L1 & L2 & L3). split; [|split; auto].
      * intros r j Hr' Hj. cbn [xof]. unfold ctr at 1. rewrite L1 by lia. unfold rapply. cbn [sel]. rewrite S3, T1.
        transitivity (ctr (mmul Mi (val A2 s2) (opm NoTrans (vprod dir Rowwise Mi ib (val A1 s2) (vval tau1 s2)))) r j); [reflexivity|]. rewrite ctr_mmul. apply mmul_ext; intros l Hl; auto.
        cbn [opm]. unfold ctr. f_equal. apply HV; auto.
      * intros l H1 H2 H3. apply L2; tauto.
Qed.

(** ** the loop body, for all four routines *)
Definition bsub (sm : storev_t) (A : view) (a b c d : nat) : view := match sm with Columnwise => subv A a b c d | Rowwise => subv A c d a b end.
Definition bslc (sm : storev_t) (A : view) (a b c d : nat) : M view := match sm with Columnwise => slc A a b c d | Rowwise => slc A c d a b end.
Definition bstep (f2 : view -> view -> lmat -> M Z) (sm : storev_t) (dir : direction_t) (A tau : view) (work : lmat) (TT : view) (work2 : lmat) (cond : bool) (a b c d0 d1 i0 ib : nat) : M (option Z) :=
  A11 <- bslc sm A a b c (c + ib);;
  tauw1 <- slvec tau i0 (i0 + ib);;
  f2 A11 tauw1 work;;
  (if cond then
     TT1 <- slc TT 0 ib 0 ib;;
     larft dir sm A11 tauw1 TT1;;
     A12 <- bslc sm A a b d0 d1;;
     larfb_work (xside sm) (xtrans sm) dir sm A11 TT1 A12 work2;;
     ret tt
   else ret tt);;
  ret None.
Section S.
Variables (st bt hsm : R) (f2 : view -> view -> lmat -> M Z) (sm : storev_t) (dir : direction_t) (A tau : view) (work : lmat) (TT : view) (work2 : lmat) (s : state).
Hypothesis HI : vinj A.
Hypothesis HIt : vinj tau.
Hypothesis Ht1 : nc tau = 1%nat.
Hypothesis HD : disj A tau.
Let m := nr A.
Let n := nc A.
Let M' := match sm with Columnwise => m | Rowwise => n end.
Let N' := match sm with Columnwise => n | Rowwise => m end.
Let k := Nat.min m n.
Hypothesis Hlen : (k <= nr tau)%nat.
Hypothesis HwA : disj (lview work) A.
Hypothesis Hwt : disj (lview work) tau.
Let X (s1 : state) : mat := xof sm (val A s1).
Hypothesis Hnorm : forall c, (c < N')%nat -> (vsq M' (fun r => X s r c) <= bt * bt)%R.
Hypothesis Hf2 : forall A1 tau1 s1, vinj A1 -> vinj tau1 -> nc tau1 = 1%nat -> disj A1 tau1 -> (Nat.min (nr A1) (nc A1) <= nr tau1)%nat -> disj (lview work) A1 -> disj (lview work) tau1 ->
  (forall c, (c < match sm with Columnwise => nc A1 | Rowwise => nr A1 end)%nat -> (vsq (match sm with Columnwise => nr A1 | Rowwise => nc A1 end) (fun r => xof sm (val A1 s1) r c) <= bt * bt)%R) ->
  (nr A1 <= 1 \/ nc A1 <= 1 \/ (lok work /\ contiguous work = true /\ (match sm with Columnwise => nc A1 | Rowwise => nr A1 end) - 1 <= lm work * ln work))%nat ->
  wp (f2 A1 tau1 work) (fun z s' => z = 0%Z /\ finv sm dir A1 tau1 work s1 (Nat.min (nr A1) (nc A1)) s') noX s1.
Variable nb : nat.
Hypothesis Hnb : (0 < nb <= k)%nat.
Hypothesis Hw1 : (m <= 1 \/ n <= 1 \/ (lok work /\ contiguous work = true /\ nb - 1 <= lm work * ln work))%nat.
Hypothesis Hw2 : (nb < N')%nat -> nr TT = nb /\ nc TT = nb /\ vinj TT /\ disj TT (lview work2) /\ lok work2 /\ contiguous work2 = true /\ (nb * (N' - nb) <= lm work2 * ln work2)%nat /\
  (forall l, inview TT l -> inview (lview work) l) /\ (forall l, inview (lview work2) l -> inview (lview work) l).

Lemma bsub_geo a b c d : (a <= b <= M')%nat -> (c <= d <= N')%nat -> let B := bsub sm A a b c d in
  match sm with Columnwise => nr B = b - a /\ nc B = d - c | Rowwise => nc B = b - a /\ nr B = d - c end%nat /\ vinj B /\ (forall l, inview B l -> inview A l) /\
  (forall s1 r j, xof sm (val B s1) r j = X s1 (a + r)%nat (c + j)%nat) /\
  (forall r j, (r < M')%nat -> (j < N')%nat -> ~ (a <= r < b /\ c <= j < d)%nat -> ~ inview B (match sm with Columnwise => ad A r j | Rowwise => ad A j r end)).
Proof.
  intros Hab Hcd B. unfold B, bsub, X, M', N', m, n in *. clear Hnorm Hf2 Hw1 Hw2. destruct sm; cbn [nr nc subv]; repeat (match goal with |- _ /\ _ => split end); auto;
  try (intros x y x' y' H1 H2 H3 H4 e; cbn [nr nc ad subv] in *; apply HI in e; lia).
  - intros l Hl. eapply inview_subv; [| |exact Hl]; lia.
  - intros r j Hr' Hj Hn (x & y & Hx & Hy & e). cbn [nr nc ad subv] in *. apply HI in e; lia.
  - intros l Hl. eapply inview_subv; [| |exact Hl]; lia.
  - intros r j Hr' Hj Hn (x & y & Hx & Hy & e). cbn [nr nc ad subv] in *. apply HI in e; lia.
Qed.
Lemma wp_bslc a b c d (Q : view -> state -> Prop) X0 s1 : (a <= b <= M')%nat -> (c <= d <= N')%nat -> Q (bsub sm A a b c d) s1 -> wp (bslc sm A a b c d) Q X0 s1.
Proof. intros Hab Hcd HQ. unfold bslc, bsub, M', N', m, n in *. clear Hnorm Hf2 Hw1 Hw2. destruct sm; apply wp_slc; auto; lia. Qed.
Lemma X_mem s1 s2 r j : (mem s2 (match sm with Columnwise => ad A r j | Rowwise => ad A j r end) = mem s1 (match sm with Columnwise => ad A r j | Rowwise => ad A j r end)) -> X s2 r j = X s1 r j.
Proof. unfold X. destruct sm; cbn [xof]; [|unfold ctr; intros; f_equal]; auto. Qed.
Lemma X_in r j : (r < M')%nat -> (j < N')%nat -> inview A (match sm with Columnwise => ad A r j | Rowwise => ad A j r end).
Proof. intros Hr' Hj. unfold M', N', m, n in *. clear Hnorm Hf2 Hw1 Hw2. destruct sm; [exists r, j|exists j, r]; auto. Qed.

Lemma vsub_geo a b : (a <= b <= nr tau)%nat -> vinj (Slice.vsub tau a b) /\ (forall l, inview (Slice.vsub tau a b) l -> inview tau l) /\
  (forall j, (j < nr tau)%nat -> ~ (a <= j < b)%nat -> ~ inview (Slice.vsub tau a b) (ad tau j 0)).
Proof.
  intros Hab. split; [|split].
  - intros x y x' y' H1 H2 H3 H4 e. cbn [nr nc ad Slice.vsub] in *. apply HIt in e; lia.
  - intros l Hl. eapply inview_vsub; [| |exact Hl]; lia.
  - intros j Hj Hn (x & y & Hx & Hy & e). cbn [nr nc ad Slice.vsub] in *. apply HIt in e; lia.
Qed.
Lemma bstep_run cond t s1 : (t < k)%nat -> finv sm dir A tau work s t s1 -> let ib := Nat.min nb (k - t) in
  (cond = true -> da dir t ib < db dir t ib N')%nat -> (cond = false -> db dir t ib N' <= da dir t ib)%nat ->
  wp (bstep f2 sm dir A tau work TT work2 cond (wa dir t) (wb dir t M') (ca dir t ib N') (da dir t ib) (db dir t ib N') (ta dir t ib k) ib)
    (fun r s' => r = None /\ finv sm dir A tau work s (Nat.min (t + nb) k) s') noX s1.
Proof.
  intros Ht Hinv ib Hc1 Hc2. replace (Nat.min (t + nb) k) with (t + ib)%nat by (unfold ib; lia).
  assert (Hib : (0 < ib)%nat) by (unfold ib; lia). assert (Htb : (t + ib <= k)%nat) by (unfold ib; lia). assert (Hibn : (ib <= nb)%nat) by (unfold ib; lia).
  assert (HNr : (N' - t - ib <= N' - nb)%nat) by (unfold ib; lia).
  assert (Hk : k = Nat.min M' N') by (unfold k, M', N', m, n; clear Hnorm Hf2 Hw1 Hw2; destruct sm; lia).
  clearbody ib.
  set (a := wa dir t) in *. set (b := wb dir t M') in *. set (c := ca dir t ib N') in *. set (d0 := da dir t ib) in *. set (d1 := db dir t ib N') in *. set (i0 := ta dir t ib k) in *.
  assert (Ga : (a < b <= M' /\ ib <= b - a)%nat) by (unfold a, b, wa, wb; destruct dir; lia).
  assert (Gc : (c + ib <= N')%nat) by (unfold c, ca; destruct dir; lia).
  assert (Gd : (d0 <= d1 <= N' /\ d1 - d0 = N' - t - ib /\ (c + ib <= d0 \/ d1 <= c))%nat) by (unfold d0, d1, c, da, db, ca; destruct dir; lia).
  assert (Gi : (i0 + ib <= k)%nat) by (unfold i0, ta; destruct dir; lia).
  destruct (bsub_geo a b c (c + ib) ltac:(lia) ltac:(lia)) as (B1 & B2 & B3 & B4 & B5). replace (c + ib - c)%nat with ib in B1 by lia.
  destruct (bsub_geo a b d0 d1 ltac:(lia) ltac:(lia)) as (C1 & C2 & C3 & C4 & C5).
  destruct (vsub_geo i0 (i0 + ib) ltac:(lia)) as (V1 & V2 & V3).
  assert (D12 : disj (bsub sm A a b c (c + ib)) (bsub sm A a b d0 d1)).
  { clear - HI Gd Ga Gc. unfold bsub, M', N', m, n in *. destruct sm; intros x y x' y' H1 H2 H3 H4 e; cbn [nr nc ad subv] in *; apply HI in e; lia. }
  unfold bstep. apply wp_bind. apply wp_bslc; [lia|lia|]. apply wp_bind. apply wp_slvec; [lia|lia|].
  set (A1 := bsub sm A a b c (c + ib)) in *. set (A2 := bsub sm A a b d0 d1) in *. set (tau1 := Slice.vsub tau i0 (i0 + ib)) in *.
  assert (E1 : match sm with Columnwise => nr A1 | Rowwise => nc A1 end = (b - a)%nat) by (clear - B1; destruct sm; lia).
  assert (E2 : match sm with Columnwise => nc A1 | Rowwise => nr A1 end = ib) by (clear - B1; destruct sm; lia).
  assert (Kin : Nat.min (nr A1) (nc A1) = ib) by (clear - B1 Ga; destruct sm; lia).
  assert (Ntau1 : nr tau1 = ib) by (unfold tau1; cbn [nr Slice.vsub]; lia).
  assert (Dw1 : disj (lview work) A1) by (eapply disj_inc; [| |exact HwA]; auto).
  assert (Dw2 : disj (lview work) A2) by (eapply disj_inc; [| |exact HwA]; auto).
  assert (Dwt : disj (lview work) tau1) by (eapply disj_inc; [| |exact Hwt]; auto).
  apply wp_bind. eapply wp_use.
  { apply (Hf2 A1 tau1 s1); auto.
    - eapply disj_inc; [| |exact HD]; auto.
    - rewrite Kin, Ntau1. auto.
    - rewrite E1, E2. intros j Hj. rewrite (vsq_ext _ _ (fun r => X s1 (a + r)%nat (c + j)%nat)) by (intros; apply B4).
      eapply Rle_trans; [|apply (finv_norm bt sm dir A tau work s) with (t := t) (s1 := s1) (c := (c + j)%nat); auto].
      + eapply Rle_trans; [|apply (vsq_head b M'); lia]. apply (vsq_tail a b (fun r => X s1 r (c + j)%nat)). lia.
      + fold m n. change (match sm with Columnwise => n | Rowwise => m end) with N'. lia.
      + fold m n. change (match sm with Columnwise => n | Rowwise => m end) with N'. unfold c, ca in *. destruct dir; lia.
    - rewrite E2. assert (Hw1' : (k <= 1 \/ (lok work /\ contiguous work = true /\ nb - 1 <= lm work * ln work))%nat) by (destruct Hw1 as [|[|]]; [left; unfold k; lia..|auto]).
      destruct Hw1' as [Hle|(W1 & W2 & W3)].
      + assert (nr A1 <= 1 \/ nc A1 <= 1)%nat as [J|J]; [|left; exact J|right; left; exact J]. assert (J : (ib = 1)%nat) by lia. clear - B1 J. destruct sm; lia.
      + right. right. repeat split; auto. lia. }
  intros z s2 HL. cbv beta in HL. destruct HL as [-> HL]. rewrite Kin in HL. pose proof HL as (_ & _ & _ & L4 & L5).
  assert (FX : forall r j, (r < M')%nat -> (j < N')%nat -> ~ (a <= r < b /\ c <= j < c + ib)%nat -> X s2 r j = X s1 r j).
  { intros r j Hr' Hj Hn. apply X_mem. apply L4; [apply B5; auto| |].
    - intros Hin. apply V2 in Hin. revert Hin. apply (nin_disj A tau); auto. apply X_in; auto.
    - apply (nin_disj A (lview work)); [apply disj_sym; auto|]. apply X_in; auto. }
  assert (Ft : forall j, (j < k)%nat -> ~ (i0 <= j < i0 + ib)%nat -> vval tau s2 j = vval tau s1 j).
  { intros j Hj Hn. apply L4; [|apply V3; auto; lia|].
    - intros Hin. apply B3 in Hin. revert Hin. apply nin; [apply disj_sym; auto|lia|lia].
    - apply nin; [apply disj_sym; auto|lia|lia]. }
  assert (FIN : forall s3, (forall r j, (r < M')%nat -> (j < N')%nat -> ~ (a <= r < b /\ d0 <= j < d1)%nat -> X s3 r j = X s2 r j) ->
    (forall r j, (a <= r < b)%nat -> (d0 <= j < d1)%nat -> X s3 r j = mmul (b - a) (ctr (mprod (b - a) (fun u => Hr sm dir A1 tau1 s2 (idx dir A1 u)) ib)) (fun l c => X s2 (a + l)%nat c) (r - a)%nat j) ->
    (forall j, (j < k)%nat -> vval tau s3 j = vval tau s2 j) ->
    (forall l, ~ inview A l -> ~ inview tau l -> ~ inview (lview work) l -> mem s3 l = mem s2 l) -> imem s3 = imem s2 -> finv sm dir A tau work s (t + ib) s3).
  { intros s3 G1 G2 G3 G4 G5. apply (block_inv sm dir A tau A1 tau1 work s t ib Hib Htb) with (s1 := s1) (s2 := s2); auto.
    - intros s0 r j Hr' Hj. apply B4.
    - intros l N1 N2 N3. rewrite G4 by auto. apply L4; auto.
    - congruence. }
  assert (Fin : forall s3, finv sm dir A tau work s (t + ib) s3 -> wp (ret (@None Z)) (fun r s' => r = None /\ finv sm dir A tau work s (t + ib) s') noX s3) by (intros; apply wp_ret; auto).
  apply wp_bind. destruct cond.
  - specialize (Hc1 eq_refl). destruct Hw2 as (W1 & W2 & W3 & W4 & W5 & W6 & W7 & W8 & W9); [lia|].
    apply wp_bind. apply wp_slc; [lia..|]. set (TT1 := subv TT 0 ib 0 ib).
    assert (I1 : forall l, inview TT1 l -> inview TT l) by (intros l Hl; eapply inview_subv; [| |exact Hl]; lia).
    apply wp_bind. eapply wp_conseq; [eapply (wp_seq_inv (V := Z) (V' := Z)); apply (blk_X sm dir A1 tau1 TT1 A2 work2 s2 (b - a) (d1 - d0) ib)| |auto].
    + clear - B1 C1. destruct sm; lia.
    + lia.
    + auto.
    + reflexivity.
    + unfold TT1. cbn [nr subv]. lia.
    + unfold TT1. cbn [nc subv]. lia.
    + auto.
    + unfold TT1. apply vinj_subv; auto; lia.
    + auto.
    + eapply disj_inc; [| |apply disj_sym; exact Dw1]; auto.
    + eapply disj_inc; [| |apply disj_sym; exact Dwt]; auto.
    + eapply disj_inc; [| |apply disj_sym; exact Dw2]; auto.
    + auto.
    + auto.
    + etransitivity; [|exact W7]. apply Nat.mul_le_mono; lia.
    + eapply disj_inc; [| |apply disj_sym; exact Dw1]; auto.
    + eapply disj_inc; [| |exact W4]; auto.
    + eapply disj_inc; [| |apply disj_sym; exact Dw2]; auto.
    + intros z' s2' HL'. cbv beta in HL'. apply wp_bind. apply wp_bslc; [lia|lia|]. change (bsub sm A a b d0 d1) with A2. apply wp_bind. eapply wp_conseq; [exact HL'| |auto].
      intros z2 s3 (Z1 & Z2 & Z3). apply wp_ret. apply Fin. apply FIN; auto.
      * intros r j Hr' Hj Hn. apply X_mem. apply Z2; [apply C5; auto|intros Hin|intros Hin];
        [apply I1, W8 in Hin|apply W9 in Hin]; revert Hin; (apply (nin_disj A (lview work)); [apply disj_sym; auto|]; apply X_in; auto).
      * intros r j Hr' Hj. replace r with (a + (r - a))%nat at 1 by lia. replace j with (d0 + (j - d0))%nat at 1 by lia. rewrite <- C4. rewrite Z1 by lia.
        unfold mmul. apply sum_ext; intros l Hl. rewrite C4. do 2 f_equal. lia.
      * intros j Hj. apply Z2; intros Hin; [apply C3 in Hin|apply I1, W8 in Hin|apply W9 in Hin]; revert Hin; (apply nin; [apply disj_sym; auto|lia|lia]).
      * intros l N1 N2 N3. apply Z2; auto.
  - specialize (Hc2 eq_refl). apply wp_ret. apply Fin. apply FIN; auto. intros; lia.
Qed.
End S.

(** ** the four routines *)
Lemma bfact_run bt f2 sm dir A tau work s fuel nbo (stp : view -> lmat -> nat -> M (option Z)) (cond : nat -> bool) :
  let m := nr A in let n := nc A in let k := Nat.min m n in let nb := Nat.min nbo k in
  let M' := match sm with Columnwise => m | Rowwise => n end in
  let N' := match sm with Columnwise => n | Rowwise => m end in
  vinj A -> vinj tau -> nc tau = 1%nat -> disj A tau -> (k <= nr tau)%nat -> disj (lview work) A -> disj (lview work) tau ->
  (forall c, (c < N')%nat -> (vsq M' (fun r => xof sm (val A s) r c) <= bt * bt)%R) ->
  (forall A1 tau1 s1, vinj A1 -> vinj tau1 -> nc tau1 = 1%nat -> disj A1 tau1 -> (Nat.min (nr A1) (nc A1) <= nr tau1)%nat -> disj (lview work) A1 -> disj (lview work) tau1 ->
  (forall c, (c < match sm with Columnwise => nc A1 | Rowwise => nr A1 end)%nat -> (vsq (match sm with Columnwise => nr A1 | Rowwise => nc A1 end) (fun r => xof sm (val A1 s1) r c) <= bt * bt)%R) ->
  (nr A1 <= 1 \/ nc A1 <= 1 \/ (lok work /\ contiguous work = true /\ (match sm with Columnwise => nc A1 | Rowwise => nr A1 end) - 1 <= lm work * ln work))%nat ->
  wp (f2 A1 tau1 work) (fun z s' => z = 0%Z /\ finv sm dir A1 tau1 work s1 (Nat.min (nr A1) (nc A1)) s') noX s1) ->
  (0 < nbo \/ k = 0)%nat -> lok work -> contiguous work = true ->
  (if (nb <? N')%nat then nb * N' <= lm work * ln work else m <= 1 \/ n <= 1 \/ N' - 1 <= lm work * ln work)%nat ->
  (k <= fuel)%nat ->
  (forall TT work2 t, (t < k)%nat -> let ib := Nat.min nb (k - t) in
     stp TT work2 t = bstep f2 sm dir A tau work TT work2 (cond t) (wa dir t) (wb dir t M') (ca dir t ib N') (da dir t ib) (db dir t ib N') (ta dir t ib k) ib /\
     (cond t = true -> da dir t ib < db dir t ib N')%nat /\ (cond t = false -> db dir t ib N' <= da dir t ib)%nat) ->
  wp (check (negb (nr tau <? k)%nat);;
      tw <- (if (nb <? N')%nat then wk_mat work nb nb else wk_mat work 0 0);;
      blkret fuel 0 k nb (stp (fst tw) (snd tw));; ret 0%Z) (fun z s' => z = 0%Z /\ finv sm dir A tau work s k s') noX s.
Proof.
  intros m n k nb M' N' HI HIt Ht1 HD Hlen HwA Hwt Hnorm Hf2 Hnbo W1 W2 Hsz Hfuel Hstp.
  assert (Hk : k = Nat.min M' N') by (unfold k, M', N', m, n; destruct sm; lia).
  apply wp_bind, wp_check; [apply negb_true_iff, Nat.ltb_ge; auto|].
  apply wp_bind.
  assert (LOOP : forall TT work2, ((nb < N')%nat -> nr TT = nb /\ nc TT = nb /\ vinj TT /\ disj TT (lview work2) /\ lok work2 /\ contiguous work2 = true /\ (nb * (N' - nb) <= lm work2 * ln work2)%nat /\
    (forall l, inview TT l -> inview (lview work) l) /\ (forall l, inview (lview work2) l -> inview (lview work) l)) ->
    wp (blkret fuel 0 k nb (stp TT work2);; ret 0%Z) (fun z s' => z = 0%Z /\ finv sm dir A tau work s k s') noX s).
  { intros TT work2 HTT. apply wp_bind. destruct (Nat.eq_dec k 0) as [Ek|Ek].
    { rewrite Ek. destruct fuel; cbn [blkret]; rewrite Nat.ltb_irrefl; apply wp_ret; apply wp_ret; split; auto; apply finv_0. }
    apply (wp_blkret _ (fun t s1 => finv sm dir A tau work s t s1)); [lia|lia|apply finv_0| |].
    - intros t s1 Ht Hinv. destruct (Hstp TT work2 t Ht) as (-> & C1 & C2).
      eapply wp_conseq; [apply (bstep_run bt f2 sm dir A tau work TT work2 s HI HIt Ht1 HD Hlen HwA Hwt Hnorm Hf2 nb); auto; [fold m n; change (Nat.min m n) with k; lia|]| |auto].
      + fold m n. destruct (Nat.ltb_spec nb N'); [right; right; repeat split; auto; nia|]. destruct Hsz as [|[|]]; auto. right. right. repeat split; auto. lia.
      + intros r s' [-> HL]. auto.
    - intros s' HL. apply wp_ret. auto. }
  destruct (Nat.ltb_spec nb N') as [Hlt|Hge].
  - apply wp_wk_matc; auto; [nia|]. intros w r Q1 Q2 Q3 Q4 Q5 Q6 Q7 Q8 Q9. cbn [fst snd]. apply LOOP. intros _. do 6 (split; [assumption|]). split; [|split; assumption]. rewrite Q7. rewrite Nat.mul_sub_distr_l. lia.
  - apply wp_wk_matc; auto; [lia|]. intros w r Q1 Q2 Q3 Q4 Q5 Q6 Q7 Q8 Q9. cbn [fst snd]. apply LOOP. lia.
Qed.
Section W.
Variables (h : hconst) (st bt hsm : R) (nbo : nat) (A tau : view) (work : lmat) (s : state).
Hypothesis Hh : hconst_ok h st bt hsm.
Hypothesis HI : vinj A.
Hypothesis HIt : vinj tau.
Hypothesis Ht1 : nc tau = 1%nat.
Hypothesis HD : disj A tau.
Hypothesis Hlen : (Nat.min (nr A) (nc A) <= nr tau)%nat.
Hypothesis HwA : disj (lview work) A.
Hypothesis Hwt : disj (lview work) tau.
Hypothesis Hnbo : (0 < nbo \/ Nat.min (nr A) (nc A) = 0)%nat.
Hypothesis W1 : lok work.
Hypothesis W2 : contiguous work = true.
(** the workspace suffices; [q] is the number of columns (QR, QL) or rows (LQ, RQ) of A *)
Definition bsz_ok (q sz : nat) : Prop :=
  let m := nr A in let n := nc A in let nb := Nat.min nbo (Nat.min m n) in
  (if (nb <? q) then nb * q <= sz else m <= 1 \/ n <= 1 \/ q - 1 <= sz)%nat.
Lemma geqrf_work_run fuel : (Nat.min (nr A) (nc A) <= fuel)%nat -> (forall j, (j < nc A)%nat -> (vsq (nr A) (fun i => val A s i j) <= bt * bt)%R) -> bsz_ok (nc A) (lm work * ln work) ->
  wp (geqrf_work_f fuel h nbo A tau work) (factored Forward Columnwise A tau work s) noX s.
Proof.
  intros Hfu Hn Hsz. apply wp_conseq with (X := noX) (Q := fun z s' => z = 0%Z /\ finv Columnwise Forward A tau work s (Nat.min (nr A) (nc A)) s'); [|intros z s' HL; apply finv_factored; exact HL|auto].
  unfold geqrf_work_f. cbv zeta.
  apply (bfact_run bt (geqr2_work h) Columnwise Forward A tau work s fuel nbo) with (cond := fun t => (t + Nat.min (Nat.min nbo (Nat.min (nr A) (nc A))) (Nat.min (nr A) (nc A) - t) <? nc A)%nat); auto.
  - intros. apply (geqr2_finv h st bt hsm); auto.
  - intros TT work2 t Ht. cbv zeta. set (ib := Nat.min _ (_ - t)). unfold wa, wb, ca, da, db, ta. split; [reflexivity|]. split; intros C; [apply Nat.ltb_lt in C|apply Nat.ltb_ge in C]; lia.
Qed.
Lemma gelqf_work_run fuel : (Nat.min (nr A) (nc A) <= fuel)%nat -> (forall i, (i < nr A)%nat -> (vsq (nc A) (fun j => val A s i j) <= bt * bt)%R) -> bsz_ok (nr A) (lm work * ln work) ->
  wp (gelqf_work_f fuel h nbo A tau work) (factored Forward Rowwise A tau work s) noX s.
Proof.
  intros Hfu Hn Hsz. apply wp_conseq with (X := noX) (Q := fun z s' => z = 0%Z /\ finv Rowwise Forward A tau work s (Nat.min (nr A) (nc A)) s'); [|intros z s' HL; apply finv_factored; exact HL|auto].
  unfold gelqf_work_f. cbv zeta.
  apply (bfact_run bt (gelq2_work h) Rowwise Forward A tau work s fuel nbo) with (cond := fun t => (t + Nat.min (Nat.min nbo (Nat.min (nr A) (nc A))) (Nat.min (nr A) (nc A) - t) <? nr A)%nat); auto.
  - intros c Hc. cbn [xof]. rewrite (ctr_norm A s). auto.
  - intros A1 tau1 s1 R1 R2 R3 R4 R5 R6 R7 R8 R9. apply (gelq2_finv h st bt hsm); auto. intros c Hc. rewrite <- (ctr_norm A1 s1). apply R8. auto.
  - intros TT work2 t Ht. cbv zeta. set (ib := Nat.min _ (_ - t)). unfold wa, wb, ca, da, db, ta. split; [reflexivity|]. split; intros C; [apply Nat.ltb_lt in C|apply Nat.ltb_ge in C]; lia.
Qed.
Lemma geqlf_work_run fuel : (Nat.min (nr A) (nc A) <= fuel)%nat -> (forall j, (j < nc A)%nat -> (vsq (nr A) (fun i => val A s i j) <= bt * bt)%R) -> bsz_ok (nc A) (lm work * ln work) ->
  wp (geqlf_work_f fuel h nbo A tau work) (factored Backward Columnwise A tau work s) noX s.
Proof.
  intros Hfu Hn Hsz. apply wp_conseq with (X := noX) (Q := fun z s' => z = 0%Z /\ finv Columnwise Backward A tau work s (Nat.min (nr A) (nc A)) s'); [|intros z s' HL; apply finv_factored; exact HL|auto].
  unfold geqlf_work_f. cbv zeta.
  apply (bfact_run bt (geql2_work h) Columnwise Backward A tau work s fuel nbo) with (cond := fun t => (Nat.min (Nat.min nbo (Nat.min (nr A) (nc A))) (Nat.min (nr A) (nc A) - t) <? nc A - t)%nat); auto.
  - intros. apply (geql2_finv h st bt hsm); auto.
  - intros TT work2 t Ht. cbv zeta. unfold geqlf_step. cbv zeta. set (ib := Nat.min _ (_ - t)). assert (Hib : (ib <= Nat.min (nr A) (nc A) - t)%nat) by (unfold ib; lia). clearbody ib.
    unfold bstep, bslc, wa, wb, ca, da, db, ta. replace (nr A - (nc A - (nc A - t)))%nat with (nr A - t)%nat by lia. replace (Nat.min (nr A) (nc A) - (nc A - (nc A - t)))%nat with (Nat.min (nr A) (nc A) - t)%nat by lia.
    replace (nc A - t - ib + ib)%nat with (nc A - t)%nat by lia. replace (Nat.min (nr A) (nc A) - t - ib + ib)%nat with (Nat.min (nr A) (nc A) - t)%nat by lia.
    split; [reflexivity|]. split; intros C; [apply Nat.ltb_lt in C|apply Nat.ltb_ge in C]; lia.
Qed.
Lemma gerqf_work_run fuel : (Nat.min (nr A) (nc A) <= fuel)%nat -> (forall i, (i < nr A)%nat -> (vsq (nc A) (fun j => val A s i j) <= bt * bt)%R) -> bsz_ok (nr A) (lm work * ln work) ->
  wp (gerqf_work_f fuel h nbo A tau work) (factored Backward Rowwise A tau work s) noX s.
Proof.
  intros Hfu Hn Hsz. apply wp_conseq with (X := noX) (Q := fun z s' => z = 0%Z /\ finv Rowwise Backward A tau work s (Nat.min (nr A) (nc A)) s'); [|intros z s' HL; apply finv_factored; exact HL|auto].
  unfold gerqf_work_f. cbv zeta.
  apply (bfact_run bt (gerq2_work h) Rowwise Backward A tau work s fuel nbo) with (cond := fun t => (0 <? nr A - t - Nat.min (Nat.min nbo (Nat.min (nr A) (nc A))) (Nat.min (nr A) (nc A) - t))%nat); auto.
  - intros c Hc. cbn [xof]. rewrite (ctr_norm A s). auto.
  - intros A1 tau1 s1 R1 R2 R3 R4 R5 R6 R7 R8 R9. apply (gerq2_finv h st bt hsm); auto. intros c Hc. rewrite <- (ctr_norm A1 s1). apply R8. auto.
  - intros TT work2 t Ht. cbv zeta. unfold gerqf_step. cbv zeta. set (ib := Nat.min _ (_ - t)). assert (Hib : (ib <= Nat.min (nr A) (nc A) - t)%nat) by (unfold ib; lia). clearbody ib.
    unfold bstep, bslc, wa, wb, ca, da, db, ta.
    replace (Nat.min (nr A) (nc A) - t - ib + ib)%nat with (Nat.min (nr A) (nc A) - t)%nat by lia.
    split; [reflexivity|]. split; intros C; [apply Nat.ltb_lt in C|apply Nat.ltb_ge in C]; lia.
Qed.
End W.
End P.
