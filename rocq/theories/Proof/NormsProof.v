(** * Proofs about lassq and the norm routines *)
From Coq Require Import Bool Arith ZArith Lia Reals Lra List Ring Field.
From Verif.Core Require Import Scalar Prog View Slice Loops Instances RealLaws.
From Verif.Spec Require Import LinAlg Outcome Norms.
From Verif.Model Require Import Gemm Blas1 Norms.
Import ListNotations.
Local Open Scope T_scope.

Section Pure.
Context {E : Env}.
Fixpoint pmaxl (l : list T) (v : T) : T + T :=
  match l with [] => inr v | x :: l' => match upd x v with inl r => inl r | inr v' => pmaxl l' v' end end.
Lemma pmaxl_app l1 l2 v : pmaxl (l1 ++ l2) v = match pmaxl l1 v with inl r => inl r | inr v' => pmaxl l2 v' end.
Proof. revert v. induction l1 as [|x l IH]; intros v; cbn; auto. destruct (upd x v); auto. Qed.
Lemma pmaxl_one x v : pmaxl [x] v = upd x v.
Proof. cbn. destruct (upd x v); auto. Qed.
Definition addl (l : list T) (v : T) : T := fold_left add l v.
Definition lassq_l (bc : blue) (l : list T) (scale sumsq : T) : T * T :=
  if isnan scale || isnan sumsq then (scale, sumsq) else
  let scale := if eqb sumsq 0 then 1 else scale in
  let '(scale, sumsq) := if eqb scale 0 then (1, 0) else (scale, sumsq) in
  match l with
  | [] => (scale, sumsq)
  | _ => lassq_fin bc (lassq_init bc scale sumsq (fold_left (fun st ax => lassq_acc bc ax st) l (0, 0, 0)))
  end.

Lemma rd_ok A s i j : (i < nr A)%nat -> (j < nc A)%nat -> rd A i j s = Ok (val A s i j) s.
Proof.
  intros Hi Hj. unfold rd, inb. rewrite (proj2 (Nat.ltb_lt _ _) Hi), (proj2 (Nat.ltb_lt _ _) Hj). reflexivity.
Qed.
Lemma foldup_pure B lo hi (a : B) f g s : (forall i a, (lo <= i < hi)%nat -> f i a s = Ok (g i a) s) ->
  foldup lo hi a f s = Ok (fold_left (fun a i => g i a) (seq lo (hi - lo)) a) s.
Proof.
  intros H. unfold foldup. assert (H' : forall i a, (lo <= i < lo + (hi - lo))%nat -> f i a s = Ok (g i a) s) by (intros; apply H; lia).
  clear H. revert H'. generalize (hi - lo)%nat as k. intros k. revert lo a. induction k as [|k IH]; intros lo a H; cbn [forn seq fold_left]; [reflexivity|].
  unfold bind. rewrite H by lia. apply IH. intros; apply H; lia.
Qed.
Lemma foracc_pure lo hi (v : T) f L s : (forall i v, (lo <= i < hi)%nat -> f i v s = Ok (pmaxl (L i) v) s) ->
  foracc lo hi v f s = Ok (pmaxl (flat_map L (seq lo (hi - lo))) v) s.
Proof.
  intros H. unfold foracc. assert (H' : forall i a, (lo <= i < lo + (hi - lo))%nat -> f i a s = Ok (pmaxl (L i) a) s) by (intros; apply H; lia).
  clear H. revert H'. generalize (hi - lo)%nat as k. intros k. revert lo v. induction k as [|k IH]; intros lo a H; cbn [fornacc seq flat_map]; [reflexivity|].
  unfold bind. rewrite H by lia. rewrite pmaxl_app. destruct (pmaxl (L lo) a); [reflexivity|]. apply IH. intros; apply H; lia.
Qed.
Lemma abs_sum_pure lo hi v0 (p : nat -> M T) h s : (forall i, (lo <= i < hi)%nat -> p i s = Ok (h i) s) ->
  abs_sum lo hi v0 p s = Ok (addl (map (fun i => absv (h i)) (seq lo (hi - lo))) v0) s.
Proof.
  intros H. unfold abs_sum. erewrite (foldup_pure _ _ _ _ _ (fun i a => a + absv (h i))).
  - f_equal. unfold addl. generalize (seq lo (hi - lo)) v0. induction l as [|x l IH]; intros v; cbn; auto.
  - intros i a Hi. unfold bind. rewrite H by auto. reflexivity.
Qed.
Lemma lassq_pure bc absf x n scale sumsq s : isvec x n ->
  lassq bc absf x scale sumsq s = Ok (lassq_l bc (map (fun i => absf (vval x s i)) (seq 0 n)) scale sumsq) s.
Proof.
  intros [H1 H2]. unfold lassq, lassq_l. destruct (isnan scale || isnan sumsq); [reflexivity|]. cbv zeta.
  destruct (eqb (if eqb sumsq 0 then 1 else scale) 0); rewrite H1; (destruct (Nat.eqb_spec n 0) as [->|]; [reflexivity|]);
   (unfold bind; erewrite (foldup_pure _ _ _ _ _ (fun i st => lassq_acc bc (absf (vval x s i)) st));
    [|intros i a Hi; unfold bind, rdv; rewrite rd_ok by lia; reflexivity]); rewrite Nat.sub_0_r;
   destruct n; try lia; cbn [seq map]; unfold ret; do 3 f_equal; change (S n) with (S n); cbn [fold_left];
   generalize (seq 1 n) (lassq_acc bc (absf (vval x s 0%nat)) (0, 0, 0)); induction l as [|y l IH]; intros v; cbn; auto.
Qed.
End Pure.

(** ** Exact arithmetic *)
Fixpoint rsuml (l : list R) : R := match l with [] => 0%R | x :: l' => (x + rsuml l')%R end.
Lemma rsuml_app l1 l2 : rsuml (l1 ++ l2) = (rsuml l1 + rsuml l2)%R.
Proof. induction l1 as [|x l IH]; cbn; lra. Qed.
Lemma rsum_seq f n : rsum n f = rsuml (map f (seq 0 n)).
Proof.
  induction n as [|n IH]; auto. rewrite seq_S, map_app, rsuml_app. cbn. rewrite IH. lra.
Qed.
Lemma rsum_ext n f g : (forall i, (i < n)%nat -> f i = g i) -> rsum n f = rsum n g.
Proof. intros H. induction n as [|n IH]; cbn; auto. rewrite IH, H; auto. Qed.
Lemma rsum_nonneg n f : (forall i, (i < n)%nat -> (0 <= f i)%R) -> (0 <= rsum n f)%R.
Proof. intros H. induction n as [|n IH]; cbn; [lra|]. assert (K := H n). assert (0 <= rsum n f)%R by (apply IH; auto). specialize (K ltac:(lia)). lra. Qed.
Lemma rsum_plus n f g : rsum n (fun i => (f i + g i)%R) = (rsum n f + rsum n g)%R.
Proof. induction n as [|n IH]; cbn; [lra|]. rewrite IH. lra. Qed.
Lemma rsum_split n k f : (k <= n)%nat -> rsum n f = (rsum k f + rsum (n - k) (fun i => f (k + i)%nat))%R.
Proof.
  induction n as [|n IH]; intros Hk; [replace k with 0%nat by lia; cbn; lra|]. destruct (Nat.eq_dec k (S n)) as [->|].
  - rewrite Nat.sub_diag. cbn. lra.
  - rewrite Nat.sub_succ_l by lia. cbn [rsum]. rewrite IH by lia. replace (k + (n - k))%nat with n by lia. lra.
Qed.

Section Exact.
Context {E : Env} {FL : FieldLaws E} {CL : ConjLaws E} {OL : ROrdLaws E} {QL : EqbLaws E} {RL : RLaws E} {NL : FinLaws E}.
Add Field Tf : fth.
Lemma pmaxl_R l v : pmaxl (map ofR l) (ofR v) = inr (ofR (fold_left Rmax l v)).
Proof.
  revert v. induction l as [|x l IH]; intros v; cbn [pmaxl map fold_left]; auto.
  unfold upd. rewrite fin_nan, ofR_lt. unfold Rltb. destruct (Rlt_dec v x).
  - rewrite IH. rewrite Rmax_right by lra. auto.
  - rewrite IH. rewrite Rmax_left by lra. auto.
Qed.
Lemma fold_Rmax l v : (v <= fold_left Rmax l v)%R /\ (forall x, In x l -> (x <= fold_left Rmax l v)%R) /\ (fold_left Rmax l v = v \/ In (fold_left Rmax l v) l).
Proof.
  revert v. induction l as [|x l IH]; intros v; cbn [fold_left In].
  - split; [lra|]. split; [tauto|auto].
  - destruct (IH (Rmax v x)) as (H1 & H2 & H3). assert (K1 := Rmax_l v x). assert (K2 := Rmax_r v x). split; [lra|]. split.
    + intros y [->|Hy]; [lra|auto].
    + destruct H3 as [H3|H3]; [|auto]. rewrite H3. unfold Rmax. destruct (Rle_dec v x); auto.
Qed.
Lemma max_of_list l P : (forall x, In x l -> (0 <= x)%R) -> (forall x, P x <-> In x l) -> max_of P (fold_left Rmax l 0%R).
Proof.
  intros Hp HP. destruct (fold_Rmax l 0%R) as (H1 & H2 & H3). split.
  - destruct H3 as [H3|H3]; [|left; apply HP; auto]. rewrite H3 in *. destruct l as [|x l].
    + right. split; auto. intros x Hx. apply HP in Hx. auto.
    + left. apply HP. assert (Hx := Hp x ltac:(left; auto)). assert (Hy := H2 x ltac:(left; auto)). replace 0%R with x by lra. left; auto.
  - intros x Hx. apply H2, HP. auto.
Qed.
Lemma addl_R l v : addl (map ofR l) (ofR v) = ofR (v + rsuml l).
Proof.
  unfold addl. revert v. induction l as [|x l IH]; intros v; cbn [map fold_left rsuml].
  - f_equal. lra.
  - rewrite <- ofR_add, IH. f_equal. lra.
Qed.
Lemma absv_list B (f : B -> T) (l : list B) : map (fun i => absv (f i)) l = map ofR (map (fun i => modulus (f i)) l).
Proof. rewrite map_map. apply map_ext. intros; apply absv_ofR. Qed.
Lemma nat2T_R k : nat2T k = ofR (INR k).
Proof. induction k as [|k IH]; [symmetry; apply ofR_0|]. cbn [nat2T]. rewrite IH, S_INR, ofR_add, ofR_1. auto. Qed.

(** the scaling constants *)
Record blue_ok (bc : blue) (st bt ss sb : R) : Prop := {
  bo_tsml : tsml bc = ofR st; bo_tbig : tbig bc = ofR bt; bo_ssml : ssml bc = ofR ss; bo_sbig : sbig bc = ofR sb;
  bo_bt : (0 <= bt)%R; bo_ss : (0 < ss)%R; bo_sb : (0 < sb)%R
}.
Section Lassq.
Variables (bc : blue) (st bt ss sb : R).
Hypothesis HB : blue_ok bc st bt ss sb.
Definition tiny (x : R) : Prop := (0 < x < st)%R.
(** [accs k X t acc]: the accumulators hold sums of squares of total X with [k] squares seen *)
Definition accs (k : nat) (X : R) (nt : Prop) (acc : T * T * T) : Prop :=
  exists S M B D, acc = (ofR (S * (ss * ss)), ofR M, ofR (B * (sb * sb))) /\ (0 <= S /\ 0 <= M /\ 0 <= B /\ 0 <= D)%R /\
    (S + M + B + D = X)%R /\ (S + D <= INR k * (st * st))%R /\ (0 < D -> 0 < B)%R /\ (0 < B -> bt * bt < B)%R /\ (nt -> S = 0 /\ D = 0)%R.
Lemma accs_start nt : accs 0 0 nt (0, 0, 0).
Proof.
  exists 0%R, 0%R, 0%R, 0%R. rewrite !Rmult_0_l, ofR_0. cbn. repeat split; try lra.
Qed.
Lemma sqr_sbB B : (0 <= B)%R -> Reqb (B * (sb * sb)) 0 = Reqb B 0.
Proof.
  intros HBn. destruct (Reqb B 0) eqn:e.
  - apply Reqb_t in e. subst. apply Reqb_t. lra.
  - destruct (Reqb (B * (sb * sb)) 0) eqn:e'; auto. apply Reqb_t in e'. destruct HB.
    assert (B = 0%R) by (assert (0 < sb * sb)%R by nra; nra). apply Reqb_t in H. congruence.
Qed.
Lemma accs_step k X nt acc x : (0 <= x)%R -> accs k X nt acc -> (nt -> ~ tiny x) -> accs (S k) (X + x * x) nt (lassq_acc bc (ofR x) acc).
Proof.
  intros Hx (S & M & B & D & -> & (H1 & H2 & H3 & H4) & H5 & H6 & H7 & H8 & H9) Ht. unfold lassq_acc. destruct HB as [-> -> -> -> Hbt Hss Hsb].
  rewrite !ofR_lt. unfold accs. rewrite S_INR.
  assert (Hst : (0 <= st * st)%R) by nra. 
  destruct (Rltb bt x) eqn:e1; [|destruct (Rltb x st) eqn:e2].
  - apply Rltb_t in e1. exists S, M, (B + x * x)%R, D. split; [f_equal; rewrite <- !ofR_mul, <- ofR_add; f_equal; ring|].
    repeat split; try tauto; try nra.
  - apply Rltb_f in e1. apply Rltb_t in e2. rewrite <- ofR_0, eqb_toR. rewrite sqr_sbB by auto. 
    assert (Htiny : (x * x <= st * st)%R) by nra.
    assert (Hnt : nt -> x = 0%R). { intros Hn. destruct (Req_EM_T x 0) as [|Hne]; auto. exfalso. apply (Ht Hn). unfold tiny. lra. }
    destruct (Reqb B 0) eqn:e3.
    + exists (S + x * x)%R, M, B, D. split; [do 2 f_equal; rewrite <- !ofR_mul, <- ofR_add; f_equal; ring|].
      repeat split; try tauto; try nra. rewrite (Hnt H). destruct (H9 H). lra.
    + assert (B <> 0%R) by (intros e; apply Reqb_t in e; congruence).
      exists S, M, B, (D + x * x)%R. split; auto. repeat split; try tauto; try nra; try lra. rewrite (Hnt H0). destruct (H9 H0). lra.
  - apply Rltb_f in e1. apply Rltb_f in e2. exists S, (M + x * x)%R, B, D. split; [do 2 f_equal; rewrite <- ?ofR_mul, <- ofR_add; f_equal; ring|].
    repeat split; try tauto; try nra.
Qed.
Lemma accs_list l : forall k X (nt : Prop) acc, (forall x, In x l -> (0 <= x)%R /\ (nt -> ~ tiny x)) -> accs k X nt acc ->
  accs (k + length l) (X + rsuml (map (fun x => x * x)%R l)) nt (fold_left (fun a ax => lassq_acc bc ax a) (map ofR l) acc).
Proof.
  induction l as [|x l IH]; intros k X nt acc Hl HA; cbn [length map fold_left rsuml].
  - rewrite Nat.add_0_r, Rplus_0_r. auto.
  - replace (k + S (length l))%nat with (S k + length l)%nat by lia. rewrite <- Rplus_assoc. apply IH.
    + intros y Hy. apply Hl. right; auto.
    + apply accs_step; auto; apply Hl; left; auto.
Qed.
Lemma accs_init k X nt acc sc sq : (0 < sc)%R -> (0 <= sq)%R -> accs k X nt acc -> (nt -> ~ tiny (sc * sqrt sq)) ->
  accs (S k) (X + sc * sc * sq) nt (lassq_init bc (ofR sc) (ofR sq) acc).
Proof.
  intros Hsc Hsq HA Ht. assert (HA' := HA). destruct HA' as (S & M & B & D & -> & (H1 & H2 & H3 & H4) & H5 & H6 & H7 & H8 & H9). unfold lassq_init. destruct HB as [-> -> -> -> Hbt Hss Hsb].
  rewrite <- ofR_0, <- ofR_1, ofR_lt. assert (Hst : (0 <= st * st)%R) by nra. destruct (Rltb 0 sq) eqn:e0.
  2:{ apply Rltb_f in e0. assert (sq = 0%R) by lra. subst sq. exists S, M, B, D. split; auto. rewrite S_INR. repeat split; try tauto; lra. }
  apply Rltb_t in e0. rewrite ofR_sqrt by lra. rewrite <- ofR_mul, !ofR_lt.
  set (x := (sc * sqrt sq)%R) in *. assert (Hx2 : (x * x = sc * sc * sq)%R). { unfold x. rewrite <- (sqrt_sqrt sq) at 3 by lra. ring. }
  assert (Hx : (0 < x)%R) by (apply Rmult_lt_0_compat; auto; apply sqrt_lt_R0; auto). rewrite <- Hx2.
  destruct (Rltb bt x) eqn:e1; [|destruct (Rltb x st) eqn:e2].
  - apply Rltb_t in e1. assert (A0 : accs (Datatypes.S k) (X + x * x) nt (ofR (S * (ss * ss)), ofR M, ofR ((B + x * x) * (sb * sb)))).
    { exists S, M, (B + x * x)%R, D. split; auto. rewrite S_INR. repeat split; try tauto; nra. }
    destruct (Rltb 1 sc); rewrite <- !ofR_mul, <- ofR_add; match goal with |- accs _ _ _ (_, _, ofR ?y) => replace y with ((B + x * x) * (sb * sb))%R by (rewrite Hx2; ring) end; auto.
  - apply Rltb_f in e1. apply Rltb_t in e2. rewrite eqb_toR, sqr_sbB by auto. 
    assert (Hnt : ~ nt) by (intros Hn; apply (Ht Hn); unfold tiny; lra).
    assert (Htiny : (x * x <= st * st)%R) by nra. destruct (Reqb B 0) eqn:e3.
    + assert (A0 : accs (Datatypes.S k) (X + x * x) nt (ofR ((S + x * x) * (ss * ss)), ofR M, ofR (B * (sb * sb)))).
      { exists (S + x * x)%R, M, B, D. split; auto. rewrite S_INR. repeat split; try tauto; nra. }
      destruct (Rltb sc 1); rewrite <- !ofR_mul, <- ofR_add; match goal with |- accs _ _ _ (ofR ?y, _, _) => replace y with ((S + x * x) * (ss * ss))%R by (rewrite Hx2; ring) end; auto.
    + assert (B <> 0%R) by (intros e; apply Reqb_t in e; congruence).
      exists S, M, B, (D + x * x)%R. split; auto. rewrite S_INR. repeat split; try tauto; try nra; lra.
  - apply Rltb_f in e1. apply Rltb_f in e2. exists S, (M + x * x)%R, B, D. split; [do 2 f_equal; rewrite <- ?ofR_mul, <- ofR_add; f_equal; rewrite Hx2; ring|].
    rewrite S_INR. repeat split; try tauto; nra.
Qed.
(** the value represented by (scale, sumsq) *)
Definition near (k : nat) (X : R) (nt : Prop) (q : T * T) : Prop :=
  exists sc sq D, q = (ofR sc, ofR sq) /\ (0 <= sc /\ 0 <= sq /\ 0 <= D)%R /\ (sc * sc * sq + D = X)%R /\ (D <= INR k * (st * st))%R /\
    ((X <= bt * bt)%R -> D = 0%R) /\ (nt -> D = 0%R).
Lemma accs_fin k X nt acc : accs k X nt acc -> near k X nt (lassq_fin bc acc).
Proof.
  intros (S & M & B & D & -> & (H1 & H2 & H3 & H4) & H5 & H6 & H7 & H8 & H9). unfold lassq_fin. destruct HB as [_ _ -> -> Hbt Hss Hsb].
  rewrite <- ofR_0, <- ofR_1, !ofR_lt, fin_nan, orb_false_r. assert (Q1 : (0 < ss * ss)%R) by nra. assert (Q2 : (0 < sb * sb)%R) by nra.
  destruct (Rltb 0 (B * (sb * sb))) eqn:e1; [|destruct (Rltb 0 (S * (ss * ss))) eqn:e2].
  - apply Rltb_t in e1. assert (HBp : (0 < B)%R) by nra.
    exists (1 / sb)%R, ((B + M) * (sb * sb))%R, (S + D)%R. split.
    + f_equal; [symmetry; apply ofR_div; lra|]. destruct (Rltb 0 M) eqn:e3.
      * rewrite <- !ofR_mul, <- ofR_add. f_equal. ring.
      * apply Rltb_f in e3. assert (M = 0%R) by lra. subst M. f_equal. ring.
    + split; [split; [apply Rlt_le, Rdiv_lt_0_compat; lra|nra]|]. split; [rewrite <- H5; field; lra|]. split; [auto|]. split; [|intros Hn; destruct (H9 Hn); lra].
      intros HX. assert (bt * bt < B)%R by auto. lra.
  - apply Rltb_f in e1. apply Rltb_t in e2. assert (B = 0%R) by nra. subst B. assert (D = 0%R) by (destruct (Req_EM_T D 0); auto; assert (0 < D)%R by lra; apply H7 in H; lra). subst D.
    assert (HS : (0 < S)%R) by nra. destruct (Rltb 0 M) eqn:e3.
    + apply Rltb_t in e3. rewrite !ofR_sqrt by nra. rewrite <- ofR_div by lra.
      replace (sqrt (S * (ss * ss)) / ss)%R with (sqrt S) by (rewrite sqrt_mult by nra; rewrite sqrt_square by lra; field; lra). rewrite ofR_lt.
      assert (K1 := sqrt_lt_R0 _ HS). assert (K2 := sqrt_lt_R0 _ e3). assert (K3 := sqrt_sqrt S ltac:(lra)). assert (K4 := sqrt_sqrt M ltac:(lra)).
      exists 1%R, (S + M)%R, 0%R. split.
      * destruct (Rltb (sqrt M) (sqrt S)); f_equal; rewrite <- ofR_div by lra; rewrite <- ?ofR_mul, <- ofR_add, <- ofR_mul; f_equal.
        -- transitivity (sqrt S * sqrt S + sqrt M * sqrt M)%R; [field; lra|lra].
        -- transitivity (sqrt S * sqrt S + sqrt M * sqrt M)%R; [field; lra|lra].
      * repeat split; try lra.
    + apply Rltb_f in e3. assert (M = 0%R) by lra. subst M. exists (1 / ss)%R, (S * (ss * ss))%R, 0%R. split; [f_equal; symmetry; apply ofR_div; lra|].
      split; [split; [apply Rlt_le, Rdiv_lt_0_compat; lra|lra]|]. split; [rewrite <- H5; field; lra|]. repeat split; lra.
  - apply Rltb_f in e1. apply Rltb_f in e2. assert (B = 0%R) by nra. assert (S = 0%R) by nra. subst B S. assert (D = 0%R) by (destruct (Req_EM_T D 0); auto; assert (0 < D)%R by lra; apply H7 in H; lra). subst D.
    exists 1%R, M, 0%R. split; auto. repeat split; lra.
Qed.
(** one call of lassq, started from the value [sc * sc * sq] *)
Lemma lassq_l_near l sc sq (nt : Prop) : (0 <= sc)%R -> (0 <= sq)%R -> (forall x, In x l -> (0 <= x)%R /\ (nt -> ~ tiny x)) -> (nt -> ~ tiny (sc * sqrt sq)) ->
  near (S (length l)) (sc * sc * sq + rsuml (map (fun x => x * x)%R l)) nt (lassq_l bc (map ofR l) (ofR sc) (ofR sq)).
Proof.
  intros Hsc Hsq Hl Ht. unfold lassq_l. rewrite !fin_nan. cbn [orb]. cbv zeta. rewrite <- ofR_0, <- ofR_1, eqb_toR.
  assert (G : forall sc' sq', (0 < sc')%R -> (0 <= sq')%R -> (nt -> ~ tiny (sc' * sqrt sq')) -> near (S (length l)) (sc' * sc' * sq' + rsuml (map (fun x => x * x)%R l)) nt
     match map ofR l with [] => (ofR sc', ofR sq') | _ => lassq_fin bc (lassq_init bc (ofR sc') (ofR sq') (fold_left (fun a ax => lassq_acc bc ax a) (map ofR l) (ofR 0, ofR 0, ofR 0))) end).
  { intros sc' sq' Hsc' Hsq' Ht'. destruct l as [|x l].
    - exists sc', sq', 0%R. split; auto. cbn. assert (0 <= st * st)%R by nra. repeat split; try lra.
    - cbn [map]. rewrite <- (map_cons ofR x l). apply accs_fin. rewrite Rplus_comm. apply accs_init; auto. replace (length (x :: l)) with (0 + length (x :: l))%nat by auto.
      rewrite <- (Rplus_0_l (rsuml _)). apply accs_list; auto. rewrite ofR_0. apply accs_start. }
  destruct (Reqb sq 0) eqn:e.
  - rewrite eqb_toR. destruct (Reqb 1 0) eqn:e'; [apply Reqb_t in e'; lra|]. apply Reqb_t in e. subst sq.
    replace (sc * sc * 0)%R with (1 * 1 * 0)%R by ring. apply G; auto; try lra. intros _. unfold tiny. rewrite sqrt_0. lra.
  - rewrite eqb_toR. destruct (Reqb sc 0) eqn:e'.
    + apply Reqb_t in e'. subst sc. replace (0 * 0 * sq)%R with (1 * 1 * 0)%R by ring. apply G; try lra. intros _. unfold tiny. rewrite sqrt_0. lra.
    + assert (Hne : sc <> 0%R) by (intros H; apply Reqb_t in H; congruence). apply G; auto. lra.
Qed.
Definition gap (X : R) : Prop := X = 0%R \/ (st * st <= X)%R.
Definition sqs (l : list R) : R := rsuml (map (fun x => x * x)%R l).
Lemma sqs_nonneg l : (0 <= sqs l)%R.
Proof. unfold sqs. induction l as [|x l IH]; cbn [map rsuml]; [lra|nra]. Qed.
Lemma sqs_gap l X : (0 <= st)%R -> (0 <= X)%R -> gap X -> (forall x, In x l -> (0 <= x)%R /\ ~ tiny x) -> gap (X + sqs l).
Proof.
  intros Hst HX HG Hl. unfold gap in *. revert Hl. induction l as [|x l IH]; intros Hl; [unfold sqs; cbn; rewrite Rplus_0_r; auto|].
  assert (K := sqs_nonneg l). change (sqs (x :: l)) with (x * x + sqs l)%R.
  destruct (Hl x) as [Hx Ht]; [left; auto|]. assert (HH : (X + sqs l)%R = 0%R \/ (st * st <= X + sqs l)%R) by (apply IH; intros; apply Hl; right; auto).
  destruct (Req_EM_T x 0) as [->|].
  - destruct HH; [left|right]; nra.
  - right. assert (st <= x)%R. { destruct (Rle_lt_dec st x); auto. exfalso. apply Ht. unfold tiny. lra. } nra.
Qed.
Lemma near_nonneg k X nt q : near k X nt q -> (0 <= X)%R.
Proof. intros (sc & sq & D & -> & (H1 & H2 & H3) & H4 & H5 & H6 & H7). rewrite <- H4. assert (0 <= sc * sc * sq)%R by (apply Rmult_le_pos; auto; nra). lra. Qed.
Lemma near_step k X (nt : Prop) q l : (0 <= st)%R -> near k X nt q -> (nt -> gap X) -> (forall x, In x l -> (0 <= x)%R /\ (nt -> ~ tiny x)) ->
  near (k + S (length l)) (X + sqs l) nt (lassq_l bc (map ofR l) (fst q) (snd q)) /\ (nt -> gap (X + sqs l)).
Proof.
  intros Hst HN HG Hl. split; [|intros Hn; apply sqs_gap; auto; [eapply near_nonneg; eauto|intros x Hx; destruct (Hl x Hx); auto]].
  destruct HN as (sc & sq & D & -> & (H1 & H2 & H3) & H4 & H5 & H6 & H7). cbn [fst snd].
  destruct (lassq_l_near l sc sq nt H1 H2 Hl) as (sc' & sq' & D' & -> & (H1' & H2' & H3') & H4' & H5' & H6' & H7').
  { intros Hn [Ha Hb]. destruct (HG Hn) as [HX|HX].
    - assert (K : (sc * sqrt sq * (sc * sqrt sq) = sc * sc * sq)%R) by (rewrite <- (sqrt_sqrt sq) at 3 by lra; ring). nra.
    - assert (K : (sc * sqrt sq * (sc * sqrt sq) = sc * sc * sq)%R) by (rewrite <- (sqrt_sqrt sq) at 3 by lra; ring). rewrite (H7 Hn) in H4. nra. }
  fold (sqs l) in *. assert (KS := sqs_nonneg l). assert (KP : (0 <= sc * sc * sq)%R) by (apply Rmult_le_pos; auto; nra).
  exists sc', sq', (D + D')%R. split; auto. split; [lra|]. split; [lra|]. split.
  - rewrite plus_INR. lra.
  - split.
    + intros HX. assert (D = 0%R) by (apply H6; lra). assert (D' = 0%R) by (apply H6'; lra). lra.
    + intros Hn. rewrite H7, H7' by auto. lra.
Qed.
Lemma near_fold (Lf : nat -> list R) (nt : Prop) js : (0 <= st)%R -> (forall j x, In j js -> In x (Lf j) -> (0 <= x)%R /\ (nt -> ~ tiny x)) ->
  forall c, (forall j, In j js -> (S (length (Lf j)) <= c)%nat) ->
  forall k X q, near k X nt q -> (nt -> gap X) ->
  let r := fold_left (fun q j => lassq_l bc (map ofR (Lf j)) (fst q) (snd q)) js q in
  let Y := (X + rsuml (map (fun j => sqs (Lf j)) js))%R in near (k + c * length js) Y nt r /\ (nt -> gap Y).
Proof.
  intros Hst Hl c Hc. induction js as [|j js IH]; intros k X q HN HG; cbn [map rsuml fold_left length]; cbv zeta.
  - rewrite Nat.mul_0_r, Nat.add_0_r, Rplus_0_r. auto.
  - destruct (near_step k X nt q (Lf j) Hst HN HG) as [K1 K2]; [intros x Hx; apply (Hl j); auto; left; auto|].
    rewrite <- Rplus_assoc. replace (k + c * S (length js))%nat with (k + c + c * length js)%nat by lia. apply IH; auto.
    + intros; eapply Hl; eauto; right; auto.
    + intros; apply Hc; right; auto.
    + destruct K1 as (sc & sq & D & K1a & K1b & K1c & K1d & K1e). exists sc, sq, D. split; auto. split; auto. split; auto. split; auto.
      eapply Rle_trans; [exact K1d|]. apply Rmult_le_compat_r; [nra|]. apply le_INR. specialize (Hc j ltac:(left; auto)). lia.
Qed.
Lemma near_double k X nt sc sq : near k X nt (sc, sq) -> near (2 * k) (2 * X) nt (sc, sq * (1 + 1)).
Proof.
  intros (sc' & sq' & D & [= -> ->] & (H1 & H2 & H3) & H4 & H5 & H6 & H7). assert (KP : (0 <= sc' * sc' * sq')%R) by (apply Rmult_le_pos; auto; nra).
  exists sc', (sq' * 2)%R, (2 * D)%R. split.
  - f_equal. rewrite <- ofR_1, <- ofR_add, <- ofR_mul. f_equal.
  - rewrite mult_INR. replace (INR 2) with 2%R by (cbn; lra). split; [lra|]. split; [lra|]. split; [lra|]. split; [intros Hx; assert (D = 0%R) by (apply H6; lra); lra|intros Hx; rewrite H7; auto; lra].
Qed.
Lemma near_result k X nt q : near k X nt q -> exists r, fst q * sqrtv (snd q) = ofR r /\ near_root st bt k nt X r.
Proof.
  intros (sc & sq & D & -> & (H1 & H2 & H3) & H4 & H5 & H6 & H7). cbn [fst snd]. exists (sc * sqrt sq)%R. split; [rewrite ofR_sqrt by auto; rewrite <- ofR_mul; auto|].
  assert (K : (sc * sqrt sq * (sc * sqrt sq) = sc * sc * sq)%R) by (rewrite <- (sqrt_sqrt sq) at 3 by lra; ring).
  split; [|rewrite !K; split; [intros HX; rewrite (H6 HX) in H4; lra|intros Hn; rewrite (H7 Hn) in H4; lra]].
  rewrite K. split; [apply Rmult_le_pos; auto; apply sqrt_pos|lra].
Qed.
End Lassq.
End Exact.
