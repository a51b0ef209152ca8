(** * C27: the norm routines *)
From Coq Require Import Bool Arith ZArith Lia Reals Lra List Ring Field.
From Verif.Core Require Import Scalar Prog View Slice Loops Instances Quiet RealLaws NanLaws.
From Verif.Spec Require Import LinAlg Outcome Norms.
From Verif.Model Require Import Gemm Blas1 Legacy Norms.
From Verif.Proof Require Import NormsProof.
From Verif.Properties Require Import ExTac.
Import ListNotations.
Local Open Scope T_scope.

Section S.
Context {E : Env} {FL : FieldLaws E} {CL : ConjLaws E} {OL : ROrdLaws E} {QL : EqbLaws E} {RL : RLaws E} {NL : FinLaws E}.
Add Field Tf : fth.

Lemma check_ok b s : b = true -> check b s = Ok tt s.
Proof. intros ->. unfold check. rewrite andb_false_r. reflexivity. Qed.
Lemma rsuml_seq g lo k : rsuml (map g (seq lo k)) = rsum k (fun i => g (lo + i)%nat).
Proof.
  rewrite rsum_seq. f_equal. assert (G : forall c a, map g (seq (lo + a) c) = map (fun i => g (lo + i)%nat) (seq a c)).
  { induction c as [|c IH]; intros a; cbn; auto. f_equal. rewrite <- IH. f_equal. f_equal. lia. }
  rewrite <- (G k 0%nat). rewrite Nat.add_0_r. auto.
Qed.
Lemma sqs_seq g k lo : sqs (map g (seq lo k)) = rsum k (fun i => g (lo + i)%nat * g (lo + i)%nat)%R.
Proof. unfold sqs. rewrite map_map. rewrite (rsuml_seq (fun x => g x * g x)%R). auto. Qed.
Lemma max_of_gen l v (P : R -> Prop) : (0 <= v)%R -> (forall x, In x l -> P x \/ exists y, P y /\ (x <= y)%R) -> (forall x, P x -> In x l \/ (x <= v)%R) -> (v = 0%R \/ P v) ->
  (exists x, P x) -> (forall x, P x -> (0 <= x)%R) -> max_of P (fold_left Rmax l v).
Proof.
  intros Hv HL HP Hz [y Hy] Hn. destruct (fold_Rmax l v) as (H1 & H2 & H3).
  assert (Hb : forall x, P x -> (x <= fold_left Rmax l v)%R). { intros x Hx. destruct (HP x Hx) as [K|K]; [apply H2; auto|lra]. }
  split; auto. left. destruct H3 as [H3|H3].
  2:{ destruct (HL _ H3) as [|(z & Hz1 & Hz2)]; auto. assert (K := Hb z Hz1). replace (fold_left Rmax l v) with z by lra. auto. }
  rewrite H3. destruct Hz as [->|]; auto.
  rewrite H3 in Hb. assert (K := Hb y Hy). assert (K' := Hn y Hy). replace 0%R with y by lra. auto.
Qed.
Lemma rsum_zero n f : (forall i, (i < n)%nat -> f i = 0%R) -> rsum n f = 0%R.
Proof. intros H. induction n as [|n IH]; cbn; auto. rewrite IH, H by auto. lra. Qed.
Lemma flat_map_ofR (L : nat -> list R) l : flat_map (fun j => map ofR (L j)) l = map ofR (flat_map L l).
Proof. induction l as [|y l IH]; cbn [flat_map]; auto. rewrite map_app, IH. auto. Qed.
Definition mfrom (A : view) s (a : nat) (cnt : nat) (j : nat) : list R := map (fun i => modulus (val A s (a + i) j)) (seq 0 cnt).
Lemma fro_run bc A s lo hi q0 a b : (forall j, (lo <= j < hi)%nat -> (a j <= b j <= nr A)%nat /\ (j < nc A)%nat) ->
  foldup lo hi q0 (fun j q => c <- slcol A (a j) (b j) j;; lassq bc absv c (fst q) (snd q)) s =
  Ok (fold_left (fun q j => lassq_l bc (map ofR (mfrom A s (a j) (b j - a j) j)) (fst q) (snd q)) (seq lo (hi - lo)) q0) s.
Proof.
  intros H. erewrite (foldup_pure _ _ _ _ _ (fun j q => lassq_l bc (map ofR (mfrom A s (a j) (b j - a j) j)) (fst q) (snd q))); auto.
  intros j q Hj. destruct (H j Hj) as [K1 K2]. unfold bind at 1, slcol.
  rewrite (proj2 (Nat.leb_le _ _) (proj1 K1)), (proj2 (Nat.leb_le _ _) (proj2 K1)), (proj2 (Nat.ltb_lt _ _) K2). cbn.
  rewrite (lassq_pure bc absv (vcol A (a j) (b j) j) (b j - a j)) by (split; auto). f_equal. f_equal. unfold mfrom. rewrite absv_list. auto.
Qed.
Lemma mfrom_nonneg A s a c j x : In x (mfrom A s a c j) -> (0 <= x)%R.
Proof. intros H. apply in_map_iff in H. destruct H as (i & <- & _). apply modulus_pos. Qed.
Lemma mfrom_in A s a c j x : In x (mfrom A s a c j) <-> exists i, (a <= i < a + c)%nat /\ x = modulus (val A s i j).
Proof.
  unfold mfrom. rewrite in_map_iff. split.
  - intros (i & <- & Hi). apply in_seq in Hi. exists (a + i)%nat. split; auto. lia.
  - intros (i & Hi & ->). exists (i - a)%nat. split; [do 2 f_equal; lia|apply in_seq; lia].
Qed.
Lemma mfrom_len A s a c j : length (mfrom A s a c j) = c.
Proof. unfold mfrom. rewrite map_length, seq_length. auto. Qed.
Lemma near_start (st bt : R) nt : near st bt 0 0 nt (0, 1).
Proof. exists 0%R, 1%R, 0%R. rewrite ofR_0, ofR_1. split; auto. cbn. repeat split; lra. Qed.
Lemma near_start0 (st bt : R) nt : near st bt 0 0 nt (1, 0).
Proof. exists 1%R, 0%R, 0%R. rewrite ofR_0, ofR_1. split; auto. cbn. repeat split; lra. Qed.
Lemma not_tiny st x : x = 0%R \/ (st <= x)%R -> ~ tiny st x.
Proof. unfold tiny. lra. Qed.

(** lassq: the value scale^2*sumsq + sum of squares, up to dropped tiny squares *)
Theorem lassq_correct bc st bt ss sb x s n sc sq : isvec x n -> blue_ok bc st bt ss sb -> (0 <= st)%R -> (0 <= sc)%R -> (0 <= sq)%R ->
  returns (lassq bc absv x (ofR sc) (ofR sq)) s (fun q s' => s' = s /\ exists sc' sq', q = (ofR sc', ofR sq') /\ (0 <= sc' /\ 0 <= sq')%R /\
    near_root st bt (S n) ((sc * sqrt sq = 0 \/ st <= sc * sqrt sq)%R /\ forall i, (i < n)%nat -> modulus (vval x s i) = 0%R \/ (st <= modulus (vval x s i))%R)
      (sc * sc * sq + rsum n (fun i => modulus (vval x s i) * modulus (vval x s i))%R) (sc' * sqrt sq')).
Proof.
  intros Hx HB Hst Hsc Hsq. unfold returns. rewrite (lassq_pure bc absv x n) by auto. do 2 eexists. split; [reflexivity|]. split; auto.
  rewrite absv_list.
  match goal with |- context[near_root _ _ _ ?nt _ _] => destruct (lassq_l_near bc st bt ss sb HB (map (fun i => modulus (vval x s i)) (seq 0 n)) sc sq nt Hsc Hsq) as (sc' & sq' & D & K1 & (K2 & K3 & K4) & K5 & K6 & K7 & K8) end.
  { intros y Hy. apply in_map_iff in Hy. destruct Hy as (i & <- & Hi). apply in_seq in Hi. split; [apply modulus_pos|]. intros [_ H]. apply not_tiny. apply H. lia. }
  { intros [H _]. apply not_tiny. auto. }
  rewrite map_length, seq_length in K6. exists sc', sq'. split; auto. split; [auto|].
  assert (ES : rsuml (map (fun x0 => (x0 * x0)%R) (map (fun i => modulus (vval x s i)) (seq 0 n))) = rsum n (fun i => modulus (vval x s i) * modulus (vval x s i))%R).
  { apply (sqs_seq (fun i => modulus (vval x s i)) n 0). }
  rewrite ES in *. assert (KQ : (sc' * sqrt sq' * (sc' * sqrt sq') = sc' * sc' * sq')%R) by (rewrite <- (sqrt_sqrt sq') at 3 by lra; ring).
  split; [|rewrite !KQ; split; [intros HX; rewrite (K7 HX) in K5; lra|intros Hn; rewrite (K8 Hn) in K5; lra]].
  rewrite KQ. split; [apply Rmult_le_pos; auto; apply sqrt_pos|lra].
Qed.
(** nrm2: the Euclidean norm *)
Theorem nrm2_correct bc st bt ss sb x s n : isvec x n -> blue_ok bc st bt ss sb -> (0 <= st)%R ->
  returns (nrm2 bc x) s (fun r s' => s' = s /\ exists r', r = ofR r' /\
    near_root st bt (S n) (forall i, (i < n)%nat -> modulus (vval x s i) = 0%R \/ (st <= modulus (vval x s i))%R)
      (rsum n (fun i => modulus (vval x s i) * modulus (vval x s i))%R) r').
Proof.
  intros Hx HB Hst. unfold nrm2. rewrite <- ofR_1, <- ofR_0. destruct (lassq_correct bc st bt ss sb x s n 1 0 Hx HB Hst) as (q & s' & K & -> & sc' & sq' & -> & (K1 & K2) & K3); try lra.
  unfold returns, bind. rewrite K. do 2 eexists. split; [reflexivity|]. split; auto. cbn [fst snd]. exists (sc' * sqrt sq')%R. rewrite ofR_sqrt by auto. rewrite <- ofR_mul. split; auto.
  rewrite Rmult_0_r, Rplus_0_l in K3. destruct K3 as (K3 & K4 & K5). split; auto. split; auto. intros Hn. apply K5. split; auto. left. rewrite sqrt_0. lra.
Qed.

(** lange: Max, One and Inf norms *)
Theorem lange_correct bc nt A s m n : shape A m n -> nt = MaxNorm \/ nt = OneNorm \/ nt = InfNorm ->
  returns (lange bc nt A) s (fun r s' => s' = s /\ exists x, r = ofR x /\ is_norm nt m n (val A s) x).
Proof.
  intros [Hm Hn] Hnt. assert (Hc : norm_ok nt = true) by (destruct Hnt as [->|[->| ->]]; auto). unfold returns, lange. unfold bind at 1. rewrite check_ok by auto. rewrite Hm, Hn.
  destruct (Nat.eqb_spec m 0) as [->|Hm0]; [|destruct (Nat.eqb_spec n 0) as [->|Hn0]]; cbn [orb].
  1,2: do 2 eexists; (split; [reflexivity|]); (split; auto); exists 0%R; (split; [symmetry; apply ofR_0|]);
    destruct Hnt as [->|[->| ->]]; cbn [is_norm];
    (split; [|intros x; first [intros (i & j & Hi & Hj & _); lia|intros (i & Hi & _); lia|intros (i & Hi & ->); cbn; lra]]).
  1: right; split; auto; intros x (i & j & Hi & Hj & _); lia.
  1: destruct n; [right; split; auto; intros x (i & Hi & _); lia|left; exists 0%nat; split; [lia|reflexivity]].
  1: right; split; auto; intros x (i & Hi & _); lia.
  1: right; split; auto; intros x (i & j & Hi & Hj & _); lia.
  1: right; split; auto; intros x (i & Hi & _); lia.
  1: destruct m; [right; split; auto; intros x (i & Hi & _); lia|left; exists 0%nat; split; [lia|reflexivity]].
  destruct Hnt as [->|[->| ->]]; unfold bind at 1.
  - rewrite (foracc_pure _ _ _ _ (fun j => map ofR (mfrom A s 0 m j))).
    2:{ intros j v Hj. rewrite (foracc_pure _ _ _ _ (fun i => [absv (val A s i j)])).
        - rewrite Nat.sub_0_r. do 2 f_equal. unfold mfrom. rewrite <- absv_list. induction (seq 0 m) as [|y l IH]; cbn; auto; f_equal; auto.
        - intros i v' Hi. unfold bind. rewrite rd_ok by lia. rewrite pmaxl_one; auto. }
    do 2 eexists. split; [reflexivity|]. split; auto. rewrite Nat.sub_0_r.
    replace (flat_map (fun j => map ofR (mfrom A s 0 m j)) (seq 0 n)) with (map ofR (flat_map (mfrom A s 0 m) (seq 0 n)))
      by (induction (seq 0 n) as [|y l IH]; cbn; auto; rewrite map_app, IH; auto).
    rewrite <- ofR_0, pmaxl_R. cbn [outcome]. eexists. split; [reflexivity|]. cbn [is_norm]. apply max_of_gen; try lra.
    + intros x Hx. left. apply in_flat_map in Hx. destruct Hx as (j & Hj & Hx). apply in_seq in Hj. apply mfrom_in in Hx. destruct Hx as (i & Hi & ->). exists i, j. repeat split; auto; lia.
    + intros x (i & j & Hi & Hj & ->). left. apply in_flat_map. exists j. split; [apply in_seq; lia|]. apply mfrom_in. exists i. split; auto. lia.
    + exists (modulus (val A s 0 0)), 0%nat, 0%nat. repeat split; auto; lia.
    + intros x (i & j & _ & _ & ->). apply modulus_pos.
  - rewrite (foracc_pure _ _ _ _ (fun j => [ofR (rsum m (fun i => modulus (val A s i j)))])).
    2:{ intros j v Hj. unfold bind. rewrite (abs_sum_pure _ _ _ _ (fun i => val A s i j)) by (intros; apply rd_ok; lia).
        rewrite pmaxl_one, absv_list, <- ofR_0, addl_R, Nat.sub_0_r. rewrite rsum_seq, Rplus_0_l; auto. }
    do 2 eexists. split; [reflexivity|]. split; auto. rewrite Nat.sub_0_r.
    replace (flat_map (fun j => [ofR (rsum m (fun i => modulus (val A s i j)))]) (seq 0 n)) with (map ofR (map (fun j => rsum m (fun i => modulus (val A s i j))) (seq 0 n)))
      by (induction (seq 0 n) as [|y l IH]; cbn; auto; rewrite IH; auto).
    rewrite <- ofR_0, pmaxl_R. cbn [outcome]. eexists. split; [reflexivity|]. cbn [is_norm]. apply max_of_gen; try lra.
    + intros x Hx. left. apply in_map_iff in Hx. destruct Hx as (j & <- & Hj). apply in_seq in Hj. exists j. split; auto. lia.
    + intros x (j & Hj & ->). left. apply in_map_iff. exists j. split; auto. apply in_seq. lia.
    + eexists. exists 0%nat. split; [lia|reflexivity].
    + intros x (j & _ & ->). apply rsum_nonneg. intros; apply modulus_pos.
  - rewrite (foracc_pure _ _ _ _ (fun i => [ofR (rsum n (fun j => modulus (val A s i j)))])).
    2:{ intros i v Hi. unfold bind. rewrite (abs_sum_pure _ _ _ _ (fun j => val A s i j)) by (intros; apply rd_ok; lia).
        rewrite pmaxl_one, absv_list, <- ofR_0, addl_R, Nat.sub_0_r. rewrite rsum_seq, Rplus_0_l; auto. }
    do 2 eexists. split; [reflexivity|]. split; auto. rewrite Nat.sub_0_r.
    replace (flat_map (fun i => [ofR (rsum n (fun j => modulus (val A s i j)))]) (seq 0 m)) with (map ofR (map (fun i => rsum n (fun j => modulus (val A s i j))) (seq 0 m)))
      by (induction (seq 0 m) as [|y l IH]; cbn; auto; rewrite IH; auto).
    rewrite <- ofR_0, pmaxl_R. cbn [outcome]. eexists. split; [reflexivity|]. cbn [is_norm]. apply max_of_gen; try lra.
    + intros x Hx. left. apply in_map_iff in Hx. destruct Hx as (j & <- & Hj). apply in_seq in Hj. exists j. split; auto. lia.
    + intros x (j & Hj & ->). left. apply in_map_iff. exists j. split; auto. apply in_seq. lia.
    + eexists. exists 0%nat. split; [lia|reflexivity].
    + intros x (j & _ & ->). apply rsum_nonneg. intros; apply modulus_pos.
Qed.
(** lange: Frobenius norm *)
Theorem lange_frobenius bc st bt ss sb A s m n : shape A m n -> blue_ok bc st bt ss sb -> (0 <= st)%R ->
  returns (lange bc FroNorm A) s (fun r s' => s' = s /\ exists x, r = ofR x /\
    near_root st bt ((m + 1) * n) (no_tiny st m n (val A s)) (sumsq2 m n (val A s)) x).
Proof.
  intros [Hm Hn] HB Hst. unfold returns, lange. unfold bind at 1. rewrite check_ok by auto. rewrite Hm, Hn.
  destruct (Nat.eqb_spec m 0) as [->|Hm0]; [|destruct (Nat.eqb_spec n 0) as [->|Hn0]]; cbn [orb].
  1,2: do 2 eexists; (split; [reflexivity|]); (split; auto); exists 0%R; (split; [symmetry; apply ofR_0|]);
    match goal with |- near_root _ _ ?k _ ?F _ => assert (F = 0%R) as -> end;
    [unfold sumsq2; first [reflexivity|apply rsum_zero; intros; reflexivity]|].
  1,2: assert (0 <= st * st)%R by nra; match goal with |- near_root _ _ ?k _ _ _ => assert (K := pos_INR k) end; split; [|lra]; (split; [lra|]); split; [lra|]; nra.
  unfold bind at 1. rewrite (fro_run bc A s 0 n (0, 1) (fun _ => 0%nat) (fun _ => m)) by (intros; lia). do 2 eexists. split; [reflexivity|]. split; auto. rewrite !Nat.sub_0_r.
  destruct (near_fold bc st bt ss sb HB (fun j => mfrom A s 0 m j) (no_tiny st m n (val A s)) (seq 0 n) Hst) with (c := (m + 1)%nat) (k := 0%nat) (X := 0%R) (q := (0, 1) : T * T) as [K _].
  - intros j x Hj Hx. apply in_seq in Hj. split; [eapply mfrom_nonneg; eauto|]. intros Hnt. apply mfrom_in in Hx. destruct Hx as (i & Hi & ->). apply not_tiny, Hnt; lia.
  - intros j Hj. rewrite mfrom_len. lia.
  - apply near_start.
  - left. auto.
  - apply near_result in K. destruct K as (r & K1 & K2). exists r. split; auto. rewrite seq_length in K2. cbn [Nat.add] in K2.
    rewrite rsuml_seq, Rplus_0_l in K2. unfold sumsq2. erewrite rsum_ext; [exact K2|]. intros j Hj. cbn beta. unfold mfrom. rewrite sqs_seq. reflexivity.
Qed.

(** ** lansy, lanhe *)
Lemma rsum_window m lo cnt f : (lo + cnt <= m)%nat -> (forall i, (i < m)%nat -> (i < lo \/ lo + cnt <= i)%nat -> f i = 0%R) -> rsum m f = rsum cnt (fun i => f (lo + i)%nat).
Proof.
  intros H H0. rewrite (rsum_split m lo) by lia. rewrite (rsum_zero lo) by (intros; apply H0; lia).
  rewrite (rsum_split (m - lo) cnt) by lia. rewrite (rsum_zero (m - lo - cnt)) by (intros; apply H0; lia). lra.
Qed.
Lemma dsum_sym n (g : nat -> nat -> R) : (forall i j, (i < n)%nat -> (j < n)%nat -> g i j = g j i) ->
  rsum n (fun j => rsum n (fun i => g i j)) = (2 * rsum n (fun j => rsum j (fun i => g i j)) + rsum n (fun j => g j j))%R.
Proof.
  intros Hg. induction n as [|n IH]; [cbn; lra|]. cbn [rsum]. rewrite (rsum_plus n (fun j => rsum n (fun i => g i j)) (fun j => g n j)). rewrite IH by (intros; apply Hg; lia).
  rewrite (rsum_ext n (fun j => g n j) (fun i => g i n)) by (intros; apply Hg; lia). lra.
Qed.
Lemma dsum_low n (g : nat -> nat -> R) : rsum n (fun j => rsum (n - (j + 1)) (fun i => g (j + 1 + i)%nat j)) = rsum n (fun j => rsum j (fun i => g j i)).
Proof.
  induction n as [|n IH]; auto. cbn [rsum]. replace (S n - (n + 1))%nat with 0%nat by lia. cbn [rsum]. rewrite Rplus_0_r.
  rewrite (rsum_ext n _ (fun j => (rsum (n - (j + 1)) (fun i => g (j + 1 + i)%nat j) + g n j)%R)).
  - rewrite rsum_plus, IH. auto.
  - intros j Hj. replace (S n - (j + 1))%nat with (S (n - (j + 1))) by lia. cbn [rsum]. do 2 f_equal. lia.
Qed.
(** the matrix whose norm lanhe ([h] = true) or lansy ([h] = false) computes *)
Definition full (h : bool) (u : uplo_t) (A : mat) : mat := if h then herm u A else symm_ u A.
Section Sym.
Variables (h : bool) (u : uplo_t) (A : view) (s : state) (n : nat).
Hypothesis Hu : u = Upper \/ u = Lower.
Hypothesis HA : shape A n n.
Let F := full h u (val A s).
Definition dabs (a : T) := if h then absv (re a) else absv a.
Lemma full_st i j : (if uplo_eqb u Upper then (i < j)%nat else (j < i)%nat) -> F i j = val A s i j.
Proof.
  intros H. unfold F, full, herm, symm_. destruct Hu as [-> | ->]; cbn [uplo_eqb intri] in *; destruct h;
  (destruct (Nat.eqb_spec i j); [lia|]) || idtac; destruct (Nat.leb_spec i j), (Nat.leb_spec j i); auto; lia.
Qed.
Lemma full_sym i j : modulus (F i j) = modulus (F j i).
Proof.
  unfold F, full, herm, symm_. destruct (Nat.eq_dec i j) as [->|]; auto. 
  destruct Hu as [-> | ->]; cbn [intri]; destruct h; rewrite ?(proj2 (Nat.eqb_neq i j)), ?(proj2 (Nat.eqb_neq j i)) by lia;
  destruct (Nat.leb_spec i j), (Nat.leb_spec j i); try lia; rewrite ?modulus_conj; auto.
Qed.
Lemma full_diag j : dabs (val A s j j) = ofR (modulus (F j j)).
Proof.
  unfold F, full, herm, symm_, dabs. destruct h; [rewrite Nat.eqb_refl; apply absv_ofR|]. destruct Hu as [-> | ->]; cbn [intri]; rewrite (proj2 (Nat.leb_le j j)) by lia; apply absv_ofR.
Qed.
Let f i j := modulus (F i j).
Lemma seq_mid (g : nat -> R) j : (j < n)%nat -> rsum n g = (rsuml (map g (seq 0 j)) + g j + rsuml (map g (seq (j + 1) (n - (j + 1)))))%R.
Proof.
  intros Hj. rewrite (rsum_split n (j + 1)) by lia. rewrite Nat.add_1_r. cbn [rsum]. rewrite rsum_seq. rewrite (rsuml_seq g (S j)). auto.
Qed.
Theorem lanxy_correct bc nt : nt = MaxNorm \/ nt = OneNorm \/ nt = InfNorm ->
  returns (lanxy h bc nt u A) s (fun r s' => s' = s /\ exists x, r = ofR x /\ is_norm nt n n F x).
Proof.
  intros Hnt. destruct HA as [Hm Hn]. assert (Hc : norm_ok nt = true) by (destruct Hnt as [->|[->| ->]]; auto). unfold returns, lanxy. unfold bind at 1. rewrite check_ok by auto. unfold bind at 1. rewrite check_ok by (destruct Hu as [-> | ->]; auto). rewrite Hm.
  destruct (Nat.eqb_spec n 0) as [E0|Hn0].
  { do 2 eexists. split; [reflexivity|]. split; auto. exists 0%R. split; [symmetry; apply ofR_0|].
    destruct Hnt as [->|[->| ->]]; cbn [is_norm]; (split; [right; split; auto; intros x Hx|intros x Hx]); exfalso; first [destruct Hx as (i & j & Hi & Hj & _); lia|destruct Hx as (i & Hi & _); lia]. }
  assert (HS : nt = OneNorm \/ nt = InfNorm ->
    exists r s', (r <- foracc 0 n 0 (fun j norm =>
        if uplo_eqb u Upper then
          temp <- abs_sum 0 j 0 (fun i => rd A i j);; a <- rd A j j;;
          temp <- abs_sum (j + 1) n (temp + dabs a) (fun i => rd A j i);; ret (upd temp norm)
        else
          temp <- abs_sum 0 j 0 (fun i => rd A j i);; a <- rd A j j;;
          temp <- abs_sum (j + 1) n (temp + dabs a) (fun i => rd A i j);; ret (upd temp norm));; ret (outcome r)) s = Ok r s' /\ s' = s /\
    exists x, r = ofR x /\ is_norm nt n n F x).
  { intros Hnt'. unfold bind at 1. rewrite (foracc_pure _ _ _ _ (fun j => [ofR (rsum n (fun i => f i j))])).
    - do 2 eexists. split; [reflexivity|]. split; auto. rewrite Nat.sub_0_r.
      replace (flat_map (fun j => [ofR (rsum n (fun i => f i j))]) (seq 0 n)) with (map ofR (map (fun j => rsum n (fun i => f i j)) (seq 0 n)))
        by (induction (seq 0 n) as [|y l IH]; cbn; auto; rewrite IH; auto).
      rewrite <- ofR_0, pmaxl_R. cbn [outcome]. eexists. split; [reflexivity|].
      assert (K : max_of (fun x => exists j, (j < n)%nat /\ x = rsum n (fun i => f i j)) (fold_left Rmax (map (fun j => rsum n (fun i => f i j)) (seq 0 n)) 0%R)).
      { apply max_of_gen; try lra.
        + intros x Hx. left. apply in_map_iff in Hx. destruct Hx as (j & <- & Hj). apply in_seq in Hj. exists j. split; auto. lia.
        + intros x (j & Hj & ->). left. apply in_map_iff. exists j. split; auto. apply in_seq. lia.
        + eexists. exists 0%nat. split; [lia|reflexivity].
        + intros x (j & _ & ->). apply rsum_nonneg. intros; apply modulus_pos. }
      destruct Hnt' as [-> | ->]; cbn [is_norm]; auto.
      assert (Ef : forall j, rsum n (fun i => modulus (F j i)) = rsum n (fun i => f i j)) by (intros j; apply rsum_ext; intros; apply full_sym).
      destruct K as [[(j & Hj & K1)|[K1 K1']] K2]; split.
      + left. exists j. split; auto. rewrite Ef. auto.
      + intros x (i & Hi & ->). rewrite Ef. apply K2. exists i. auto.
      + right. split; auto. intros x (i & Hi & ->). apply (K1 (rsum n (fun i0 => f i0 i))). exists i. auto.
      + intros x (i & Hi & ->). rewrite Ef. apply K2. exists i. auto.
    - intros j v Hj. rewrite pmaxl_one. rewrite (seq_mid (fun i => f i j) j) by lia. destruct (uplo_eqb u Upper) eqn:eu.
      + unfold bind at 1. rewrite (abs_sum_pure _ _ _ _ (fun i => val A s i j)) by (intros; apply rd_ok; lia). unfold bind at 1. rewrite rd_ok by lia.
        rewrite full_diag. unfold bind. rewrite (abs_sum_pure _ _ _ _ (fun i => val A s j i)) by (intros; apply rd_ok; lia).
        rewrite !absv_list, <- ofR_0, addl_R, <- ofR_add, addl_R, Nat.sub_0_r, Rplus_0_l. unfold ret. do 5 f_equal; [f_equal|]; apply map_ext_in; intros i Hi; apply in_seq in Hi.
        * unfold f. rewrite full_st; auto. rewrite eu. lia.
        * unfold f. rewrite full_sym, full_st; auto. rewrite eu. lia.
      + unfold bind at 1. rewrite (abs_sum_pure _ _ _ _ (fun i => val A s j i)) by (intros; apply rd_ok; lia). unfold bind at 1. rewrite rd_ok by lia.
        rewrite full_diag. unfold bind. rewrite (abs_sum_pure _ _ _ _ (fun i => val A s i j)) by (intros; apply rd_ok; lia).
        rewrite !absv_list, <- ofR_0, addl_R, <- ofR_add, addl_R, Nat.sub_0_r, Rplus_0_l. unfold ret. do 5 f_equal; [f_equal|]; apply map_ext_in; intros i Hi; apply in_seq in Hi.
        * unfold f. rewrite full_sym, full_st; auto. rewrite eu. lia.
        * unfold f. rewrite full_st; auto. rewrite eu. lia. }
  destruct Hnt as [->|Hnt]; [|destruct Hnt as [-> | ->]; apply HS; auto].
  unfold bind at 1. rewrite (foracc_pure _ _ _ _ (fun j => map ofR (if uplo_eqb u Upper then map (fun i => f i j) (seq 0 j) ++ [f j j] else [f j j] ++ map (fun i => f i j) (seq (j + 1) (n - (j + 1)))))).
  2:{ intros j v Hj. destruct (uplo_eqb u Upper) eqn:eu.
      - rewrite map_app, pmaxl_app. unfold bind at 1. rewrite (foracc_pure _ _ _ _ (fun i => [absv (val A s i j)])).
        + rewrite Nat.sub_0_r. replace (flat_map (fun i => [absv (val A s i j)]) (seq 0 j)) with (map ofR (map (fun i => f i j) (seq 0 j))).
          * destruct (pmaxl (map ofR (map (fun i => f i j) (seq 0 j))) v) as [x|x]; [reflexivity|]. unfold bind. rewrite rd_ok by lia. fold (dabs (val A s j j)). rewrite full_diag. cbn [map]. rewrite pmaxl_one. reflexivity.
          * rewrite map_map. transitivity (map (fun i => absv (val A s i j)) (seq 0 j)); [apply map_ext_in; intros i Hi; apply in_seq in Hi; unfold f; rewrite full_st; [symmetry; apply absv_ofR|rewrite eu; lia]|].
            induction (seq 0 j) as [|y l IH]; cbn; auto; f_equal; auto.
        + intros i v' Hi. unfold bind. rewrite rd_ok by lia. rewrite pmaxl_one; auto.
      - unfold bind at 1. rewrite rd_ok by lia. fold (dabs (val A s j j)). rewrite full_diag. rewrite map_app, pmaxl_app. cbn [map]. rewrite pmaxl_one.
        destruct (upd (ofR (modulus (F j j))) v) as [x|x] eqn:ex; fold (f j j) in ex; rewrite ex; [reflexivity|]. rewrite (foracc_pure _ _ _ _ (fun i => [absv (val A s i j)])).
        + replace (flat_map (fun i => [absv (val A s i j)]) (seq (j + 1) (n - (j + 1)))) with (map ofR (map (fun i => f i j) (seq (j + 1) (n - (j + 1))))); [reflexivity|].
          rewrite map_map. transitivity (map (fun i => absv (val A s i j)) (seq (j + 1) (n - (j + 1)))); [apply map_ext_in; intros i Hi; apply in_seq in Hi; unfold f; rewrite full_st; [symmetry; apply absv_ofR|rewrite eu; lia]|].
          induction (seq (j + 1) (n - (j + 1))) as [|y l IH]; cbn; auto; f_equal; auto.
        + intros i v' Hi. unfold bind. rewrite rd_ok by lia. rewrite pmaxl_one; auto. }
  do 2 eexists. split; [reflexivity|]. split; auto. rewrite Nat.sub_0_r.
  rewrite flat_map_ofR. match goal with |- context[flat_map ?L _] => set (LL := L) end.
  rewrite <- ofR_0, pmaxl_R. cbn [outcome]. eexists. split; [reflexivity|]. cbn [is_norm].
  assert (HLL : forall j x, (j < n)%nat -> In x (LL j) <-> exists i, (i < n)%nat /\ (if uplo_eqb u Upper then (i <= j)%nat else (j <= i)%nat) /\ x = f i j).
  { intros j x Hj. unfold LL. destruct (uplo_eqb u Upper); rewrite in_app_iff, in_map_iff; split.
    - intros [(i & <- & Hi)|[<-|[]]]; [apply in_seq in Hi; exists i|exists j]; repeat split; auto; lia.
    - intros (i & Hi & Hij & ->). destruct (Nat.eq_dec i j) as [->|]; [right; left; auto|left; exists i; split; auto; apply in_seq; lia].
    - intros [[<-|[]]|(i & <- & Hi)]; [exists j|apply in_seq in Hi; exists i]; repeat split; auto; lia.
    - intros (i & Hi & Hij & ->). destruct (Nat.eq_dec i j) as [->|]; [left; left; auto|right; exists i; split; auto; apply in_seq; lia]. }
  apply max_of_gen; try lra.
  - intros x Hx. left. apply in_flat_map in Hx. destruct Hx as (j & Hj & Hx). apply in_seq in Hj. apply HLL in Hx; [|lia]. destruct Hx as (i & Hi & _ & ->). exists i, j. repeat split; auto; lia.
  - intros x (i & j & Hi & Hj & ->). left. apply in_flat_map. destruct (uplo_eqb u Upper) eqn:eu; destruct (Nat.le_ge_cases i j).
    + exists j. split; [apply in_seq; lia|]. apply HLL; auto. exists i. auto.
    + exists i. split; [apply in_seq; lia|]. apply HLL; auto. exists j. repeat split; auto. apply full_sym.
    + exists i. split; [apply in_seq; lia|]. apply HLL; auto. exists j. repeat split; auto. apply full_sym.
    + exists j. split; [apply in_seq; lia|]. apply HLL; auto. exists i. auto.
  - exists (modulus (F 0%nat 0%nat)), 0%nat, 0%nat. repeat split; auto; lia.
  - intros x (i & j & _ & _ & ->). apply modulus_pos.
Qed.
Theorem lanxy_frobenius bc st bt ss sb : blue_ok bc st bt ss sb -> (0 <= st)%R ->
  returns (lanxy h bc FroNorm u A) s (fun r s' => s' = s /\ exists x, r = ofR x /\
    near_root st bt (2 * (n * (n - 1)) + S n) (no_tiny st n n F) (sumsq2 n n F) x).
Proof.
  intros HB Hst. destruct HA as [Hm Hn]. unfold returns, lanxy. unfold bind at 1. rewrite check_ok by auto. unfold bind at 1. rewrite check_ok by (destruct Hu as [-> | ->]; auto). rewrite Hm.
  assert (Hst2 : (0 <= st * st)%R) by nra.
  destruct (Nat.eqb_spec n 0) as [E0|Hn0].
  { do 2 eexists. split; [reflexivity|]. split; auto. exists 0%R. split; [symmetry; apply ofR_0|]. rewrite E0. unfold sumsq2. cbn [rsum].
    match goal with |- near_root _ _ ?k _ _ _ => assert (K := pos_INR k) end; split; [|lra]; (split; [lra|]); split; [lra|]; nra. }
  assert (HT : forall j x i0 c, (forall i, (i0 <= i < i0 + c)%nat -> (i < n)%nat /\ (if uplo_eqb u Upper then (i < j)%nat else (j < i)%nat)) -> (j < n)%nat -> In x (mfrom A s i0 c j) -> (0 <= x)%R /\ (no_tiny st n n F -> ~ tiny st x)).
  { intros j x i0 c Hi Hj Hx. split; [eapply mfrom_nonneg; eauto|]. intros Hnt. apply mfrom_in in Hx. destruct Hx as (i & Hi' & ->). destruct (Hi i Hi') as [K1 K2]. rewrite <- (full_st i j) by auto. apply not_tiny, Hnt; auto. }
  assert (HO : exists q, (if uplo_eqb u Upper then
              foldup 1 n (0, 1) (fun j q => c <- slcol A 0 j j;; lassq bc absv c (fst q) (snd q))
            else
              foldup 0 (n - 1) (0, 1) (fun j q => c <- slcol A (j + 1) n j;; lassq bc absv c (fst q) (snd q))) s = Ok q s /\
      near st bt (n * (n - 1)) (rsum n (fun j => rsum j (fun i => f i j * f i j)%R)) (no_tiny st n n F) q /\ (no_tiny st n n F -> gap st (rsum n (fun j => rsum j (fun i => f i j * f i j)%R)))).
  { destruct (uplo_eqb u Upper) eqn:eu.
    - rewrite (fro_run bc A s 1 n (0, 1) (fun _ => 0%nat) (fun j => j)) by (intros; lia). eexists. split; [reflexivity|].
      destruct (near_fold bc st bt ss sb HB (fun j => mfrom A s 0 (j - 0) j) (no_tiny st n n F) (seq 1 (n - 1)) Hst) with (c := n) (k := 0%nat) (X := 0%R) (q := (0, 1) : T * T) as [K K'].
      + intros j x Hj Hx. apply in_seq in Hj. eapply HT; [| |exact Hx]; [intros; split; [lia|lia]|lia].
      + intros j Hj. apply in_seq in Hj. rewrite mfrom_len. lia.
      + apply near_start.
      + left. auto.
      + rewrite seq_length in K. cbn [Nat.add] in K.
        assert (ES : (0 + rsuml (map (fun j => sqs (mfrom A s 0 (j - 0) j)) (seq 1 (n - 1))))%R = rsum n (fun j => rsum j (fun i => f i j * f i j)%R)).
        { rewrite rsuml_seq, Rplus_0_l. rewrite (rsum_split n 1) by lia. cbn [rsum]. rewrite !Rplus_0_l. apply rsum_ext. intros j Hj. unfold mfrom. rewrite sqs_seq, Nat.sub_0_r.
          apply rsum_ext. intros i Hi. unfold f. rewrite full_st by (rewrite eu; lia). auto. }
        rewrite ES in *. auto.
    - rewrite (fro_run bc A s 0 (n - 1) (0, 1) (fun j => (j + 1)%nat) (fun j => n)) by (intros; lia). eexists. split; [reflexivity|].
      rewrite Nat.sub_0_r.
      destruct (near_fold bc st bt ss sb HB (fun j => mfrom A s (j + 1) (n - (j + 1)) j) (no_tiny st n n F) (seq 0 (n - 1)) Hst) with (c := n) (k := 0%nat) (X := 0%R) (q := (0, 1) : T * T) as [K K'].
      + intros j x Hj Hx. apply in_seq in Hj. eapply HT; [| |exact Hx]; [intros; split; [lia|lia]|lia].
      + intros j Hj. apply in_seq in Hj. rewrite mfrom_len. lia.
      + apply near_start.
      + left. auto.
      + rewrite seq_length in K. cbn [Nat.add] in K.
        assert (ES : (0 + rsuml (map (fun j => sqs (mfrom A s (j + 1) (n - (j + 1)) j)) (seq 0 (n - 1))))%R = rsum n (fun j => rsum j (fun i => f i j * f i j)%R)).
        { rewrite rsuml_seq, Rplus_0_l. transitivity (rsum n (fun j => rsum (n - (j + 1)) (fun i => f (j + 1 + i)%nat j * f (j + 1 + i)%nat j)%R)).
          - symmetry. rewrite (rsum_split n (n - 1)) by lia. rewrite (rsum_zero (n - (n - 1))) by (intros; replace (n - (n - 1 + i + 1))%nat with 0%nat by lia; reflexivity). rewrite Rplus_0_r.
            apply rsum_ext. intros j Hj. cbn [Nat.add]. unfold mfrom. rewrite sqs_seq. apply rsum_ext. intros i Hi. unfold f. rewrite full_st by (rewrite eu; lia). auto.
          - rewrite (dsum_low n (fun i j => f i j * f i j)%R). apply rsum_ext. intros j Hj. apply rsum_ext. intros i Hi. unfold f. rewrite full_sym. auto. }
        rewrite ES in *. auto. }
  destruct HO as ([sc sq] & HO & N1 & N2). unfold bind at 1. rewrite HO. apply near_double in N1. cbn [fst snd].
  destruct (near_step bc st bt ss sb HB _ _ _ _ (map (fun i => f i i) (seq 0 n)) Hst N1) as [N3 _].
  { intros Hnt. destruct (N2 Hnt) as [K|K]; [left; lra|right; nra]. }
  { intros x Hx. apply in_map_iff in Hx. destruct Hx as (i & <- & Hi). apply in_seq in Hi. split; [apply modulus_pos|]. intros Hnt. apply not_tiny, Hnt; lia. }
  unfold bind at 1. change (fun a => if h then absv (re a) else absv a) with dabs. rewrite (lassq_pure bc dabs (vdiag A) n) by (split; cbn; lia).
  replace (map (fun i => dabs (vval (vdiag A) s i)) (seq 0 n)) with (map ofR (map (fun i => f i i) (seq 0 n))) by (rewrite map_map; apply map_ext; intros i; symmetry; apply full_diag).
  do 2 eexists. split; [reflexivity|]. split; auto. apply near_result in N3. destruct N3 as (r & R1 & R2). exists r. split; auto.
  rewrite map_length, seq_length in R2. unfold sumsq2. rewrite (dsum_sym n (fun i j => modulus (F i j) * modulus (F i j))%R) by (intros; rewrite full_sym; auto).
  rewrite sqs_seq in R2. exact R2.
Qed.
End Sym.

Theorem lansy_correct bc nt u A s n : u = Upper \/ u = Lower -> shape A n n -> nt = MaxNorm \/ nt = OneNorm \/ nt = InfNorm ->
  returns (lansy bc nt u A) s (fun r s' => s' = s /\ exists x, r = ofR x /\ is_norm nt n n (symm_ u (val A s)) x).
Proof. intros. apply (lanxy_correct false); auto. Qed.
Theorem lanhe_correct bc nt u A s n : u = Upper \/ u = Lower -> shape A n n -> nt = MaxNorm \/ nt = OneNorm \/ nt = InfNorm ->
  returns (lanhe bc nt u A) s (fun r s' => s' = s /\ exists x, r = ofR x /\ is_norm nt n n (herm u (val A s)) x).
Proof. intros. apply (lanxy_correct true); auto. Qed.
Theorem lansy_frobenius bc st bt ss sb u A s n : u = Upper \/ u = Lower -> shape A n n -> blue_ok bc st bt ss sb -> (0 <= st)%R ->
  returns (lansy bc FroNorm u A) s (fun r s' => s' = s /\ exists x, r = ofR x /\
    near_root st bt (2 * (n * (n - 1)) + S n) (no_tiny st n n (symm_ u (val A s))) (sumsq2 n n (symm_ u (val A s))) x).
Proof. intros. eapply (lanxy_frobenius false); eauto. Qed.
Theorem lanhe_frobenius bc st bt ss sb u A s n : u = Upper \/ u = Lower -> shape A n n -> blue_ok bc st bt ss sb -> (0 <= st)%R ->
  returns (lanhe bc FroNorm u A) s (fun r s' => s' = s /\ exists x, r = ofR x /\
    near_root st bt (2 * (n * (n - 1)) + S n) (no_tiny st n n (herm u (val A s))) (sumsq2 n n (herm u (val A s))) x).
Proof. intros. eapply (lanxy_frobenius true); eauto. Qed.

(** ** lantr *)
Section Tri.
Variables (u : uplo_t) (d : diag_t) (A : view) (s : state) (m n : nat).
Hypothesis Hu : u = Upper \/ u = Lower.
Hypothesis HA : shape A m n.
Let F := trim u d (val A s).
Let f i j := modulus (F i j).
Lemma one_mod : modulus 1 = 1%R.
Proof. rewrite <- ofR_1, modulus_ofR. apply Rabs_R1. Qed.
Lemma zero_mod : modulus 0 = 0%R.
Proof. apply modulus_0_iff. auto. Qed.
Lemma tri_out i j : (if uplo_eqb u Upper then (j < i)%nat else (i < j)%nat) -> f i j = 0%R.
Proof.
  intros H. unfold f, F, trim. destruct Hu as [-> | ->]; cbn [uplo_eqb intri] in *; destruct (Nat.eqb_spec i j); try lia; destruct (Nat.leb_spec i j), (Nat.leb_spec j i); try lia; apply zero_mod.
Qed.
Lemma tri_in i j : (if uplo_eqb u Upper then (i < j)%nat else (j < i)%nat) -> f i j = modulus (val A s i j).
Proof.
  intros H. unfold f, F, trim. destruct Hu as [-> | ->]; cbn [uplo_eqb intri] in *; destruct (Nat.eqb_spec i j); try lia; destruct (Nat.leb_spec i j), (Nat.leb_spec j i); try lia; auto.
Qed.
Lemma tri_diag i : f i i = if diag_eqb d NonUnit then modulus (val A s i i) else 1%R.
Proof. unfold f, F, trim. rewrite Nat.eqb_refl. destruct d; cbn; auto. apply one_mod. Qed.
Lemma f_pos i j : (0 <= f i j)%R.
Proof. apply modulus_pos. Qed.
(** a loop that accumulates the maximum of row or column sums *)
Lemma sums_run k (p : nat -> M T) (q : nat -> R) (P : R -> Prop) : (0 < k)%nat -> (forall i, (i < k)%nat -> p i s = Ok (ofR (q i)) s) ->
  (forall i, (i < k)%nat -> P (q i) \/ exists y, P y /\ (q i <= y)%R) -> (forall x, P x -> (exists i, (i < k)%nat /\ x = q i) \/ x = 0%R) -> (exists x, P x) -> (forall x, P x -> (0 <= x)%R) ->
  exists r s', (r <- foracc 0 k 0 (fun i norm => sum <- p i;; ret (upd sum norm));; ret (outcome r)) s = Ok r s' /\ s' = s /\ exists x, r = ofR x /\ max_of P x.
Proof.
  intros Hk Hp HP HP' Hne Hpos. unfold bind at 1. rewrite (foracc_pure _ _ _ _ (fun j => map ofR [q j])).
  2:{ intros j v Hj. unfold bind. rewrite Hp by lia. cbn [map]. rewrite pmaxl_one. reflexivity. }
  do 2 eexists. split; [reflexivity|]. split; auto. rewrite Nat.sub_0_r, flat_map_ofR, <- ofR_0, pmaxl_R. cbn [outcome]. eexists. split; [reflexivity|]. apply max_of_gen; auto; try lra.
  - intros x Hx. apply in_flat_map in Hx. destruct Hx as (j & Hj & [<-|[]]). apply in_seq in Hj. apply HP. lia.
  - intros x Hx. destruct (HP' x Hx) as [(i & Hi & ->)| ->]; [left|right; lra]. apply in_flat_map. exists i. split; [apply in_seq; lia|left; auto].
Qed.
Lemma abs_sum_R lo hi v (p : nat -> M T) h : (forall i, (lo <= i < hi)%nat -> p i s = Ok (h i) s) -> abs_sum lo hi (ofR v) p s = Ok (ofR (v + rsum (hi - lo) (fun i => modulus (h (lo + i)%nat)))) s.
Proof. intros H. rewrite (abs_sum_pure _ _ _ _ h) by auto. rewrite absv_list, addl_R, (rsuml_seq (fun i => modulus (h i))). auto. Qed.

Theorem lantr_correct bc nt : nt = MaxNorm \/ nt = OneNorm \/ nt = InfNorm ->
  returns (lantr bc nt u d A) s (fun r s' => s' = s /\ exists x, r = ofR x /\ is_norm nt m n F x).
Proof.
  intros Hnt. destruct HA as [Hm Hn]. assert (Hc : norm_ok nt = true) by (destruct Hnt as [->|[->| ->]]; auto). unfold returns, lantr. unfold bind at 1. rewrite check_ok by auto. unfold bind at 1. rewrite check_ok by (destruct Hu as [-> | ->]; auto). rewrite Hm, Hn.
  destruct (Nat.eqb_spec m 0) as [Em0|Hm0]; [|destruct (Nat.eqb_spec n 0) as [En0|Hn0]]; cbn [orb].
  1,2: do 2 eexists; (split; [reflexivity|]); (split; auto); exists 0%R; (split; [symmetry; apply ofR_0|]);
    destruct Hnt as [->|[->| ->]]; cbn [is_norm];
    (split; [|intros x; first [intros (i & j & Hi & Hj & _); lia|intros (i & Hi & _); lia|intros (i & Hi & ->); rewrite ?Em0, ?En0; cbn; lra]]).
  1: right; split; auto; intros x (i & j & Hi & Hj & _); lia.
  1: destruct (Nat.eq_dec n 0); [right; split; auto; intros x (i & Hi & _); lia|left; exists 0%nat; split; [lia|rewrite Em0; reflexivity]].
  1: right; split; auto; intros x (i & Hi & _); lia.
  1: right; split; auto; intros x (i & j & Hi & Hj & _); lia.
  1: right; split; auto; intros x (i & Hi & _); lia.
  1: destruct (Nat.eq_dec m 0); [right; split; auto; intros x (i & Hi & _); lia|left; exists 0%nat; split; [lia|rewrite En0; reflexivity]].
  destruct Hnt as [->|[->| ->]].
  - cbv zeta. set (lo := fun j => if uplo_eqb u Upper then 0%nat else if diag_eqb d NonUnit then j else (j + 1)%nat).
    set (hi := fun j => if uplo_eqb u Upper then if diag_eqb d NonUnit then (Nat.min j (m - 1) + 1)%nat else Nat.min j m else m).
    assert (Hhi : forall j, (hi j <= m)%nat) by (intros j; unfold hi; destruct (uplo_eqb u Upper), (diag_eqb d NonUnit); lia).
    assert (HLL : forall i j, (lo j <= i < hi j)%nat <-> (i < m)%nat /\ (if uplo_eqb u Upper then (i <= j)%nat else (j <= i)%nat) /\ (diag_eqb d NonUnit = true \/ i <> j)).
    { intros i j. unfold lo, hi. destruct (uplo_eqb u Upper), (diag_eqb d NonUnit); (split; [intros H; repeat split; try lia; auto; try (left; reflexivity); right; lia|intros (H1 & H2 & [H3|H3]); try discriminate; lia]). }
    assert (Hf : forall i j, (lo j <= i < hi j)%nat -> f i j = modulus (val A s i j)).
    { intros i j H. apply HLL in H. destruct H as (H1 & H2 & H3). destruct (Nat.eq_dec i j) as [->|]; [rewrite tri_diag; destruct H3 as [->|]; [auto|lia]|]. apply tri_in. destruct (uplo_eqb u Upper); lia. }
    unfold bind at 1. rewrite (foracc_pure _ _ _ _ (fun j => map ofR (mfrom A s (lo j) (hi j - lo j) j))).
    2:{ intros j v Hj. rewrite (foracc_pure _ _ _ _ (fun i => [absv (val A s i j)])).
        - do 2 f_equal. unfold mfrom. rewrite <- absv_list. transitivity (map (fun i => absv (val A s i j)) (seq (lo j) (hi j - lo j))); [unfold lo, hi; induction (seq _ _) as [|y l IH]; cbn; auto; f_equal; auto|].
          generalize (hi j - lo j)%nat as c. generalize (lo j) as a. intros a c. assert (G : forall b, map (fun i => absv (val A s i j)) (seq (a + b) c) = map (fun i => absv (val A s (a + i)%nat j)) (seq b c)).
          { induction c as [|c IH]; intros b; cbn; auto. f_equal. rewrite <- IH. do 2 f_equal. lia. } rewrite <- G, Nat.add_0_r. auto.
        - intros i v' Hi. unfold bind. rewrite rd_ok; [rewrite pmaxl_one; auto| |lia]. assert (K := Hhi j). unfold lo, hi in *. lia. }
    do 2 eexists. split; [reflexivity|]. split; auto. rewrite Nat.sub_0_r, flat_map_ofR.
    replace (if diag_eqb d NonUnit then 0 else 1) with (ofR (if diag_eqb d NonUnit then 0 else 1)%R) by (destruct (diag_eqb d NonUnit); [apply ofR_0|apply ofR_1]).
    rewrite pmaxl_R. cbn [outcome]. eexists. split; [reflexivity|]. cbn [is_norm]. apply max_of_gen.
    + destruct (diag_eqb d NonUnit); lra.
    + intros x Hx. left. apply in_flat_map in Hx. destruct Hx as (j & Hj & Hx). apply in_seq in Hj. apply mfrom_in in Hx. destruct Hx as (i & Hi & ->).
      assert (Hi' : (lo j <= i < hi j)%nat) by lia. exists i, j. rewrite <- (Hf i j Hi'). assert (K := Hhi j). repeat split; auto; lia.
    + intros x (i & j & Hi & Hj & ->). fold (f i j). destruct (Nat.eq_dec i j) as [->|].
      * rewrite tri_diag. destruct (diag_eqb d NonUnit) eqn:ed; [left|right; lra]. apply in_flat_map. exists j. split; [apply in_seq; lia|]. apply mfrom_in. exists j. split; auto.
        assert (K : (lo j <= j < hi j)%nat) by (apply HLL; repeat split; auto; destruct (uplo_eqb u Upper); lia). lia.
      * destruct (Nat.lt_ge_cases i j) as [Hij|Hij]; destruct (uplo_eqb u Upper) eqn:eu.
        -- left. rewrite tri_in by (rewrite eu; auto). apply in_flat_map. exists j. split; [apply in_seq; lia|]. apply mfrom_in. exists i. split; auto. assert (K : (lo j <= i < hi j)%nat) by (apply HLL; repeat split; auto; lia). lia.
        -- right. rewrite tri_out by (rewrite eu; auto). destruct (diag_eqb d NonUnit); lra.
        -- right. rewrite tri_out by (rewrite eu; lia). destruct (diag_eqb d NonUnit); lra.
        -- left. rewrite tri_in by (rewrite eu; lia). apply in_flat_map. exists j. split; [apply in_seq; lia|]. apply mfrom_in. exists i. split; auto. assert (K : (lo j <= i < hi j)%nat) by (apply HLL; repeat split; auto; lia). lia.
    + destruct (diag_eqb d NonUnit) eqn:ed; [left; auto|right]. exists 0%nat, 0%nat. repeat split; try lia. fold (f 0 0). rewrite tri_diag, ed. auto.
    + exists (f 0 0), 0%nat, 0%nat. repeat split; auto; lia.
    + intros x (i & j & _ & _ & ->). apply modulus_pos.
  - apply (sums_run n _ (fun j => if negb (uplo_eqb u Upper) && negb (diag_eqb d NonUnit) && (m <=? j)%nat then 1%R else rsum m (fun i => f i j))).
    + lia.
    + intros j Hj. rewrite <- ofR_0, <- ofR_1. destruct (uplo_eqb u Upper) eqn:eu; cbn [negb andb].
      * destruct (diag_eqb d NonUnit || (m <=? j)%nat) eqn:eb.
        -- rewrite (abs_sum_R _ _ _ _ (fun i => val A s i j)) by (intros; apply rd_ok; lia). do 2 f_equal. rewrite Rplus_0_l, Nat.sub_0_r.
           rewrite (rsum_window m 0 (Nat.min j (m - 1) + 1)); [|lia|intros i Hi Hi'; apply tri_out; rewrite eu; lia]. apply rsum_ext. intros i Hi. cbn [Nat.add].
           destruct (Nat.eq_dec i j) as [->|]; [|symmetry; apply tri_in; rewrite eu; lia]. rewrite tri_diag. destruct (diag_eqb d NonUnit); auto. cbn [orb] in eb. apply Nat.leb_le in eb. lia.
        -- apply orb_false_iff in eb. destruct eb as [ed em]. apply Nat.leb_gt in em. rewrite (abs_sum_R _ _ _ _ (fun i => val A s i j)) by (intros; apply rd_ok; lia). do 2 f_equal. rewrite Nat.sub_0_r.
           rewrite (rsum_window m 0 (j + 1)); [|lia|intros i Hi Hi'; apply tri_out; rewrite eu; lia]. rewrite Nat.add_1_r. cbn [rsum Nat.add]. rewrite tri_diag, ed, Rplus_comm. f_equal. apply rsum_ext. intros i Hi. symmetry. apply tri_in. rewrite eu. lia.
      * destruct (diag_eqb d NonUnit) eqn:ed; cbn [negb andb].
        -- rewrite (abs_sum_R _ _ _ _ (fun i => val A s i j)) by (intros; apply rd_ok; lia). do 2 f_equal. rewrite Rplus_0_l. destruct (Nat.le_gt_cases m j).
           ++ replace (m - j)%nat with 0%nat by lia. cbn [rsum]. symmetry. apply rsum_zero. intros i Hi. apply tri_out. rewrite eu. lia.
           ++ rewrite (rsum_window m j (m - j)); [|lia|intros i Hi Hi'; apply tri_out; rewrite eu; lia]. apply rsum_ext. intros i Hi. destruct (Nat.eq_dec i 0) as [->|]; [rewrite Nat.add_0_r, tri_diag, ed; auto|]. symmetry. apply tri_in. rewrite eu. lia.
        -- rewrite (abs_sum_R _ _ _ _ (fun i => val A s i j)) by (intros; apply rd_ok; lia). do 2 f_equal. destruct (Nat.leb_spec m j).
           ++ replace (m - (j + 1))%nat with 0%nat by lia. cbn [rsum]. lra.
           ++ rewrite (rsum_window m j (m - j)); [|lia|intros i Hi Hi'; apply tri_out; rewrite eu; lia]. rewrite (rsum_split (m - j) 1) by lia. cbn [rsum]. rewrite Nat.add_0_r, tri_diag, ed, Rplus_0_l. f_equal.
              replace (m - (j + 1))%nat with (m - j - 1)%nat by lia. apply rsum_ext. intros i Hi. symmetry. replace (j + (1 + i))%nat with (j + 1 + i)%nat by lia. apply tri_in. rewrite eu. lia.
    + intros j Hj. destruct (negb (uplo_eqb u Upper) && negb (diag_eqb d NonUnit) && (m <=? j)%nat) eqn:eb; [|left; exists j; auto].
      right. exists (rsum m (fun i => f i 0%nat)). split; [exists 0%nat; split; [lia|auto]|]. rewrite !andb_true_iff in eb. destruct eb as [[_ eb] _].
      rewrite (rsum_split m 1) by lia. cbn [rsum]. rewrite tri_diag. destruct (diag_eqb d NonUnit); [discriminate|]. assert (0 <= rsum (m - 1) (fun i => f (1 + i)%nat 0%nat))%R by (apply rsum_nonneg; intros; apply f_pos). lra.
    + intros x (j & Hj & ->). destruct (negb (uplo_eqb u Upper) && negb (diag_eqb d NonUnit) && (m <=? j)%nat) eqn:eb.
      * right. rewrite !andb_true_iff in eb. destruct eb as [[eu ed] em]. apply Nat.leb_le in em. apply rsum_zero. intros i Hi. apply tri_out. destruct (uplo_eqb u Upper); [discriminate|lia].
      * left. exists j. rewrite eb. auto.
    + eexists. exists 0%nat. split; [lia|reflexivity].
    + intros x (j & _ & ->). apply rsum_nonneg. intros; apply modulus_pos.
  - apply (sums_run m _ (fun i => if uplo_eqb u Upper && negb (diag_eqb d NonUnit) && (n <=? i)%nat then 1%R else rsum n (fun j => f i j))).
    + lia.
    + intros i Hi. rewrite <- ofR_0, <- ofR_1. destruct (uplo_eqb u Upper) eqn:eu; cbn [negb andb].
      * destruct (diag_eqb d NonUnit) eqn:ed; cbn [negb andb].
        -- rewrite (abs_sum_R _ _ _ _ (fun j => val A s i j)) by (intros; apply rd_ok; lia). do 2 f_equal. rewrite Rplus_0_l. destruct (Nat.le_gt_cases n i).
           ++ replace (n - i)%nat with 0%nat by lia. cbn [rsum]. symmetry. apply rsum_zero. intros j Hj. apply tri_out. rewrite eu. lia.
           ++ rewrite (rsum_window n i (n - i)); [|lia|intros j Hj Hj'; apply tri_out; rewrite eu; lia]. apply rsum_ext. intros j Hj. destruct (Nat.eq_dec j 0) as [->|]; [rewrite Nat.add_0_r, tri_diag, ed; auto|]. symmetry. apply tri_in. rewrite eu. lia.
        -- rewrite (abs_sum_R _ _ _ _ (fun j => val A s i j)) by (intros; apply rd_ok; lia). do 2 f_equal. destruct (Nat.leb_spec n i).
           ++ replace (n - (i + 1))%nat with 0%nat by lia. cbn [rsum]. lra.
           ++ rewrite (rsum_window n i (n - i)); [|lia|intros j Hj Hj'; apply tri_out; rewrite eu; lia]. rewrite (rsum_split (n - i) 1) by lia. cbn [rsum]. rewrite Nat.add_0_r, tri_diag, ed, Rplus_0_l. f_equal.
              replace (n - (i + 1))%nat with (n - i - 1)%nat by lia. apply rsum_ext. intros j Hj. symmetry. replace (i + (1 + j))%nat with (i + 1 + j)%nat by lia. apply tri_in. rewrite eu. lia.
      * destruct (diag_eqb d NonUnit || (n <=? i)%nat) eqn:eb.
        -- rewrite (abs_sum_R _ _ _ _ (fun j => val A s i j)) by (intros; apply rd_ok; lia). do 2 f_equal. rewrite Rplus_0_l, Nat.sub_0_r.
           rewrite (rsum_window n 0 (Nat.min i (n - 1) + 1)); [|lia|intros j Hj Hj'; apply tri_out; rewrite eu; lia]. apply rsum_ext. intros j Hj. cbn [Nat.add].
           destruct (Nat.eq_dec i j) as [->|]; [|symmetry; apply tri_in; rewrite eu; lia]. rewrite tri_diag. destruct (diag_eqb d NonUnit); auto. cbn [orb] in eb. apply Nat.leb_le in eb. lia.
        -- apply orb_false_iff in eb. destruct eb as [ed em]. apply Nat.leb_gt in em. rewrite (abs_sum_R _ _ _ _ (fun j => val A s i j)) by (intros; apply rd_ok; lia). do 2 f_equal. rewrite Nat.sub_0_r.
           rewrite (rsum_window n 0 (i + 1)); [|lia|intros j Hj Hj'; apply tri_out; rewrite eu; lia]. rewrite Nat.add_1_r. cbn [rsum Nat.add]. rewrite tri_diag, ed, Rplus_comm. f_equal. apply rsum_ext. intros j Hj. symmetry. apply tri_in. rewrite eu. lia.
    + intros i Hi. destruct (uplo_eqb u Upper && negb (diag_eqb d NonUnit) && (n <=? i)%nat) eqn:eb; [|left; exists i; auto].
      right. exists (rsum n (fun j => f 0%nat j)). split; [exists 0%nat; split; [lia|auto]|]. rewrite !andb_true_iff in eb. destruct eb as [[_ eb] _].
      rewrite (rsum_split n 1) by lia. cbn [rsum]. rewrite tri_diag. destruct (diag_eqb d NonUnit); [discriminate|]. assert (0 <= rsum (n - 1) (fun i => f 0%nat (1 + i)%nat))%R by (apply rsum_nonneg; intros; apply f_pos). lra.
    + intros x (i & Hi & ->). destruct (uplo_eqb u Upper && negb (diag_eqb d NonUnit) && (n <=? i)%nat) eqn:eb.
      * right. rewrite !andb_true_iff in eb. destruct eb as [[eu ed] em]. apply Nat.leb_le in em. apply rsum_zero. intros j Hj. apply tri_out. destruct (uplo_eqb u Upper); [lia|discriminate].
      * left. exists i. rewrite eb. auto.
    + eexists. exists 0%nat. split; [lia|reflexivity].
    + intros x (j & _ & ->). apply rsum_nonneg. intros; apply modulus_pos.
Qed.
(** Frobenius norm *)
Theorem lantr_frobenius bc st bt ss sb : blue_ok bc st bt ss sb -> (0 <= st <= 1)%R ->
  returns (lantr bc FroNorm u d A) s (fun r s' => s' = s /\ exists x, r = ofR x /\
    near_root st bt ((m + 1) * n) (no_tiny st m n F) (sumsq2 m n F) x).
Proof.
  intros HB [Hst Hst1]. destruct HA as [Hm Hn]. unfold returns, lantr. unfold bind at 1. rewrite check_ok by auto. unfold bind at 1. rewrite check_ok by (destruct Hu as [-> | ->]; auto). rewrite Hm, Hn.
  assert (Hst2 : (0 <= st * st)%R) by nra.
  destruct (Nat.eqb_spec m 0) as [Em0|Hm0]; [|destruct (Nat.eqb_spec n 0) as [En0|Hn0]]; cbn [orb].
  1,2: do 2 eexists; (split; [reflexivity|]); (split; auto); exists 0%R; (split; [symmetry; apply ofR_0|]);
    match goal with |- near_root _ _ ?k _ ?F _ => assert (F = 0%R) as -> end;
    [unfold sumsq2; first [rewrite En0; reflexivity|apply rsum_zero; intros; rewrite Em0; reflexivity]|].
  1,2: match goal with |- near_root _ _ ?k _ _ _ => assert (K := pos_INR k) end; split; [|lra]; (split; [lra|]); split; [lra|]; nra.
  set (up := uplo_eqb u Upper). set (nu := diag_eqb d NonUnit).
  (* one statement for the four loops *)
  assert (G : forall lo hi a b, (forall j, (lo <= j < hi)%nat -> (a j <= b j <= m)%nat /\ (j < n)%nat) -> (lo <= hi)%nat ->
     (forall i j, (lo <= j < hi)%nat -> (a j <= i < b j)%nat -> f i j = modulus (val A s i j)) ->
     (forall j, (j < n)%nat -> rsum m (fun i => f i j * f i j)%R = ((if nu then 0 else if (j <? m)%nat then 1 else 0) + (if ((lo <=? j) && (j <? hi))%nat then rsum (b j - a j) (fun i => f (a j + i)%nat j * f (a j + i)%nat j) else 0))%R) ->
     (hi <= n)%nat ->
     exists q, foldup lo hi (1, if nu then 0 else nat2T (Nat.min m n)) (fun j q => c <- slcol A (a j) (b j) j;; lassq bc absv c (fst q) (snd q)) s = Ok q s /\
       near st bt ((m + 1) * n) (sumsq2 m n F) (no_tiny st m n F) q).
  { intros lo hi a b H1 H2 H3 H4 H5. rewrite (fro_run bc A s lo hi _ a b) by (intros; rewrite Hm, Hn; apply H1; auto). eexists. split; [reflexivity|].
    set (X0 := if nu then 0%R else INR (Nat.min m n)).
    destruct (near_fold bc st bt ss sb HB (fun j => mfrom A s (a j) (b j - a j) j) (no_tiny st m n F) (seq lo (hi - lo)) Hst) with (c := (m + 1)%nat) (k := 0%nat) (X := X0) (q := (1, if nu then 0 else nat2T (Nat.min m n)) : T * T) as [K _].
    - intros j x Hj Hx. apply in_seq in Hj. split; [eapply mfrom_nonneg; eauto|]. intros Hnt. apply mfrom_in in Hx. destruct Hx as (i & Hi & ->). assert (Hj' : (lo <= j < hi)%nat) by lia. destruct (H1 j Hj') as [K1 K2].
      rewrite <- (H3 i j) by lia. apply not_tiny, Hnt; lia.
    - intros j Hj. apply in_seq in Hj. rewrite mfrom_len. assert (Hj' : (lo <= j < hi)%nat) by lia. destruct (H1 j Hj') as [K1 K2]. lia.
    - exists 1%R, X0, 0%R. split; [rewrite ofR_1; f_equal; unfold X0; destruct nu; [symmetry; apply ofR_0|apply nat2T_R]|]. assert (0 <= X0)%R by (unfold X0; destruct nu; [lra|apply pos_INR]). cbn [INR]. repeat split; lra.
    - intros _. unfold X0. destruct nu; [left; auto|right]. assert (1 <= INR (Nat.min m n))%R by (change 1%R with (INR 1); apply le_INR; lia). nra.
    - rewrite seq_length, Nat.add_0_l in K.
      assert (EX : (X0 + rsuml (map (fun j => sqs (mfrom A s (a j) (b j - a j) j)) (seq lo (hi - lo))))%R = sumsq2 m n F).
      { unfold sumsq2.
        transitivity (rsum n (fun j => ((if nu then 0 else if (j <? m)%nat then 1 else 0) + (if ((lo <=? j) && (j <? hi))%nat then rsum (b j - a j) (fun i => f (a j + i)%nat j * f (a j + i)%nat j) else 0))%R)); [|apply rsum_ext; intros j Hj; symmetry; apply H4; auto].
        rewrite rsum_plus. f_equal.
        - unfold X0. destruct nu; [symmetry; apply rsum_zero; auto|]. rewrite (rsum_window n 0 (Nat.min m n)); [|lia|intros j Hj Hj'; destruct (Nat.ltb_spec j m); auto; lia].
          rewrite (rsum_ext _ _ (fun _ => 1%R)) by (intros j Hj; cbn [Nat.add]; destruct (Nat.ltb_spec j m); auto; lia). generalize (Nat.min m n). induction n0 as [|k IH]; [reflexivity|]. rewrite S_INR. cbn [rsum]. rewrite <- IH. auto.
        - rewrite rsuml_seq. rewrite (rsum_window n lo (hi - lo)); [|lia|intros j Hj Hj'; destruct (Nat.leb_spec lo j), (Nat.ltb_spec j hi); auto; lia].
          apply rsum_ext. intros j Hj. rewrite (proj2 (Nat.leb_le lo (lo + j))), (proj2 (Nat.ltb_lt (lo + j) hi)) by lia. cbn [andb]. unfold mfrom. rewrite sqs_seq. apply rsum_ext. intros i Hi. cbn [Nat.add]. rewrite <- H3; auto; lia. }
      rewrite EX in K. destruct K as (sc & sq & D & K1 & K2 & K3 & K4 & K5). exists sc, sq, D. split; auto. split; auto. split; auto. split; auto.
      eapply Rle_trans; [exact K4|]. apply Rmult_le_compat_r; auto. apply le_INR. apply Nat.mul_le_mono_l. lia. }
  assert (G' : exists q, (if up then
              if nu then foldup 0 n (1, 0) (fun j q => c <- slcol A 0 (Nat.min (j + 1) m) j;; lassq bc absv c (fst q) (snd q))
              else foldup 1 n (1, nat2T (Nat.min m n)) (fun j q => c <- slcol A 0 (Nat.min j m) j;; lassq bc absv c (fst q) (snd q))
            else
              if nu then foldup 0 (Nat.min m n) (1, 0) (fun j q => c <- slcol A j m j;; lassq bc absv c (fst q) (snd q))
              else foldup 0 (Nat.min (m - 1) n) (1, nat2T (Nat.min m n)) (fun j q => c <- slcol A (j + 1) m j;; lassq bc absv c (fst q) (snd q))) s = Ok q s /\
       near st bt ((m + 1) * n) (sumsq2 m n F) (no_tiny st m n F) q).
  { assert (Fd : forall i, nu = true -> f i i = modulus (val A s i i)) by (intros i e; rewrite tri_diag; unfold nu in e; rewrite e; auto).
    assert (Fe : forall i, nu = false -> f i i = 1%R) by (intros i e; rewrite tri_diag; unfold nu in e; rewrite e; auto).
    assert (Fo : forall i j, (if up then (j < i)%nat else (i < j)%nat) -> f i j = 0%R) by (intros; apply tri_out; auto).
    assert (Fi : forall i j, (if up then (i < j)%nat else (j < i)%nat) -> f i j = modulus (val A s i j)) by (intros; apply tri_in; auto).
    destruct up; destruct nu.
    - apply (G 0%nat n (fun _ => 0%nat) (fun j => Nat.min (j + 1) m)); [intros; cbv beta; lia|lia| | |lia].
      + intros i j Hj Hi. destruct (Nat.eq_dec i j) as [->|]; [apply Fd; auto|apply Fi; lia].
      + intros j Hj. rewrite Rplus_0_l. rewrite (proj2 (Nat.ltb_lt j n)) by auto. cbn [Nat.leb andb]. rewrite Nat.sub_0_r. apply (rsum_window m 0); [lia|]. intros i Hi Hi'. rewrite Fo by lia. lra.
    - apply (G 1%nat n (fun _ => 0%nat) (fun j => Nat.min j m)); [intros; cbv beta; lia|lia| | |lia].
      + intros i j Hj Hi. apply Fi; lia.
      + intros j Hj. rewrite (proj2 (Nat.ltb_lt j n)) by auto. rewrite andb_true_r, Nat.sub_0_r.
        assert (E1 : (if (1 <=? j)%nat then rsum (Nat.min j m) (fun i => f (0 + i)%nat j * f (0 + i)%nat j)%R else 0%R) = rsum (Nat.min j m) (fun i => f i j * f i j)%R) by (destruct j; reflexivity). rewrite E1.
        destruct (Nat.ltb_spec j m).
        * rewrite (rsum_window m 0 (j + 1)); [|lia|intros i Hi Hi'; rewrite Fo by lia; lra]. rewrite Nat.add_1_r. cbn [rsum Nat.add]. rewrite (Fe j) by auto. replace (Nat.min j m) with j by lia. lra.
        * replace (Nat.min j m) with m by lia. lra.
    - apply (G 0%nat (Nat.min m n) (fun j => j) (fun _ => m)); [intros; cbv beta; lia|lia| | |lia].
      + intros i j Hj Hi. destruct (Nat.eq_dec i j) as [->|]; [apply Fd; auto|apply Fi; lia].
      + intros j Hj. rewrite Rplus_0_l. cbn [Nat.leb andb]. destruct (Nat.ltb_spec j (Nat.min m n)).
        * apply (rsum_window m j); [lia|]. intros i Hi Hi'. rewrite Fo by lia. lra.
        * apply rsum_zero. intros i Hi. rewrite Fo by lia. lra.
    - apply (G 0%nat (Nat.min (m - 1) n) (fun j => (j + 1)%nat) (fun _ => m)); [intros; cbv beta; lia|lia| | |lia].
      + intros i j Hj Hi. apply Fi; lia.
      + intros j Hj. cbn [Nat.leb andb]. destruct (Nat.ltb_spec j (Nat.min (m - 1) n)).
        * rewrite (proj2 (Nat.ltb_lt j m)) by lia. rewrite (rsum_window m j (m - j)); [|lia|intros i Hi Hi'; rewrite Fo by lia; lra]. rewrite (rsum_split (m - j) 1) by lia. cbn [rsum]. rewrite Nat.add_0_r, Fe by auto.
          replace (m - (j + 1))%nat with (m - j - 1)%nat by lia. rewrite Rplus_0_l, Rmult_1_l. f_equal. apply rsum_ext. intros i Hi. replace (j + (1 + i))%nat with (j + 1 + i)%nat by lia. auto.
        * destruct (Nat.ltb_spec j m).
          -- rewrite (rsum_window m j 1); [|lia|intros i Hi Hi'; assert (i < j)%nat by lia; rewrite Fo by lia; lra]. cbn [rsum]. rewrite Nat.add_0_r, Fe by auto. lra.
          -- rewrite Rplus_0_l. apply rsum_zero. intros i Hi. rewrite Fo by lia. lra. }
  destruct G' as (q & G1 & G2). unfold bind at 1. rewrite G1. do 2 eexists. split; [reflexivity|]. split; auto. apply near_result in G2. destruct G2 as (r & R1 & R2). exists r. auto.
Qed.
End Tri.
End S.

(** concrete instances: thresholds 1/8 and 1000, scalings 8 and 1/1000; a 2-by-2 complex matrix of modulus 2
    everywhere has Frobenius norm exactly 4 *)
Definition ex_blue (E : Env) {L : RLaws E} : blue := mkblue (ofR (1/8)) (ofR 1000) (ofR 8) (ofR (1/1000)).
Lemma ex_blue_ok (E : Env) {L : RLaws E} : blue_ok (ex_blue E) (1/8) 1000 8 (1/1000).
Proof. split; try reflexivity; lra. Qed.
Definition exN : view := lview (mklmat 2 2 0 3 ColMajor).
#[global] Hint Unfold exN : exv.
Definition exN_s : @state RE := mkst RE (fun _ => 2%R) (fun _ => 0%Z).
Example lange_fro_example : returns (lange (E:=RE) (ex_blue RE) FroNorm exN) exN_s (fun r s' => s' = exN_s /\ r = 4%R).
Proof.
  destruct (lange_frobenius (E:=RE) (ex_blue RE) (1/8) 1000 8 (1/1000) exN exN_s 2 2) as (r & s' & K & -> & x & -> & (H1 & _) & _ & H3); [exv|apply ex_blue_ok|lra|].
  do 2 eexists. split; [exact K|]. split; auto.
  assert (M : forall i j, modulus (E:=RE) (val exN exN_s i j) = 2%R).
  { intros i j. unfold modulus, val, exN_s. cbn. unfold Rabs. destruct (Rcase_abs 2); lra. }
  assert (F : sumsq2 (E:=RE) 2 2 (val exN exN_s) = 16%R) by (cbn [sumsq2 rsum]; unfold sumsq2; cbn [rsum]; rewrite !M; lra).
  rewrite F in H3. cbn. assert (Q : (x * x = 16)%R) by (apply H3; intros i j _ _; right; rewrite M; lra). nra.
Qed.
Example lantr_example : returns (lantr (E:=RE) (ex_blue RE) OneNorm Upper Unit exN) exN_s (fun r s' => s' = exN_s /\ r = 3%R).
Proof.
  destruct (lantr_correct (E:=RE) Upper Unit exN exN_s 2 2 ltac:(auto) ltac:(exv) (ex_blue RE) OneNorm) as (r & s' & K & -> & x & -> & H); [auto|].
  do 2 eexists. split; [exact K|]. split; auto. destruct H as [H1 H2]. cbn in H1, H2.
  assert (A2 : Rabs 2 = 2%R) by (apply Rabs_pos_eq; lra). assert (A1 : Rabs 1 = 1%R) by (apply Rabs_pos_eq; lra). assert (A0 : Rabs 0 = 0%R) by apply Rabs_R0.
  destruct H1 as [(j & Hj & Hx)|[H1 _]].
  - assert (K2 := H2 3%R). assert (K3 : (3 <= x)%R) by (apply K2; exists 1%nat; split; [lia|]; cbn; unfold modulus; cbn; rewrite A2, A1; lra).
    cbn. destruct j as [|[|]]; [| |lia]; cbn in Hx; unfold modulus in Hx; cbn in Hx; rewrite ?A2, ?A1, ?A0 in Hx; lra.
  - exfalso. apply (H1 3%R). exists 1%nat. split; [lia|]. unfold modulus. cbn. rewrite A2, A1. lra.
Qed.
