(** * C27: norm routines propagate NaN, and reject unsupported options (any arithmetic) *)
From Coq Require Import Bool Arith ZArith Lia List Floats.
From Verif.Core Require Import Scalar Prog View Slice Loops Instances NanLaws.
From Verif.Spec Require Import LinAlg Outcome.
From Verif.Model Require Import Gemm Blas1 Legacy Norms.
From Verif.Proof Require Import NormsProof.
From Verif.Properties Require Import ExTac.
Import ListNotations.
Local Open Scope T_scope.

Section S.
Context {E : Env} {NL : NanLaws E}.
Implicit Types (A : view).

(** a loop body reading [norm]: it returns only NaN, and does return if [b] *)
Definition Pn (p : T -> M (T + T)) (s : state) (b : Prop) : Prop :=
  forall v, exists r, p v s = Ok r s /\ match r with inl x => isnan x = true | inr _ => ~ b end.
Lemma Pn_foracc lo hi f s b : (forall i, (lo <= i < hi)%nat -> Pn (f i) s (b i)) ->
  Pn (fun v => foracc lo hi v (fun i v => f i v)) s (exists i, (lo <= i < hi)%nat /\ b i).
Proof.
  intros H. unfold foracc. assert (H' : forall i, (lo <= i < lo + (hi - lo))%nat -> Pn (f i) s (b i)) by (intros; apply H; lia).
  assert (G : Pn (fun v => fornacc (hi - lo) lo v (fun i v => f i v)) s (exists i, (lo <= i < lo + (hi - lo))%nat /\ b i)).
  { clear H. revert H'. generalize (hi - lo)%nat as k. intros k. revert lo. induction k as [|k IH]; intros lo H v; cbn [fornacc].
    - eexists. split; [reflexivity|]. intros (i & Hi & _). lia.
    - unfold bind. destruct (H lo ltac:(lia) v) as ([x|x] & -> & K); [eexists; split; [reflexivity|auto]|].
      destruct (IH (S lo)) with (v := x) as (r & Hr & K2); [intros; apply H; lia|]. exists r. split; auto. destruct r; auto.
      intros (i & Hi & Hb). destruct (Nat.eq_dec i lo) as [->|]; [auto|]. apply K2. exists i. split; auto. lia. }
  intros v. destruct (G v) as (r & Hr & K). exists r. split; auto. destruct r; auto. intros (i & Hi & Hb). apply K. exists i. split; auto. lia.
Qed.
Lemma upd_nan x v : match upd x v with inl r => isnan r = true | inr _ => isnan x = false end.
Proof.
  unfold upd. destruct (ltb v x) eqn:e; destruct (isnan x) eqn:ex; auto. rewrite nan_lt_r in e by auto. discriminate.
Qed.
Lemma Pn_upd (p : M T) h x s (b : Prop) : p s = Ok x s -> (b -> isnan (h x) = true) -> Pn (fun v => a <- p;; ret (upd (h a) v)) s b.
Proof.
  intros Hp Hb v. unfold bind. rewrite Hp. eexists. split; [reflexivity|]. assert (K := upd_nan (h x) v). destruct (upd (h x) v); auto. intros B. rewrite Hb in K by auto. discriminate.
Qed.
Lemma Pn_out p s (b : Prop) v : Pn p s b -> b -> returns (r <- p v;; ret (outcome r)) s (fun r s' => s' = s /\ isnan r = true).
Proof. intros H Hb. destruct (H v) as (r & Hr & K). unfold returns, bind. rewrite Hr. do 2 eexists. split; [reflexivity|]. split; auto. destruct r; [exact K|]. exfalso. auto. Qed.
Lemma Pn_weak p s (b b' : Prop) : Pn p s b -> (b' -> b) -> Pn p s b'.
Proof. intros H Hb v. destruct (H v) as (r & Hr & K). exists r. split; auto. destruct r; auto. Qed.

Lemma addl_nan l v : (isnan v = true \/ exists x, In x l /\ isnan x = true) -> isnan (addl l v) = true.
Proof.
  unfold addl. revert v. induction l as [|y l IH]; intros v H; cbn [fold_left].
  - destruct H as [H|(x & [] & _)]. auto.
  - apply IH. destruct H as [H|(x & [->|H] & Hx)]; [left; apply nan_add_l; auto|left; apply nan_add_r; auto|right; exists x; auto].
Qed.
Lemma abs_sum_nan lo hi v0 (p : nat -> M T) h s : (forall i, (lo <= i < hi)%nat -> p i s = Ok (h i) s) ->
  exists y, abs_sum lo hi v0 p s = Ok y s /\ ((isnan v0 = true \/ exists i, (lo <= i < hi)%nat /\ isnan (h i) = true) -> isnan y = true).
Proof.
  intros H. rewrite (abs_sum_pure _ _ _ _ h) by auto. eexists. split; [reflexivity|]. intros K. apply addl_nan. destruct K as [K|(i & Hi & K)]; auto. right.
  exists (absv (h i)). split; [|apply nan_abs; auto]. apply in_map_iff. exists i. split; auto. apply in_seq. lia.
Qed.

(** scaled sums of squares *)
Definition qnan (q : T * T) : Prop := isnan (fst q) = true \/ isnan (snd q) = true.
Lemma acc_nan bc x a : isnan x = true \/ isnan (snd (fst a)) = true -> isnan (snd (fst (lassq_acc bc x a))) = true.
Proof.
  destruct a as [[a1 a2] a3]. cbn [fst snd]. intros H. unfold lassq_acc. destruct (isnan x) eqn:ex.
  - rewrite nan_lt_r, nan_lt_l by auto. cbn. apply nan_add_r, nan_mul_l. auto.
  - destruct H as [H|H]; [discriminate|]. destruct (ltb (tbig bc) x); auto. destruct (ltb x (tsml bc)); auto. cbn. apply nan_add_l; auto.
Qed.
Lemma accs_nan bc l a : isnan (snd (fst a)) = true \/ (exists x, In x l /\ isnan x = true) -> isnan (snd (fst (fold_left (fun a x => lassq_acc bc x a) l a))) = true.
Proof.
  revert a. induction l as [|y l IH]; intros a H; cbn [fold_left].
  - destruct H as [H|(x & [] & _)]. auto.
  - apply IH. destruct H as [H|(x & [->|H] & Hx)]; [left; apply acc_nan; auto|left; apply acc_nan; auto|right; exists x; auto].
Qed.
Lemma init_nan bc sc sq a : isnan (snd (fst a)) = true -> isnan (snd (fst (lassq_init bc sc sq a))) = true.
Proof.
  destruct a as [[a1 a2] a3]. cbn [fst snd]. intros H. unfold lassq_init.
  destruct (ltb 0 sq); auto. destruct (ltb (tbig bc) (sc * sqrtv sq)); [destruct (ltb 1 sc); auto|].
  destruct (ltb (sc * sqrtv sq) (tsml bc)); [destruct (eqb a3 0); auto; destruct (ltb sc 1); auto|]. cbn. apply nan_add_l; auto.
Qed.
Lemma fin_nan_ bc a : isnan (snd (fst a)) = true -> qnan (lassq_fin bc a).
Proof.
  destruct a as [[a1 a2] a3]. cbn [fst snd]. intros H. unfold lassq_fin, qnan. rewrite H, orb_true_r. destruct (ltb 0 a3); cbn; [right; apply nan_add_r, nan_mul_l, nan_mul_l; auto|].
  destruct (ltb 0 a1); [|cbn; auto]. rewrite (nan_lt_l (sqrtv a2)) by (apply nan_sqrt; auto). cbn. right. apply nan_mul_l, nan_mul_l, nan_sqrt. auto.
Qed.
Lemma lassq_l_nan bc l sc sq : qnan (sc, sq) \/ (exists x, In x l /\ isnan x = true) -> qnan (lassq_l bc l sc sq).
Proof.
  unfold lassq_l, qnan. cbn [fst snd]. intros H. destruct (isnan sc) eqn:e1; [cbn; auto|]. destruct (isnan sq) eqn:e2; [cbn; auto|]. cbn [orb].
  destruct H as [[H|H]|(x & Hx & H)]; try discriminate. destruct l as [|y l]; [destruct Hx|].
  destruct (eqb _ 0); apply fin_nan_, init_nan, accs_nan; right; exists x; auto.
Qed.
Lemma fro_nan bc A s lo hi q0 a b : (forall j, (lo <= j < hi)%nat -> (a j <= b j <= nr A)%nat /\ (j < nc A)%nat) ->
  exists q, foldup lo hi q0 (fun j q => c <- slcol A (a j) (b j) j;; lassq bc absv c (fst q) (snd q)) s = Ok q s /\
    ((qnan q0 \/ exists i j, (lo <= j < hi)%nat /\ (a j <= i < b j)%nat /\ isnan (val A s i j) = true) -> qnan q).
Proof.
  intros H. erewrite (foldup_pure _ _ _ _ _ (fun j q => lassq_l bc (map (fun i => absv (val A s (a j + i) j)) (seq 0 (b j - a j))) (fst q) (snd q))).
  - eexists. split; [reflexivity|]. intros K.
    assert (G : forall js q, (qnan q \/ exists i j, In j js /\ (a j <= i < b j)%nat /\ isnan (val A s i j) = true) ->
      qnan (fold_left (fun q j => lassq_l bc (map (fun i => absv (val A s (a j + i) j)) (seq 0 (b j - a j))) (fst q) (snd q)) js q)).
    { induction js as [|j js IH]; intros q Hq; cbn [fold_left].
      - destruct Hq as [|(i & j & [] & _)]; auto.
      - apply IH. destruct Hq as [Hq|(i & j' & [->|Hj] & Hi & Hn)].
        + left. apply lassq_l_nan. left. destruct q; auto.
        + left. apply lassq_l_nan. right. exists (absv (val A s i j')). split; [|apply nan_abs; auto]. apply in_map_iff. exists (i - a j')%nat. split; [do 2 f_equal; lia|apply in_seq; lia].
        + right. exists i, j'. auto. }
    apply G. destruct K as [K|(i & j & Hj & Hi & Hn)]; auto. right. exists i, j. split; auto. apply in_seq. lia.
  - intros j q Hj. destruct (H j Hj) as [K1 K2]. unfold bind at 1, slcol.
    rewrite (proj2 (Nat.leb_le _ _) (proj1 K1)), (proj2 (Nat.leb_le _ _) (proj2 K1)), (proj2 (Nat.ltb_lt _ _) K2). cbn.
    rewrite (lassq_pure bc absv (vcol A (a j) (b j) j) (b j - a j)) by (split; auto). reflexivity.
Qed.
Lemma qnan_res q : qnan q -> isnan (fst q * sqrtv (snd q)) = true.
Proof. intros [H|H]; [apply nan_mul_l; auto|apply nan_mul_r, nan_sqrt; auto]. Qed.

Theorem nrm2_nan bc x s n : isvec x n -> (exists i, (i < n)%nat /\ isnan (vval x s i) = true) ->
  returns (nrm2 bc x) s (fun r s' => s' = s /\ isnan r = true).
Proof.
  intros Hx (i & Hi & Hn). unfold returns, nrm2, bind. rewrite (lassq_pure bc absv x n) by auto. do 2 eexists. split; [reflexivity|]. split; auto.
  apply qnan_res, lassq_l_nan. right. exists (absv (vval x s i)). split; [|apply nan_abs; auto]. apply in_map_iff. exists i. split; auto. apply in_seq. lia.
Qed.
Lemma chk b s : b = true -> check b s = Ok tt s.
Proof. intros ->. unfold check. rewrite andb_false_r. reflexivity. Qed.

(** a NaN anywhere in A makes every norm NaN *)
Theorem lange_nan bc nt A s m n : shape A m n -> nt <> TwoNorm -> (exists i j, (i < m)%nat /\ (j < n)%nat /\ isnan (val A s i j) = true) ->
  returns (lange bc nt A) s (fun r s' => s' = s /\ isnan r = true).
Proof.
  intros [Hm Hn] Hnt (i & j & Hi & Hj & Hnan). assert (Hc : norm_ok nt = true) by (destruct nt; auto). unfold lange, returns. unfold bind at 1. rewrite chk by auto. rewrite Hm, Hn.
  destruct (Nat.eqb_spec m 0); [lia|]. destruct (Nat.eqb_spec n 0); [lia|]. cbn [orb]. destruct nt; [| |congruence| |].
  - set (body := fun (j : nat) (norm : T) => foracc 0 m norm (fun i norm => a <- rd A i j;; ret (upd (absv a) norm))).
    apply (Pn_out (fun v => foracc 0 n v (fun j v => body j v)) s (exists j, (0 <= j < n)%nat /\ exists i, (0 <= i < m)%nat /\ isnan (val A s i j) = true)); [|exists j; split; [lia|exists i; split; [lia|auto]]].
    apply (Pn_foracc 0 n body). intros c Hc'. apply (Pn_foracc 0 m (fun i norm => a <- rd A i c;; ret (upd (absv a) norm)) s (fun i => isnan (val A s i c) = true)); intros r Hr; eapply Pn_upd; [apply rd_ok; lia|apply nan_abs].
  - apply (Pn_out (fun v => foracc 0 n v (fun j norm => sum <- abs_sum 0 m 0 (fun i => rd A i j);; ret (upd sum norm))) s (exists j, (0 <= j < n)%nat /\ exists i, (0 <= i < m)%nat /\ isnan (val A s i j) = true)); [|exists j; split; [lia|exists i; split; [lia|auto]]].
    apply (Pn_foracc 0 n (fun j norm => sum <- abs_sum 0 m 0 (fun i => rd A i j);; ret (upd sum norm))). intros c Hc'. destruct (abs_sum_nan 0 m 0 (fun i => rd A i c) (fun i => val A s i c) s) as (y & Hy & Ky); [intros; apply rd_ok; lia|].
    apply (Pn_upd _ (fun x => x) y); auto.
  - apply (Pn_out (fun v => foracc 0 m v (fun i norm => sum <- abs_sum 0 n 0 (fun j => rd A i j);; ret (upd sum norm))) s (exists i, (0 <= i < m)%nat /\ exists j, (0 <= j < n)%nat /\ isnan (val A s i j) = true)); [|exists i; split; [lia|exists j; split; [lia|auto]]].
    apply (Pn_foracc 0 m (fun i norm => sum <- abs_sum 0 n 0 (fun j => rd A i j);; ret (upd sum norm))). intros c Hc'. destruct (abs_sum_nan 0 n 0 (fun j => rd A c j) (fun j => val A s c j) s) as (y & Hy & Ky); [intros; apply rd_ok; lia|].
    apply (Pn_upd _ (fun x => x) y); auto.
  - unfold bind at 1. destruct (fro_nan bc A s 0 n (0, 1) (fun _ => 0%nat) (fun _ => m)) as (q & Hq & Kq); [intros; lia|]. rewrite Hq. do 2 eexists. split; [reflexivity|]. split; auto. apply qnan_res, Kq. right. exists i, j. repeat split; auto; lia.
Qed.

(** a NaN in the triangle that is referenced *)
Theorem lansy_lanhe_nan h bc nt u A s n : u = Upper \/ u = Lower -> shape A n n -> nt <> TwoNorm ->
  (exists i j, (i < n)%nat /\ (j < n)%nat /\ in_triangle u i j /\ isnan (val A s i j) = true) ->
  returns (lanxy h bc nt u A) s (fun r s' => s' = s /\ isnan r = true).
Proof.
  intros Hu [Hm Hn] Hnt (i & j & Hi & Hj & Ht & Hnan). assert (Hc : norm_ok nt = true) by (destruct nt; auto). unfold lanxy, returns. unfold bind at 1. rewrite chk by auto. unfold bind at 1. rewrite chk by (destruct Hu as [-> | ->]; auto). rewrite Hm.
  destruct (Nat.eqb_spec n 0); [lia|]. set (dabs := fun a : T => if h then absv (re a) else absv a).
  assert (Hd : forall a, isnan a = true -> isnan (dabs a) = true) by (intros a Ha; unfold dabs; destruct h; [apply nan_abs, nan_re|apply nan_abs]; auto).
  assert (HS : returns (r <- foracc 0 n 0 (fun j norm =>
        if uplo_eqb u Upper then
          temp <- abs_sum 0 j 0 (fun i => rd A i j);; a <- rd A j j;;
          temp <- abs_sum (j + 1) n (temp + dabs a) (fun i => rd A j i);; ret (upd temp norm)
        else
          temp <- abs_sum 0 j 0 (fun i => rd A j i);; a <- rd A j j;;
          temp <- abs_sum (j + 1) n (temp + dabs a) (fun i => rd A i j);; ret (upd temp norm));; ret (outcome r)) s (fun r s' => s' = s /\ isnan r = true)).
  { set (body := fun (j : nat) (norm : T) =>
        if uplo_eqb u Upper then
          temp <- abs_sum 0 j 0 (fun i => rd A i j);; a <- rd A j j;;
          temp <- abs_sum (j + 1) n (temp + dabs a) (fun i => rd A j i);; ret (upd temp norm)
        else
          temp <- abs_sum 0 j 0 (fun i => rd A j i);; a <- rd A j j;;
          temp <- abs_sum (j + 1) n (temp + dabs a) (fun i => rd A i j);; ret (upd temp norm)).
    set (st := fun i j => if uplo_eqb u Upper then val A s (Nat.min i j) (Nat.max i j) else val A s (Nat.max i j) (Nat.min i j)).
    apply (Pn_out (fun v => foracc 0 n v (fun i v => body i v)) s (exists j, (0 <= j < n)%nat /\ exists i, (i < n)%nat /\ isnan (st i j) = true)).
    - apply Pn_foracc. intros c Hc' v. unfold body.
      assert (K : exists y, (if uplo_eqb u Upper then
          temp <- abs_sum 0 c 0 (fun i => rd A i c);; a <- rd A c c;; abs_sum (c + 1) n (temp + dabs a) (fun i => rd A c i)
        else
          temp <- abs_sum 0 c 0 (fun i => rd A c i);; a <- rd A c c;; abs_sum (c + 1) n (temp + dabs a) (fun i => rd A i c)) s = Ok y s /\ ((exists i, (i < n)%nat /\ isnan (st i c) = true) -> isnan y = true)).
      { unfold st. destruct (uplo_eqb u Upper).
        - destruct (abs_sum_nan 0 c 0 (fun i => rd A i c) (fun i => val A s i c) s) as (y & Hy & Ky); [intros; apply rd_ok; lia|]. unfold bind at 1. rewrite Hy. unfold bind. rewrite rd_ok by lia.
          destruct (abs_sum_nan (c + 1) n (y + dabs (val A s c c)) (fun i => rd A c i) (fun i => val A s c i) s) as (z & Hz & Kz); [intros; apply rd_ok; lia|]. exists z. split; auto.
          intros (r & Hr & Hn'). apply Kz. destruct (Nat.lt_trichotomy r c) as [L|[L|L]].
          + left. apply nan_add_l, Ky. right. exists r. split; [lia|]. rewrite Nat.min_l, Nat.max_r in Hn' by lia. auto.
          + subst r. left. apply nan_add_r, Hd. rewrite Nat.min_id, Nat.max_id in Hn'. auto.
          + right. exists r. split; [lia|]. rewrite Nat.min_r, Nat.max_l in Hn' by lia. auto.
        - destruct (abs_sum_nan 0 c 0 (fun i => rd A c i) (fun i => val A s c i) s) as (y & Hy & Ky); [intros; apply rd_ok; lia|]. unfold bind at 1. rewrite Hy. unfold bind. rewrite rd_ok by lia.
          destruct (abs_sum_nan (c + 1) n (y + dabs (val A s c c)) (fun i => rd A i c) (fun i => val A s i c) s) as (z & Hz & Kz); [intros; apply rd_ok; lia|]. exists z. split; auto.
          intros (r & Hr & Hn'). apply Kz. destruct (Nat.lt_trichotomy r c) as [L|[L|L]].
          + left. apply nan_add_l, Ky. right. exists r. split; [lia|]. rewrite Nat.min_l, Nat.max_r in Hn' by lia. auto.
          + subst r. left. apply nan_add_r, Hd. rewrite Nat.min_id, Nat.max_id in Hn'. auto.
          + right. exists r. split; [lia|]. rewrite Nat.min_r, Nat.max_l in Hn' by lia. auto. }
      destruct K as (y & Hy & Ky). exists (upd y v). split.
      + unfold bind in *. destruct (uplo_eqb u Upper);
          (destruct (abs_sum 0 c 0 _ s) as [t1 s1|x1 s1| |]; try discriminate Hy); (destruct (rd A c c s1) as [t2 s2|x2 s2| |]; try discriminate Hy); rewrite Hy; reflexivity.
      + assert (Q := upd_nan y v). destruct (upd y v); auto. intros B. rewrite Ky in Q by auto. discriminate.
    - exists j. split; [lia|]. exists i. split; auto. unfold st. destruct Hu as [-> | ->]; cbn in *; [rewrite Nat.min_l, Nat.max_r by lia|rewrite Nat.max_l, Nat.min_r by lia]; auto. }
  destruct nt; [| apply HS |congruence|apply HS|].
  - set (body := fun (j : nat) (norm : T) =>
        if uplo_eqb u Upper then
          r <- foracc 0 j norm (fun i norm => a <- rd A i j;; ret (upd (absv a) norm));;
          match r with
          | inl x => ret (inl x)
          | inr norm => a <- rd A j j;; ret (upd (dabs a) norm)
          end
        else
          a <- rd A j j;;
          match upd (dabs a) norm with
          | inl x => ret (inl x)
          | inr norm => foracc (j + 1) n norm (fun i norm => a <- rd A i j;; ret (upd (absv a) norm))
          end).
    apply (Pn_out (fun v => foracc 0 n v (fun j v => body j v)) s (exists j, (0 <= j < n)%nat /\ exists i, (i < n)%nat /\ in_triangle u i j /\ isnan (val A s i j) = true)); [|exists j; split; [lia|exists i; auto]].
    apply (Pn_foracc 0 n body). unfold body. intros c Hc' v. destruct Hu as [-> | ->]; cbn [uplo_eqb].
    + destruct (Pn_foracc 0 c (fun i norm => a <- rd A i c;; ret (upd (absv a) norm)) s (fun i => isnan (val A s i c) = true)) with (v := v) as ([x|x] & Hr & K); [intros r Hr; eapply Pn_upd; [apply rd_ok; lia|apply nan_abs]| |].
      * unfold bind at 1. rewrite Hr. eexists. split; [reflexivity|]. auto.
      * unfold bind at 1. rewrite Hr. unfold bind. rewrite rd_ok by lia. eexists. split; [reflexivity|]. assert (Q := upd_nan (dabs (val A s c c)) x). destruct (upd (dabs (val A s c c)) x); auto.
        intros (r & Hr1 & Hr2 & Hr3). cbn in Hr2. destruct (Nat.eq_dec r c) as [->|]; [rewrite Hd in Q by auto; discriminate|]. apply K. exists r. split; auto. lia.
    + unfold bind at 1. rewrite rd_ok by lia. assert (Q := upd_nan (dabs (val A s c c)) v). destruct (upd (dabs (val A s c c)) v) as [x|x]; [eexists; split; [reflexivity|auto]|].
      destruct (Pn_foracc (c + 1) n (fun i norm => a <- rd A i c;; ret (upd (absv a) norm)) s (fun i => isnan (val A s i c) = true)) with (v := x) as (r & Hr & K); [intros r Hr; eapply Pn_upd; [apply rd_ok; lia|apply nan_abs]|].
      exists r. split; [exact Hr|]. destruct r; auto. intros (r & Hr1 & Hr2 & Hr3). cbn in Hr2. destruct (Nat.eq_dec r c) as [->|]; [rewrite Hd in Q by auto; discriminate|]. apply K. exists r. split; auto. lia.
  - assert (HF : exists q, (if uplo_eqb u Upper then
              foldup 1 n (0, 1) (fun j q => c <- slcol A 0 j j;; lassq bc absv c (fst q) (snd q))
            else
              foldup 0 (n - 1) (0, 1) (fun j q => c <- slcol A (j + 1) n j;; lassq bc absv c (fst q) (snd q))) s = Ok q s /\ (i <> j -> qnan q)).
    { destruct Hu as [-> | ->]; cbn [uplo_eqb]; cbn in Ht.
      - destruct (fro_nan bc A s 1 n (0, 1) (fun _ => 0%nat) (fun j => j)) as (q & Hq & Kq); [intros; lia|]. exists q. split; auto. intros Hij. apply Kq. right. exists i, j. repeat split; auto; lia.
      - destruct (fro_nan bc A s 0 (n - 1) (0, 1) (fun j => (j + 1)%nat) (fun j => n)) as (q & Hq & Kq); [intros; lia|]. exists q. split; auto. intros Hij. apply Kq. right. exists i, j. repeat split; auto; lia. }
    destruct HF as (q & Hq & Kq). unfold bind at 1. rewrite Hq. unfold bind at 1. rewrite (lassq_pure bc dabs (vdiag A) n) by (split; cbn; lia). do 2 eexists. split; [reflexivity|]. split; auto.
    apply qnan_res, lassq_l_nan. destruct (Nat.eq_dec i j) as [->|Hij].
    + right. exists (dabs (val A s j j)). split; [|apply Hd; auto]. apply in_map_iff. exists j. split; auto. apply in_seq. lia.
    + left. destruct (Kq Hij) as [K|K]; [left; auto|right; cbn; apply nan_mul_l; auto].
Qed.

Theorem lantr_nan bc nt u d A s m n : u = Upper \/ u = Lower -> shape A m n -> nt <> TwoNorm ->
  (exists i j, (i < m)%nat /\ (j < n)%nat /\ referenced u d i j /\ isnan (val A s i j) = true) ->
  returns (lantr bc nt u d A) s (fun r s' => s' = s /\ isnan r = true).
Proof.
  intros Hu [Hm Hn] Hnt (i & j & Hi & Hj & (Ht & Hdg) & Hnan). assert (Hc : norm_ok nt = true) by (destruct nt; auto). unfold lantr, returns. unfold bind at 1. rewrite chk by auto. unfold bind at 1. rewrite chk by (destruct Hu as [-> | ->]; auto). rewrite Hm, Hn.
  destruct (Nat.eqb_spec m 0); [lia|]. destruct (Nat.eqb_spec n 0); [lia|]. cbn [orb].
  assert (Hdg' : diag_eqb d NonUnit = true \/ i <> j) by (destruct d; cbn; auto).
  destruct nt; [| |congruence| |].
  - cbv zeta. set (body := fun (j : nat) (norm : T) =>
        foracc (if uplo_eqb u Upper then 0%nat else if diag_eqb d NonUnit then j else (j + 1)%nat) (if uplo_eqb u Upper then if diag_eqb d NonUnit then (Nat.min j (m - 1) + 1)%nat else Nat.min j m else m) norm (fun i norm => a <- rd A i j;; ret (upd (absv a) norm))).
    apply (Pn_out (fun v => foracc 0 n v (fun j v => body j v)) s (exists c, (0 <= c < n)%nat /\ exists r, ((if uplo_eqb u Upper then 0 else if diag_eqb d NonUnit then c else (c + 1)) <= r < (if uplo_eqb u Upper then if diag_eqb d NonUnit then (Nat.min c (m - 1) + 1) else Nat.min c m else m))%nat /\ isnan (val A s r c) = true)).
    + apply (Pn_foracc 0 n body) with (b := fun c => exists r, ((if uplo_eqb u Upper then 0 else if diag_eqb d NonUnit then c else (c + 1)) <= r < (if uplo_eqb u Upper then if diag_eqb d NonUnit then (Nat.min c (m - 1) + 1) else Nat.min c m else m))%nat /\ isnan (val A s r c) = true).
      intros c Hc'. apply (Pn_foracc _ _ (fun i norm => a <- rd A i c;; ret (upd (absv a) norm)) s (fun r => isnan (val A s r c) = true)). intros r Hr. eapply Pn_upd; [apply rd_ok; [|lia]|apply nan_abs]. destruct (uplo_eqb u Upper), (diag_eqb d NonUnit); lia.
    + exists j. split; [lia|]. exists i. split; auto. destruct Hu as [-> | ->]; cbn in *; destruct (diag_eqb d NonUnit); destruct Hdg' as [Hd'|Hd']; try discriminate; lia.
  - set (p := fun c => (if uplo_eqb u Upper then
                  if diag_eqb d NonUnit || (m <=? c)%nat then abs_sum 0 (Nat.min c (m - 1) + 1) 0 (fun i => rd A i c) else abs_sum 0 c 1 (fun i => rd A i c)
                else if diag_eqb d NonUnit then abs_sum c m 0 (fun i => rd A i c) else abs_sum (c + 1) m 1 (fun i => rd A i c))).
    apply (Pn_out (fun v => foracc 0 n v (fun c norm => sum <- p c;; ret (upd sum norm))) s (exists c, (0 <= c < n)%nat /\ c = j)); [|exists j; split; [lia|auto]].
    apply (Pn_foracc 0 n (fun c norm => sum <- p c;; ret (upd sum norm))). intros c Hc'.
    assert (K : exists y, p c s = Ok y s /\ (c = j -> isnan y = true)).
    { unfold p. destruct Hu as [-> | ->]; cbn [uplo_eqb]; cbn in Ht; [destruct (diag_eqb d NonUnit || (m <=? c)%nat) eqn:eb|destruct (diag_eqb d NonUnit) eqn:eb];
      match goal with |- context[abs_sum ?lo ?hi ?v0 _ s] => destruct (abs_sum_nan lo hi v0 (fun i => rd A i c) (fun i => val A s i c) s) as (y & Hy & Ky); [intros; apply rd_ok; try lia| exists y; split; auto; intros ->; apply Ky; right; exists i; split; auto] end.
      all: try (apply orb_false_iff in eb; destruct eb as [ed em]; apply Nat.leb_gt in em; try rewrite ed in Hdg').
      all: try (destruct (diag_eqb d NonUnit)). all: try (destruct Hdg' as [|]; [discriminate|]). all: try lia. }
    destruct K as (y & Hy & Ky). apply (Pn_upd _ (fun x => x) y); auto.
  - set (p := fun c => (if uplo_eqb u Upper then
                  if diag_eqb d NonUnit then abs_sum c n 0 (fun j => rd A c j) else abs_sum (c + 1) n 1 (fun j => rd A c j)
                else
                  if diag_eqb d NonUnit || (n <=? c)%nat then abs_sum 0 (Nat.min c (n - 1) + 1) 0 (fun j => rd A c j)
                  else abs_sum 0 c 1 (fun j => rd A c j))).
    apply (Pn_out (fun v => foracc 0 m v (fun c norm => sum <- p c;; ret (upd sum norm))) s (exists c, (0 <= c < m)%nat /\ c = i)); [|exists i; split; [lia|auto]].
    apply (Pn_foracc 0 m (fun c norm => sum <- p c;; ret (upd sum norm))). intros c Hc'.
    assert (K : exists y, p c s = Ok y s /\ (c = i -> isnan y = true)).
    { unfold p. destruct Hu as [-> | ->]; cbn [uplo_eqb]; cbn in Ht; [destruct (diag_eqb d NonUnit) eqn:eb|destruct (diag_eqb d NonUnit || (n <=? c)%nat) eqn:eb];
      match goal with |- context[abs_sum ?lo ?hi ?v0 _ s] => destruct (abs_sum_nan lo hi v0 (fun j => rd A c j) (fun j => val A s c j) s) as (y & Hy & Ky); [intros; apply rd_ok; try lia| exists y; split; auto; intros ->; apply Ky; right; exists j; split; auto] end.
      all: try (apply orb_false_iff in eb; destruct eb as [ed em]; apply Nat.leb_gt in em; try rewrite ed in Hdg').
      all: try (destruct (diag_eqb d NonUnit)). all: try (destruct Hdg' as [|]; [discriminate|]). all: try lia. }
    destruct K as (y & Hy & Ky). apply (Pn_upd _ (fun x => x) y); auto.
  - assert (HF : exists q, (if uplo_eqb u Upper then
              if diag_eqb d NonUnit then foldup 0 n (1, 0) (fun j q => c <- slcol A 0 (Nat.min (j + 1) m) j;; lassq bc absv c (fst q) (snd q))
              else foldup 1 n (1, nat2T (Nat.min m n)) (fun j q => c <- slcol A 0 (Nat.min j m) j;; lassq bc absv c (fst q) (snd q))
            else
              if diag_eqb d NonUnit then foldup 0 (Nat.min m n) (1, 0) (fun j q => c <- slcol A j m j;; lassq bc absv c (fst q) (snd q))
              else foldup 0 (Nat.min (m - 1) n) (1, nat2T (Nat.min m n)) (fun j q => c <- slcol A (j + 1) m j;; lassq bc absv c (fst q) (snd q))) s = Ok q s /\ qnan q).
    { destruct Hu as [-> | ->]; cbn [uplo_eqb]; cbn in Ht; destruct (diag_eqb d NonUnit) eqn:ed.
      - destruct (fro_nan bc A s 0 n (1, 0) (fun _ => 0%nat) (fun j => Nat.min (j + 1) m)) as (q & Hq & Kq); [intros; lia|]. exists q. split; auto. apply Kq. right. exists i, j. repeat split; auto; lia.
      - destruct Hdg' as [|]; [discriminate|]. destruct (fro_nan bc A s 1 n (1, nat2T (Nat.min m n)) (fun _ => 0%nat) (fun j => Nat.min j m)) as (q & Hq & Kq); [intros; lia|]. exists q. split; auto. apply Kq. right. exists i, j. repeat split; auto; lia.
      - destruct (fro_nan bc A s 0 (Nat.min m n) (1, 0) (fun j => j) (fun j => m)) as (q & Hq & Kq); [intros; lia|]. exists q. split; auto. apply Kq. right. exists i, j. repeat split; auto; lia.
      - destruct Hdg' as [|]; [discriminate|]. destruct (fro_nan bc A s 0 (Nat.min (m - 1) n) (1, nat2T (Nat.min m n)) (fun j => (j + 1)%nat) (fun j => m)) as (q & Hq & Kq); [intros; lia|]. exists q. split; auto. apply Kq. right. exists i, j. repeat split; auto; lia. }
    destruct HF as (q & Hq & Kq). unfold bind at 1. rewrite Hq. do 2 eexists. split; [reflexivity|]. split; auto. apply qnan_res. auto.
Qed.
End S.

Section Rej.
Context {E : Env}.
(** the 2-norm is not available; lansy, lanhe and lantr accept only triangles *)
Theorem norms_reject bc A s u d h : check_input = true -> 
  rejects (lange bc TwoNorm A) s /\ rejects (lanxy h bc TwoNorm u A) s /\ rejects (lantr bc TwoNorm u d A) s /\
  (u <> Upper -> u <> Lower -> forall nt, rejects (lanxy h bc nt u A) s /\ rejects (lantr bc nt u d A) s).
Proof.
  intros Hc. unfold rejects, lange, lanxy, lantr, bind, check. rewrite Hc. cbn. repeat split; destruct u; try congruence; destruct nt; reflexivity.
Qed.
End Rej.

(** binary64: a 2-by-2 matrix with one NaN *)
Definition exM : view := lview (mklmat 2 2 0 3 ColMajor).
#[global] Hint Unfold exM : exv.
Definition exM_s : @state FE := mkst FE (fun l => if (l =? 3)%Z then PrimFloat.nan else 2%float) (fun _ => 0%Z).
Example lange_nan_example bc : returns (lange (E:=FE) bc FroNorm exM) exM_s (fun r _ => PrimFloat.is_nan r = true).
Proof.
  destruct (lange_nan (E:=FE) bc FroNorm exM exM_s 2 2) as (r & s' & H & _ & K); try exv; [congruence|exists 0%nat, 1%nat; repeat split; auto; lia|]. exists r, s'. auto.
Qed.
