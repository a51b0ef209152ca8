(** * Lemmas on finite sums *)
From Coq Require Import Bool Arith Lia Ring Field.
From Verif.Core Require Import Scalar.
From Verif.Spec Require Import LinAlg.

Section NoLaws.
Context {E : Env}.
Lemma sum_ext n f g : (forall k, k < n -> f k = g k) -> sum n f = sum n g.
Proof. induction n as [|n IH]; intros H; cbn [sum]; [auto|]. rewrite IH by auto. rewrite H by lia. auto. Qed.
Lemma facc_ext n f g c : (forall k, k < n -> f k = g k) -> facc n f c = facc n g c.
Proof. induction n as [|n IH]; intros H; cbn [facc]; [auto|]. rewrite IH by auto. rewrite H by lia. auto. Qed.
Lemma facc_zero n f : facc n f zero = sum n f.
Proof. induction n as [|n IH]; cbn [facc sum]; [auto|]. rewrite IH; auto. Qed.
(** f lo + ... + f (hi-1) *)
Definition sumr (lo hi : nat) (f : nat -> T) : T := sum (hi - lo) (fun k => f (lo + k)).
Lemma sumr_S lo hi f : lo <= hi -> sumr lo (S hi) f = (sumr lo hi f + f hi)%T.
Proof.
  intros H. unfold sumr. replace (S hi - lo) with (S (hi - lo)) by lia. cbn [sum].
  replace (lo + (hi - lo)) with hi by lia. reflexivity.
Qed.
Lemma sumr_nil lo f : sumr lo lo f = zero.
Proof. unfold sumr. rewrite Nat.sub_diag. reflexivity. Qed.
Lemma sumr_ext lo hi f g : (forall k, lo <= k < hi -> f k = g k) -> sumr lo hi f = sumr lo hi g.
Proof. intros H. apply sum_ext. intros; apply H; lia. Qed.
Lemma sum_sumr n f : sumr 0 n f = sum n f.
Proof. unfold sumr. rewrite Nat.sub_0_r. reflexivity. Qed.
End NoLaws.

Section Laws.
Context {E : Env} {FL : FieldLaws E}.
Add Field Tf : fth.
Local Open Scope T_scope.

Lemma facc_sum n f c : facc n f c = c + sum n f.
Proof. induction n as [|n IH]; cbn [facc sum]; [ring|]. rewrite IH; ring. Qed.
Lemma sum_plus n f g : sum n (fun k => f k + g k) = sum n f + sum n g.
Proof. induction n as [|n IH]; cbn [sum]; [ring|]. rewrite IH; ring. Qed.
Lemma sum_minus n f g : sum n (fun k => f k - g k) = sum n f - sum n g.
Proof. induction n as [|n IH]; cbn [sum]; [ring|]. rewrite IH; ring. Qed.
Lemma sum_opp n f : sum n (fun k => - f k) = - sum n f.
Proof. induction n as [|n IH]; cbn [sum]; [ring|]. rewrite IH; ring. Qed.
Lemma sum_scal_l n a f : sum n (fun k => a * f k) = a * sum n f.
Proof. induction n as [|n IH]; cbn [sum]; [ring|]. rewrite IH; ring. Qed.
Lemma sum_scal_r n a f : sum n (fun k => f k * a) = sum n f * a.
Proof. induction n as [|n IH]; cbn [sum]; [ring|]. rewrite IH; ring. Qed.
Lemma sum_0 n f : (forall k, (k < n)%nat -> f k = 0) -> sum n f = 0.
Proof. induction n as [|n IH]; intros H; cbn [sum]; [auto|]. rewrite IH by auto. rewrite H by lia. ring. Qed.
Lemma sum_split n m f : sum (n + m) f = sum n f + sum m (fun k => f (n + k)%nat).
Proof.
  induction m as [|m IH]; cbn [sum]; [rewrite Nat.add_0_r; ring|].
  rewrite Nat.add_succ_r. cbn [sum]. rewrite IH; ring.
Qed.
Lemma sum_split_at m n f : (m <= n)%nat -> sum n f = sum m f + sum (n - m) (fun k => f (m + k)%nat).
Proof. intros H. rewrite <- sum_split. f_equal; lia. Qed.
Lemma sum_S_l n f : sum (S n) f = f O + sum n (fun k => f (S k)).
Proof. change (S n) with (1 + n)%nat. rewrite sum_split. cbn [sum]. f_equal. ring. Qed.
Lemma sum_single n k f : (k < n)%nat -> (forall i, (i < n)%nat -> i <> k -> f i = 0) -> sum n f = f k.
Proof.
  intros Hk H. rewrite (sum_split_at (S k)) by lia. cbn [sum].
  rewrite (sum_0 k) by (intros; apply H; lia). rewrite sum_0 by (intros; apply H; lia). ring.
Qed.
Lemma sum_swap n m f : sum n (fun i => sum m (fun j => f i j)) = sum m (fun j => sum n (fun i => f i j)).
Proof.
  induction n as [|n IH]; cbn [sum]; [symmetry; apply sum_0; auto|].
  rewrite IH, sum_plus. reflexivity.
Qed.
Lemma sum_trunc m n f : (m <= n)%nat -> (forall k, (m <= k < n)%nat -> f k = 0) -> sum n f = sum m f.
Proof. intros H H0. rewrite (sum_split_at m) by auto. rewrite (sum_0 (n-m)) by (intros; apply H0; lia). ring. Qed.
Lemma sum_conj `{CL : !ConjLaws E} n f : conj (sum n f) = sum n (fun k => conj (f k)).
Proof.
  assert (Hz : conj zero = zero).
  { assert (H := conj_add zero zero). replace (zero + zero) with zero in H by ring.
    transitivity (conj zero + conj zero - conj zero); [ring|]. rewrite <- H at 1. ring. }
  induction n as [|n IH]; cbn [sum]; [exact Hz|]. rewrite conj_add, IH; auto.
Qed.
Lemma conj_0 `{CL : !ConjLaws E} : conj zero = zero.
Proof. exact (sum_conj 0 (fun _ => zero)). Qed.
Lemma conj_opp `{CL : !ConjLaws E} a : conj (- a) = - conj a.
Proof.
  assert (H := conj_add a (- a)). replace (a + - a) with zero in H by ring. rewrite conj_0 in H.
  transitivity (conj a + conj (- a) - conj a); [ring|]. rewrite <- H; ring.
Qed.
Lemma conj_sub `{CL : !ConjLaws E} a b : conj (a - b) = conj a - conj b.
Proof. replace (a - b) with (a + - b) by ring. rewrite conj_add, conj_opp. ring. Qed.
Lemma conj_1 `{CL : !ConjLaws E} : conj one = one.
Proof.
  assert (H := conj_mul (conj one) one). rewrite conj_conj in H.
  replace (conj one * one) with (conj one) in H by ring. rewrite conj_conj in H.
  replace (one * conj one) with (conj one) in H by ring. auto.
Qed.
Lemma sumr_split lo mid hi f : (lo <= mid <= hi)%nat -> sumr lo hi f = sumr lo mid f + sumr mid hi f.
Proof.
  intros H. unfold sumr. rewrite (sum_split_at (mid - lo)) by lia.
  replace (hi - lo - (mid - lo))%nat with (hi - mid)%nat by lia. f_equal.
  apply sum_ext. intros k Hk. f_equal. lia.
Qed.
Lemma sumr_l lo hi f : (lo < hi)%nat -> sumr lo hi f = f lo + sumr (S lo) hi f.
Proof. intros H. rewrite (sumr_split lo (S lo) hi) by lia. rewrite sumr_S by lia. rewrite sumr_nil. ring. Qed.
Lemma sum_split3 j n f : (j < n)%nat -> sum n f = sum j f + f j + sumr (S j) n f.
Proof. intros H. rewrite <- !sum_sumr. rewrite (sumr_split 0 j n) by lia. rewrite (sumr_l j n) by lia. ring. Qed.
Lemma sumr_0 lo hi f : (forall k, (lo <= k < hi)%nat -> f k = 0) -> sumr lo hi f = 0.
Proof. intros H. apply sum_0. intros; apply H; lia. Qed.
Lemma sumr_scal_l lo hi a f : sumr lo hi (fun k => a * f k) = a * sumr lo hi f.
Proof. apply sum_scal_l. Qed.
End Laws.
