(** * Plane rotations of two columns; the Frobenius norm is a norm *)
From Coq Require Import Bool Arith ZArith Lia Reals Lra Ring Field List Permutation.
From Verif.Core Require Import Scalar RealLaws.
From Verif.Spec Require Import LinAlg Norms Householder Reduce Steqr.
From Verif.Proof Require Import SumLemmas PotrfProof BlockAlg LarfProof LarfgProof QRProof QGenProof QFactProof ReduceMath.
Local Open Scope T_scope.

Section P.
Context {E : Env} {FL : FieldLaws E} {CL : ConjLaws E}.
Add Field Tf : fth.

Lemma sum_two' n i j (f : nat -> T) : (i < n)%nat -> (j < n)%nat -> i <> j -> (forall q, (q < n)%nat -> q <> i -> q <> j -> f q = 0) -> sum n f = f i + f j.
Proof.
  intros Hi Hj Hn Hf. transitivity (sum n (fun q => if (q =? i)%nat then f q else 0) + sum n (fun q => if (q =? i)%nat then 0 else f q)).
  - rewrite <- sum_plus. apply sum_ext. intros q Hq. destruct (q =? i)%nat; ring.
  - f_equal.
    + rewrite (sum_single n i); auto; [rewrite Nat.eqb_refl; auto|]. intros q Hq Hqi. destruct (Nat.eqb_spec q i); auto; lia.
    + rewrite (sum_single n j); auto.
      * destruct (Nat.eqb_spec j i); auto; lia.
      * intros q Hq Hqj. destruct (Nat.eqb_spec q i); auto.
Qed.
Definition gcol (j1 j2 : nat) (c s : T) (M : mat) : mat := fun r q =>
  if (q =? j1)%nat then c * M r j1 + s * M r j2 else if (q =? j2)%nat then c * M r j2 - conj s * M r j1 else M r q.
Lemma mmul_givens n j1 j2 c s M r q : (j1 < n)%nat -> (j2 < n)%nat -> j1 <> j2 -> (q < n)%nat ->
  mmul n M (givens j1 j2 c s) r q = gcol j1 j2 c s M r q.
Proof.
  intros H1 H2 Hn Hq. unfold mmul, givens, gcol. destruct (Nat.eqb_spec q j1) as [e|N1]; [|destruct (Nat.eqb_spec q j2) as [e|N2]].
  - rewrite (sum_two' n j1 j2); auto.
    + rewrite !Nat.eqb_refl. destruct (Nat.eqb_spec j2 j1); [lia|]. ring.
    + intros l Hl L1 L2. destruct (Nat.eqb_spec l j1); [lia|]. destruct (Nat.eqb_spec l j2); [lia|]. ring.
  - rewrite (sum_two' n j1 j2); auto.
    + rewrite !Nat.eqb_refl. destruct (Nat.eqb_spec j2 j1); [lia|]. ring.
    + intros l Hl L1 L2. destruct (Nat.eqb_spec l j1); [lia|]. destruct (Nat.eqb_spec l j2); [lia|]. ring.
  - rewrite (sum_single n q); auto.
    + unfold idm. rewrite Nat.eqb_refl. ring.
    + intros l Hl L1. unfold idm. destruct (Nat.eqb_spec l q); [lia|]. ring.
Qed.
Lemma ctr_givens j1 j2 c s r q : conj c = c -> j1 <> j2 -> ctr (givens j1 j2 c s) r q = givens j1 j2 c (- s) r q.
Proof.
  intros Hc Hn. assert (C0 : conj 0 = 0) by apply conj_0. assert (C1 : conj 1 = 1) by apply conj_1.
  unfold ctr, givens, idm. repeat match goal with |- context [Nat.eqb ?a ?b] => destruct (Nat.eqb_spec a b); try lia end; subst;
  rewrite ?Hc, ?conj_opp, ?conj_conj, ?C0, ?C1; auto; try ring.
Qed.
Definition grow (j1 j2 : nat) (c s : T) (M : mat) : mat := fun r q =>
  if (r =? j1)%nat then c * M j1 q + conj s * M j2 q else if (r =? j2)%nat then c * M j2 q - s * M j1 q else M r q.
Lemma mmul_givens_l n j1 j2 c s M r q : conj c = c -> (j1 < n)%nat -> (j2 < n)%nat -> j1 <> j2 -> (r < n)%nat ->
  mmul n (ctr (givens j1 j2 c s)) M r q = grow j1 j2 c s M r q.
Proof.
  intros Hc H1 H2 Hn Hr. rewrite <- (conj_conj (mmul _ _ _ r q)).
  assert (K : conj (mmul n (ctr (givens j1 j2 c s)) M r q) = mmul n (ctr M) (givens j1 j2 c s) q r).
  { unfold mmul, ctr. rewrite sum_conj. apply sum_ext. intros. rewrite conj_mul, conj_conj. ring. }
  rewrite K, mmul_givens by auto. unfold gcol, grow, ctr. destruct (r =? j1)%nat; [|destruct (r =? j2)%nat].
  - rewrite conj_add, !conj_mul, !conj_conj, Hc. auto.
  - rewrite conj_sub, !conj_mul, !conj_conj, Hc. auto.
  - apply conj_conj.
Qed.
Lemma givens_unitary n j1 j2 c s : conj c = c -> c * c + s * conj s = 1 -> (j1 < n)%nat -> (j2 < n)%nat -> j1 <> j2 -> unitary n (givens j1 j2 c s).
Proof.
  intros Hc Hcs H1 H2 Hn i j Hi Hj. assert (C0 : conj 0 = 0) by apply conj_0. assert (C1 : conj 1 = 1) by apply conj_1. split.
  - rewrite mmul_givens_l by auto. unfold grow, givens, idm.
    repeat match goal with |- context [Nat.eqb ?a ?b] => destruct (Nat.eqb_spec a b); try lia end; subst; try ring; rewrite <- Hcs; ring.
  - transitivity (mmul n (givens j1 j2 c s) (givens j1 j2 c (- s)) i j); [apply mmul_ext; auto; intros; apply ctr_givens; auto|].
    rewrite mmul_givens by auto. unfold gcol, givens, idm. rewrite ?conj_opp.
    repeat match goal with |- context [Nat.eqb ?a ?b] => destruct (Nat.eqb_spec a b); try lia end; subst; rewrite ?conj_opp; try ring; rewrite <- Hcs; ring.
Qed.
(** G^H M G *)
Definition grot (j1 j2 : nat) (c s : T) (M : mat) : mat := grow j1 j2 c s (gcol j1 j2 c s M).
Lemma mmul_grot n j1 j2 c s M r q : conj c = c -> (j1 < n)%nat -> (j2 < n)%nat -> j1 <> j2 -> (r < n)%nat -> (q < n)%nat ->
  mmul n (ctr (givens j1 j2 c s)) (mmul n M (givens j1 j2 c s)) r q = grot j1 j2 c s M r q.
Proof.
  intros. rewrite mmul_givens_l by auto. unfold grot, grow. destruct (r =? j1)%nat; [|destruct (r =? j2)%nat]; rewrite ?mmul_givens by auto; auto.
Qed.

(** *** permutations *)
Lemma sum_map_seq n (f : nat -> T) : sum n f = fold_right add 0 (map f (seq 0 n)).
Proof.
  induction n as [|n IH]; auto. rewrite seq_S, map_app, fold_right_app. cbn [map fold_right sum Nat.add]. rewrite IH.
  generalize (map f (seq 0 n)) as l. induction l as [|a l IHl]; cbn; [ring|]. rewrite <- IHl. ring.
Qed.
Lemma fold_perm (l l' : list T) : Permutation l l' -> fold_right add 0 l = fold_right add 0 l'.
Proof. induction 1; cbn; auto; try congruence; ring. Qed.
Lemma sum_perm n (p : nat -> nat) (f : nat -> T) : Permutation (map p (seq 0 n)) (seq 0 n) -> sum n (fun i => f (p i)) = sum n f.
Proof. intros H. rewrite !sum_map_seq. apply fold_perm. rewrite <- (map_map p f). apply Permutation_map; auto. Qed.
Lemma perm_inj n p : Permutation (map p (seq 0 n)) (seq 0 n) -> forall i j, (i < n)%nat -> (j < n)%nat -> p i = p j -> i = j.
Proof.
  intros H i j Hi Hj e. assert (ND : NoDup (map p (seq 0 n))) by (apply (Permutation_NoDup (Permutation_sym H)), seq_NoDup).
  assert (L : length (map p (seq 0 n)) = n) by (rewrite map_length, seq_length; auto).
  rewrite (NoDup_nth _ 0%nat) in ND. apply ND; rewrite ?L; auto.
  rewrite !(nth_indep _ 0%nat (p 0%nat)) by lia. rewrite !map_nth, !seq_nth by auto. auto.
Qed.
Lemma perm_lt n p : Permutation (map p (seq 0 n)) (seq 0 n) -> forall i, (i < n)%nat -> (p i < n)%nat.
Proof.
  intros H i Hi. assert (K : In (p i) (seq 0 n)). { apply (Permutation_in _ H). apply in_map, in_seq. lia. } apply in_seq in K. lia.
Qed.
Lemma unitary_perm n p W : Permutation (map p (seq 0 n)) (seq 0 n) -> unitary n W -> unitary n (fun i j => W i (p j)).
Proof.
  intros H U i j Hi Hj. assert (L := perm_lt n p H). split.
  - destruct (U (p i) (p j)) as [U1 _]; auto. unfold mmul, ctr in *. rewrite U1. unfold idm.
    destruct (Nat.eqb_spec i j) as [->|N]; [rewrite Nat.eqb_refl; auto|]. destruct (Nat.eqb_spec (p i) (p j)) as [e|]; auto. apply (perm_inj n p H) in e; auto; lia.
  - destruct (U i j) as [_ U2]; auto. rewrite <- U2. unfold mmul, ctr. apply (sum_perm n p (fun l => W i l * conj (W j l))); auto.
Qed.
Lemma swap_perm n a b : (a < n)%nat -> (b < n)%nat ->
  Permutation (map (fun i => if (i =? a)%nat then b else if (i =? b)%nat then a else i) (seq 0 n)) (seq 0 n).
Proof.
  intros Ha Hb. symmetry. apply NoDup_Permutation_bis.
  - apply seq_NoDup.
  - rewrite map_length. lia.
  - intros x Hx. apply in_seq in Hx. apply in_map_iff.
    exists (if (x =? a)%nat then b else if (x =? b)%nat then a else x). split; [|apply in_seq; destruct (Nat.eqb_spec x a), (Nat.eqb_spec x b); lia].
    destruct (Nat.eqb_spec x a); subst.
    + rewrite Nat.eqb_refl. destruct (Nat.eqb_spec b a); auto.
    + destruct (Nat.eqb_spec x b); subst; [rewrite Nat.eqb_refl; auto|].
      destruct (Nat.eqb_spec x a), (Nat.eqb_spec x b); try lia.
Qed.
End P.
