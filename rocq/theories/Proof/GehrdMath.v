(** * The matrix algebra of the blocked Hessenberg reduction *)
From Coq Require Import Bool Arith ZArith Lia Reals Lra Ring Field.
From Verif.Core Require Import Scalar RealLaws.
From Verif.Spec Require Import LinAlg Norms Householder Reduce.
From Verif.Proof Require Import SumLemmas PotrfProof BlockAlg LowOps LarfProof LarfgProof QRProof QGenProof QFactProof LarftProof ReduceMath.
Local Open Scope T_scope.

Section P.
Context {E : Env} {FL : FieldLaws E} {CL : ConjLaws E} {OL : ROrdLaws E} {QL : EqbLaws E} {XL : CplxLaws E} {RL : RLaws E} {NL : FinLaws E}.
Add Field Tf : fth.
Variables (N n k : nat) (M : mat) (U : nat -> nat -> T) (tau : nat -> T).
Definition gP (i : nat) : mat := mprod N (fun j => refl (tau j) (U j)) i.
Definition gT (i : nat) : mat := ltm N U tau i.
Definition gY (i : nat) : mat := fun r l => sum N (fun c => M r c * sum i (fun a => U a c * gT i a l)).
Definition gG (i : nat) : mat := mmul N (ctr (gP i)) (mmul N M (gP i)).

Lemma gP_blk i r c : (r < N)%nat -> (c < N)%nat -> gP i r c = idm r c - sum i (fun l => sum i (fun a => U a r * gT i a l) * conj (U l c)).
Proof.
  intros Hr Hc. unfold gP. rewrite ltm_prod by auto. unfold blkrefl. f_equal. rewrite sum_swap. apply sum_ext. intros l Hl. rewrite <- sum_scal_r. apply sum_ext. intros a Ha. reflexivity.
Qed.
Lemma gMP i r c : (c < N)%nat -> mmul N M (gP i) r c = M r c - sum i (fun l => gY i r l * conj (U l c)).
Proof.
  intros Hc. unfold mmul. rewrite (sum_ext N _ (fun x => M r x * idm x c - M r x * sum i (fun l => sum i (fun a => U a x * gT i a l) * conj (U l c)))) by (intros x Hx; rewrite gP_blk by auto; ring).
  rewrite sum_minus. f_equal.
  - apply (mmul_id_r N M r c Hc).
  - unfold gY. rewrite (sum_ext N _ (fun x => sum i (fun l => M r x * sum i (fun a => U a x * gT i a l) * conj (U l c)))).
    + rewrite sum_swap. apply sum_ext. intros l Hl. rewrite sum_scal_r. auto.
    + intros x Hx. rewrite <- sum_scal_l. apply sum_ext. intros l Hl. ring.
Qed.
Lemma gPX i (X : mat) r c : (r < N)%nat -> mmul N (ctr (gP i)) X r c = X r c - sum i (fun a => U a r * sum i (fun b => conj (gT i b a) * sum N (fun x => conj (U b x) * X x c))).
Proof.
  intros Hr. unfold mmul. rewrite (sum_ext N _ (fun x => idm r x * X x c - sum i (fun l => sum i (fun a => conj (U a x) * conj (gT i a l)) * U l r) * X x c)).
  2:{ intros x Hx. unfold ctr. rewrite gP_blk by auto. rewrite conj_sub. rewrite sum_conj. rewrite (sum_ext i (fun q => conj (sum i (fun a => U a x * gT i a q) * conj (U q r))) (fun l => sum i (fun a => conj (U a x) * conj (gT i a l)) * U l r)).
      - assert (idm r x = conj (idm x r)) as -> by (unfold idm; rewrite (Nat.eqb_sym x r); destruct (r =? x)%nat; symmetry; [apply conj_1|apply conj_0]). ring.
      - intros l Hl. rewrite conj_mul, conj_conj, sum_conj. f_equal. apply sum_ext. intros a Ha. apply conj_mul. }
  rewrite sum_minus. f_equal.
  - apply (mmul_id_l N X r c Hr).
  - rewrite (sum_ext N _ (fun x => sum i (fun l => U l r * sum i (fun a => conj (gT i a l) * (conj (U a x) * X x c))))).
    + rewrite sum_swap. apply sum_ext. intros l Hl. rewrite sum_scal_l. f_equal. rewrite sum_swap. apply sum_ext. intros a Ha. apply sum_scal_l.
    + intros x Hx. rewrite <- sum_scal_r. apply sum_ext. intros l Hl. replace (sum i (fun a => conj (U a x) * conj (gT i a l)) * U l r * X x c) with (U l r * (sum i (fun a => conj (U a x) * conj (gT i a l)) * X x c)) by ring.
      f_equal. rewrite <- sum_scal_r. apply sum_ext. intros a Ha. ring.
Qed.
Lemma gY_old i r l : (l < i)%nat -> gY (S i) r l = gY i r l.
Proof.
  intros Hl. unfold gY, gT. apply sum_ext. intros c Hc. f_equal. cbn [sum]. rewrite (ltm_out N U tau (S i) i l) by lia. rewrite (sum_ext i _ (fun a => U a c * ltm N U tau i a l)); [ring|].
  intros a Ha. rewrite ltm_stable by auto. auto.
Qed.
Lemma gY_new i r : gY (S i) r i = tau i * (sum N (fun c => M r c * U i c) - sum i (fun l => gY i r l * dotU N U l i)).
Proof.
  unfold gY, gT. rewrite (sum_ext N _ (fun c => tau i * (M r c * U i c) - tau i * sum i (fun l => M r c * sum i (fun a => U a c * ltm N U tau i a l) * dotU N U l i))).
  - rewrite sum_minus, sum_scal_l, sum_scal_l, sum_swap. replace (sum i (fun l => sum N (fun c => M r c * sum i (fun a => U a c * ltm N U tau i a l)) * dotU N U l i)) with (sum i (fun a => sum N (fun a0 => M r a0 * sum i (fun a1 => U a1 a0 * ltm N U tau i a1 a) * dotU N U a i))).
    + ring.
    + apply sum_ext. intros l Hl. apply sum_scal_r.
  - intros c Hc. cbn [sum]. cbn [ltm]. rewrite Nat.eqb_refl, Nat.ltb_irrefl. 
    rewrite (sum_ext i _ (fun a => - tau i * sum i (fun l => U a c * ltm N U tau i a l * dotU N U l i))).
    2:{ intros a Ha. destruct (Nat.ltb_spec a i); [|lia]. rewrite <- sum_scal_l, <- sum_scal_l. apply sum_ext. intros l Hl. ring. }
    rewrite sum_scal_l, sum_swap. rewrite (sum_ext i (fun l => M r c * sum i (fun a => U a c * ltm N U tau i a l) * dotU N U l i) (fun l => M r c * sum i (fun a => U a c * ltm N U tau i a l * dotU N U l i))).
    + rewrite sum_scal_l. ring.
    + intros l Hl. replace (M r c * sum i (fun a => U a c * ltm N U tau i a l) * dotU N U l i) with (M r c * (sum i (fun a => U a c * ltm N U tau i a l) * dotU N U l i)) by ring. f_equal. rewrite <- sum_scal_r. auto.
Qed.
Hypothesis HnN : (n <= N)%nat.
Hypothesis Hsup : forall j r, (r < k + j + 1 \/ n <= r)%nat -> U j r = 0.
Lemma gG_step i r c : (r < N)%nat -> (c <= k + i)%nat -> (c < N)%nat -> gG (S i) r c = mmul N (ctr (refl (tau i) (U i))) (gG i) r c.
Proof.
  intros Hr Hc Hc'. unfold gG. change (gP (S i)) with (mmul N (gP i) (refl (tau i) (U i))).
  transitivity (mmul N (mmul N (ctr (refl (tau i) (U i))) (ctr (gP i))) (mmul N M (mmul N (gP i) (refl (tau i) (U i)))) r c).
  { apply mmul_ext; auto. intros l Hl. apply ctr_mmul. }
  rewrite <- mmul_assoc. apply mmul_ext; auto. intros l Hl. apply mmul_ext; auto. intros x Hx. rewrite mmul_assoc. rewrite refl_r by auto. rewrite (Hsup i c) by lia. rewrite conj_0. ring.
Qed.
Lemma gG_old i r c : (c <= k + i)%nat -> (c < N)%nat -> (forall x, (k + i + 1 <= x < n)%nat -> gG i x c = 0) -> (r < N)%nat -> gG (S i) r c = gG i r c.
Proof.
  intros Hc Hc' H0 Hr. rewrite gG_step by auto. transitivity (mmul N (refl (conj (tau i)) (U i)) (gG i) r c); [apply mmul_ext; auto; intros; apply ctr_refl|].
  rewrite refl_l by auto. rewrite sum_0; [ring|]. intros x Hx. destruct (Nat.lt_ge_cases x (k + i + 1)); [rewrite (Hsup i x), conj_0 by lia; ring|]. destruct (Nat.lt_ge_cases x n); [rewrite H0 by lia; ring|rewrite (Hsup i x), conj_0 by lia; ring].
Qed.
(** a reflector that maps column k+i of gG i, below row k+i, to a multiple of the first unit vector *)
Lemma gG_new i (v : nat -> T) : let a := (k + i + 1)%nat in (a < n)%nat ->
  refc Forward (n - a) (fun r => gG i (a + r)%nat (k + i)%nat) (tau i) v ->
  (forall r, (r < N)%nat -> U i r = embw a n (hvec Forward (n - a) v) r) ->
  unitary N (gP i) ->
  unitary N (gP (S i)) /\ forall r, (r < N)%nat -> gG (S i) r (k + i)%nat = if ((a <=? r) && (r <? n))%nat then (if (r =? a)%nat then v 0%nat else 0) else gG i r (k + i)%nat.
Proof.
  intros a Ha [R1 R2 R3] HU HP. cbn [hpos] in *. split.
  - change (gP (S i)) with (mmul N (gP i) (refl (tau i) (U i))). apply unitary_mul; auto.
    eapply unitary_ext; [|apply (embw_unitary N a n (tau i) (hvec Forward (n - a) v) 0); [lia|lia|unfold hvec; cbn [hpos]; reflexivity|exact R2]].
    intros r c Hr Hc. symmetry. apply refl_ext; apply HU; auto.
  - intros r Hr. rewrite gG_step by lia.
    transitivity (mmul N (refl (conj (tau i)) (embw a n (hvec Forward (n - a) v))) (gG i) r (k + i)%nat).
    { apply mmul_ext; auto. intros l Hl. rewrite ctr_refl. apply refl_ext; apply HU; auto. }
    rewrite embw_l by lia. destruct (Nat.leb_spec a r); cbn [andb]; auto. destruct (Nat.ltb_spec r n); auto.
    specialize (R3 (r - a)%nat ltac:(lia)). replace (r =? a)%nat with (r - a =? 0)%nat by (destruct (Nat.eqb_spec r a), (Nat.eqb_spec (r - a) 0); auto; lia). rewrite <- R3.
    unfold mmul, mvmul. apply sum_ext. intros l Hl. rewrite ctr_refl. auto.
Qed.
End P.

Section X.
Context {E : Env} {FL : FieldLaws E} {CL : ConjLaws E} {OL : ROrdLaws E} {QL : EqbLaws E} {XL : CplxLaws E} {RL : RLaws E} {NL : FinLaws E}.
Add Field Tf' : fth.
Lemma gP_ext N U U' tau tau' i : (forall l r, (l < i)%nat -> (r < N)%nat -> U l r = U' l r) -> (forall l, (l < i)%nat -> tau l = tau' l) ->
  forall r c, (r < N)%nat -> (c < N)%nat -> gP N U tau i r c = gP N U' tau' i r c.
Proof. intros HU Ht r c Hr Hc. apply mprod_ext; auto. intros j x y Hj Hx Hy. rewrite Ht by auto. apply refl_ext; apply HU; auto. Qed.
Lemma gY_ext N M U U' tau tau' i : (forall l r, (l < i)%nat -> (r < N)%nat -> U l r = U' l r) -> (forall l, (l < i)%nat -> tau l = tau' l) ->
  forall r l, gY N M U tau i r l = gY N M U' tau' i r l.
Proof. intros HU Ht r l. unfold gY. apply sum_ext. intros c Hc. f_equal. apply sum_ext. intros a Ha. rewrite HU by auto. f_equal. apply ltm_ext; auto. Qed.
Lemma gG_ext N M U U' tau tau' i : (forall l r, (l < i)%nat -> (r < N)%nat -> U l r = U' l r) -> (forall l, (l < i)%nat -> tau l = tau' l) ->
  forall r c, (r < N)%nat -> (c < N)%nat -> gG N M U tau i r c = gG N M U' tau' i r c.
Proof.
  intros HU Ht r c Hr Hc. assert (K := gP_ext N U U' tau tau' i HU Ht). unfold gG. apply mmul_ext; intros l Hl; [unfold ctr; rewrite K; auto|]. apply mmul_ext; intros x Hx; auto.
Qed.
End X.
