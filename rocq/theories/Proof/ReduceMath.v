(** * The matrix algebra of two-sided reductions *)
From Coq Require Import Bool Arith ZArith Lia Reals Lra Ring Field.
From Verif.Core Require Import Scalar RealLaws.
From Verif.Spec Require Import LinAlg Norms Householder Reduce.
From Verif.Proof Require Import SumLemmas PotrfProof BlockAlg LarfProof LarfgProof QRProof QGenProof QFactProof.
Local Open Scope T_scope.

Section P.
Context {E : Env} {FL : FieldLaws E} {CL : ConjLaws E} {OL : ROrdLaws E} {QL : EqbLaws E} {XL : CplxLaws E} {RL : RLaws E} {NL : FinLaws E}.
Add Field Tf : fth.

Lemma uni_cancel m Q (B : mat) r c : unitary m Q -> (r < m)%nat -> mmul m Q (mmul m (ctr Q) B) r c = B r c.
Proof. intros U Hr. apply unitary_solve; auto. Qed.
Lemma uni_cancel' m Q (B : mat) r c : unitary m Q -> (c < m)%nat -> mmul m (mmul m B Q) (ctr Q) r c = B r c.
Proof.
  intros U Hc. rewrite <- mmul_assoc. transitivity (mmul m B idm r c); [|apply mmul_id_r; auto].
  apply mmul_ext; auto. intros l Hl. apply (U l c Hl Hc).
Qed.
(** One more pair of transformations: if A0 = P Y Z^H and Y' = HL^H Y HR then A0 = (P HL) Y' (Z HR)^H *)
Lemma two_sided m n P Z HL HR (Y Y' A0 : mat) : unitary m HL -> unitary n HR ->
  (forall r c, (r < m)%nat -> (c < n)%nat -> A0 r c = mmul n (mmul m P Y) (ctr Z) r c) ->
  (forall r c, (r < m)%nat -> (c < n)%nat -> Y' r c = mmul n (mmul m (ctr HL) Y) HR r c) ->
  forall r c, (r < m)%nat -> (c < n)%nat -> A0 r c = mmul n (mmul m (mmul m P HL) Y') (ctr (mmul n Z HR)) r c.
Proof.
  intros UL UR H0 H1 r c Hr Hc. rewrite H0 by auto.
  transitivity (mmul n (mmul m (mmul m P HL) Y') (mmul n (ctr HR) (ctr Z)) r c); [|apply mmul_ext; auto; intros; symmetry; apply ctr_mmul].
  rewrite mmul_assoc. apply mmul_ext; auto. intros l Hl.
  transitivity (mmul n (mmul m (mmul m P HL) (mmul n (mmul m (ctr HL) Y) HR)) (ctr HR) r l).
  2:{ apply mmul_ext; auto. intros k Hk. apply mmul_ext; auto. intros k' Hk'. symmetry. apply H1; auto. }
  transitivity (mmul n (mmul n (mmul m (mmul m P HL) (mmul m (ctr HL) Y)) HR) (ctr HR) r l).
  2:{ apply mmul_ext; auto. intros k Hk. symmetry. apply mmul_assoc. }
  rewrite uni_cancel' by auto. transitivity (mmul m P (mmul m HL (mmul m (ctr HL) Y)) r l); [|apply mmul_assoc].
  apply mmul_ext; auto. intros k Hk. symmetry. apply uni_cancel; auto.
Qed.

(** Applying the reflector of line [c], window [a,b), to a matrix whose eliminated elements are masked *)
Lemma left_step M N dir a b c (el el' : nat -> nat -> bool) (X X' : mat) tau :
  (a < b <= M)%nat -> (c < N)%nat ->
  refc dir (b - a) (fun r => X (a + r)%nat c) tau (fun r => X' (a + r)%nat c) ->
  let H := refl tau (embw a b (hvec dir (b - a) (fun r => X' (a + r)%nat c))) in
  (forall r j, (r < M)%nat -> (j < N)%nat -> ~ (a <= r < b)%nat -> masked el' X' r j = masked el X r j) ->
  (forall r, (a <= r < b)%nat -> el r c = false /\ el' r c = negb (r - a =? hpos dir (b - a))%nat) ->
  (forall j, (j < N)%nat -> j <> c ->
     (forall r, (a <= r < b)%nat -> masked el' X' r j = 0 /\ masked el X r j = 0) \/
     (forall r, (a <= r < b)%nat -> X' r j = mmul M (ctr H) X r j /\ el r j = false /\ el' r j = false)) ->
  unitary M H /\ forall r j, (r < M)%nat -> (j < N)%nat -> masked el' X' r j = mmul M (ctr H) (masked el X) r j.
Proof.
  intros Hab Hc [R1 R3 R4] H Hout He Hj. set (u := hvec dir (b - a) (fun r => X' (a + r)%nat c)) in *.
  assert (Hp := hpos_lt dir (b - a) ltac:(lia)).
  split. { apply (embw_unitary M a b tau u (hpos dir (b - a))); auto; [lia|]. unfold u, hvec. rewrite Nat.eqb_refl. auto. }
  assert (HCM : forall (B : mat) l y, (l < M)%nat -> mmul M (ctr H) B l y = if ((a <=? l) && (l <? b))%nat then mmul (b - a) (ctr (refl tau u)) (fun l c => B (a + l)%nat c) (l - a)%nat y else B l y).
  { intros B l y Hl. transitivity (mmul M (refl (conj tau) (embw a b u)) B l y); [apply mmul_ext; auto; intros; apply ctr_refl|].
    rewrite embw_l by (auto; lia). destruct ((a <=? l) && (l <? b))%nat; auto. apply mmul_ext; auto. intros; symmetry; apply ctr_refl. }
  intros l j Hl Hjn. rewrite HCM by auto.
  destruct (Nat.leb_spec a l); cbn [andb]; [destruct (Nat.ltb_spec l b); cbn [andb]|]; [|apply Hout; auto; lia..].
  destruct (Nat.eq_dec j c) as [->|Hne].
  - destruct (He l ltac:(lia)) as [_ E2]. unfold masked at 1. rewrite E2.
    unfold mmul. rewrite (sum_ext (b - a) _ (fun k => ctr (refl tau u) (l - a)%nat k * X (a + k)%nat c)).
    + assert (R4' := R4 (l - a)%nat ltac:(lia)). unfold mvmul in R4'. rewrite R4'. destruct (Nat.eqb_spec (l - a) (hpos dir (b - a))) as [e|]; cbn [negb]; auto. f_equal. lia.
    + intros k Hk. unfold masked. destruct (He (a + k)%nat ltac:(lia)) as [-> _]. auto.
  - destruct (Hj j Hjn Hne) as [E1|E1].
    + destruct (E1 l ltac:(lia)) as [-> _]. symmetry. apply mmul_0_r. intros k Hk. apply E1. lia.
    + destruct (E1 l ltac:(lia)) as (E2 & E3 & E4). unfold masked at 1. rewrite E4, E2, HCM by auto.
      destruct (Nat.leb_spec a l), (Nat.ltb_spec l b); try lia; cbn [andb]. apply mmul_ext; auto. intros k Hk. unfold masked.
      destruct (E1 (a + k)%nat ltac:(lia)) as (_ & -> & _). auto.
Qed.

(** ** Frobenius norm *)
Lemma fro2_sum m n A : ofR (fro2 m n A) = sum n (fun j => sum m (fun i => A i j * conj (A i j))).
Proof. unfold fro2. induction n as [|n IH]; cbn [rsum sum]; [apply ofR_0|]. rewrite ofR_add, IH, vsq_sum. auto. Qed.
Lemma fro2_ext m n A B : (forall i j, (i < m)%nat -> (j < n)%nat -> A i j = B i j) -> fro2 m n A = fro2 m n B.
Proof. intros H. apply ofR_inj. rewrite !fro2_sum. apply sum_ext. intros j Hj. apply sum_ext. intros i Hi. rewrite H by auto. auto. Qed.
Lemma fro2_ctr m n A : fro2 m n (ctr A) = fro2 n m A.
Proof.
  apply ofR_inj. rewrite !fro2_sum. rewrite sum_swap. apply sum_ext. intros i Hi. apply sum_ext. intros j Hj. unfold ctr. rewrite conj_conj. ring.
Qed.
Lemma fro2_uni m n Q A : unitary m Q -> fro2 m n (mmul m Q A) = fro2 m n A.
Proof.
  intros U. unfold fro2. induction n as [|n IH]; cbn [rsum]; auto. rewrite IH. f_equal.
  apply (unitary_vsq m Q (fun i => A i n)); auto.
Qed.
Lemma fro2_uni_r m n Q A : unitary n Q -> fro2 m n (mmul n A Q) = fro2 m n A.
Proof.
  intros U. rewrite <- (fro2_ctr n m). rewrite (fro2_ext n m _ (mmul n (ctr Q) (ctr A))) by (intros; apply ctr_mmul).
  rewrite fro2_uni by (apply unitary_ctr; auto). apply fro2_ctr.
Qed.
Lemma fro2_nonneg m n A : (0 <= fro2 m n A)%R.
Proof. unfold fro2. induction n as [|n IH]; cbn [rsum]; [lra|]. assert (K := vsq_nonneg m (fun i => A i n)). lra. Qed.
Lemma fro2_col m n A j : (j < n)%nat -> (vsq m (fun i => A i j) <= fro2 m n A)%R.
Proof.
  induction n as [|n IH]; [lia|]. intros Hj. unfold fro2 in *. cbn [rsum]. destruct (Nat.eq_dec j n) as [->|].
  - assert (K := fro2_nonneg m n A). unfold fro2 in K. lra.
  - assert (K := vsq_nonneg m (fun i => A i n)). specialize (IH ltac:(lia)). lra.
Qed.
Lemma fro2_row m n A i : (i < m)%nat -> (vsq n (fun j => A i j) <= fro2 m n A)%R.
Proof.
  intros Hi. rewrite <- (fro2_ctr n m). eapply Rle_trans; [|apply (fro2_col n m (ctr A) i Hi)]. unfold ctr.
  right. apply ofR_inj. rewrite !vsq_sum. apply sum_ext. intros. rewrite conj_conj. ring.
Qed.
Lemma two_sided_fro m n P Z Y A0 : unitary m P -> unitary n Z -> (forall r c, (r < m)%nat -> (c < n)%nat -> A0 r c = mmul n (mmul m P Y) (ctr Z) r c) ->
  fro2 m n Y = fro2 m n A0.
Proof. intros UP UZ H. rewrite (fro2_ext _ _ _ _ H). rewrite fro2_uni_r by (apply unitary_ctr; auto). symmetry. apply fro2_uni; auto. Qed.
End P.
