(** Block algebra of matrices given as functions *)
From Coq Require Import Bool Arith ZArith Lia Ring Field.
From Verif.Core Require Import Scalar Prog View Rel Slice Loops.
From Verif.Spec Require Import LinAlg.
From Verif.Proof Require Import SumLemmas Tactics LowOps PotrfProof.
Local Open Scope T_scope.

Section Alg.
Context {E : Env} {FL : FieldLaws E}.
Add Field Tf : fth.
Implicit Types (A B X Y W : mat).

Definition isinv (n : nat) A X : Prop := forall i j, (i < n)%nat -> (j < n)%nat -> mmul n A X i j = idm i j /\ mmul n X A i j = idm i j.

Lemma mmul_id_l n A i j : (i < n)%nat -> mmul n idm A i j = A i j.
Proof.
  intros Hi. unfold mmul, idm. rewrite (sum_single n i) by (try lia; intros k Hk Hn; rewrite (proj2 (Nat.eqb_neq i k)) by lia; ring).
  rewrite Nat.eqb_refl. ring.
Qed.
Lemma mmul_id_r n A i j : (j < n)%nat -> mmul n A idm i j = A i j.
Proof.
  intros Hj. unfold mmul, idm. rewrite (sum_single n j) by (try lia; intros k Hk Hn; rewrite (proj2 (Nat.eqb_neq k j)) by lia; ring).
  rewrite Nat.eqb_refl. ring.
Qed.
Lemma mmul_split p n A B i j : (p <= n)%nat ->
  mmul n A B i j = mmul p A B i j + mmul (n - p) (fun a k => A a (p + k)%nat) (fun k b => B (p + k)%nat b) i j.
Proof. intros Hp. unfold mmul. rewrite (sum_split_at p n) by auto. auto. Qed.
Lemma mmul_0_l k A B i j : (forall l, (l < k)%nat -> A i l = 0) -> mmul k A B i j = 0.
Proof. intros H. unfold mmul. apply sum_0. intros l Hl. rewrite H by auto. ring. Qed.
Lemma mmul_0_r k A B i j : (forall l, (l < k)%nat -> B l j = 0) -> mmul k A B i j = 0.
Proof. intros H. unfold mmul. apply sum_0. intros l Hl. rewrite H by auto. ring. Qed.
Lemma mmul_scal_l k c A B i j : mmul k (fun i j => c * A i j) B i j = c * mmul k A B i j.
Proof. unfold mmul. rewrite <- sum_scal_l. apply sum_ext. intros. ring. Qed.
Lemma mmul_scal_r k c A B i j : mmul k A (fun i j => c * B i j) i j = c * mmul k A B i j.
Proof. unfold mmul. rewrite <- sum_scal_l. apply sum_ext. intros. ring. Qed.
Lemma idm_neq i j : i <> j -> idm i j = 0.
Proof. intros H. unfold idm. rewrite (proj2 (Nat.eqb_neq i j)) by auto. auto. Qed.
Lemma idm_blk p i j : idm (p + i)%nat (p + j)%nat = idm i j.
Proof. unfold idm. destruct (Nat.eqb_spec i j), (Nat.eqb_spec (p + i) (p + j)); auto; lia. Qed.

(** inverse of a block lower triangular matrix *)
Lemma isinv_block p n A X W : (p <= n)%nat ->
  (forall i j, (i < p)%nat -> (p <= j < n)%nat -> A i j = 0) -> (forall i j, (i < p)%nat -> (p <= j < n)%nat -> X i j = 0) ->
  isinv p A X -> isinv (n - p) (blk p p A) (blk p p X) ->
  (forall i j, (i < n - p)%nat -> (j < p)%nat -> mmul p W A i j = - (1) * A (p + i)%nat j) ->
  (forall i j, (i < n - p)%nat -> (j < p)%nat -> mmul (n - p) (blk p p A) (fun k l => X (p + k)%nat l) i j = W i j) ->
  isinv n A X.
Proof.
  intros Hp HA HX H0 H1 HW HY i j Hi Hj.
  assert (HW' : forall a b, (a < n - p)%nat -> (b < p)%nat -> A (p + a)%nat b = - (1) * mmul p W A a b) by (intros; rewrite HW by lia; ring).
  rewrite !(mmul_split p n) by auto.
  destruct (Nat.lt_ge_cases i p) as [Hip|Hip]; destruct (Nat.lt_ge_cases j p) as [Hjp|Hjp].
  - split; (rewrite (mmul_0_l (n - p)) by (intros; first [apply HA | apply HX]; lia)); destruct (H0 i j Hip Hjp) as [e1 e2]; rewrite ?e1, ?e2; ring.
  - split; (rewrite (mmul_0_l (n - p)) by (intros; first [apply HA | apply HX]; lia)); (rewrite (mmul_0_r p) by (intros; first [apply HA | apply HX]; lia)); rewrite idm_neq by lia; ring.
  - replace i with (p + (i - p))%nat by lia. set (i' := (i - p)%nat). assert (Hi' : (i' < n - p)%nat) by lia.
    rewrite idm_neq by lia. split.
    + change (mmul p A X (p + i')%nat j) with (mmul p (fun a => A (p + a)%nat) X i' j).
      rewrite (mmul_ext p _ X (fun a b => - (1) * mmul p W A a b) X) by (auto; intros; apply HW'; lia).
      rewrite mmul_scal_l, <- mmul_assoc.
      rewrite (mmul_ext p W _ W idm) by (auto; intros l Hl; apply (H0 l j); lia).
      rewrite mmul_id_r by auto. rewrite <- (HY i' j) by auto.
      change (mmul (n - p) (fun a k => A a (p + k)%nat) (fun k b => X (p + k)%nat b) (p + i')%nat j) with (mmul (n - p) (blk p p A) (fun k b => X (p + k)%nat b) i' j). ring.
    + change (mmul (n - p) (fun a k => X a (p + k)%nat) (fun k b => A (p + k)%nat b) (p + i')%nat j) with (mmul (n - p) (blk p p X) (fun k b => A (p + k)%nat b) i' j).
      rewrite (mmul_ext (n - p) (blk p p X) (fun k b => A (p + k)%nat b) (blk p p X) (fun a b => - (1) * mmul p W A a b) i' j) by (auto; intros; apply HW'; lia).
      rewrite mmul_scal_r, mmul_assoc.
      rewrite (mmul_ext p (mmul (n - p) (blk p p X) W) A (fun k b => X (p + k)%nat b) A i' j); auto.
      * change (mmul p X A (p + i')%nat j) with (mmul p (fun k b => X (p + k)%nat b) A i' j). ring.
      * intros l Hl. rewrite (mmul_ext (n - p) (blk p p X) W (blk p p X) (mmul (n - p) (blk p p A) (fun k b => X (p + k)%nat b))) by (auto; intros; symmetry; apply HY; lia).
        rewrite mmul_assoc. rewrite (mmul_ext (n - p) _ _ idm (fun k b => X (p + k)%nat b)) by (auto; intros; apply H1; lia).
        exact (mmul_id_l (n - p) (fun k b => X (p + k)%nat b) i' l Hi').
  - split; (rewrite (mmul_0_r p) by (intros; first [apply HA | apply HX]; lia));
      (replace i with (p + (i - p))%nat by lia); (replace j with (p + (j - p))%nat by lia); rewrite idm_blk;
      destruct (H1 (i - p)%nat (j - p)%nat ltac:(lia) ltac:(lia)) as [e1 e2]; [rewrite <- e1|rewrite <- e2]; unfold mmul, blk; ring.
Qed.
Lemma isinv_ext n A A' X X' : (forall i j, (i < n)%nat -> (j < n)%nat -> A i j = A' i j) -> (forall i j, (i < n)%nat -> (j < n)%nat -> X i j = X' i j) ->
  isinv n A X -> isinv n A' X'.
Proof.
  intros HA HX H i j Hi Hj. destruct (H i j Hi Hj) as [e1 e2]. split; [rewrite <- e1|rewrite <- e2]; apply mmul_ext; intros; symmetry; auto.
Qed.
Lemma blk_trim p u d A i j : u = Upper \/ u = Lower -> blk p p (trim u d A) i j = trim u d (blk p p A) i j.
Proof.
  intros Hu. unfold blk, trim. replace (p + i =? p + j)%nat with (i =? j)%nat by (destruct (Nat.eqb_spec i j), (Nat.eqb_spec (p + i) (p + j)); auto; lia).
  destruct (i =? j)%nat; auto. replace (intri u (p + i) (p + j)) with (intri u i j); auto.
  destruct Hu; subst u; cbn; [destruct (Nat.leb_spec i j), (Nat.leb_spec (p + i) (p + j))|destruct (Nat.leb_spec j i), (Nat.leb_spec (p + j) (p + i))]; auto; lia.
Qed.
(** a left inverse and a right inverse coincide *)
Lemma inv_unique n A X Y i j : (i < n)%nat -> (j < n)%nat ->
  (forall a b, (a < n)%nat -> (b < n)%nat -> mmul n X A a b = idm a b) -> (forall a b, (a < n)%nat -> (b < n)%nat -> mmul n A Y a b = idm a b) -> X i j = Y i j.
Proof.
  intros Hi Hj HX HY. rewrite <- (mmul_id_r n X i j) by auto.
  rewrite (mmul_ext n X idm X (mmul n A Y)) by (auto; intros; symmetry; apply HY; auto).
  rewrite mmul_assoc. rewrite (mmul_ext n _ Y idm Y) by (auto; intros; apply HX; auto). apply mmul_id_l; auto.
Qed.
End Alg.
