(** The inverse of a bordered matrix, from the inverse of its trailing block (the step of getri_uxli) *)
From Coq Require Import Bool Arith ZArith Lia Ring Field.
From Verif.Core Require Import Scalar.
From Verif.Spec Require Import LinAlg Inverse.
From Verif.Proof Require Import SumLemmas LowOps BlockAlg LuMultProof.
Local Open Scope T_scope.

Section B.
Context {E : Env} {FL : FieldLaws E}.
Add Field Tf : fth.
Implicit Types (F G M X : mat).

Definition bord (a : T) (b c : nat -> T) M : mat := fun i j =>
  match i, j with O, O => a | O, S j => b j | S i, O => c i | S i, S j => M i j end.

Lemma sum_mul_swap r (M : mat) (f g : nat -> T) : sum r (fun k => f k * sum r (fun l => M k l * g l)) = sum r (fun l => sum r (fun k => M k l * f k) * g l).
Proof.
  transitivity (sum r (fun k => sum r (fun l => M k l * f k * g l))).
  - apply sum_ext. intros k Hk. rewrite <- sum_scal_l. apply sum_ext. intros; ring.
  - rewrite sum_swap. apply sum_ext. intros l Hl. rewrite <- sum_scal_r. auto.
Qed.
Lemma sum_id_l r a (g : nat -> T) : (a < r)%nat -> sum r (fun k => idm a k * g k) = g a.
Proof.
  intros Ha. rewrite (sum_single r a); auto; unfold idm; [rewrite Nat.eqb_refl; ring|]. intros i Hi Hn. destruct (Nat.eqb_spec a i); [lia|ring].
Qed.
Lemma sum_id_r r a (g : nat -> T) : (a < r)%nat -> sum r (fun k => g k * idm k a) = g a.
Proof.
  intros Ha. rewrite (sum_single r a); auto; unfold idm; [rewrite Nat.eqb_refl; ring|]. intros i Hi Hn. destruct (Nat.eqb_spec i a); [lia|ring].
Qed.
Lemma idm_SS a c : idm (S a) (S c) = idm a c :> T.
Proof. reflexivity. Qed.

Lemma border_inverse r u (f l w x : nat -> T) M X : u <> 0 -> inverse r M X ->
  (forall c, (c < r)%nat -> w c = - (1 / u) * sum r (fun k => X k c * f k)) ->
  (forall a, (a < r)%nat -> x a = - sum r (fun k => X a k * l k)) ->
  inverse (S r) (bord u f (fun a => l a * u) (fun a c => l a * f c + M a c)) (bord (1 / u - sum r (fun k => l k * w k)) w x X).
Proof.
  intros Hu HX Hw Hx.
  assert (HX1 : forall a c, (a < r)%nat -> (c < r)%nat -> sum r (fun k => M a k * X k c) = idm a c) by (intros; apply HX; auto).
  assert (HX2 : forall a c, (a < r)%nat -> (c < r)%nat -> sum r (fun k => X a k * M k c) = idm a c) by (intros; apply HX; auto).
  clear HX.
  set (lw := sum r (fun k => l k * w k)).
  assert (Elw : lw = - (1 / u) * sum r (fun k => f k * sum r (fun m => X k m * l m))).
  { rewrite sum_mul_swap. rewrite <- sum_scal_l. unfold lw. apply sum_ext. intros k Hk. rewrite Hw by auto. ring. }
  assert (Efx : sum r (fun k => f k * x k) = u * lw).
  { rewrite Elw. transitivity (- sum r (fun k => f k * sum r (fun m => X k m * l m))); [|field; auto].
    rewrite <- sum_opp. apply sum_ext. intros k Hk. rewrite Hx by auto. ring. }
  assert (EfX : forall c, (c < r)%nat -> sum r (fun k => f k * X k c) = - (u * w c)).
  { intros c Hc. rewrite Hw by auto. transitivity (sum r (fun k => X k c * f k)); [apply sum_ext; intros; ring|field; auto]. }
  assert (EMx : forall a, (a < r)%nat -> sum r (fun k => M a k * x k) = - l a).
  { intros a Ha. transitivity (- sum r (fun k => M a k * sum r (fun m => X k m * l m))).
    - rewrite <- sum_opp. apply sum_ext. intros k Hk. rewrite Hx by auto. ring.
    - f_equal. rewrite sum_mul_swap. rewrite <- (sum_id_l r a l) by auto. apply sum_ext. intros m Hm. f_equal. rewrite <- HX1 by auto. apply sum_ext; intros; ring. }
  assert (EXl : forall a, (a < r)%nat -> sum r (fun k => X a k * l k) = - x a). { intros a Ha. rewrite Hx by auto. ring. }
  assert (EwM : forall c, (c < r)%nat -> sum r (fun k => w k * M k c) = - (f c / u)).
  { intros c Hc. transitivity (- (1 / u) * sum r (fun k => f k * sum r (fun m => X k m * M m c))).
    - rewrite sum_mul_swap, <- sum_scal_l. apply sum_ext. intros k Hk. rewrite Hw by auto. ring.
    - transitivity (- (1 / u) * f c); [|field; auto]. f_equal. rewrite <- (sum_id_r r c f) by auto. apply sum_ext. intros k Hk. f_equal. apply HX2; auto. }
  intros i j Hi Hj. unfold mmul. split; rewrite sum_S_l; destruct i as [|i], j as [|j]; cbn [bord]; try rewrite idm_SS.
  - rewrite Efx. unfold idm; cbn. field; auto.
  - rewrite EfX by lia. unfold idm; cbn. ring.
  - transitivity (l i * (u * (1 / u - lw) + sum r (fun k => f k * x k)) + sum r (fun k => M i k * x k)).
    + rewrite (sum_ext r _ (fun k => l i * (f k * x k) + M i k * x k)) by (intros; ring). rewrite sum_plus, sum_scal_l. ring.
    + rewrite Efx, EMx by lia. unfold idm; cbn. field; auto.
  - transitivity (l i * (u * w j + sum r (fun k => f k * X k j)) + sum r (fun k => M i k * X k j)).
    + rewrite (sum_ext r _ (fun k => l i * (f k * X k j) + M i k * X k j)) by (intros; ring). rewrite sum_plus, sum_scal_l. ring.
    + rewrite EfX, HX1 by lia. ring.
  - transitivity (u * ((1 / u - lw) + lw)); [|unfold idm; cbn; field; auto].
    rewrite (sum_ext r _ (fun k => (l k * w k) * u)) by (intros; ring). rewrite sum_scal_r. change (sum r (fun k => l k * w k)) with lw. ring.
  - transitivity (((1 / u - lw) + lw) * f j + sum r (fun k => w k * M k j)).
    + rewrite (sum_ext r _ (fun k => (l k * w k) * f j + w k * M k j)) by (intros; ring). rewrite sum_plus, sum_scal_r. change (sum r (fun k => l k * w k)) with lw. ring.
    + rewrite EwM by lia. unfold idm; cbn. field; auto.
  - rewrite (sum_ext r _ (fun k => (X i k * l k) * u)) by (intros; ring). rewrite sum_scal_r, EXl by lia. unfold idm; cbn. ring.
  - transitivity ((x i + sum r (fun k => X i k * l k)) * f j + sum r (fun k => X i k * M k j)).
    + rewrite (sum_ext r _ (fun k => (X i k * l k) * f j + X i k * M k j)) by (intros; ring). rewrite sum_plus, sum_scal_r. ring.
    + rewrite EXl, HX2 by lia. ring.
Qed.

(** one more row and column of L U *)
Lemma LU_S r F i j : (i < S r)%nat -> (j < S r)%nat ->
  LU (S r) F i j = bord (F O O) (fun c => F O (S c)) (fun a => F (S a) O * F O O) (fun a c => F (S a) O * F O (S c) + LU r (blk 1 1 F) a c) i j.
Proof.
  intros Hi Hj. unfold LU, mmul. rewrite sum_S_l. destruct i as [|i], j as [|j]; cbn [bord].
  - rewrite Lf_d, Uf_up by lia. rewrite sum_0; [ring|]; intros k Hk; rewrite Lf_up by lia; ring.
  - rewrite Lf_d, Uf_up by lia. rewrite sum_0; [ring|]; intros k Hk; rewrite Lf_up by lia; ring.
  - rewrite Lf_lo, Uf_up by lia. rewrite sum_0; [ring|]. intros k Hk. rewrite (Uf_lo F) by lia. ring.
  - rewrite Lf_lo, Uf_up by lia. f_equal.
Qed.
End B.
