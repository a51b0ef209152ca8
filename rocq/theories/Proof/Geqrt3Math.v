(** * Joining two block reflectors *)
From Coq Require Import Bool Arith ZArith Lia Ring Field.
From Verif.Core Require Import Scalar Prog View.
From Verif.Spec Require Import LinAlg Householder.
From Verif.Proof Require Import SumLemmas PotrfProof QGenProof BlockProof BlockAlg.
Local Open Scope T_scope.

Section P.
Context {E : Env} {FL : FieldLaws E} {CL : ConjLaws E}.
Add Field Tf : fth.

Lemma blk_mm k Tm U r c : blkrefl k Tm U r c = idm r c - mmul k (fun r a => U a r) (mmul k Tm (fun b c => conj (U b c))) r c.
Proof. unfold blkrefl, mmul. f_equal. apply sum_ext. intros a Ha. rewrite <- sum_scal_l. apply sum_ext. intros; ring. Qed.
Lemma blkrefl_embm a b k Tm U r c : embm a b (blkrefl k Tm U) r c = blkrefl k Tm (fun q => embw a b (U q)) r c.
Proof.
  unfold embm. change (embw a b) with (fun (u : nat -> T) r => if win a b r then u (r - a)%nat else 0). unfold blkrefl. cbv beta.
  destruct (win_spec a b r), (win_spec a b c); cbn [andb].
  - f_equal. unfold idm. destruct (Nat.eqb_spec (r - a) (c - a)), (Nat.eqb_spec r c); auto; lia.
  - rewrite sum_0; [ring|]. intros p Hp. apply sum_0. intros q Hq. rewrite conj_0. ring.
  - rewrite sum_0; [ring|]. intros p Hp. apply sum_0. intros q Hq. ring.
  - rewrite sum_0; [ring|]. intros p Hp. apply sum_0. intros q Hq. ring.
Qed.
Lemma blkrefl_join m k1 k2 T1 T2 Tm U1 U2 U :
  (forall a r, (a < k1)%nat -> (r < m)%nat -> U a r = U1 a r) -> (forall b r, (b < k2)%nat -> (r < m)%nat -> U (k1 + b)%nat r = U2 b r) ->
  (forall a b, (a < k1)%nat -> (b < k1)%nat -> Tm a b = T1 a b) -> (forall a b, (a < k2)%nat -> (b < k2)%nat -> Tm (k1 + a)%nat (k1 + b)%nat = T2 a b) ->
  (forall a b, (a < k2)%nat -> (b < k1)%nat -> Tm (k1 + a)%nat b = 0) ->
  (forall a b, (a < k1)%nat -> (b < k2)%nat -> Tm a (k1 + b)%nat = - mmul k2 (mmul k1 T1 (fun p q => sum m (fun l => conj (U1 p l) * U2 q l))) T2 a b) ->
  forall r c, (r < m)%nat -> (c < m)%nat -> mmul m (blkrefl k1 T1 U1) (blkrefl k2 T2 U2) r c = blkrefl (k1 + k2) Tm U r c.
Proof.
  intros HU1 HU2 H11 H22 H21 H12 r c Hr Hc. rewrite (blk_mm (k1 + k2)).
  set (X1 := fun r a => U1 a r). set (Y1 := fun b c => conj (U1 b c)). set (X2 := fun r a => U2 a r). set (Y2 := fun b c => conj (U2 b c)).
  set (P1 := mmul k1 X1 (mmul k1 T1 Y1)). set (P2 := mmul k2 X2 (mmul k2 T2 Y2)).
  set (D := fun p q => sum m (fun l => conj (U1 p l) * U2 q l)) in *.
  assert (EL : mmul m (blkrefl k1 T1 U1) (blkrefl k2 T2 U2) r c = idm r c - P1 r c - P2 r c + mmul m P1 P2 r c).
  { unfold mmul at 1. rewrite (sum_ext m _ (fun l => idm r l * (idm l c - P2 l c) - (P1 r l * idm l c - P1 r l * P2 l c))).
    - rewrite sum_minus, sum_minus.
      change (sum m (fun k => P1 r k * idm k c)) with (mmul m P1 idm r c). rewrite mmul_id_r by auto.
      change (sum m (fun l => idm r l * (idm l c - P2 l c))) with (mmul m idm (fun l c => idm l c - P2 l c) r c). rewrite mmul_id_l by auto. change (sum m (fun k => P1 r k * P2 k c)) with (mmul m P1 P2 r c). ring.
    - intros l Hl. rewrite !blk_mm. fold X1 Y1 X2 Y2. change (mmul k1 X1 (mmul k1 T1 Y1) r l) with (P1 r l). change (mmul k2 X2 (mmul k2 T2 Y2) l c) with (P2 l c). ring. }
  rewrite EL. clear EL.
  assert (EPP : mmul m P1 P2 r c = mmul k1 X1 (mmul k2 (mmul k2 (mmul k1 T1 D) T2) Y2) r c).
  { unfold P1, P2. rewrite <- mmul_assoc. apply mmul_ext; auto. intros a Ha. rewrite <- mmul_assoc.
    rewrite <- (mmul_assoc k2 k2). rewrite <- (mmul_assoc k1 k2). apply mmul_ext; auto. intros b Hb. rewrite mmul_assoc. apply mmul_ext; auto. }
  rewrite EPP. clear EPP.
  assert (ER : mmul (k1 + k2) (fun r a => U a r) (mmul (k1 + k2) Tm (fun b c => conj (U b c))) r c = P1 r c - mmul k1 X1 (mmul k2 (mmul k2 (mmul k1 T1 D) T2) Y2) r c + P2 r c).
  { unfold mmul at 1. rewrite (sum_split_at k1) by lia. replace (k1 + k2 - k1)%nat with k2 by lia. f_equal.
    - transitivity (sum k1 (fun a => X1 r a * mmul k1 T1 Y1 a c - X1 r a * mmul k2 (mmul k2 (mmul k1 T1 D) T2) Y2 a c)); [|rewrite sum_minus; reflexivity]. apply sum_ext. intros a Ha. rewrite HU1 by auto.
      transitivity (X1 r a * (mmul k1 T1 Y1 a c - mmul k2 (mmul k2 (mmul k1 T1 D) T2) Y2 a c)); [|ring]. unfold X1. f_equal.
      unfold mmul at 1. rewrite (sum_split_at k1) by lia. replace (k1 + k2 - k1)%nat with k2 by lia.
      rewrite (sum_ext k2 _ (fun b => - (mmul k2 (mmul k1 T1 D) T2 a b * Y2 b c))).
      + rewrite sum_opp. rewrite (sum_ext k1 _ (fun b => T1 a b * Y1 b c)); [unfold mmul; ring|]. intros b Hb. rewrite H11, HU1 by auto. auto.
      + intros b Hb. rewrite H12, HU2 by auto. unfold Y2. ring.
    - unfold P2. change (mmul k2 X2 (mmul k2 T2 Y2) r c) with (sum k2 (fun a => X2 r a * mmul k2 T2 Y2 a c)). apply sum_ext. intros a Ha. rewrite HU2 by auto. unfold X2. f_equal. unfold mmul. rewrite (sum_split_at k1) by lia. replace (k1 + k2 - k1)%nat with k2 by lia.
      rewrite sum_0 by (intros b Hb; rewrite H21 by auto; ring). rewrite (sum_ext k2 _ (fun b => T2 a b * Y2 b c)); [ring|]. intros b Hb. rewrite H22, HU2 by auto. auto. }
  rewrite ER. ring.
Qed.
End P.
