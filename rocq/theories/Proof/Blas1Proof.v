From Coq Require Import Bool Arith ZArith Lia Ring Field.
From Verif.Core Require Import Scalar Prog View.
From Verif.Spec Require Import LinAlg.
From Verif.Model Require Import Blas1.
From Verif.Proof Require Import SumLemmas Tactics.
Local Open Scope T_scope.

Section Blas1.
Context {E : Env}.

Lemma axpy_run alpha x y s0 : nc x = 1%nat -> nc y = 1%nat -> (nr x <= nr y)%nat -> vinj y -> disj x y ->
  runs (axpy alpha x y) s0
    (fun _ s' => veff y (fun i => if (i <? nr x)%nat then vval y s0 i + alpha * vval x s0 i else vval y s0 i) s0 s').
Proof.
  intros Hx Hy Hn HI HD. unfold runs, axpy. cbv zeta. checks.
  loop (fun k s => eff y (fun i j => if (i <? k)%nat then vval y s0 i + alpha * vval x s0 i else vval y s0 i) s0 s) as i s.
  { apply (eff_ext _ _ _ _ _ (eff_refl y s0)). intros i j Hi Hj. replace j with 0%nat by lia. reflexivity. }
  { steps. effext. }
  { apply veff_eff; auto. }
Qed.

Lemma copy_run x y s0 : nc x = 1%nat -> nc y = 1%nat -> (nr x <= nr y)%nat -> vinj y -> disj x y ->
  runs (copy x y) s0
    (fun _ s' => veff y (fun i => if (i <? nr x)%nat then vval x s0 i else vval y s0 i) s0 s').
Proof.
  intros Hx Hy Hn HI HD. unfold runs, copy. cbv zeta. checks.
  loop (fun k s => eff y (fun i j => if (i <? k)%nat then vval x s0 i else vval y s0 i) s0 s) as i s.
  { apply (eff_ext _ _ _ _ _ (eff_refl y s0)). intros i j Hi Hj. replace j with 0%nat by lia. reflexivity. }
  { steps. effext. }
  { apply veff_eff; auto. }
Qed.

Lemma scal_run alpha x s0 : nc x = 1%nat -> vinj x ->
  runs (scal alpha x) s0 (fun _ s' => veff x (fun i => vval x s0 i * alpha) s0 s').
Proof.
  intros Hx HI. unfold runs, scal.
  loop (fun k s => eff x (fun i j => if (i <? k)%nat then vval x s0 i * alpha else vval x s0 i) s0 s) as i s.
  { apply (eff_ext _ _ _ _ _ (eff_refl x s0)). intros i j Hi Hj. replace j with 0%nat by lia. reflexivity. }
  { steps. effext. }
  { apply veff_eff; auto. effext. }
Qed.

Lemma dot_run x y s0 : nc x = 1%nat -> nc y = 1%nat -> nr y = nr x ->
  runs (dot x y) s0 (fun r s' => r = sum (nr x) (fun i => conj (vval x s0 i) * vval y s0 i) /\ s' = s0).
Proof.
  intros Hx Hy Hn. unfold runs, dot. cbv zeta. checks.
  rewrite <- facc_zero.
  fold (fun k a s => a = facc k (fun i => conj (vval x s0 i) * vval y s0 i) zero /\ s = s0) as i a s.
  - auto.
  - destruct He as [-> ->]. steps. auto.
  - auto.
Qed.

Lemma dotu_run x y s0 : nc x = 1%nat -> nc y = 1%nat -> nr y = nr x ->
  runs (dotu x y) s0 (fun r s' => r = sum (nr x) (fun i => vval x s0 i * vval y s0 i) /\ s' = s0).
Proof.
  intros Hx Hy Hn. unfold runs, dotu. cbv zeta. checks.
  rewrite <- facc_zero.
  fold (fun k a s => a = facc k (fun i => vval x s0 i * vval y s0 i) zero /\ s = s0) as i a s.
  - auto.
  - destruct He as [-> ->]. steps. auto.
  - auto.
Qed.

Lemma asum_run x s0 : nc x = 1%nat ->
  runs (asum x) s0 (fun r s' => r = sum (nr x) (fun i => abs1 (vval x s0 i)) /\ s' = s0).
Proof.
  intros Hx. unfold runs, asum. 
  rewrite <- facc_zero.
  fold (fun k a s => a = facc k (fun i => abs1 (vval x s0 i)) zero /\ s = s0) as i a s.
  - auto.
  - destruct He as [-> ->]. steps. auto.
  - auto.
Qed.

Definition veff2 (x : view) (f : nat -> T) (y : view) (g : nat -> T) (s s' : state) : Prop :=
  (forall i, (i < nr x)%nat -> vval x s' i = f i) /\
  (forall i, (i < nr y)%nat -> vval y s' i = g i) /\
  (forall l, ~ inview x l -> ~ inview y l -> mem s' l = mem s l) /\
  imem s' = imem s.
Lemma veff2_eff2 x f y g s s' : nc x = 1%nat -> nc y = 1%nat ->
  eff2 x (fun i _ => f i) y (fun i _ => g i) s s' -> veff2 x f y g s s'.
Proof.
  intros Hx Hy (H1 & H2 & H3 & H4). repeat split; auto; intros i Hi; [apply H1|apply H2]; lia.
Qed.

(** generic two-vector elementwise loop *)
Lemma pair_loop x y (body : nat -> M unit) (fx fy : T -> T -> T) s0 :
  nc x = 1%nat -> nc y = 1%nat -> nr y = nr x -> 
  (forall i s F G, (i < nr x)%nat -> eff2 x F y G s0 s ->
     wp (body i) (fun _ s' => eff2 x (fupd F i 0 (fx (F i 0%nat) (G i 0%nat))) y (fupd G i 0 (fy (F i 0%nat) (G i 0%nat))) s0 s') noX s) ->
  runs (for_ i in 0 upto nr x do body i) s0
    (fun _ s' => veff2 x (fun i => fx (vval x s0 i) (vval y s0 i)) y (fun i => fy (vval x s0 i) (vval y s0 i)) s0 s').
Proof.
  intros Hx Hy Hn Hb. unfold runs.
  loop (fun k s => eff2 x (fun i j => if (i <? k)%nat then fx (vval x s0 i) (vval y s0 i) else vval x s0 i)
                        y (fun i j => if (i <? k)%nat then fy (vval x s0 i) (vval y s0 i) else vval y s0 i) s0 s) as i s.
  { apply (eff2_ext _ _ _ _ _ _ _ _ (eff2_refl x y s0)); intros i j Hi Hj; replace j with 0%nat by lia; reflexivity. }
  { eapply wp_conseq; [apply Hb; [lia|eassumption]| |intros ? ? []].
    intros ? s' H'. cbv beta in H'. rewrite Nat.ltb_irrefl in H'. effext2. }
  { apply veff2_eff2; auto. effext2. }
Qed.

Lemma swap_run x y s0 : nc x = 1%nat -> nc y = 1%nat -> nr y = nr x -> vinj x -> vinj y -> disj x y ->
  runs (swap x y) s0 (fun _ s' => veff2 x (vval y s0) y (vval x s0) s0 s').
Proof.
  intros Hx Hy Hn HI HJ HD. unfold runs, swap. cbv zeta. checks.
  apply (pair_loop x y _ (fun a b => b) (fun a b => a)); auto.
  intros i s F G Hi He. steps. effext2.
Qed.

Lemma rot_run x y c sn s0 : nc x = 1%nat -> nc y = 1%nat -> nr y = nr x -> vinj x -> vinj y -> disj x y ->
  (eqb c one && eqb sn zero = true -> forall a b, c * a + sn * b = a /\ c * b - conj sn * a = b) ->
  runs (rot x y c sn) s0
    (fun _ s' => veff2 x (fun i => c * vval x s0 i + sn * vval y s0 i)
                       y (fun i => c * vval y s0 i - conj sn * vval x s0 i) s0 s').
Proof.
  intros Hx Hy Hn HI HJ HD Hid. unfold runs, rot. cbv zeta. checks.
  destruct (Nat.eqb_spec (nr x) 0) as [Z|NZ]; cbn [orb].
  { apply wp_ret. repeat split; auto; intros i Hi; lia. }
  destruct (eqb c one && eqb sn zero) eqn:Hc.
  { apply wp_ret. specialize (Hid eq_refl). repeat split; auto; intros i Hi; symmetry; apply Hid. }
  apply (pair_loop x y _ (fun a b => c * a + sn * b) (fun a b => c * b - conj sn * a)); auto.
  intros i s F G Hi He. steps. effext2.
Qed.

Definition rotm_x (flag : Z) (h0 h1 h2 h3 a b : T) : T :=
  if Z.eqb flag (-1) then h0 * a + h2 * b else if Z.eqb flag 0 then a + h2 * b
  else if Z.eqb flag 1 then h0 * a + b else a.
Definition rotm_y (flag : Z) (h0 h1 h2 h3 a b : T) : T :=
  if Z.eqb flag (-1) then h3 * b + h1 * a else if Z.eqb flag 0 then b + h1 * a
  else if Z.eqb flag 1 then h3 * b - a else b.
Lemma rotm_run flag x y h0 h1 h2 h3 s0 : nc x = 1%nat -> nc y = 1%nat -> nr y = nr x -> vinj x -> vinj y -> disj x y ->
  runs (rotm flag x y h0 h1 h2 h3) s0
    (fun _ s' => veff2 x (fun i => rotm_x flag h0 h1 h2 h3 (vval x s0 i) (vval y s0 i))
                       y (fun i => rotm_y flag h0 h1 h2 h3 (vval x s0 i) (vval y s0 i)) s0 s').
Proof.
  intros Hx Hy Hn HI HJ HD. unfold runs, rotm, rotm_x, rotm_y. cbv zeta. checks.
  destruct (Z.eqb flag (-1)); [|destruct (Z.eqb flag 0); [|destruct (Z.eqb flag 1)]].
  - apply (pair_loop x y _ (fun a b => h0 * a + h2 * b) (fun a b => h3 * b + h1 * a)); auto.
    intros i s F G Hi He. steps. effext2.
  - apply (pair_loop x y _ (fun a b => a + h2 * b) (fun a b => b + h1 * a)); auto.
    intros i s F G Hi He. steps. effext2.
  - apply (pair_loop x y _ (fun a b => h0 * a + b) (fun a b => h3 * b - a)); auto.
    intros i s F G Hi He. steps. effext2.
  - apply wp_ret. repeat split; auto.
Qed.
End Blas1.
