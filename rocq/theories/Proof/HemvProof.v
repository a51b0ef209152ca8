From Coq Require Import Bool Arith ZArith Lia Ring Field.
From Verif.Core Require Import Scalar Prog View.
From Verif.Spec Require Import LinAlg.
From Verif.Model Require Import Blas2.
From Verif.Proof Require Import SumLemmas Tactics Blas2Proof.
Local Open Scope T_scope.

Section Hemv.
Context {E : Env} {FL : FieldLaws E}.
Add Field Tf : fth.

(** common generalisation of [herm] (cj = conj, rr = re) and [symm_] (identities) *)
Definition hgen (cj rr : T -> T) (u : uplo_t) (A : mat) : mat := fun i j =>
  if (i =? j)%nat then rr (A i j) else if intri u i j then A i j else cj (A j i).

Lemma herm_hgen u A : herm u A = hgen conj re u A. Proof. reflexivity. Qed.
Lemma symm_hgen u A i j : symm_ u A i j = hgen (fun a => a) (fun a => a) u A i j.
Proof.
  unfold symm_, hgen. destruct (Nat.eqb_spec i j) as [->|]; auto.
  destruct u; cbn; rewrite ?Nat.leb_refl; auto.
Qed.

Section Gen.
Variables (cj rr : T -> T) (u : uplo_t) (alpha : T) (A x y : view) (s0 : state) (b : nat -> T) (n : nat).
Hypotheses (Hx : nc x = 1%nat) (Hy : nc y = 1%nat) (HA1 : nr A = n) (HA2 : nc A = n)
  (Hxn : nr x = n) (Hyn : nr y = n) (HI : vinj y) (HD1 : disj A y) (HD2 : disj x y).
Let H := hgen cj rr u (val A s0).
Let xv := vval x s0.

Lemma hemv_up_loop s1 : u = Upper -> eff y (fun i _ => b i) s0 s1 ->
  wp (for_ j in 0 upto n do (
        xj <- rdv x j;; let tmp1 := alpha * xj in
        sum <- foldup 0 j zero (fun i sum =>
          yi <- rdv y i;; a <- rd A i j;; wrv y i (yi + tmp1 * a);;
          a <- rd A i j;; xi <- rdv x i;; ret (sum + cj a * xi));;
        yj <- rdv y j;; a <- rd A j j;; wrv y j (yj + (tmp1 * rr a + alpha * sum))))
   (fun _ s' => eff y (fun i _ => b i + alpha * sum n (fun l => H i l * xv l)) s0 s') noX s1.
Proof.
  intros Hu He1. subst u.
  set (G := fun j i => b i + alpha * sum j (fun l => H i l * xv l)).
  loop (fun j s => eff y (fun i _ => if (i <? j)%nat then G j i else b i) s0 s) as j s.
  { exact He1. } 2: { effext. }
  steps.
  fold (fun i a s => a = sum i (fun l => H j l * xv l) /\
    eff y (fun i' _ => if (i' <? i)%nat then G (S j) i' else if (i' <? j)%nat then G j i' else b i') s0 s) as i a s2.
  - split; [reflexivity|effext].
  - destruct He0 as [-> He0]. steps. split.
    + cbn [sum]. f_equal. unfold H, hgen, intri. cases. 
    + effext. unfold G. cbn [sum]. unfold H at 3, hgen, intri. cases.
      unfold xv, vval. ring.
  - destruct He0 as [-> He0]. steps. effext. unfold G. cbn [sum]. unfold H at 3, hgen. rewrite Nat.eqb_refl.
    unfold xv, vval. ring.
Qed.

Lemma hemv_lo_loop s1 : u = Lower -> eff y (fun i _ => b i) s0 s1 ->
  wp (for_ j in 0 upto n do (
        xj <- rdv x j;; let tmp1 := alpha * xj in
        sum <- foldup (S j) n zero (fun i sum =>
          yi <- rdv y i;; a <- rd A i j;; wrv y i (yi + tmp1 * a);;
          a <- rd A i j;; xi <- rdv x i;; ret (sum + cj a * xi));;
        yj <- rdv y j;; a <- rd A j j;; wrv y j (yj + (tmp1 * rr a + alpha * sum))))
   (fun _ s' => eff y (fun i _ => b i + alpha * sum n (fun l => H i l * xv l)) s0 s') noX s1.
Proof.
  intros Hu He1. subst u.
  set (G := fun j i => b i + alpha * sum j (fun l => H i l * xv l)).
  loop (fun j s => eff y (fun i _ => if (i <? j)%nat then G n i else G j i) s0 s) as j s.
  { effext. unfold G; cbn [sum]; ring. } 2: { effext. }
  steps.
  fold (fun i a s => a = sumr (S j) i (fun l => H j l * xv l) /\
    eff y (fun i' _ => if (i' <? j)%nat then G n i' else if (i' =? j)%nat then G j i' else
      if (i' <? i)%nat then G (S j) i' else G j i') s0 s) as i a s2.
  - split; [symmetry; apply sumr_nil|effext].
  - destruct He0 as [-> He0]. steps. split.
    + rewrite sumr_S by lia. f_equal. unfold H, hgen, intri. cases. 
    + effext. unfold G. cbn [sum]. unfold H at 3, hgen, intri. cases.
      unfold xv, vval. ring.
  - destruct He0 as [-> He0]. steps. effext. unfold G. rewrite (sum_split3 j n) by lia.
    unfold H at 4, hgen. rewrite Nat.eqb_refl.
    unfold xv, vval. ring.
Qed.
End Gen.

Lemma mulc_cval x (b : coef) : mulc x b = cval b * x.
Proof. destruct b; cbn; ring. Qed.

Lemma hemv_run u alpha A x beta y s0 n : uplo2 u = true ->
  nc x = 1%nat -> nc y = 1%nat -> nr A = n -> nc A = n -> nr x = n -> nr y = n ->
  vinj y -> disj A y -> disj x y ->
  runs (hemv u alpha A x beta y) s0
    (fun _ s' => veff y (fun i => alpha * mvmul n (herm u (val A s0)) (vval x s0) i + cval beta * vval y s0 i) s0 s').
Proof.
  intros Hu Hx Hy HA1 HA2 Hxn Hyn HI HD1 HD2. unfold runs, hemv. rewrite HA1. cbv zeta. checks.
  steps. apply scale_loop; auto. intros s1 He1.
  apply (wp_conseq _ _ (fun _ s' => eff y (fun i _ => mulc (vval y s0 i) beta +
           alpha * sum n (fun l => hgen conj re u (val A s0) i l * vval x s0 l)) s0 s') _ noX).
  - destruct u; try discriminate Hu.
    + apply hemv_up_loop; auto.
    + apply hemv_lo_loop; auto.
  - intros ? s' H'; apply veff_eff; [exact Hy|]. apply (eff_ext _ _ _ _ _ H').
    intros i j _ _. rewrite mulc_cval. unfold mvmul. rewrite herm_hgen. ring.
  - intros ? ? [].
Qed.

Lemma symv_run u alpha A x beta y s0 n : uplo2 u = true ->
  nc x = 1%nat -> nc y = 1%nat -> nr A = n -> nc A = n -> nr x = n -> nr y = n ->
  vinj y -> disj A y -> disj x y ->
  runs (symv u alpha A x beta y) s0
    (fun _ s' => veff y (fun i => alpha * mvmul n (symm_ u (val A s0)) (vval x s0) i + cval beta * vval y s0 i) s0 s').
Proof.
  intros Hu Hx Hy HA1 HA2 Hxn Hyn HI HD1 HD2. unfold runs, symv. rewrite HA1. cbv zeta. checks.
  steps. apply scale_loop; auto. intros s1 He1.
  apply (wp_conseq _ _ (fun _ s' => eff y (fun i _ => mulc (vval y s0 i) beta +
           alpha * sum n (fun l => hgen (fun a => a) (fun a => a) u (val A s0) i l * vval x s0 l)) s0 s') _ noX).
  - destruct u; try discriminate Hu.
    + apply (hemv_up_loop (fun a => a) (fun a => a)); auto.
    + apply (hemv_lo_loop (fun a => a) (fun a => a)); auto.
  - intros ? s' H'; apply veff_eff; [exact Hy|]. apply (eff_ext _ _ _ _ _ H').
    intros i j _ _. rewrite mulc_cval. unfold mvmul.
    rewrite (sum_ext n (fun l => symm_ u (val A s0) i l * vval x s0 l)
      (fun l => hgen (fun a => a) (fun a => a) u (val A s0) i l * vval x s0 l)) by (intros; rewrite symm_hgen; reflexivity). ring.
  - intros ? ? [].
Qed.
End Hemv.
