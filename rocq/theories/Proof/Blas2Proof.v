From Coq Require Import Bool Arith ZArith Lia Ring Field.
From Verif.Core Require Import Scalar Prog View.
From Verif.Spec Require Import LinAlg.
From Verif.Model Require Import Blas2.
From Verif.Proof Require Import SumLemmas Tactics.
Local Open Scope T_scope.

Lemma eff_refl_vec {E : Env} x s : nc x = 1%nat -> eff x (fun i _ => vval x s i) s s.
Proof.
  intros H. apply (eff_ext _ _ _ _ _ (eff_refl x s)). intros i j Hi Hj. replace j with 0%nat by lia. reflexivity.
Qed.

Section Blas2.
Context {E : Env}.

(** ** scaling loop shared by gemv, hemv, symv *)
Lemma scale_loop y beta s0 m (Q : unit -> state -> Prop) X : nc y = 1%nat -> vinj y -> nr y = m ->
  (forall s, eff y (fun i _ => mulc (vval y s0 i) beta) s0 s -> Q tt s) ->
  wp (for_ i in 0 upto m do (yi <- rdv y i;; wrv y i (mulc yi beta))) Q X s0.
Proof.
  intros Hy HI Hm HQ.
  loop (fun k s => eff y (fun i j => if (i <? k)%nat then mulc (vval y s0 i) beta else vval y s0 i) s0 s) as i s.
  { apply eff_refl_vec; auto. }
  { steps. effext. }
  { apply HQ. effext. }
Qed.

Definition gemv_val (o : op_t) (n : nat) (alpha : T) (A : mat) (x : nat -> T) (y0 : T) (i : nat) : T :=
  match o with
  | NoTrans | Conj => facc n (fun j => (alpha * x j) * opm o A i j) y0
  | _ => y0 + alpha * sum n (fun j => opm o A i j * x j)
  end.

Lemma gemv_run o alpha A x beta y s0 m n :
  (if notransb o then nr A = m /\ nc A = n else nr A = n /\ nc A = m) ->
  nc x = 1%nat -> nc y = 1%nat -> nr x = n -> nr y = m -> (0 < n)%nat ->
  vinj y -> disj A y -> disj x y ->
  runs (gemv o alpha A x beta y) s0
    (fun _ s' => veff y (fun i => gemv_val o n alpha (val A s0) (vval x s0) (mulc (vval y s0 i) beta) i) s0 s').
Proof.
  intros HA Hx Hy Hxn Hym Hn HI HD1 HD2. unfold runs, gemv.
  assert (Em : (if notransb o then nr A else nc A) = m) by (destruct (notransb o); tauto).
  assert (En : (if notransb o then nc A else nr A) = n) by (destruct (notransb o); tauto).
  rewrite Em, En. cbv zeta. checks.
  replace ((m =? 0) || (n =? 0))%nat with (m =? 0)%nat by (rewrite (proj2 (Nat.eqb_neq n 0)) by lia; destruct (m =? 0)%nat; auto).
  destruct (Nat.eqb_spec m 0) as [->|Hm].
  { apply wp_ret. repeat split; auto. intros i Hi; lia. }
  steps. apply scale_loop; auto. intros s1 He1.
  set (b := fun i => mulc (vval y s0 i) beta) in *.
  assert (Col : forall (g : T -> T), (nr A = m /\ nc A = n) ->
    wp (for_ j in 0 upto n do (
        xj <- rdv x j;; let tmp := alpha * xj in
        for_ i in 0 upto m do (yi <- rdv y i;; a <- rd A i j;; wrv y i (yi + tmp * g a))))
     (fun _ s' => eff y (fun i _ => facc n (fun j => (alpha * vval x s0 j) * g (val A s0 i j)) (b i)) s0 s') noX s1).
  { intros g [HA1 HA2].
    set (G := fun k i => facc k (fun j => (alpha * vval x s0 j) * g (val A s0 i j)) (b i)).
    loop (fun j s => eff y (fun i _ => G j i) s0 s) as j s; [exact He1| |exact He].
    steps.
    loop (fun i s => eff y (fun i' _ => if (i' <? i)%nat then G (S j) i' else G j i') s0 s) as i s2.
    - exact He.
    - steps. effext.
    - effext. }
  assert (Row : forall (g : T -> T), (nr A = n /\ nc A = m) ->
    wp (for_ i in 0 upto m do (
        tmp <- foldup 0 n zero (fun j tmp => a <- rd A j i;; xj <- rdv x j;; ret (tmp + g a * xj));;
        yi <- rdv y i;; wrv y i (yi + alpha * tmp)))
     (fun _ s' => eff y (fun i _ => b i + alpha * sum n (fun j => g (val A s0 j i) * vval x s0 j)) s0 s') noX s1).
  { intros g [HA1 HA2].
    loop (fun i s => eff y (fun i' _ => if (i' <? i)%nat then b i' + alpha * sum n (fun j => g (val A s0 j i') * vval x s0 j) else b i') s0 s) as i s.
    - exact He1.
    - steps.
      fold (fun k a s' => a = facc k (fun j => g (val A s0 j i) * vval x s0 j) zero /\ s' = s) as j a s2; [auto| |].
      + destruct He0 as [-> ->]. steps. auto.
      + destruct He0 as [-> ->]. rewrite facc_zero. steps. effext.
    - effext. }
  destruct o; cbn [notransb] in *; unfold gemv_val, opm;
    (eapply wp_conseq; [ first [ apply (Col (fun a => a)) | apply (Row (fun a => a)) | apply (Row conj) | apply (Col conj)]; auto
                       | intros [] s' H'; apply veff_eff; [exact Hy|exact H'] | intros ? ? []]).
Qed.

(** ** rank-1 updates of a column range: shared shape of ger, geru, syr, her *)
Lemma ger_run alpha x y A s0 : nc x = 1%nat -> nc y = 1%nat -> nr x = nr A -> nr y = nc A ->
  vinj A -> disj x A -> disj y A ->
  runs (ger alpha x y A) s0
    (fun _ s' => eff A (fun i j => val A s0 i j + vval x s0 i * (alpha * conj (vval y s0 j))) s0 s').
Proof.
  intros Hx Hy Hm Hn HI HD1 HD2. unfold runs, ger. checks.
  set (G := fun i j => val A s0 i j + vval x s0 i * (alpha * conj (vval y s0 j))).
  loop (fun j s => eff A (fun i' j' => if (j' <? j)%nat then G i' j' else val A s0 i' j') s0 s) as j s.
  { apply eff_refl. } 2: { effext. }
  steps.
  loop (fun i s => eff A (fun i' j' => if ((j' <? j) || ((j' =? j) && (i' <? i)))%nat then G i' j' else val A s0 i' j') s0 s) as i s9.
  { effext. } { steps. effext. } { effext. }
Qed.

Lemma geru_run alpha x y A s0 : nc x = 1%nat -> nc y = 1%nat -> nr x = nr A -> nr y = nc A ->
  vinj A -> disj x A -> disj y A ->
  runs (geru alpha x y A) s0
    (fun _ s' => eff A (fun i j => val A s0 i j + vval x s0 i * (alpha * vval y s0 j)) s0 s').
Proof.
  intros Hx Hy Hm Hn HI HD1 HD2. unfold runs, geru. checks.
  set (G := fun i j => val A s0 i j + vval x s0 i * (alpha * vval y s0 j)).
  loop (fun j s => eff A (fun i' j' => if (j' <? j)%nat then G i' j' else val A s0 i' j') s0 s) as j s.
  { apply eff_refl. } 2: { effext. }
  steps.
  loop (fun i s => eff A (fun i' j' => if ((j' <? j) || ((j' =? j) && (i' <? i)))%nat then G i' j' else val A s0 i' j') s0 s) as i s9.
  { effext. } { steps. effext. } { effext. }
Qed.

Lemma syr_run u alpha x A s0 : uplo2 u = true -> nc x = 1%nat -> nr x = nr A -> nc A = nr A ->
  vinj A -> disj x A ->
  runs (syr u alpha x A) s0
    (fun _ s' => eff A (fun i j => if intri u i j then val A s0 i j + vval x s0 i * (alpha * vval x s0 j) else val A s0 i j) s0 s').
Proof.
  intros Hu Hx Hm Hn HI HD1. unfold runs, syr. cbv zeta. checks.
  set (G := fun i j => val A s0 i j + vval x s0 i * (alpha * vval x s0 j)).
  destruct u; try discriminate Hu; cbn [intri].
  - loop (fun j s => eff A (fun i' j' => if ((j' <? j) && (i' <=? j'))%nat then G i' j' else val A s0 i' j') s0 s) as j s.
    { apply eff_refl. } 2: { effext. }
    steps.
    loop (fun i s => eff A (fun i' j' => if (((j' <? j) && (i' <=? j')) || ((j' =? j) && (i' <? i)))%nat then G i' j' else val A s0 i' j') s0 s) as i s9.
    { effext. } { steps. effext. } { effext. }
  - loop (fun j s => eff A (fun i' j' => if ((j' <? j) && (j' <=? i'))%nat then G i' j' else val A s0 i' j') s0 s) as j s.
    { apply eff_refl. } 2: { effext. }
    steps.
    loop (fun i s => eff A (fun i' j' => if (((j' <? j) && (j' <=? i')) || ((j' =? j) && (j <=? i') && (i' <? i)))%nat then G i' j' else val A s0 i' j') s0 s) as i s9.
    { effext. } { steps. effext. } { effext. }
Qed.

Lemma syr2_run u alpha x y A s0 : uplo2 u = true -> nc x = 1%nat -> nc y = 1%nat -> nr x = nr A -> nr y = nr A -> nc A = nr A ->
  vinj A -> disj x A -> disj y A ->
  runs (syr2 u alpha x y A) s0
    (fun _ s' => eff A (fun i j => if intri u i j then
       val A s0 i j + (vval x s0 i * (alpha * vval y s0 j) + vval y s0 i * (alpha * vval x s0 j)) else val A s0 i j) s0 s').
Proof.
  intros Hu Hx Hy Hm Hm' Hn HI HD1 HD2. unfold runs, syr2. cbv zeta. checks.
  set (G := fun i j => val A s0 i j + (vval x s0 i * (alpha * vval y s0 j) + vval y s0 i * (alpha * vval x s0 j))).
  destruct u; try discriminate Hu; cbn [intri].
  - loop (fun j s => eff A (fun i' j' => if ((j' <? j) && (i' <=? j'))%nat then G i' j' else val A s0 i' j') s0 s) as j s.
    { apply eff_refl. } 2: { effext. }
    steps.
    loop (fun i s => eff A (fun i' j' => if (((j' <? j) && (i' <=? j')) || ((j' =? j) && (i' <? i)))%nat then G i' j' else val A s0 i' j') s0 s) as i s9.
    { effext. } { steps. effext. } { effext. }
  - loop (fun j s => eff A (fun i' j' => if ((j' <? j) && (j' <=? i'))%nat then G i' j' else val A s0 i' j') s0 s) as j s.
    { apply eff_refl. } 2: { effext. }
    steps.
    loop (fun i s => eff A (fun i' j' => if (((j' <? j) && (j' <=? i')) || ((j' =? j) && (j <=? i') && (i' <? i)))%nat then G i' j' else val A s0 i' j') s0 s) as i s9.
    { effext. } { steps. effext. } { effext. }
Qed.

Definition her_val (alpha : T) (x : nat -> T) (A : mat) (i j : nat) : T :=
  let tmp := alpha * conj (x j) in
  if (i =? j)%nat then re (A j j) + re (x j) * re tmp - im (x j) * im tmp else A i j + x i * tmp.

Lemma her_run u alpha x A s0 : uplo2 u = true -> nc x = 1%nat -> nr x = nr A -> nc A = nr A ->
  vinj A -> disj x A ->
  runs (her u alpha x A) s0
    (fun _ s' => eff A (fun i j => if intri u i j then her_val alpha (vval x s0) (val A s0) i j else val A s0 i j) s0 s').
Proof.
  intros Hu Hx Hm Hn HI HD1. unfold runs, her. cbv zeta. checks.
  set (G := her_val alpha (vval x s0) (val A s0)).
  destruct u; try discriminate Hu; cbn [intri].
  - loop (fun j s => eff A (fun i' j' => if ((j' <? j) && (i' <=? j'))%nat then G i' j' else val A s0 i' j') s0 s) as j s.
    { apply eff_refl. } 2: { effext. }
    steps.
    loop (fun i s => eff A (fun i' j' => if (((j' <? j) && (i' <=? j')) || ((j' =? j) && (i' <? i)))%nat then G i' j' else val A s0 i' j') s0 s) as i s9.
    { effext. } { steps. unfold G, her_val in *. effext. }
    steps. unfold G, her_val in *. effext.
  - loop (fun j s => eff A (fun i' j' => if ((j' <? j) && (j' <=? i'))%nat then G i' j' else val A s0 i' j') s0 s) as j s.
    { apply eff_refl. } 2: { effext. }
    steps.
    loop (fun i s => eff A (fun i' j' => if (((j' <? j) && (j' <=? i')) || ((j' =? j) && (j <=? i') && (i' <? i)))%nat then G i' j' else val A s0 i' j') s0 s) as i s9.
    { unfold G, her_val in *. effext. } { steps. unfold G, her_val in *. effext. } { effext. }
Qed.

Definition her2_val (alpha : T) (x y : nat -> T) (A : mat) (i j : nat) : T :=
  let tmp1 := alpha * conj (y j) in let tmp2 := conj (alpha * x j) in
  if (i =? j)%nat then re (A j j) + re (x j) * re tmp1 - im (x j) * im tmp1 + re (y j) * re tmp2 - im (y j) * im tmp2
  else A i j + (x i * tmp1 + y i * tmp2).

Lemma her2_run u alpha x y A s0 : uplo2 u = true -> nc x = 1%nat -> nc y = 1%nat -> nr x = nr A -> nr y = nr A -> nc A = nr A ->
  vinj A -> disj x A -> disj y A ->
  runs (her2 u alpha x y A) s0
    (fun _ s' => eff A (fun i j => if intri u i j then her2_val alpha (vval x s0) (vval y s0) (val A s0) i j else val A s0 i j) s0 s').
Proof.
  intros Hu Hx Hy Hm Hm' Hn HI HD1 HD2. unfold runs, her2. cbv zeta. checks.
  set (G := her2_val alpha (vval x s0) (vval y s0) (val A s0)).
  destruct u; try discriminate Hu; cbn [intri].
  - loop (fun j s => eff A (fun i' j' => if ((j' <? j) && (i' <=? j'))%nat then G i' j' else val A s0 i' j') s0 s) as j s.
    { apply eff_refl. } 2: { effext. }
    steps.
    loop (fun i s => eff A (fun i' j' => if (((j' <? j) && (i' <=? j')) || ((j' =? j) && (i' <? i)))%nat then G i' j' else val A s0 i' j') s0 s) as i s9.
    { effext. } { steps. unfold G, her2_val in *. effext. }
    steps. unfold G, her2_val in *. effext.
  - loop (fun j s => eff A (fun i' j' => if ((j' <? j) && (j' <=? i'))%nat then G i' j' else val A s0 i' j') s0 s) as j s.
    { apply eff_refl. } 2: { effext. }
    steps.
    loop (fun i s => eff A (fun i' j' => if (((j' <? j) && (j' <=? i')) || ((j' =? j) && (j <=? i') && (i' <? i)))%nat then G i' j' else val A s0 i' j') s0 s) as i s9.
    { unfold G, her2_val in *. effext. } { steps. unfold G, her2_val in *. effext. } { effext. }
Qed.
End Blas2.
