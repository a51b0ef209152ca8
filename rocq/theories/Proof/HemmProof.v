(** hemm and symm *)
From Coq Require Import Bool Arith ZArith Lia Ring Field.
From Verif.Core Require Import Scalar Prog View.
From Verif.Spec Require Import LinAlg.
From Verif.Model Require Import Gemm Blas2 Blas3.
From Verif.Proof Require Import SumLemmas Tactics Blas2Proof HemvProof.
Local Open Scope T_scope.

(** the triangle actually read: [General] is handled by the upper branch *)
Definition tri_of (u : uplo_t) : uplo_t := match u with Lower => Lower | _ => Upper end.

Section Hemm.
Context {E : Env} {FL : FieldLaws E}.
Add Field Tf : fth.

Lemma cadd_cval (b : coef) x y : cadd b x y = cval b * x + y.
Proof. destruct b; cbn; ring. Qed.
Lemma addc_cval (b : coef) x y : addc y b x = y + cval b * x.
Proof. destruct b; cbn; ring. Qed.
Lemma cmul_cval (b : coef) x : cmul b x = cval b * x.
Proof. destruct b; cbn; ring. Qed.

Section Gen.
Variables (cj rr : T -> T) (alpha : T) (beta : coef) (A B C : view) (s0 : state) (m n : nat).
Hypotheses (HB1 : nr B = m) (HB2 : nc B = n) (HC1 : nr C = m) (HC2 : nc C = n)
  (HI : vinj C) (HDA : disj A C) (HDB : disj B C).
Let B0 := val B s0.
Let C0 := val C s0.

Section L.
Hypotheses (HA1 : nr A = m) (HA2 : nc A = m).
Let H (u : uplo_t) := hgen cj rr u (val A s0).
Let G u (k i j : nat) := cval beta * C0 i j + alpha * sum k (fun l => H u i l * B0 l j).

Lemma hemm_l_up :
  wp (for_ j in 0 upto n do for_ i in 0 upto m do (
        b <- rd B i j;; let alphaTimesBij := alpha * b in
        sum <- foldup 0 i zero (fun k sum =>
          c <- rd C k j;; a <- rd A k i;; wr C k j (c + a * alphaTimesBij);;
          a <- rd A k i;; bk <- rd B k j;; ret (sum + cj a * bk));;
        c <- rd C i j;; a <- rd A i i;;
        wr C i j (cadd beta c (rr a * alphaTimesBij) + alpha * sum)))
    (fun _ s' => eff C (G Upper m) s0 s') noX s0.
Proof.
  loop (fun j s => eff C (fun i' j' => if (j' <? j)%nat then G Upper m i' j' else C0 i' j') s0 s) as j s.
  { apply eff_refl. } 2: { effext. }
  loop (fun i s => eff C (fun i' j' => if (j' <? j)%nat then G Upper m i' j' else
     if (j' =? j)%nat then (if (i' <? i)%nat then G Upper i i' j else C0 i' j) else C0 i' j') s0 s) as i s2.
  { effext. } 2: { effext. }
  steps.
  fold (fun k a s => a = sum k (fun l => H Upper i l * B0 l j) /\ eff C (fun i' j' => if (j' <? j)%nat then G Upper m i' j' else
     if (j' =? j)%nat then (if (i' <? k)%nat then G Upper (S i) i' j else if (i' <? i)%nat then G Upper i i' j else C0 i' j) else C0 i' j') s0 s) as k a s3.
  - split; [reflexivity|effext].
  - destruct He1 as [-> He1]. steps. split.
    + cbn [sum]. f_equal. unfold H, hgen, intri. cases.
    + effext. unfold G. cbn [sum]. unfold H at 3, hgen, intri. cases. unfold B0. ring.
  - destruct He1 as [-> He1]. steps. effext. unfold G. rewrite cadd_cval. cbn [sum]. unfold H at 3, hgen. rewrite Nat.eqb_refl.
    unfold B0. ring.
Qed.

Lemma hemm_l_lo :
  wp (for_ j in 0 upto n do ford_ i in 0 upto m do (
        b <- rd B i j;; let alphaTimesBij := alpha * b in
        sum <- foldup (S i) m zero (fun k sum =>
          c <- rd C k j;; a <- rd A k i;; wr C k j (c + a * alphaTimesBij);;
          a <- rd A k i;; bk <- rd B k j;; ret (sum + cj a * bk));;
        c <- rd C i j;; a <- rd A i i;;
        wr C i j (cadd beta c (rr a * alphaTimesBij) + alpha * sum)))
    (fun _ s' => eff C (G Lower m) s0 s') noX s0.
Proof.
  pose (K := fun k i j => cval beta * C0 i j + alpha * sumr k m (fun l => H Lower i l * B0 l j)).
  loop (fun j s => eff C (fun i' j' => if (j' <? j)%nat then G Lower m i' j' else C0 i' j') s0 s) as j s.
  { apply eff_refl. } 2: { effext. }
  loopd (fun i s => eff C (fun i' j' => if (j' <? j)%nat then G Lower m i' j' else
     if (j' =? j)%nat then (if (i' <? i)%nat then C0 i' j else K i i' j) else C0 i' j') s0 s) as i s2.
  { effext. } 2: { effext. unfold K, G. rewrite sum_sumr. reflexivity. }
  steps.
  fold (fun k a s => a = sumr (S i) k (fun l => H Lower i l * B0 l j) /\ eff C (fun i' j' => if (j' <? j)%nat then G Lower m i' j' else
     if (j' =? j)%nat then (if (i' <=? i)%nat then C0 i' j else if (i' <? k)%nat then K i i' j else K (S i) i' j) else C0 i' j') s0 s) as k a s3.
  - split; [symmetry; apply sumr_nil|effext].
  - destruct He1 as [-> He1]. steps. split.
    + rewrite sumr_S by lia. f_equal. unfold H, hgen, intri. cases.
    + effext. unfold K. rewrite (sumr_l i) by lia. unfold H at 2, hgen, intri. cases. unfold B0. ring.
  - destruct He1 as [-> He1]. steps. effext. unfold K. rewrite cadd_cval. rewrite (sumr_l i) by lia. unfold H at 2, hgen. rewrite Nat.eqb_refl.
    unfold B0. ring.
Qed.
End L.

Section R.
Hypotheses (HA1 : nr A = n) (HA2 : nc A = n).
Let H (u : uplo_t) := hgen cj rr u (val A s0).

(** column j of C += column k of B times c *)
Lemma hcoladd j k c F s (Q : unit -> state -> Prop) X : (j < n)%nat -> (k < n)%nat -> eff C F s0 s ->
  (forall s', eff C (fun i' j' => if (j' =? j)%nat then F i' j' + B0 i' k * c else F i' j') s0 s' -> Q tt s') ->
  wp (for_ i in 0 upto m do (x <- rd C i j;; b <- rd B i k;; wr C i j (x + b * c))) Q X s.
Proof.
  intros Hj Hk He HQ.
  loop (fun i s => eff C (fun i' j' => if ((j' =? j) && (i' <? i))%nat then F i' j' + B0 i' k * c else F i' j') s0 s) as i s9.
  - effext.
  - steps. effext.
  - apply HQ. effext.
Qed.

Lemma hemm_r_gen u (rdL rdU : nat -> nat -> M T) (hL hU : T -> T) :
  (forall j k (Q : T -> state -> Prop) X F s, (k < j < n)%nat -> eff C F s0 s ->
     (forall a, hL a = H u k j -> Q a s) -> wp (rdL j k) Q X s) ->
  (forall j k (Q : T -> state -> Prop) X F s, (j < k < n)%nat -> eff C F s0 s ->
     (forall a, hU a = H u k j -> Q a s) -> wp (rdU j k) Q X s) ->
  wp (for_ j in 0 upto n do (
        a <- rd A j j;; let alphaTimesAjj := alpha * rr a in
        (for_ i in 0 upto m do (c <- rd C i j;; b <- rd B i j;; wr C i j (cadd beta c (b * alphaTimesAjj))));;
        (for_ k in 0 upto j do (
           a <- rdL j k;; let alphaTimesAjk := alpha * hL a in
           for_ i in 0 upto m do (c <- rd C i j;; b <- rd B i k;; wr C i j (c + b * alphaTimesAjk))));;
        for_ k in (S j) upto n do (
           a <- rdU j k;; let alphaTimesAkj := alpha * hU a in
           for_ i in 0 upto m do (c <- rd C i j;; b <- rd B i k;; wr C i j (c + b * alphaTimesAkj)))))
    (fun _ s' => eff C (fun i j => cval beta * C0 i j + alpha * sum n (fun l => B0 i l * H u l j)) s0 s') noX s0.
Proof.
  intros HrL HrU.
  pose (G := fun i j => cval beta * C0 i j + alpha * sum n (fun l => B0 i l * H u l j)).
  loop (fun j s => eff C (fun i' j' => if (j' <? j)%nat then G i' j' else C0 i' j') s0 s) as j s.
  { apply eff_refl. } 2: { effext. }
  steps.
  loop (fun i s => eff C (fun i' j' => if (j' <? j)%nat then G i' j' else
     if ((j' =? j) && (i' <? i))%nat then cval beta * C0 i' j + B0 i' j * (alpha * H u j j) else C0 i' j') s0 s) as i s2.
  { effext. } { steps. effext. rewrite cadd_cval. unfold H, hgen. rewrite Nat.eqb_refl. reflexivity. }
  apply wp_bind.
  loop (fun k s => eff C (fun i' j' => if (j' <? j)%nat then G i' j' else
     if (j' =? j)%nat then cval beta * C0 i' j + B0 i' j * (alpha * H u j j) + alpha * sum k (fun l => B0 i' l * H u l j) else C0 i' j') s0 s) as k s3.
  { effext. cbn [sum]; ring. }
  { apply wp_bind. eapply HrL; [|exact He1|]; [lia|]. intros a Ha. cbv zeta. rewrite Ha. eapply hcoladd; [| |exact He1|]; [lia..|].
    intros s4 He4. effext. cbn [sum]. ring. }
  loop (fun k s => eff C (fun i' j' => if (j' <? j)%nat then G i' j' else
     if (j' =? j)%nat then cval beta * C0 i' j + B0 i' j * (alpha * H u j j) + alpha * sum j (fun l => B0 i' l * H u l j)
        + alpha * sumr (S j) k (fun l => B0 i' l * H u l j) else C0 i' j') s0 s) as k s4.
  { effext. rewrite sumr_nil; ring. }
  { apply wp_bind. eapply HrU; [|exact He2|]; [lia|]. intros a Ha. cbv zeta. rewrite Ha. eapply hcoladd; [| |exact He2|]; [lia..|].
    intros s5 He5. effext. rewrite sumr_S by lia. ring. }
  effext. unfold G. rewrite (sum_split3 j n) by lia. ring.
Qed.
End R.
End Gen.

Lemma hemm_run `{CL : !ConjLaws E} sd u alpha A B beta C s0 m n : uplo3 u = true ->
  nr B = m -> nc B = n -> nr C = m -> nc C = n -> nr A = sel sd m n -> nc A = sel sd m n ->
  vinj C -> disj A C -> disj B C ->
  runs (hemm sd u alpha A B beta C) s0
    (fun _ s' => eff C (fun i j => alpha *
         match sd with
         | Left => mmul m (herm (tri_of u) (val A s0)) (val B s0) i j
         | Right => mmul n (val B s0) (herm (tri_of u) (val A s0)) i j
         end + cval beta * val C s0 i j) s0 s').
Proof.
  intros Hu HB1 HB2 HC1 HC2 HA1 HA2 HI HDA HDB. unfold runs, hemm. rewrite HB1, HB2. cbv zeta. checks.
  destruct sd; cbn [sel] in *.
  - apply (wp_conseq _ _ (fun _ s' => eff C (fun i j => cval beta * val C s0 i j + alpha * sum m (fun l => hgen conj re (tri_of u) (val A s0) i l * val B s0 l j)) s0 s') _ noX); [|intros ? s' H'; apply (eff_ext _ _ _ _ _ H'); intros i j Hi Hj; unfold mmul; rewrite herm_hgen; apply (Radd_comm (F_R fth))|intros ? ? []].
    destruct u; try discriminate Hu; cbn [tri_of].
    + eapply hemm_l_up; auto.
    + eapply hemm_l_lo; auto.
    + eapply hemm_l_up; auto.
  - apply (wp_conseq _ _ (fun _ s' => eff C (fun i j => cval beta * val C s0 i j + alpha * sum n (fun l => val B s0 i l * hgen conj re (tri_of u) (val A s0) l j)) s0 s') _ noX); [|intros ? s' H'; apply (eff_ext _ _ _ _ _ H'); intros i j Hi Hj; unfold mmul; rewrite herm_hgen; apply (Radd_comm (F_R fth))|intros ? ? []].
    destruct u; try discriminate Hu; cbn [tri_of].
    + apply (hemm_r_gen conj re alpha beta A B C s0 m n) with (rdL := fun j k => rd A k j) (rdU := fun j k => rd A j k) (hL := fun a => a) (hU := conj); auto;
      intros j k Q X F s Hk He HQ; steps; apply HQ; unfold hgen, intri; cases.
    + apply (hemm_r_gen conj re alpha beta A B C s0 m n) with (rdL := fun j k => rd A j k) (rdU := fun j k => rd A k j) (hL := conj) (hU := fun a => a); auto;
      intros j k Q X F s Hk He HQ; steps; apply HQ; unfold hgen, intri; cases.
    + apply (hemm_r_gen conj re alpha beta A B C s0 m n) with (rdL := fun j k => rd A k j) (rdU := fun j k => rd A j k) (hL := fun a => a) (hU := conj); auto;
      intros j k Q X F s Hk He HQ; steps; apply HQ; unfold hgen, intri; cases.
Qed.


Lemma symm_run sd u alpha A B beta C s0 m n : uplo3 u = true ->
  nr B = m -> nc B = n -> nr C = m -> nc C = n -> nr A = sel sd m n -> nc A = sel sd m n ->
  vinj C -> disj A C -> disj B C ->
  runs (symm sd u alpha A B beta C) s0
    (fun _ s' => eff C (fun i j => alpha *
         match sd with
         | Left => mmul m (symm_ (tri_of u) (val A s0)) (val B s0) i j
         | Right => mmul n (val B s0) (symm_ (tri_of u) (val A s0)) i j
         end + cval beta * val C s0 i j) s0 s').
Proof.
  intros Hu HB1 HB2 HC1 HC2 HA1 HA2 HI HDA HDB. unfold runs, symm. rewrite HB1, HB2. cbv zeta. checks.
  destruct sd; cbn [sel] in *.
  - apply (wp_conseq _ _ (fun _ s' => eff C (fun i j => cval beta * val C s0 i j + alpha * sum m (fun l => hgen (fun a => a) (fun a => a) (tri_of u) (val A s0) i l * val B s0 l j)) s0 s') _ noX); [|intros ? s' H'; apply (eff_ext _ _ _ _ _ H'); intros i j Hi Hj; unfold mmul;
       rewrite (sum_ext m (fun l => symm_ (tri_of u) (val A s0) i l * val B s0 l j)
        (fun l => hgen (fun a => a) (fun a => a) (tri_of u) (val A s0) i l * val B s0 l j)) by (intros; rewrite symm_hgen; reflexivity);
       apply (Radd_comm (F_R fth))|intros ? ? []].
    destruct u; try discriminate Hu; cbn [tri_of].
    + eapply (hemm_l_up (fun a => a) (fun a => a)); auto.
    + eapply (hemm_l_lo (fun a => a) (fun a => a)); auto.
    + eapply (hemm_l_up (fun a => a) (fun a => a)); auto.
  - apply (wp_conseq _ _ (fun _ s' => eff C (fun i j => cval beta * val C s0 i j + alpha * sum n (fun l => val B s0 i l * hgen (fun a => a) (fun a => a) (tri_of u) (val A s0) l j)) s0 s') _ noX); [|intros ? s' H'; apply (eff_ext _ _ _ _ _ H'); intros i j Hi Hj; unfold mmul;
       rewrite (sum_ext n (fun l => val B s0 i l * symm_ (tri_of u) (val A s0) l j)
        (fun l => val B s0 i l * hgen (fun a => a) (fun a => a) (tri_of u) (val A s0) l j)) by (intros; rewrite symm_hgen; reflexivity);
       apply (Radd_comm (F_R fth))|intros ? ? []].
    destruct u; try discriminate Hu; cbn [tri_of].
    + apply (hemm_r_gen (fun a => a) (fun a => a) alpha beta A B C s0 m n) with (rdL := fun j k => rd A k j) (rdU := fun j k => rd A j k) (hL := fun a => a) (hU := fun a => a); auto;
      intros j k Q X F s Hk He HQ; steps; apply HQ; unfold hgen, intri; cases.
    + apply (hemm_r_gen (fun a => a) (fun a => a) alpha beta A B C s0 m n) with (rdL := fun j k => rd A j k) (rdU := fun j k => rd A k j) (hL := fun a => a) (hU := fun a => a); auto;
      intros j k Q X F s Hk He HQ; steps; apply HQ; unfold hgen, intri; cases.
    + apply (hemm_r_gen (fun a => a) (fun a => a) alpha beta A B C s0 m n) with (rdL := fun j k => rd A k j) (rdU := fun j k => rd A j k) (hL := fun a => a) (hU := fun a => a); auto;
      intros j k Q X F s Hk He HQ; steps; apply HQ; unfold hgen, intri; cases.
Qed.
End Hemm.
