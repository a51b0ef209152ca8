(** syrk, her2k, syr2k *)
From Coq Require Import Bool Arith ZArith Lia Ring Field.
From Verif.Core Require Import Scalar Prog View.
From Verif.Spec Require Import LinAlg.
From Verif.Model Require Import Gemm Blas2 Blas3.
From Verif.Proof Require Import SumLemmas Tactics Blas2Proof HemvProof HemmProof HerkProof.
Local Open Scope T_scope.

Ltac updl ff jj :=
  lazymatch goal with He : eff ?C ?F ?s0 ?s, HI : vinj ?C, H1 : nr ?C = ?n, H2 : nc ?C = ?n |- wp (forup _ _ _) _ _ ?s =>
    eapply (upd_loop C s0 n) with (f := ff) (j := jj); [exact H1|exact H2|lia|lia|exact He| |]
  end.

Section S.
Context {E : Env} {FL : FieldLaws E}.
Add Field Tf : fth.

Lemma symm_sym u (M : mat) i j : (u = Upper \/ u = Lower) -> symm_ u M i j = symm_ u M j i.
Proof. intros [->| ->]; unfold symm_, intri; cases. replace j with i by lia; auto. replace j with i by lia; auto. Qed.

(** *** triangular loops of independent element updates (Trans variants) *)
Lemma elem_up (C : view) s0 n (body : nat -> nat -> M unit) (R : mat) :
  nr C = n -> nc C = n -> vinj C ->
  (forall i j F s (Q : unit -> state -> Prop) X, (i <= j < n)%nat -> eff C F s0 s -> F i j = val C s0 i j ->
     (forall s' v, eff C (fupd F i j v) s0 s' -> v = R i j -> Q tt s') -> wp (body i j) Q X s) ->
  wp (for_ j in 0 upto n do for_ i in 0 upto (S j) do body i j)
   (fun _ s' => eff C (fun i j => if intri Upper i j then R i j else val C s0 i j) s0 s') noX s0.
Proof.
  intros HC1 HC2 HI Hb. apply rk_cols; auto. intros j F s Hj He HF.
  updl (fun i => R i j) j.
  { intros i F' s' Q' X' Hi He' HF' HQ. eapply Hb; [|exact He'| |exact HQ]; [lia|]. rewrite HF', HF by lia; reflexivity. }
  intros s1 He1. unfold intri. effext.
Qed.
Lemma elem_lo (C : view) s0 n (body : nat -> nat -> M unit) (R : mat) :
  nr C = n -> nc C = n -> vinj C ->
  (forall i j F s (Q : unit -> state -> Prop) X, (j <= i < n)%nat -> eff C F s0 s -> F i j = val C s0 i j ->
     (forall s' v, eff C (fupd F i j v) s0 s' -> v = R i j -> Q tt s') -> wp (body i j) Q X s) ->
  wp (for_ j in 0 upto n do for_ i in j upto n do body i j)
   (fun _ s' => eff C (fun i j => if intri Lower i j then R i j else val C s0 i j) s0 s') noX s0.
Proof.
  intros HC1 HC2 HI Hb. apply rk_cols; auto. intros j F s Hj He HF.
  updl (fun i => R i j) j.
  { intros i F' s' Q' X' Hi He' HF' HQ. eapply Hb; [|exact He'| |exact HQ]; [lia|]. rewrite HF', HF by lia; reflexivity. }
  intros s1 He1. unfold intri. effext.
Qed.

(** *** scale, then accumulate over the inner index (NoTrans, symmetric variants) *)
Lemma acc_up (C : view) s0 n k beta (step : nat -> nat -> M unit) (D : nat -> nat -> nat -> T) :
  nr C = n -> nc C = n -> vinj C ->
  (forall j l F s, (j < n)%nat -> (l < k)%nat -> eff C F s0 s ->
     wp (step j l) (fun _ s' => eff C (fun i' j' => if ((j' =? j) && intri Upper i' j')%nat then F i' j' + D l i' j' else F i' j') s0 s') noX s) ->
  wp (for_ j in 0 upto n do (
         (for_ i in 0 upto (S j) do (c <- rd C i j;; wr C i j (mulc c beta)));;
         for_ l in 0 upto k do step j l))
   (fun _ s' => eff C (fun i j => if intri Upper i j then sum k (fun l => D l i j) + cval beta * val C s0 i j else val C s0 i j) s0 s') noX s0.
Proof.
  intros HC1 HC2 HI Hp. apply rk_cols; auto. intros j F s Hj He HF. apply wp_bind.
  updl (fun i => mulc (val C s0 i j) beta) j.
  { intros i F' s' Q' X' Hi He' HF' HQ. steps. eapply HQ; [eassumption|]. rewrite HF', HF by lia. reflexivity. }
  intros s1 He1. cbv beta in He1.
  loop (fun l s => eff C (fun i' j' => if ((j' =? j) && intri Upper i' j')%nat then sum l (fun l => D l i' j') + cval beta * val C s0 i' j' else F i' j') s0 s) as l s8.
  - unfold intri. effext; cbn [sum]; rewrite ?mulc_cval; ring.
  - eapply wp_conseq; [apply Hp; [lia|lia|exact He0]| |intros ? ? []].
    intros ? s3 He3. unfold intri in *. cbv beta in He3. effext. cbn [sum]. ring.
  - assumption.
Qed.
Lemma acc_lo (C : view) s0 n k beta (step : nat -> nat -> M unit) (D : nat -> nat -> nat -> T) :
  nr C = n -> nc C = n -> vinj C ->
  (forall j l F s, (j < n)%nat -> (l < k)%nat -> eff C F s0 s ->
     wp (step j l) (fun _ s' => eff C (fun i' j' => if ((j' =? j) && intri Lower i' j')%nat then F i' j' + D l i' j' else F i' j') s0 s') noX s) ->
  wp (for_ j in 0 upto n do (
         (for_ i in j upto n do (c <- rd C i j;; wr C i j (mulc c beta)));;
         for_ l in 0 upto k do step j l))
   (fun _ s' => eff C (fun i j => if intri Lower i j then sum k (fun l => D l i j) + cval beta * val C s0 i j else val C s0 i j) s0 s') noX s0.
Proof.
  intros HC1 HC2 HI Hp. apply rk_cols; auto. intros j F s Hj He HF. apply wp_bind.
  updl (fun i => mulc (val C s0 i j) beta) j.
  { intros i F' s' Q' X' Hi He' HF' HQ. steps. eapply HQ; [eassumption|]. rewrite HF', HF by lia. reflexivity. }
  intros s1 He1. cbv beta in He1.
  loop (fun l s => eff C (fun i' j' => if ((j' =? j) && intri Lower i' j')%nat then sum l (fun l => D l i' j') + cval beta * val C s0 i' j' else F i' j') s0 s) as l s8.
  - unfold intri. effext; cbn [sum]; rewrite ?mulc_cval; ring.
  - eapply wp_conseq; [apply Hp; [lia|lia|exact He0]| |intros ? ? []].
    intros ? s3 He3. unfold intri in *. cbv beta in He3. effext. cbn [sum]. ring.
  - assumption.
Qed.
Lemma symm_tri u (M : mat) i j : intri u i j = true -> (u = Upper \/ u = Lower) -> symm_ u M i j = M i j.
Proof. intros H _. unfold symm_. rewrite H. reflexivity. Qed.

Lemma syrk_run u o alpha A beta C s0 n k : uplo3 u = true -> (o = NoTrans \/ o = Trans) ->
  nr A = (if is_nt o then n else k) -> nc A = (if is_nt o then k else n) -> nr C = n -> nc C = n ->
  vinj C -> disj A C ->
  runs (syrk u o alpha A beta C) s0
    (fun _ s' => eff C (fun i j => if intri u i j then
         alpha * mmul k (opm o (val A s0)) (tr (opm o (val A s0))) i j + cval beta * symm_ (tri_of u) (val C s0) i j
         else val C s0 i j) s0 s').
Proof.
  intros Hu Ho HA1 HA2 HC1 HC2 HI HD. unfold runs, syrk.
  replace (if is_nt o then nr A else nc A) with n by (destruct o; cbn in *; auto).
  replace (if is_nt o then nc A else nr A) with k by (destruct o; cbn in *; auto). cbv zeta.
  apply wp_bind, wp_check; [auto|]. apply wp_bind, wp_check; [destruct Ho; subst; auto|]. checks.
  apply wp_bind.
  apply (wp_conseq _ _ (fun _ s' => eff C (fun i j => if intri (tri_of u) i j then
         alpha * mmul k (opm o (val A s0)) (tr (opm o (val A s0))) i j + cval beta * symm_ (tri_of u) (val C s0) i j
         else val C s0 i j) s0 s') _ noX); [|intros ? s1 He1|intros ? ? []].
  - apply (wp_conseq _ _ (fun _ s' => eff C (fun i j => if intri (tri_of u) i j then
         sum k (fun l => alpha * (opm o (val A s0) i l * opm o (val A s0) j l)) + cval beta * val C s0 i j
         else val C s0 i j) s0 s') _ noX); [|intros ? s1 He1|intros ? ? []].
    2: { apply (eff_ext _ _ _ _ _ He1). intros i j Hi Hj. destruct (intri (tri_of u) i j) eqn:Hij; auto.
         rewrite symm_tri by (auto using tri_of_ul). unfold mmul, tr. rewrite sum_scal_l. reflexivity. }
    destruct Ho; subst o; cbn in HA1, HA2.
    + destruct u; try discriminate Hu; cbn [tri_of]; unfold opm;
      [apply (acc_up C s0 n k beta _ (fun l i j => alpha * (val A s0 i l * val A s0 j l))) | apply (acc_lo C s0 n k beta _ (fun l i j => alpha * (val A s0 i l * val A s0 j l))) | apply (acc_up C s0 n k beta _ (fun l i j => alpha * (val A s0 i l * val A s0 j l)))];
      auto; intros j l F s Hj Hl He; steps.
      * updl (fun i => F i j + alpha * (val A s0 i l * val A s0 j l)) j; [intros i F' s' Q' X' Hi He' HF' HQ'; steps; eapply HQ'; [eassumption|]; rewrite HF'; ring | intros s1 He1; unfold intri; effext].
      * updl (fun i => F i j + alpha * (val A s0 i l * val A s0 j l)) j; [intros i F' s' Q' X' Hi He' HF' HQ'; steps; eapply HQ'; [eassumption|]; rewrite HF'; ring | intros s1 He1; unfold intri; effext].
      * updl (fun i => F i j + alpha * (val A s0 i l * val A s0 j l)) j; [intros i F' s' Q' X' Hi He' HF' HQ'; steps; eapply HQ'; [eassumption|]; rewrite HF'; ring | intros s1 He1; unfold intri; effext].
    + assert (Hb : forall i j F s (Q : unit -> state -> Prop) X, (i < n)%nat -> (j < n)%nat -> eff C F s0 s -> F i j = val C s0 i j ->
     (forall s' v, eff C (fupd F i j v) s0 s' -> v = sum k (fun l => alpha * (val A s0 l i * val A s0 l j)) + cval beta * val C s0 i j -> Q tt s') ->
       wp (sum <- foldup 0 k zero (fun l sum => a <- rd A l i;; b <- rd A l j;; ret (sum + a * b));;
            c <- rd C i j;; wr C i j (addc (alpha * sum) beta c)) Q X s).
      { intros i j F s Q X Hi Hj He HF HQ. apply wp_bind.
        fold (fun l a s' => a = sum l (fun l => val A s0 l i * val A s0 l j) /\ s' = s) as l a s1.
        - split; reflexivity.
        - destruct He0 as [-> ->]. steps. split; auto.
        - destruct He0 as [-> ->]. steps. eapply HQ; [eassumption|]. rewrite addc_cval, HF, sum_scal_l. reflexivity. }
      destruct u; try discriminate Hu; cbn [tri_of]; unfold opm.
      * eapply elem_up; auto. intros; eapply Hb; eauto; lia.
      * eapply elem_lo; auto. intros; eapply Hb; eauto; lia.
      * eapply elem_up; auto. intros; eapply Hb; eauto; lia.
  - apply (mirror_part C s0 n HC1 HC2 HI (fun a => a)); auto.
    intros i j. rewrite (symm_sym (tri_of u) _ i j) by apply tri_of_ul.
    do 2 f_equal. unfold mmul. apply sum_ext. intros l Hl. unfold tr. ring.
Qed.

Lemma syr2k_run u o alpha A B beta C s0 n k : uplo3 u = true -> (o = NoTrans \/ o = Trans) ->
  nr A = (if is_nt o then n else k) -> nc A = (if is_nt o then k else n) -> nr B = nr A -> nc B = nc A ->
  nr C = n -> nc C = n ->
  vinj C -> disj A C -> disj B C ->
  runs (syr2k u o alpha A B beta C) s0
    (fun _ s' => eff C (fun i j => if intri u i j then
         alpha * mmul k (opm o (val A s0)) (tr (opm o (val B s0))) i j + alpha * mmul k (opm o (val B s0)) (tr (opm o (val A s0))) i j
          + cval beta * symm_ (tri_of u) (val C s0) i j
         else val C s0 i j) s0 s').
Proof.
  intros Hu Ho HA1 HA2 HB1 HB2 HC1 HC2 HI HD HDB. unfold runs, syr2k.
  replace (if is_nt o then nr A else nc A) with n by (destruct o; cbn in *; auto).
  replace (if is_nt o then nc A else nr A) with k by (destruct o; cbn in *; auto). cbv zeta.
  apply wp_bind, wp_check; [auto|]. apply wp_bind, wp_check; [destruct Ho; subst; auto|].
  apply wp_bind, wp_check; [rewrite HB1, HB2, !Nat.eqb_refl; auto|]. rewrite HA1 in HB1. rewrite HA2 in HB2. checks.
  apply wp_bind.
  apply (wp_conseq _ _ (fun _ s' => eff C (fun i j => if intri (tri_of u) i j then
         alpha * mmul k (opm o (val A s0)) (tr (opm o (val B s0))) i j + alpha * mmul k (opm o (val B s0)) (tr (opm o (val A s0))) i j
         + cval beta * symm_ (tri_of u) (val C s0) i j
         else val C s0 i j) s0 s') _ noX); [|intros ? s1 He1|intros ? ? []].
  - apply (wp_conseq _ _ (fun _ s' => eff C (fun i j => if intri (tri_of u) i j then
         sum k (fun l => alpha * (opm o (val A s0) i l * opm o (val B s0) j l + opm o (val B s0) i l * opm o (val A s0) j l)) + cval beta * val C s0 i j
         else val C s0 i j) s0 s') _ noX); [|intros ? s1 He1|intros ? ? []].
    2: { apply (eff_ext _ _ _ _ _ He1). intros i j Hi Hj. destruct (intri (tri_of u) i j) eqn:Hij; auto.
         rewrite symm_tri by (auto using tri_of_ul). unfold mmul, tr. rewrite sum_scal_l, sum_plus. ring. }
    destruct Ho; subst o; cbn in HA1, HA2, HB1, HB2.
    + destruct u; try discriminate Hu; cbn [tri_of]; unfold opm;
      [apply (acc_up C s0 n k beta _ (fun l i j => alpha * (val A s0 i l * val B s0 j l + val B s0 i l * val A s0 j l))) | apply (acc_lo C s0 n k beta _ (fun l i j => alpha * (val A s0 i l * val B s0 j l + val B s0 i l * val A s0 j l))) | apply (acc_up C s0 n k beta _ (fun l i j => alpha * (val A s0 i l * val B s0 j l + val B s0 i l * val A s0 j l)))];
      auto; intros j l F s Hj Hl He; steps; try bnd.
      * updl (fun i => F i j + alpha * (val A s0 i l * val B s0 j l + val B s0 i l * val A s0 j l)) j; [intros i F' s' Q' X' Hi He' HF' HQ'; steps; eapply HQ'; [eassumption|]; rewrite HF'; ring | intros s1 He1; unfold intri; effext].
      * updl (fun i => F i j + alpha * (val A s0 i l * val B s0 j l + val B s0 i l * val A s0 j l)) j; [intros i F' s' Q' X' Hi He' HF' HQ'; steps; eapply HQ'; [eassumption|]; rewrite HF'; ring | intros s1 He1; unfold intri; effext].
      * updl (fun i => F i j + alpha * (val A s0 i l * val B s0 j l + val B s0 i l * val A s0 j l)) j; [intros i F' s' Q' X' Hi He' HF' HQ'; steps; eapply HQ'; [eassumption|]; rewrite HF'; ring | intros s1 He1; unfold intri; effext].
    + assert (Hb : forall i j F s (Q : unit -> state -> Prop) X, (i < n)%nat -> (j < n)%nat -> eff C F s0 s -> F i j = val C s0 i j ->
     (forall s' v, eff C (fupd F i j v) s0 s' -> v = sum k (fun l => alpha * (val A s0 l i * val B s0 l j + val B s0 l i * val A s0 l j)) + cval beta * val C s0 i j -> Q tt s') ->
       wp (sums <- foldup 0 k (zero, zero) (fun l sums =>
          ali <- rd A l i;; blj <- rd B l j;; bli <- rd B l i;; alj <- rd A l j;;
          ret (fst sums + ali * blj, snd sums + bli * alj));;
        let sum1 := fst sums in let sum2 := snd sums in
        c <- rd C i j;;
        wr C i j (addc (alpha * sum1 + alpha * sum2) beta c)) Q X s).
      { intros i j F s Q X Hi Hj He HF HQ. apply wp_bind.
        fold (fun l a s' => a = (sum l (fun l => val A s0 l i * val B s0 l j), sum l (fun l => val B s0 l i * val A s0 l j)) /\ s' = s) as l a s1.
        - split; reflexivity.
        - destruct He0 as [-> ->]. steps. split; auto.
        - destruct He0 as [-> ->]. cbv zeta. cbn [fst snd]. steps. eapply HQ; [eassumption|]. rewrite addc_cval, HF, sum_scal_l, sum_plus. ring. }
      destruct u; try discriminate Hu; cbn [tri_of]; unfold opm.
      * eapply elem_up; auto. intros; eapply Hb; eauto; lia.
      * eapply elem_lo; auto. intros; eapply Hb; eauto; lia.
      * eapply elem_up; auto. intros; eapply Hb; eauto; lia.
  - apply (mirror_part C s0 n HC1 HC2 HI (fun a => a)); auto.
    intros i j. rewrite (symm_sym (tri_of u) _ i j) by apply tri_of_ul.
    f_equal. unfold mmul. 
    rewrite (sum_ext k (fun l => opm o (val A s0) j l * tr (opm o (val B s0)) l i) (fun l => opm o (val B s0) i l * tr (opm o (val A s0)) l j)) by (intros; unfold tr; ring).
    rewrite (sum_ext k (fun l => opm o (val B s0) j l * tr (opm o (val A s0)) l i) (fun l => opm o (val A s0) i l * tr (opm o (val B s0)) l j)) by (intros; unfold tr; ring).
    ring.
Qed.

Section Her2kS.
Context {CL : ConjLaws E}.
Variables (alpha : T) (beta : coef) (A B C : view) (s0 : state) (n k : nat).
Hypotheses (HC1 : nr C = n) (HC2 : nc C = n) (HI : vinj C) (HD : disj A C) (HDB : disj B C).

Section NT.
Hypotheses (HA1 : nr A = n) (HA2 : nc A = k) (HB1 : nr B = n) (HB2 : nc B = k).
Let P u (l i j : nat) : T := alpha * sum l (fun l => val A s0 i l * conj (val B s0 j l)) +
   conj alpha * sum l (fun l => val B s0 i l * conj (val A s0 j l)) + cval beta * herm u (val C s0) i j.

Lemma diag_inc2 a b : (one + one) * (re a * re (alpha * conj b) - im a * im (alpha * conj b)) =
  alpha * (a * conj b) + conj alpha * (b * conj a).
Proof.
  rewrite <- re_mul. transitivity (re (a * (alpha * conj b)) + re (a * (alpha * conj b))); [ring|].
  rewrite <- conj_re2. rewrite !conj_mul, conj_conj. ring.
Qed.

Lemma her2k_nt_up :
  wp (for_ j in 0 upto n do (
         (for_ i in 0 upto j do (c <- rd C i j;; wr C i j (mulc c beta)));;
         (c <- rd C j j;; wr C j j (cmul beta (re c)));;
         for_ l in 0 upto k do (
           bjl <- rd B j l;; let alphaConjBjl := alpha * conj bjl in
           ajl <- rd A j l;; let conjAlphaAjl := conj (alpha * ajl) in
           (for_ i in 0 upto j do (
             c <- rd C i j;; a <- rd A i l;; b <- rd B i l;; wr C i j (c + (a * alphaConjBjl + b * conjAlphaAjl))));;
           (c <- rd C j j;; wr C j j (c + (one + one) * (re ajl * re alphaConjBjl - im ajl * im alphaConjBjl))))))
   (fun _ s' => eff C (fun i j => if intri Upper i j then P Upper k i j else val C s0 i j) s0 s') noX s0.
Proof.
  apply rk_cols; auto. intros j F s Hj He HF. apply wp_bind.
  updl (fun i => mulc (val C s0 i j) beta) j.
  { intros i F' s' Q' X' Hi He' HF' HQ. steps. eapply HQ; [eassumption|]. rewrite HF'. cases; rewrite HF by lia; reflexivity. }
  intros s5 He5. cbv beta in He5. steps.
  loop (fun l s => eff C (fun i' j' => if ((j' =? j) && intri Upper i' j')%nat then P Upper l i' j' else F i' j') s0 s) as l s8.
  - unfold intri. effext; unfold P; cbn [sum]; rewrite ?mulc_cval, ?cmul_cval; unfold herm, intri; cases; rewrite ?HF by lia; ring.
  - steps. updl (fun i => P Upper (S l) i j) j.
    { intros i F' s' Q' X' Hi He' HF' HQ. steps. eapply HQ; [eassumption|]. rewrite HF'. cbn [intri]. cases.
      unfold P; cbn [sum]. rewrite conj_mul. ring. }
    intros s9 He9. steps. rewrite diag_inc2 in *. unfold intri in *. effext. unfold P; cbn [sum]. ring.
  - assumption.
Qed.
Lemma her2k_nt_lo :
  wp (for_ j in 0 upto n do (
         (c <- rd C j j;; wr C j j (cmul beta (re c)));;
         (for_ i in (S j) upto n do (c <- rd C i j;; wr C i j (mulc c beta)));;
         for_ l in 0 upto k do (
           bjl <- rd B j l;; let alphaConjBjl := alpha * conj bjl in
           ajl <- rd A j l;; let conjAlphaAjl := conj (alpha * ajl) in
           (c <- rd C j j;; wr C j j (c + (one + one) * (re ajl * re alphaConjBjl - im ajl * im alphaConjBjl)));;
           (for_ i in (S j) upto n do (
             c <- rd C i j;; a <- rd A i l;; b <- rd B i l;; wr C i j (c + (a * alphaConjBjl + b * conjAlphaAjl)))))))
   (fun _ s' => eff C (fun i j => if intri Lower i j then P Lower k i j else val C s0 i j) s0 s') noX s0.
Proof.
  apply rk_cols; auto. intros j F s Hj He HF. steps.
  updl (fun i => mulc (val C s0 i j) beta) j.
  { intros i F' s' Q' X' Hi He' HF' HQ. steps. eapply HQ; [eassumption|]. rewrite HF'. cases; rewrite HF by lia; reflexivity. }
  intros s5 He5. cbv beta in He5. 
  loop (fun l s => eff C (fun i' j' => if ((j' =? j) && intri Lower i' j')%nat then P Lower l i' j' else F i' j') s0 s) as l s8.
  - unfold intri. effext; unfold P; cbn [sum]; rewrite ?mulc_cval, ?cmul_cval; unfold herm, intri; cases; rewrite ?HF by lia; ring.
  - steps. updl (fun i => P Lower (S l) i j) j.
    { intros i F' s' Q' X' Hi He' HF' HQ. steps. eapply HQ; [eassumption|]. rewrite HF'. cbn [intri]. cases.
      unfold P; cbn [sum]. rewrite conj_mul. ring. }
    intros s9 He9. steps. rewrite diag_inc2 in *. unfold intri in *. effext. unfold P; cbn [sum]. ring.
  - assumption.
Qed.
End NT.

Section CT.
Hypotheses (HA1 : nr A = k) (HA2 : nc A = n) (HB1 : nr B = k) (HB2 : nc B = n).
Let P u (i j : nat) : T := alpha * sum k (fun l => conj (val A s0 l i) * val B s0 l j) +
   conj alpha * sum k (fun l => conj (val B s0 l i) * val A s0 l j) + cval beta * herm u (val C s0) i j.

Lemma her2k_ct_body u i j F s (Q : unit -> state -> Prop) X : (i < n)%nat -> (j < n)%nat -> intri u i j = true -> eff C F s0 s ->
  F i j = val C s0 i j ->
  (forall s' v, eff C (fupd F i j v) s0 s' -> v = P u i j -> Q tt s') ->
  wp (sums <- foldup 0 k (zero, zero) (fun l sums =>
          ali <- rd A l i;; blj <- rd B l j;; bli <- rd B l i;; alj <- rd A l j;;
          ret (fst sums + conj ali * blj, snd sums + conj bli * alj));;
        let sum1 := fst sums in let sum2 := snd sums in
        c <- rd C i j;;
        wr C i j (if (i =? j)%nat
                  then addc (re alpha * re sum1 - im alpha * im sum1 + re alpha * re sum2 + im alpha * im sum2) beta (re c)
                  else addc (alpha * sum1 + conj alpha * sum2) beta c)) Q X s.
Proof.
  intros Hi Hj Hu He HF HQ. apply wp_bind.
  fold (fun l a s' => a = (sum l (fun l => conj (val A s0 l i) * val B s0 l j), sum l (fun l => conj (val B s0 l i) * val A s0 l j)) /\ s' = s) as l a s1.
  - split; reflexivity.
  - destruct He0 as [-> ->]. steps. split; auto.
  - destruct He0 as [-> ->]. cbv zeta. cbn [fst snd]. steps. eapply HQ; [eassumption|]. rewrite !addc_cval, HF. unfold P, herm.
    destruct (Nat.eqb_spec i j) as [->|Hne].
    + set (s1' := sum k (fun l => conj (val A s0 l j) * val B s0 l j)).
      assert (Hs : sum k (fun l => conj (val B s0 l j) * val A s0 l j) = conj s1').
      { unfold s1'. rewrite sum_conj. apply sum_ext. intros l Hl. rewrite conj_mul, conj_conj. ring. }
      rewrite Hs, re_conj, im_conj. f_equal.
      transitivity (re (alpha * s1') + re (alpha * s1')); [rewrite re_mul; ring|].
      rewrite <- conj_re2, conj_mul. reflexivity.
    + rewrite Hu. reflexivity.
Qed.
End CT.
End Her2kS.

Lemma her2k_run `{CL : !ConjLaws E} u o alpha A B beta C s0 n k : uplo3 u = true -> (o = NoTrans \/ o = ConjTrans) ->
  conj (cval beta) = cval beta ->
  nr A = (if is_nt o then n else k) -> nc A = (if is_nt o then k else n) -> nr B = nr A -> nc B = nc A ->
  nr C = n -> nc C = n ->
  vinj C -> disj A C -> disj B C ->
  runs (her2k u o alpha A B beta C) s0
    (fun _ s' => eff C (fun i j => if intri u i j then
         alpha * mmul k (opm o (val A s0)) (ctr (opm o (val B s0))) i j + conj alpha * mmul k (opm o (val B s0)) (ctr (opm o (val A s0))) i j
          + cval beta * herm (tri_of u) (val C s0) i j
         else val C s0 i j) s0 s').
Proof.
  intros Hu Ho Hb HA1 HA2 HB1 HB2 HC1 HC2 HI HD HDB. unfold runs, her2k.
  replace (if is_nt o then nr A else nc A) with n by (destruct o; cbn in *; auto).
  replace (if is_nt o then nc A else nr A) with k by (destruct o; cbn in *; auto). cbv zeta.
  apply wp_bind, wp_check; [auto|]. apply wp_bind, wp_check; [destruct Ho; subst; auto|].
  apply wp_bind, wp_check; [rewrite HB1, HB2, !Nat.eqb_refl; auto|]. rewrite HA1 in HB1. rewrite HA2 in HB2. checks.
  apply wp_bind.
  apply (wp_conseq _ _ (fun _ s' => eff C (fun i j => if intri (tri_of u) i j then
         alpha * mmul k (opm o (val A s0)) (ctr (opm o (val B s0))) i j + conj alpha * mmul k (opm o (val B s0)) (ctr (opm o (val A s0))) i j
         + cval beta * herm (tri_of u) (val C s0) i j
         else val C s0 i j) s0 s') _ noX); [|intros ? s1 He1|intros ? ? []].
  - destruct Ho; subst o; cbn in HA1, HA2, HB1, HB2.
    + destruct u; try discriminate Hu; cbn [tri_of]; unfold mmul, ctr, opm.
      * apply her2k_nt_up; auto.
      * apply her2k_nt_lo; auto.
      * apply her2k_nt_up; auto.
    + apply (wp_conseq _ _ (fun _ s' => eff C (fun i j => if intri (tri_of u) i j then
         alpha * sum k (fun l => conj (val A s0 l i) * val B s0 l j) +
   conj alpha * sum k (fun l => conj (val B s0 l i) * val A s0 l j) + cval beta * herm (tri_of u) (val C s0) i j
         else val C s0 i j) s0 s') _ noX); [|intros ? s1 He1|intros ? ? []].
      * destruct u; try discriminate Hu; cbn [tri_of].
        -- eapply elem_up; auto. intros; eapply (her2k_ct_body _ _ A B C s0 n k) with (u := Upper); eauto; try lia. apply Nat.leb_le; lia.
        -- eapply elem_lo; auto. intros; eapply (her2k_ct_body _ _ A B C s0 n k) with (u := Lower); eauto; try lia. apply Nat.leb_le; lia.
        -- eapply elem_up; auto. intros; eapply (her2k_ct_body _ _ A B C s0 n k) with (u := Upper); eauto; try lia. apply Nat.leb_le; lia.
      * apply (eff_ext _ _ _ _ _ He1). intros i j Hi Hj. unfold mmul, ctr, opm.
        destruct (intri (tri_of u) i j); auto. 
        rewrite (sum_ext k (fun l => conj (val A s0 l i) * conj (conj (val B s0 l j))) (fun l => conj (val A s0 l i) * val B s0 l j)) by (intros; rewrite conj_conj; auto).
        rewrite (sum_ext k (fun l => conj (val B s0 l i) * conj (conj (val A s0 l j))) (fun l => conj (val B s0 l i) * val A s0 l j)) by (intros; rewrite conj_conj; auto).
        reflexivity.
  - apply (mirror_part C s0 n HC1 HC2 HI conj); auto.
    intros i j. rewrite !conj_add, !conj_mul, conj_conj, Hb. rewrite (herm_sym (tri_of u) _ i j) by apply tri_of_ul.
    f_equal. unfold mmul. rewrite !sum_conj. 
    rewrite (sum_ext k (fun l => conj (opm o (val A s0) j l * ctr (opm o (val B s0)) l i)) (fun l => opm o (val B s0) i l * ctr (opm o (val A s0)) l j)) by (intros; unfold ctr; rewrite conj_mul, conj_conj; ring).
    rewrite (sum_ext k (fun l => conj (opm o (val B s0) j l * ctr (opm o (val A s0)) l i)) (fun l => opm o (val A s0) i l * ctr (opm o (val B s0)) l j)) by (intros; unfold ctr; rewrite conj_mul, conj_conj; ring).
    ring.
Qed.
End S.
