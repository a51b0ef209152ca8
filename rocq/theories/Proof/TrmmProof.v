(** trmm *)
From Coq Require Import Bool Arith ZArith Lia Ring Field.
From Verif.Core Require Import Scalar Prog View.
From Verif.Spec Require Import LinAlg.
From Verif.Model Require Import Gemm Blas2 Blas3.
From Verif.Proof Require Import SumLemmas Tactics Blas2Proof TrmvProof TrsmProof.
Local Open Scope T_scope.

Section Trmm.
Context {E : Env} {FL : FieldLaws E}.
Add Field Tf : fth.

Section Gen.
Variables (g : T -> T) (d : diag_t) (alpha : T) (A B : view) (s0 : state) (m n : nat).
Hypotheses (HB1 : nr B = m) (HB2 : nc B = n) (HI : vinj B) (HD : disj A B).
Let B0 := val B s0.
Variable t : nat -> nat -> T.
Let dg (j : nat) := match d with NonUnit => g (val A s0 j j) | Unit => one end.
Ltac dsplit := let H := fresh in destruct d eqn:H; cbn [nonunit].

Section L.
Hypotheses (HA1 : nr A = m) (HA2 : nc A = m).
Hypothesis (Hd : forall j, (j < m)%nat -> t j j = dg j).
Definition PL : mat := fun i j => sum m (fun l => t i l * (alpha * B0 l j)).

Lemma mcols (body : nat -> M unit) :
  (forall j F s, (j < n)%nat -> eff B F s0 s -> (forall i, (i < m)%nat -> F i j = B0 i j) ->
     wp (body j) (fun _ s' => eff B (fun i' j' => if (j' =? j)%nat then PL i' j else F i' j') s0 s') noX s) ->
  wp (forup 0 n body) (fun _ s' => eff B PL s0 s') noX s0.
Proof.
  intros Hb.
  loop (fun j s => eff B (fun i j' => if (j' <? j)%nat then PL i j' else B0 i j') s0 s) as j s.
  - apply eff_refl.
  - eapply wp_conseq; [apply (Hb j); [lia|exact He|]| |auto].
    + intros i Hi. cases.
    + intros ? s' He'. cbv beta in He'. effext.
  - effext.
Qed.

Lemma dgmul i x s (Q : T -> state -> Prop) X F : (i < m)%nat -> eff B F s0 s -> Q (dg i * x) s ->
  wp (if nonunit d then a <- rd A i i;; ret (g a * x) else ret x) Q X s.
Proof.
  intros Hi He HQ. unfold dg in HQ. dsplit; steps; auto.
  replace x with (one * x) by ring. exact HQ.
Qed.

Lemma trmm_l_up :
  (forall i j, (i < j < m)%nat -> t i j = g (val A s0 i j)) ->
  (forall i j, (j < i < m)%nat -> t i j = zero) ->
  wp (for_ j in 0 upto n do for_ k in 0 upto m do (
          b <- rd B k j;; let alphaBkj := alpha * b in
          (for_ i in 0 upto k do (b <- rd B i j;; a <- rd A i k;; wr B i j (b + g a * alphaBkj)));;
          r <- (if nonunit d then a <- rd A k k;; ret (g a * alphaBkj) else ret alphaBkj);;
          wr B k j r))
   (fun _ s' => eff B PL s0 s') noX s0.
Proof.
  intros Ht Hz. apply mcols. intros j F s Hj He HF.
  set (G := fun k i => sum k (fun l => t i l * (alpha * B0 l j))).
  loop (fun k s => eff B (fun i' j' => if (j' =? j)%nat then (if (i' <? k)%nat then G k i' else B0 i' j) else F i' j') s0 s) as k s2.
  { effext. apply HF; lia. }
  2: { effext. }
  steps. rewrite Nat.eqb_refl, Nat.ltb_irrefl.
  loop (fun i s => eff B (fun i' j' => if (j' =? j)%nat then (if (i' <? i)%nat then G (S k) i' else if (i' <? k)%nat then G k i' else B0 i' j) else F i' j') s0 s) as i s3.
  - effext.
  - steps. effext. unfold G; cbn [sum]. rewrite Ht by lia. ring.
  - apply wp_bind. eapply dgmul; [lia|exact He1|]. steps. effext. unfold G; cbn [sum].
    rewrite sum_0. 2: { intros l Hl; rewrite Hz by lia; ring. } rewrite Hd by lia. ring.
Qed.

Lemma trmm_l_lo :
  (forall i j, (j < i < m)%nat -> t i j = g (val A s0 i j)) ->
  (forall i j, (i < j < m)%nat -> t i j = zero) ->
  wp (for_ j in 0 upto n do ford_ k in 0 upto m do (
          b <- rd B k j;; let alphaBkj := alpha * b in
          r <- (if nonunit d then a <- rd A k k;; ret (g a * alphaBkj) else ret alphaBkj);;
          wr B k j r;;
          for_ i in (S k) upto m do (b <- rd B i j;; a <- rd A i k;; wr B i j (b + g a * alphaBkj))))
   (fun _ s' => eff B PL s0 s') noX s0.
Proof.
  intros Ht Hz. apply mcols. intros j F s Hj He HF.
  set (G := fun k i => sumr k m (fun l => t i l * (alpha * B0 l j))).
  loopd (fun k s => eff B (fun i' j' => if (j' =? j)%nat then (if (i' <? k)%nat then B0 i' j else G k i') else F i' j') s0 s) as k s2.
  { effext. apply HF; lia. }
  2: { effext. unfold G, PL. rewrite sum_sumr. reflexivity. }
  steps. rewrite Nat.eqb_refl. destruct (Nat.ltb_spec k (S k)); [|lia]. 
  eapply dgmul; [lia|exact He0|]. steps.
  loop (fun i s => eff B (fun i' j' => if (j' =? j)%nat then (if (i' <? k)%nat then B0 i' j else if (i' <? i)%nat then G k i' else G (S k) i') else F i' j') s0 s) as i s3.
  - effext. unfold G. rewrite (sumr_l k) by lia. rewrite Hd by lia. rewrite (sumr_0 (S k)).
    + ring.
    + intros l Hl; rewrite Hz by lia; ring.
  - steps. effext. unfold G. rewrite (sumr_l k) by lia. rewrite Ht by lia. ring.
  - effext.
Qed.

Lemma trmm_lt_up :
  (forall i j, (i < j < m)%nat -> t j i = g (val A s0 i j)) ->
  (forall i j, (j < i < m)%nat -> t j i = zero) ->
  wp (for_ j in 0 upto n do ford_ i in 0 upto m do (
          b <- rd B i j;;
          s <- (if nonunit d then a <- rd A i i;; ret (g a * b) else ret b);;
          sum <- foldup 0 i s (fun k sum => a <- rd A k i;; bk <- rd B k j;; ret (sum + g a * bk));;
          wr B i j (alpha * sum)))
   (fun _ s' => eff B PL s0 s') noX s0.
Proof.
  intros Ht Hz. apply mcols. intros j F s Hj He HF.
  loopd (fun k s => eff B (fun i' j' => if (j' =? j)%nat then (if (i' <? k)%nat then B0 i' j else PL i' j) else F i' j') s0 s) as i s2.
  { effext. apply HF; lia. }
  2: { effext. }
  steps. rewrite Nat.eqb_refl. destruct (Nat.ltb_spec i (S i)); [|lia]. 
  eapply dgmul; [lia|exact He0|]. steps.
  fold (fun k a s' => a = dg i * B0 i j + sum k (fun l => t i l * B0 l j) /\ s' = s2) as k a s3.
  - split; auto. cbn [sum]. ring.
  - destruct He1 as [-> ->]. steps. split; auto. cbn [sum]. rewrite Nat.eqb_refl. rewrite Ht by lia. cases. ring.
  - destruct He1 as [-> ->]. steps. effext. unfold PL. rewrite (sum_split3 i m) by lia. rewrite (sumr_0 (S i)).
    2: { intros l Hl; rewrite Hz by lia; ring. } rewrite Hd by lia.
    replace (sum i (fun l => t i l * (alpha * B0 l j))) with (alpha * sum i (fun l => t i l * B0 l j)); [ring|].
    rewrite <- sum_scal_l. apply sum_ext; intros; ring.
Qed.

Lemma trmm_lt_lo :
  (forall i j, (j < i < m)%nat -> t j i = g (val A s0 i j)) ->
  (forall i j, (i < j < m)%nat -> t j i = zero) ->
  wp (for_ j in 0 upto n do for_ i in 0 upto m do (
          b <- rd B i j;;
          s <- (if nonunit d then a <- rd A i i;; ret (g a * b) else ret b);;
          sum <- foldup (S i) m s (fun k sum => a <- rd A k i;; bk <- rd B k j;; ret (sum + g a * bk));;
          wr B i j (alpha * sum)))
   (fun _ s' => eff B PL s0 s') noX s0.
Proof.
  intros Ht Hz. apply mcols. intros j F s Hj He HF.
  loop (fun k s => eff B (fun i' j' => if (j' =? j)%nat then (if (i' <? k)%nat then PL i' j else B0 i' j) else F i' j') s0 s) as i s2.
  { effext. apply HF; lia. }
  2: { effext. }
  steps. rewrite Nat.eqb_refl. rewrite Nat.ltb_irrefl. 
  eapply dgmul; [lia|exact He0|]. steps.
  fold (fun k a s' => a = dg i * B0 i j + sumr (S i) k (fun l => t i l * B0 l j) /\ s' = s2) as k a s3.
  - split; auto. rewrite sumr_nil. ring.
  - destruct He1 as [-> ->]. steps. split; auto. rewrite sumr_S by lia. rewrite Nat.eqb_refl. rewrite Ht by lia. cases. ring.
  - destruct He1 as [-> ->]. steps. effext. unfold PL. rewrite (sum_split3 i m) by lia. rewrite (sum_0 i).
    2: { intros l Hl; rewrite Hz by lia; ring. } rewrite Hd by lia.
    replace (sumr (S i) m (fun l => t i l * (alpha * B0 l j))) with (alpha * sumr (S i) m (fun l => t i l * B0 l j)); [ring|].
    rewrite <- sumr_scal_l. apply sumr_ext; intros; ring.
Qed.
End L.

Section R.
Hypotheses (HA1 : nr A = n) (HA2 : nc A = n).
Hypothesis (Hd : forall j, (j < n)%nat -> t j j = dg j).
Definition PR : mat := fun i j => sum n (fun l => B0 i l * (alpha * t l j)).

Lemma dgalpha i s (Q : T -> state -> Prop) X F : (i < n)%nat -> eff B F s0 s -> Q (alpha * dg i) s ->
  wp (if nonunit d then a <- rd A i i;; ret (alpha * g a) else ret alpha) Q X s.
Proof.
  intros Hi He HQ. unfold dg in HQ. dsplit; steps; auto.
  replace alpha with (alpha * one) by ring. exact HQ.
Qed.

Lemma coladd j k c F s (Q : unit -> state -> Prop) X : (j < n)%nat -> (k < n)%nat -> j <> k -> eff B F s0 s ->
  (forall s', eff B (fun i' j' => if (j' =? j)%nat then F i' j' + F i' k * c else F i' j') s0 s' -> Q tt s') ->
  wp (for_ i in 0 upto m do (b <- rd B i j;; bk <- rd B i k;; wr B i j (b + bk * c))) Q X s.
Proof.
  intros Hj Hk Hjk He HQ.
  loop (fun i s => eff B (fun i' j' => if ((j' =? j) && (i' <? i))%nat then F i' j' + F i' k * c else F i' j') s0 s) as i s9.
  - effext.
  - steps. effext.
  - apply HQ. effext.
Qed.

Lemma trmm_r_up :
  (forall i j, (i < j < n)%nat -> t i j = g (val A s0 i j)) ->
  (forall i j, (j < i < n)%nat -> t i j = zero) ->
  wp (ford_ j in 0 upto n do (
          alphaAjj <- (if nonunit d then a <- rd A j j;; ret (alpha * g a) else ret alpha);;
          (for_ i in 0 upto m do (b <- rd B i j;; wr B i j (b * alphaAjj)));;
          for_ k in 0 upto j do (
            a <- rd A k j;; let alphaAkj := alpha * g a in
            for_ i in 0 upto m do (b <- rd B i j;; bk <- rd B i k;; wr B i j (b + bk * alphaAkj)))))
   (fun _ s' => eff B PR s0 s') noX s0.
Proof.
  intros Ht Hz.
  loopd (fun j s => eff B (fun i' j' => if (j' <? j)%nat then B0 i' j' else PR i' j') s0 s) as j s.
  { apply (eff_ext _ _ _ _ _ (eff_refl B s0)); intros; unfold B0; cases. }
  2: { effext. }
  apply wp_bind. eapply dgalpha; [lia|exact He|]. apply wp_bind.
  rewrite <- HB1 at 1. eapply colscale; [auto|lia|exact He|]. intros s1 He1.
  loop (fun k s => eff B (fun i' j' => if (j' =? j)%nat then B0 i' j * (alpha * dg j) + sum k (fun l => B0 i' l * (alpha * t l j)) else
     if (j' <? j)%nat then B0 i' j' else PR i' j') s0 s) as k s2.
  - effext. cbn [sum]. ring.
  - steps. eapply coladd; [| | |exact He0|]; [lia..|]. intros s3 He3. effext. cbn [sum]. rewrite Ht by lia. ring.
  - effext. unfold PR. rewrite (sum_split3 j n) by lia. rewrite (sumr_0 (S j)). 2: { intros l Hl; rewrite Hz by lia; ring. }
    rewrite Hd by lia. ring.
Qed.

Lemma trmm_r_lo :
  (forall i j, (j < i < n)%nat -> t i j = g (val A s0 i j)) ->
  (forall i j, (i < j < n)%nat -> t i j = zero) ->
  wp (for_ j in 0 upto n do (
          alphaAjj <- (if nonunit d then a <- rd A j j;; ret (alpha * g a) else ret alpha);;
          (for_ i in 0 upto m do (b <- rd B i j;; wr B i j (b * alphaAjj)));;
          for_ k in (S j) upto n do (
            a <- rd A k j;; let alphaAkj := alpha * g a in
            for_ i in 0 upto m do (b <- rd B i j;; bk <- rd B i k;; wr B i j (b + bk * alphaAkj)))))
   (fun _ s' => eff B PR s0 s') noX s0.
Proof.
  intros Ht Hz.
  loop (fun j s => eff B (fun i' j' => if (j' <? j)%nat then PR i' j' else B0 i' j') s0 s) as j s.
  { apply (eff_ext _ _ _ _ _ (eff_refl B s0)); intros; unfold B0; cases. }
  2: { effext. }
  apply wp_bind. eapply dgalpha; [lia|exact He|]. apply wp_bind.
  rewrite <- HB1 at 1. eapply colscale; [auto|lia|exact He|]. intros s1 He1.
  loop (fun k s => eff B (fun i' j' => if (j' =? j)%nat then B0 i' j * (alpha * dg j) + sumr (S j) k (fun l => B0 i' l * (alpha * t l j)) else
     if (j' <? j)%nat then PR i' j' else B0 i' j') s0 s) as k s2.
  - effext. rewrite sumr_nil. ring.
  - steps. eapply coladd; [| | |exact He0|]; [lia..|]. intros s3 He3. effext. rewrite sumr_S by lia. rewrite Ht by lia. ring.
  - effext. unfold PR. rewrite (sum_split3 j n) by lia. rewrite (sum_0 j). 2: { intros l Hl; rewrite Hz by lia; ring. }
    rewrite Hd by lia. ring.
Qed.

Lemma trmm_rt_up :
  (forall i j, (i < j < n)%nat -> t j i = g (val A s0 i j)) ->
  (forall i j, (j < i < n)%nat -> t j i = zero) ->
  wp (for_ k in 0 upto n do (
          (for_ j in 0 upto k do (
             a <- rd A j k;; let alphaAjk := alpha * g a in
             for_ i in 0 upto m do (b <- rd B i j;; bk <- rd B i k;; wr B i j (b + bk * alphaAjk))));;
          alphaAkk <- (if nonunit d then a <- rd A k k;; ret (alpha * g a) else ret alpha);;
          for_ i in 0 upto m do (b <- rd B i k;; wr B i k (b * alphaAkk))))
   (fun _ s' => eff B PR s0 s') noX s0.
Proof.
  intros Ht Hz.
  set (G := fun k i j => sum k (fun l => B0 i l * (alpha * t l j))).
  loop (fun k s => eff B (fun i' j' => if (j' <? k)%nat then G k i' j' else B0 i' j') s0 s) as k s.
  { apply (eff_ext _ _ _ _ _ (eff_refl B s0)); intros; unfold B0; cases. }
  2: { effext. }
  apply wp_bind.
  loop (fun j s => eff B (fun i' j' => if (j' <? j)%nat then G (S k) i' j' else if (j' <? k)%nat then G k i' j' else B0 i' j') s0 s) as j s2.
  - effext.
  - steps. eapply coladd; [| | |exact He0|]; [lia..|]. intros s3 He3. effext. unfold G; cbn [sum]. rewrite Ht by lia. ring.
  - apply wp_bind. eapply dgalpha; [lia|exact He0|].
    rewrite <- HB1 at 1. eapply colscale; [auto|lia|exact He0|]. intros s1 He1. effext. unfold G; cbn [sum].
    rewrite sum_0. 2: { intros l Hl; rewrite Hz by lia; ring. } rewrite Hd by lia. ring.
Qed.

Lemma trmm_rt_lo :
  (forall i j, (j < i < n)%nat -> t j i = g (val A s0 i j)) ->
  (forall i j, (i < j < n)%nat -> t j i = zero) ->
  wp (ford_ k in 0 upto n do (
          (for_ j in (S k) upto n do (
             a <- rd A j k;; let alphaAjk := alpha * g a in
             for_ i in 0 upto m do (b <- rd B i j;; bk <- rd B i k;; wr B i j (b + bk * alphaAjk))));;
          alphaAkk <- (if nonunit d then a <- rd A k k;; ret (alpha * g a) else ret alpha);;
          for_ i in 0 upto m do (b <- rd B i k;; wr B i k (b * alphaAkk))))
   (fun _ s' => eff B PR s0 s') noX s0.
Proof.
  intros Ht Hz.
  set (G := fun k i j => sumr k n (fun l => B0 i l * (alpha * t l j))).
  loopd (fun k s => eff B (fun i' j' => if (j' <? k)%nat then B0 i' j' else G k i' j') s0 s) as k s.
  { apply (eff_ext _ _ _ _ _ (eff_refl B s0)); intros; unfold B0; cases. }
  2: { effext. unfold G, PR. rewrite sum_sumr. reflexivity. }
  apply wp_bind.
  loop (fun j s => eff B (fun i' j' => if (j' <? S k)%nat then B0 i' j' else if (j' <? j)%nat then G k i' j' else G (S k) i' j') s0 s) as j s2.
  - effext.
  - steps. eapply coladd; [| | |exact He0|]; [lia..|]. intros s3 He3. effext. unfold G. rewrite (sumr_l k) by lia. rewrite Ht by lia. ring.
  - apply wp_bind. eapply dgalpha; [lia|exact He0|].
    rewrite <- HB1 at 1. eapply colscale; [auto|lia|exact He0|]. intros s1 He1. effext. unfold G.
    rewrite (sumr_l k) by lia. rewrite (sumr_0 (S k)). 2: { intros l Hl; rewrite Hz by lia; ring. } rewrite Hd by lia. ring.
Qed.
End R.
End Gen.

Ltac tricase :=
  intros; unfold opm, trim, intri; cases; rewrite ?conj_0, ?conj_1; auto;
  match goal with d : diag_t |- _ => destruct d; rewrite ?conj_1; auto end.

Lemma trmm_run `{CL : !ConjLaws E} sd u o d alpha A B s0 m n : uplo2 u = true -> op3 o = true ->
  nr B = m -> nc B = n -> nr A = sel sd m n -> nc A = sel sd m n -> vinj B -> disj A B ->
  runs (trmm sd u o d alpha A B) s0
    (fun _ s' => eff B (fun i j => alpha *
         match sd with
         | Left => mmul m (opm o (trim u d (val A s0))) (val B s0) i j
         | Right => mmul n (val B s0) (opm o (trim u d (val A s0))) i j
         end) s0 s').
Proof.
  intros Hu Ho HB1 HB2 HA1 HA2 HI HD. unfold runs, trmm. rewrite HB1, HB2. cbv zeta.
  checks.
  destruct sd; cbn [sel] in *.
  - apply (wp_conseq _ _ (fun _ s' => eff B (PL alpha B s0 m (opm o (trim u d (val A s0)))) s0 s') _ noX);
      [|intros ? s' H'|intros ? ? []].
    2: { apply (eff_ext _ _ _ _ _ H'). intros i j Hi Hj. unfold PL, mmul. rewrite <- sum_scal_l. apply sum_ext; intros; ring. }
    destruct o; destruct u; try discriminate Hu; try discriminate Ho.
    + apply (trmm_l_up (fun a => a) d alpha A); auto; tricase.
    + apply (trmm_l_lo (fun a => a) d alpha A); auto; tricase.
    + apply (trmm_lt_up (fun a => a) d alpha A); auto; tricase.
    + apply (trmm_lt_lo (fun a => a) d alpha A); auto; tricase.
    + apply (trmm_lt_up conj d alpha A); auto; tricase.
    + apply (trmm_lt_lo conj d alpha A); auto; tricase.
  - apply (wp_conseq _ _ (fun _ s' => eff B (PR alpha B s0 n (opm o (trim u d (val A s0)))) s0 s') _ noX);
      [|intros ? s' H'|intros ? ? []].
    2: { apply (eff_ext _ _ _ _ _ H'). intros i j Hi Hj. unfold PR, mmul. rewrite <- sum_scal_l. apply sum_ext; intros; ring. }
    destruct o; destruct u; try discriminate Hu; try discriminate Ho.
    + apply (trmm_r_up (fun a => a) d alpha A); auto; tricase.
    + apply (trmm_r_lo (fun a => a) d alpha A); auto; tricase.
    + apply (trmm_rt_up (fun a => a) d alpha A); auto; tricase.
    + apply (trmm_rt_lo (fun a => a) d alpha A); auto; tricase.
    + apply (trmm_rt_up conj d alpha A); auto; tricase.
    + apply (trmm_rt_lo conj d alpha A); auto; tricase.
Qed.
End Trmm.
