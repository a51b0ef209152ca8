(** herk, syrk, her2k, syr2k *)
From Coq Require Import Bool Arith ZArith Lia Ring Field.
From Verif.Core Require Import Scalar Prog View.
From Verif.Spec Require Import LinAlg.
From Verif.Model Require Import Gemm Blas2 Blas3.
From Verif.Proof Require Import SumLemmas Tactics Blas2Proof HemvProof HemmProof.
Local Open Scope T_scope.

Section Herk.
Context {E : Env} {FL : FieldLaws E}.
Add Field Tf : fth.

Section Cols.
Variables (C : view) (s0 : state) (n : nat).
Hypotheses (HC1 : nr C = n) (HC2 : nc C = n) (HI : vinj C).
Let C0 := val C s0.

(** one column of the stored triangle at a time *)
Lemma rk_cols u (body : nat -> M unit) (R : mat) :
  (forall j F s, (j < n)%nat -> eff C F s0 s -> (forall i, (i < n)%nat -> F i j = C0 i j) ->
     wp (body j) (fun _ s' => eff C (fun i' j' => if ((j' =? j) && intri u i' j')%nat then R i' j' else F i' j') s0 s') noX s) ->
  wp (forup 0 n body) (fun _ s' => eff C (fun i j => if intri u i j then R i j else C0 i j) s0 s') noX s0.
Proof.
  intros Hb.
  loop (fun j s => eff C (fun i j' => if ((j' <? j) && intri u i j')%nat then R i j' else C0 i j') s0 s) as j s.
  - apply eff_refl.
  - eapply wp_conseq; [apply (Hb j); [lia|exact He|]| |auto].
    + intros i Hi. cases.
    + intros ? s' He'. cbv beta in He'. apply (eff_ext _ _ _ _ _ He'). intros i' j' ? ?.
      destruct (intri u i' j'); rewrite ?andb_true_r, ?andb_false_r; cases.
  - apply (eff_ext _ _ _ _ _ He). intros i' j' ? ?. cases.
Qed.

(** copy the (conjugated) upper triangle to the lower one *)
Lemma mirror_loop (cj : T -> T) (R : mat) s :
  eff C (fun i j => if intri Upper i j then R i j else C0 i j) s0 s ->
  wp (for_ j in 0 upto n do for_ i in (S j) upto n do (c <- rd C j i;; wr C i j (cj c)))
    (fun _ s' => eff C (fun i j => if (i <=? j)%nat then R i j else cj (R j i)) s0 s') noX s.
Proof.
  intros He. unfold intri in He.
  loop (fun j s => eff C (fun i' j' => if (i' <=? j')%nat then R i' j' else if (j' <? j)%nat then cj (R j' i') else C0 i' j') s0 s) as j s2.
  - effext.
  - loop (fun i s => eff C (fun i' j' => if (i' <=? j')%nat then R i' j' else if (j' <? j)%nat then cj (R j' i') else
       if ((j' =? j) && (i' <? i))%nat then cj (R j' i') else C0 i' j') s0 s) as i s3.
    + effext.
    + steps. effext.
    + effext.
  - effext.
Qed.
Lemma mirror_part (cj : T -> T) (R : mat) u s : uplo3 u = true ->
  eff C (fun i j => if intri (tri_of u) i j then R i j else C0 i j) s0 s ->
  (forall i j, R i j = cj (R j i)) ->
  wp (match u with
  | General => for_ j in 0 upto n do for_ i in (S j) upto n do (c <- rd C j i;; wr C i j (cj c))
  | _ => ret tt end)
    (fun _ s' => eff C (fun i j => if intri u i j then R i j else C0 i j) s0 s') noX s.
Proof.
  intros Hu He HR. destruct u; try discriminate Hu; cbn [tri_of] in He.
  - exact He.
  - exact He.
  - eapply wp_conseq; [apply mirror_loop; exact He| |auto]. intros ? s' He'. cbv beta in He'. cbn [intri].
    effext. symmetry. apply HR.
Qed.
End Cols.

(** ** accumulation along the inner index *)
Section Acc.
Variables (C : view) (s0 : state) (n : nat).
Hypotheses (HC1 : nr C = n) (HC2 : nc C = n) (HI : vinj C).

(** [for i in lo upto hi] updates [C(i,j)] with [f i] *)
Lemma upd_loop (lo hi j : nat) (F : mat) (p : nat -> M unit) (f : nat -> T) s (Q : unit -> state -> Prop) X :
  (lo <= hi <= n)%nat -> (j < n)%nat -> eff C F s0 s ->
  (forall i F' s' (Q' : unit -> state -> Prop) X', (lo <= i < hi)%nat -> eff C F' s0 s' -> F' i j = F i j ->
     (forall s'' v, eff C (fupd F' i j v) s0 s'' -> v = f i -> Q' tt s'') -> wp (p i) Q' X' s') ->
  (forall s', eff C (fun i' j' => if ((j' =? j) && (lo <=? i') && (i' <? hi))%nat then f i' else F i' j') s0 s' -> Q tt s') ->
  wp (forup lo hi p) Q X s.
Proof.
  intros Hlh Hj He Hp HQ.
  loop (fun i s => eff C (fun i' j' => if ((j' =? j) && (lo <=? i') && (i' <? i))%nat then f i' else F i' j') s0 s) as i s9.
  - effext.
  - eapply Hp; [lia|exact He0| |].
    + cases.
    + intros s' v He' ->. effext.
  - apply HQ. effext.
Qed.
End Acc.

Ltac updl ff jj :=
  lazymatch goal with He : eff ?C ?F ?s0 ?s, HI : vinj ?C, H1 : nr ?C = ?n, H2 : nc ?C = ?n |- wp (forup _ _ _) _ _ ?s =>
    eapply (upd_loop C s0 n) with (f := ff) (j := jj); [exact H1|exact H2|lia|lia|exact He| |]
  end.

Lemma conj_mulconj `{CL : !ConjLaws E} a : re (a * conj a) = a * conj a.
Proof. apply re_idem. rewrite conj_mul, conj_conj. ring. Qed.

Section HerkS.
Context {CL : ConjLaws E}.
Variables (alpha : T) (beta : coef) (A C : view) (s0 : state) (n k : nat).
Hypotheses (HC1 : nr C = n) (HC2 : nc C = n) (HI : vinj C) (HD : disj A C) (Ha : conj alpha = alpha).

Section NT.
Hypotheses (HA1 : nr A = n) (HA2 : nc A = k).
Let P u (l i j : nat) : T := alpha * sum l (fun l => val A s0 i l * conj (val A s0 j l)) + cval beta * herm u (val C s0) i j.

Lemma diag_inc a : re a * re (alpha * conj a) - im a * im (alpha * conj a) = alpha * (a * conj a).
Proof.
  rewrite <- re_mul. replace (a * (alpha * conj a)) with (alpha * (a * conj a)) by ring.
  apply re_idem. rewrite !conj_mul, conj_conj, Ha. ring.
Qed.

Lemma herk_nt_up :
  wp (for_ j in 0 upto n do (
         (for_ i in 0 upto j do (c <- rd C i j;; wr C i j (mulc c beta)));;
         (c <- rd C j j;; wr C j j (cmul beta (re c)));;
         for_ l in 0 upto k do (
           ajl <- rd A j l;; let alphaConjAjl := alpha * conj ajl in
           (for_ i in 0 upto j do (c <- rd C i j;; a <- rd A i l;; wr C i j (c + a * alphaConjAjl)));;
           c <- rd C j j;; wr C j j (c + (re ajl * re alphaConjAjl - im ajl * im alphaConjAjl)))))
   (fun _ s' => eff C (fun i j => if intri Upper i j then P Upper k i j else val C s0 i j) s0 s') noX s0.
Proof.
  apply rk_cols; auto. intros j F s Hj He HF. apply wp_bind.
  updl (fun i => mulc (val C s0 i j) beta) j.
  { intros i F' s' Q' X' Hi He' HF' HQ. steps. eapply HQ; [eassumption|]. rewrite HF', HF by lia. reflexivity. }
  intros s1 He1. cbv beta in He1. steps.
  loop (fun l s => eff C (fun i' j' => if ((j' =? j) && intri Upper i' j')%nat then P Upper l i' j' else F i' j') s0 s) as l s8.
  - unfold intri. effext; unfold P; cbn [sum]; rewrite ?mulc_cval, ?cmul_cval; unfold herm, intri; cases; rewrite ?HF by lia; ring.
  - steps. updl (fun i => P Upper (S l) i j) j.
    { intros i F' s' Q' X' Hi He' HF' HQ. steps. eapply HQ; [eassumption|]. rewrite HF'. cbn [intri]. cases.
      unfold P; cbn [sum]. ring. }
    intros s3 He3. steps. rewrite diag_inc in *. unfold intri in *. effext. unfold P; cbn [sum]. ring.
  - assumption.
Qed.

Lemma herk_nt_lo :
  wp (for_ j in 0 upto n do (
         (c <- rd C j j;; wr C j j (cmul beta (re c)));;
         (for_ i in (S j) upto n do (c <- rd C i j;; wr C i j (mulc c beta)));;
         for_ l in 0 upto k do (
           ajl <- rd A j l;; let alphaConjAjl := alpha * conj ajl in
           (c <- rd C j j;; wr C j j (c + (re ajl * re alphaConjAjl - im ajl * im alphaConjAjl)));;
           for_ i in (S j) upto n do (c <- rd C i j;; a <- rd A i l;; wr C i j (c + a * alphaConjAjl)))))
   (fun _ s' => eff C (fun i j => if intri Lower i j then P Lower k i j else val C s0 i j) s0 s') noX s0.
Proof.
  apply rk_cols; auto. intros j F s Hj He HF. steps.
  updl (fun i => mulc (val C s0 i j) beta) j.
  { intros i F' s' Q' X' Hi He' HF' HQ. steps. eapply HQ; [eassumption|]. rewrite HF'. cases. rewrite HF by lia. reflexivity. }
  intros s2 He2. cbv beta in He2.
  loop (fun l s => eff C (fun i' j' => if ((j' =? j) && intri Lower i' j')%nat then P Lower l i' j' else F i' j') s0 s) as l s8.
  - unfold intri. effext; unfold P; cbn [sum]; rewrite ?mulc_cval, ?cmul_cval; unfold herm, intri; cases; rewrite ?HF by lia; ring.
  - steps. updl (fun i => P Lower (S l) i j) j.
    { intros i F' s' Q' X' Hi He' HF' HQ. steps. eapply HQ; [eassumption|]. rewrite HF'. cbn [intri]. cases.
      unfold P; cbn [sum]. ring. }
    intros s4 He4. rewrite diag_inc in *. unfold intri in *. effext. unfold P; cbn [sum]. ring.
  - assumption.
Qed.
End NT.

Section CT.
Hypotheses (HA1 : nr A = k) (HA2 : nc A = n).
Let P u (i j : nat) : T := alpha * sum k (fun l => conj (val A s0 l i) * val A s0 l j) + cval beta * herm u (val C s0) i j.

Lemma sq_re a : re a * re a + im a * im a = conj a * a.
Proof.
  transitivity (re (a * conj a)); [rewrite re_mul, re_conj, im_conj; ring|].
  rewrite conj_mulconj. ring.
Qed.

Lemma herk_ct_diag u j F s (Q : unit -> state -> Prop) X : (j < n)%nat -> eff C F s0 s -> F j j = val C s0 j j ->
  (forall s', eff C (fupd F j j (P u j j)) s0 s' -> Q tt s') ->
  wp (sum <- foldup 0 k zero (fun l sum => a <- rd A l j;; ret (sum + (re a * re a + im a * im a)));;
         c <- rd C j j;; wr C j j (addc (alpha * sum) beta (re c))) Q X s.
Proof.
  intros Hj He HF HQ. apply wp_bind.
  fold (fun l a s' => a = sum l (fun l => conj (val A s0 l j) * val A s0 l j) /\ s' = s) as l a s1.
  - split; reflexivity.
  - destruct He0 as [-> ->]. steps. split; auto. cbn [sum]. rewrite sq_re. reflexivity.
  - destruct He0 as [-> ->]. steps. apply HQ. effext. rewrite addc_cval, HF. unfold P, herm. rewrite Nat.eqb_refl. reflexivity.
Qed.
Lemma herk_ct_off u i j F s (Q : unit -> state -> Prop) X : (j < n)%nat -> (i < n)%nat -> intri u i j = true -> i <> j -> eff C F s0 s -> F i j = val C s0 i j ->
  (forall s' v, eff C (fupd F i j v) s0 s' -> v = P u i j -> Q tt s') ->
  wp (sum <- foldup 0 k zero (fun l sum => a <- rd A l i;; b <- rd A l j;; ret (sum + conj a * b));;
            c <- rd C i j;; wr C i j (addc (alpha * sum) beta c)) Q X s.
Proof.
  intros Hj Hi Hu Hij He HF HQ. apply wp_bind.
  fold (fun l a s' => a = sum l (fun l => conj (val A s0 l i) * val A s0 l j) /\ s' = s) as l a s1.
  - split; reflexivity.
  - destruct He0 as [-> ->]. steps. split; auto.
  - destruct He0 as [-> ->]. steps. eapply HQ; [eassumption|]. rewrite addc_cval, HF. unfold P, herm. rewrite Hu. cases.
Qed.

Lemma herk_ct_up :
  wp (for_ j in 0 upto n do (
         (for_ i in 0 upto j do (
            sum <- foldup 0 k zero (fun l sum => a <- rd A l i;; b <- rd A l j;; ret (sum + conj a * b));;
            c <- rd C i j;; wr C i j (addc (alpha * sum) beta c)));;
         sum <- foldup 0 k zero (fun l sum => a <- rd A l j;; ret (sum + (re a * re a + im a * im a)));;
         c <- rd C j j;; wr C j j (addc (alpha * sum) beta (re c))))
   (fun _ s' => eff C (fun i j => if intri Upper i j then P Upper i j else val C s0 i j) s0 s') noX s0.
Proof.
  apply rk_cols; auto. intros j F s Hj He HF. apply wp_bind.
  updl (fun i => P Upper i j) j.
  { intros i F' s' Q' X' Hi He' HF' HQ. eapply herk_ct_off; [| | | |exact He'| |exact HQ]; try lia.
    - apply Nat.leb_le; lia. - rewrite HF', HF by lia; reflexivity. }
  intros s1 He1. cbv beta in He1. eapply (herk_ct_diag Upper); [lia|exact He1| |].
  { cases. apply HF; lia. }
  intros s2 He2. unfold intri. effext.
Qed.
Lemma herk_ct_lo :
  wp (for_ j in 0 upto n do (
         (for_ i in (S j) upto n do (
            sum <- foldup 0 k zero (fun l sum => a <- rd A l i;; b <- rd A l j;; ret (sum + conj a * b));;
            c <- rd C i j;; wr C i j (addc (alpha * sum) beta c)));;
         sum <- foldup 0 k zero (fun l sum => a <- rd A l j;; ret (sum + (re a * re a + im a * im a)));;
         c <- rd C j j;; wr C j j (addc (alpha * sum) beta (re c))))
   (fun _ s' => eff C (fun i j => if intri Lower i j then P Lower i j else val C s0 i j) s0 s') noX s0.
Proof.
  apply rk_cols; auto. intros j F s Hj He HF. apply wp_bind.
  updl (fun i => P Lower i j) j.
  { intros i F' s' Q' X' Hi He' HF' HQ. eapply herk_ct_off; [| | | |exact He'| |exact HQ]; try lia.
    - apply Nat.leb_le; lia. - rewrite HF', HF by lia; reflexivity. }
  intros s1 He1. cbv beta in He1. eapply (herk_ct_diag Lower); [lia|exact He1| |].
  { cases. apply HF; lia. }
  intros s2 He2. unfold intri. effext.
Qed.
End CT.
End HerkS.

Lemma herm_sym `{CL : !ConjLaws E} u (M : mat) i j : (u = Upper \/ u = Lower) -> herm u M i j = conj (herm u M j i).
Proof.
  intros Hu. unfold herm. destruct (Nat.eqb_spec i j) as [->|].
  - rewrite Nat.eqb_refl. symmetry. apply re_real.
  - destruct (Nat.eqb_spec j i); [congruence|]. destruct Hu; subst u; cbn [intri]; cases; rewrite ?conj_conj; auto.
Qed.
Lemma tri_of_ul u : tri_of u = Upper \/ tri_of u = Lower.
Proof. destruct u; cbn; auto. Qed.

(** rank-k update: [o] is NoTrans or ConjTrans *)
Lemma herk_run `{CL : !ConjLaws E} u o alpha A beta C s0 n k : uplo3 u = true -> (o = NoTrans \/ o = ConjTrans) ->
  conj alpha = alpha -> conj (cval beta) = cval beta ->
  nr A = (if is_nt o then n else k) -> nc A = (if is_nt o then k else n) -> nr C = n -> nc C = n ->
  vinj C -> disj A C ->
  runs (herk u o alpha A beta C) s0
    (fun _ s' => eff C (fun i j => if intri u i j then
         alpha * mmul k (opm o (val A s0)) (ctr (opm o (val A s0))) i j + cval beta * herm (tri_of u) (val C s0) i j
         else val C s0 i j) s0 s').
Proof.
  intros Hu Ho Ha Hb HA1 HA2 HC1 HC2 HI HD. unfold runs, herk.
  replace (if is_nt o then nr A else nc A) with n by (destruct o; cbn in *; auto).
  replace (if is_nt o then nc A else nr A) with k by (destruct o; cbn in *; auto). cbv zeta.
  apply wp_bind, wp_check; [auto|]. apply wp_bind, wp_check; [destruct Ho; subst; auto|]. checks.
  apply wp_bind.
  apply (wp_conseq _ _ (fun _ s' => eff C (fun i j => if intri (tri_of u) i j then
         alpha * mmul k (opm o (val A s0)) (ctr (opm o (val A s0))) i j + cval beta * herm (tri_of u) (val C s0) i j
         else val C s0 i j) s0 s') _ noX); [|intros ? s1 He1|intros ? ? []].
  - destruct Ho; subst o; cbn [is_nt] in *.
    + destruct u; try discriminate Hu; cbn [tri_of]; unfold mmul, ctr, opm.
      * apply herk_nt_up; auto.
      * apply herk_nt_lo; auto.
      * apply herk_nt_up; auto.
    + eapply wp_conseq with (Q := fun _ s' => eff C (fun i j => if intri (tri_of u) i j then
         alpha * sum k (fun l => conj (val A s0 l i) * val A s0 l j) + cval beta * herm (tri_of u) (val C s0) i j
         else val C s0 i j) s0 s') (X := noX); [| |intros ? ? []].
      * destruct u; try discriminate Hu; cbn [tri_of].
        -- apply herk_ct_up; auto.
        -- apply herk_ct_lo; auto.
        -- apply herk_ct_up; auto.
      * intros ? s1 He1. apply (eff_ext _ _ _ _ _ He1). intros i j Hi Hj. unfold mmul, ctr, opm.
        destruct (intri (tri_of u) i j); auto. do 2 f_equal. apply sum_ext. intros l Hl. rewrite conj_conj. reflexivity.
  - apply (mirror_part C s0 n HC1 HC2 HI conj); auto.
    intros i j. rewrite !conj_add, !conj_mul, Ha, Hb. rewrite (herm_sym (tri_of u) _ i j) by apply tri_of_ul.
    do 2 f_equal. unfold mmul. rewrite sum_conj. apply sum_ext. intros l Hl. unfold ctr. rewrite conj_mul, conj_conj. ring.
Qed.
End Herk.
