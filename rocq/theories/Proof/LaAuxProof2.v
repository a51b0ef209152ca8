(** Proofs for transpose, hasnan/hasinf, lascl, rscl *)
From Coq Require Import Bool Arith ZArith Lia Ring Field.
From Verif.Core Require Import Scalar Prog View Rel Slice Loops.
From Verif.Spec Require Import LinAlg Outcome Parts.
From Verif.Model Require Import Blas1 LaAux.
From Verif.Proof Require Import SumLemmas Tactics Blas1Proof SliceTac LaAuxProof.
Local Open Scope T_scope.
Ltac bools := repeat match goal with
  | |- context [(?a <? ?b)%nat] => destruct (Nat.ltb_spec a b)
  | |- context [(?a <=? ?b)%nat] => destruct (Nat.leb_spec a b)
  | |- context [(?a =? ?b)%nat] => destruct (Nat.eqb_spec a b)
  end; cbn [andb orb negb].

Section S.
Context {E : Env}.
Implicit Types (A B C : view).

Lemma disj_sub_both A B a b c d a' b' c' d' : disj A B -> (b <= nr A)%nat -> (d <= nc A)%nat -> (b' <= nr B)%nat -> (d' <= nc B)%nat ->
  disj (subv A a b c d) (subv B a' b' c' d').
Proof. intros HD H1 H2 H3 H4 i j i' j'. cbn. intros. apply HD; lia. Qed.
Lemma transpose_f_run fuel f nx : (2 <= nx)%nat -> forall A B s0, (nr A < fuel)%nat -> nc B = nr A -> nr B = nc A -> vinj B -> disj A B ->
  runs (transpose_f fuel f nx A B) s0 (fun _ s' => eff B (fun i j => f (val A s0 j i)) s0 s').
Proof.
  intros Hnx. induction fuel as [|fu IH]; intros A B s0 Hf H1 H2 HI HD; [lia|].
  unfold runs. cbn [transpose_f]. cbv zeta. checks.
  apply wp_bind, wp_check; [apply Nat.leb_le; lia|].
  destruct (Nat.leb_spec (Nat.min (nr A) (nc A)) nx) as [Hs|Hb].
  - loop (fun k s => eff B (fun i j => if (j <? k)%nat then f (val A s0 j i) else val B s0 i j) s0 s) as i s.
    + apply eff_refl.
    + apply (wp_forup (fun k s => eff B (fun i' j' => if (j' <? i)%nat || ((j' =? i)%nat && (i' <? k)%nat) then f (val A s0 j' i') else val B s0 i' j') s0 s)); [lia| | |].
      * apply (eff_ext _ _ _ _ _ He). intros i' j' Hi' Hj'. bools; auto; lia.
      * intros j s1 Hj He1. steps. apply (eff_ext _ _ _ _ _ He0). intros i' j' Hi' Hj'. unfold fupd. bools; subst; auto; lia.
      * intros s1 He1. apply (eff_ext _ _ _ _ _ He1). intros i' j' Hi' Hj'. bools; auto; lia.
    + apply (eff_ext _ _ _ _ _ He). intros i' j' Hi' Hj'. bools; auto; lia.
  - set (m1 := Nat.div2 (nr A)). set (n1 := Nat.div2 (nc A)).
    assert (Hm1 : (0 < m1 < nr A)%nat).
    { unfold m1. clear - Hb Hnx. split; [destruct (nr A) as [|[|]]; cbn; lia|apply Nat.lt_div2; lia]. }
    assert (Hn1 : (0 < n1 < nc A)%nat).
    { unfold n1. clear - Hb Hnx. split; [destruct (nc A) as [|[|]]; cbn; lia|apply Nat.lt_div2; lia]. }
    do 8 (apply wp_bind; slces).
    assert (Step : forall a b c d F s, (a <= b)%nat -> (b <= nr A)%nat -> (c <= d)%nat -> (d <= nc A)%nat -> (b - a < fu)%nat -> eff B F s0 s ->
      wp (transpose_f fu f nx (subv A a b c d) (subv B c d a b)) (fun _ s' => eff B (fun i j => if inbox c d a b i j then f (val A s0 j i) else F i j) s0 s') noX s).
    { intros a b c d F s Ha Hb' Hc Hd Hfu He.
      eapply wp_conseq; [apply (IH (subv A a b c d) (subv B c d a b) s)| |auto]; cbn [nr nc subv]; try lia.
      - apply vinj_subv; auto; lia.
      - apply disj_sub_both; auto; lia.
      - intros x s' He'. cbv beta in He'. apply (eff_sub B c d a b F _ s0 s s') in He'; auto; try lia.
        apply (eff_ext _ _ _ _ _ He'). intros i j Hi Hj. cbv beta. destruct (inbox_spec c d a b i j) as [[Hx Hy]|]; auto.
        f_equal. unfold val; cbn [ad subv]. replace (a + (j - a))%nat with j by lia. replace (c + (i - c))%nat with i by lia.
        apply (eff_frame B F s0 s A j i He HD); lia. }
    apply wp_bind. eapply wp_conseq; [apply (Step _ _ _ _ (val B s0) s0); try lia; apply eff_refl| |auto]. intros x s1 He1. cbv beta in He1. clear x.
    apply wp_bind. eapply wp_conseq; [eapply (Step _ _ _ _ _ s1); [lia..|exact He1]| |auto]. intros x s2 He2. cbv beta in He2. clear x.
    apply wp_bind. eapply wp_conseq; [eapply (Step _ _ _ _ _ s2); [lia..|exact He2]| |auto]. intros x s3 He3. cbv beta in He3. clear x.
    eapply wp_conseq; [eapply (Step _ _ _ _ _ s3); [lia..|exact He3]| |auto]. intros x s4 He4. cbv beta in He4. clear x.
    apply (eff_ext _ _ _ _ _ He4). intros i j Hi Hj. cbv beta.
    repeat match goal with |- context [inbox ?a ?b ?c ?d ?e ?f] => destruct (inbox_spec a b c d e f); auto end. exfalso. lia.
Qed.

(** ** scans *)
Lemma scan_run p lo hi A s0 : (forall j, (j < nc A)%nat -> (hi j <= nr A)%nat) ->
  runs (scan p lo hi A) s0 (fun r s' => s' = s0 /\
    (r = true <-> exists i j, (j < nc A)%nat /\ (lo j <= i < hi j)%nat /\ p (val A s0 i j) = true)).
Proof.
  intros Hh. unfold runs, scan. apply wp_bind.
  apply (wp_forret _ (fun k s => s = s0 /\ forall i j, (j < k)%nat -> (lo j <= i < hi j)%nat -> p (val A s0 i j) = false)
           0 (nc A) _ (fun r s => wp (ret (match r with Some b => b | None => false end)) _ _ s)).
  - lia.
  - split; auto. intros; lia.
  - intros j s Hj [-> Hn].
    destruct (Nat.le_gt_cases (lo j) (hi j)) as [Hl|Hl].
    + apply (wp_forret _ (fun k s => s = s0 /\ forall i, (lo j <= i < k)%nat -> p (val A s0 i j) = false)).
      * exact Hl.
      * split; auto. intros; lia.
      * intros i s Hi [-> Hn']. specialize (Hh j ltac:(lia)). apply wp_bind. apply wp_rd; [lia|lia|]. apply wp_ret.
        destruct (p (val A s0 i j)) eqn:Ep.
        -- apply wp_ret. split; auto. split; auto. intros _. exists i, j. repeat split; auto; lia.
        -- split; auto. intros i' Hi'. destruct (Nat.eq_dec i' i) as [->|]; auto. apply Hn'. lia.
      * intros s [-> Hn']. split; auto. intros i j' Hj' Hi. destruct (Nat.eq_dec j' j) as [->|]; auto. apply Hn; auto; lia.
    + unfold forret. replace (hi j - lo j)%nat with 0%nat by lia. apply wp_ret. split; auto.
      intros i j' Hj' Hi. apply Hn; auto. destruct (Nat.eq_dec j' j) as [->|]; lia.
  - intros s [-> Hn]. apply wp_ret. split; auto. split; [discriminate|].
    intros (i & j & Hj & Hi & Hp). rewrite Hn in Hp; auto.
Qed.
Lemma scanv_run p x s0 : nc x = 1%nat ->
  runs (scanv p x) s0 (fun r s' => s' = s0 /\ (r = true <-> exists i, (i < nr x)%nat /\ p (vval x s0 i) = true)).
Proof.
  intros Hx. unfold runs, scanv. apply wp_bind.
  apply (wp_forret _ (fun k s => s = s0 /\ forall i, (i < k)%nat -> p (vval x s0 i) = false)
           0 (nr x) _ (fun r s => wp (ret (match r with Some b => b | None => false end)) _ _ s)).
  - lia.
  - split; auto. intros; lia.
  - intros i s Hi [-> Hn]. apply wp_bind. apply wp_rd; [lia|lia|]. apply wp_ret.
    change (val x s0 i 0) with (vval x s0 i). destruct (p (vval x s0 i)) eqn:Ep.
    + apply wp_ret. split; auto. split; auto. intros _. exists i. split; auto; lia.
    + split; auto. intros i' Hi'. destruct (Nat.eq_dec i' i) as [->|]; auto. apply Hn; lia.
  - intros s [-> Hn]. apply wp_ret. split; auto. split; [discriminate|].
    intros (i & Hi & Hp). rewrite Hn in Hp; auto.
Qed.
(** the bounds of the loops select exactly the documented part *)
Lemma part_bounds u m j i : u <> UpperHessenberg -> (i < m)%nat -> ((plo u j <= i < phi u m j)%nat <-> selected u i j).
Proof.
  intros Hu Hi. destruct u; cbn [plo phi selected]; try congruence; bools; try tauto; lia.
Qed.
Lemma part_bounds_uh m j i : (j + 1 < m)%nat -> (i < m)%nat -> ((plo UpperHessenberg j <= i < phi UpperHessenberg m j)%nat <-> selected UpperHessenberg i j).
Proof. intros Hj Hi. cbn [plo phi selected]. bools; lia. Qed.
Lemma phi_le u m n j : (u = UpperHessenberg -> (n < m)%nat) -> (j < n)%nat -> (phi u m j <= m)%nat.
Proof. intros Hu Hj. destruct u; cbn [phi]; bools; try lia. specialize (Hu eq_refl). lia. Qed.
Lemma part_bounds_all u m n j i : (u = UpperHessenberg -> (n < m)%nat) -> (j < n)%nat -> (i < m)%nat -> ((plo u j <= i < phi u m j)%nat <-> selected u i j).
Proof.
  intros Hu Hj Hi. destruct (uplo_eqb u UpperHessenberg) eqn:Eu.
  - assert (e : u = UpperHessenberg) by (destruct u; auto; discriminate). subst. apply part_bounds_uh; auto. specialize (Hu eq_refl). lia.
  - apply part_bounds; auto. intros ->. discriminate.
Qed.
Lemma band_bounds kl ku m j i : (i < m)%nat -> ((blo ku j <= i < bhi kl m j)%nat <-> in_band kl ku i j).
Proof. intros Hi. unfold blo, bhi, in_band. bools; lia. Qed.

(** ** lascl *)
Lemma scale_run lo hi c A s0 F s : vinj A -> (forall j, (j < nc A)%nat -> (hi j <= nr A)%nat) -> eff A F s0 s ->
  wp (scale_part lo hi c A) (fun _ s' => eff A (fun i j => if (lo j <=? i)%nat && (i <? hi j)%nat then F i j * c else F i j) s0 s') noX s.
Proof.
  intros HI Hh He. unfold scale_part.
  eapply wp_conseq; [apply (part_loop A lo hi _ (fun i j a => a * c) (nc A) s0); auto| |auto].
  - intros i j s1 F1 Hj Hi He1. specialize (Hh j Hj). steps. assumption.
  - exact He.
  - intros x s' He'. cbv beta in He'. apply (eff_ext _ _ _ _ _ He'). intros i j Hi Hj.
    replace (j <? nc A)%nat with true by (symmetry; apply Nat.ltb_lt; auto). reflexivity.
Qed.
Section Exact.
Context {FL : FieldLaws E} {EL : EqbLaws E}.
Add Field Tf : (@fth E FL).
(** the while loop ends within [K+3] iterations once [a / big^(K+1)] no longer exceeds [b] *)
Fixpoint tpow (a : T) (k : nat) : T := match k with O => 1 | S k' => a * tpow a k' end.
Lemma lascl_loop_run small big lo hi b A : vinj A -> (forall j, (j < nc A)%nat -> (hi j <= nr A)%nat) ->
  small <> 0 -> big <> 0 -> big <> 1 -> b <> 0 ->
  forall fuel K a_ k s0 s, (K + 3 <= fuel)%nat ->
  ltb (absv b) (absv (a_ / tpow big (S K))) = false ->
  eff A (fun i j => if (lo j <=? i)%nat && (i <? hi j)%nat then val A s0 i j * k else val A s0 i j) s0 s ->
  wp (lascl_loop fuel small big lo hi b a_ b A) (fun _ s' =>
    eff A (fun i j => if (lo j <=? i)%nat && (i <? hi j)%nat then val A s0 i j * (k * (a_ / b)) else val A s0 i j) s0 s') noX s.
Proof.
  intros HI Hh Hsm Hbig Hbig1 Hb0.
  assert (H10 : 1 <> 0) by apply (F_1_neq_0 fth).
  assert (Sc : forall c k k' s0 s, eff A (fun i j => if (lo j <=? i)%nat && (i <? hi j)%nat then val A s0 i j * k else val A s0 i j) s0 s ->
     k * c = k' ->
     wp (scale_part lo hi c A) (fun _ s' => eff A (fun i j => if (lo j <=? i)%nat && (i <? hi j)%nat then val A s0 i j * k' else val A s0 i j) s0 s') noX s).
  { intros c k k' s0 s He <-. eapply wp_conseq; [apply scale_run; [auto|auto|exact He]| |auto].
    intros x s' He'. cbv beta in He'. apply (eff_ext _ _ _ _ _ He'). intros i j Hi Hj.
    destruct ((lo j <=? i)%nat && (i <? hi j)%nat); auto. ring. }
  induction fuel as [|fu IH]; intros K a_ k s0 s Hf Hst He; [lia|]. cbn [lascl_loop]. cbv zeta.
  destruct (eqb (b * small) b) eqn:E1; [eapply Sc; [exact He|reflexivity]|].
  destruct (eqb (a_ / big) a_) eqn:E2.
  { apply eqb_spec in E2. eapply Sc; [exact He|].
    assert (Hz : a_ * (1 - big) = 0).
    { replace (a_ * (1 - big)) with ((a_ / big) * (1 - big)) by (rewrite E2; reflexivity).
      transitivity ((a_ - a_ * big) / big); [field; auto|].
      transitivity (a_ / big - a_); [field; auto|]. rewrite E2. ring. }
    assert (Ha0 : a_ = 0).
    { assert (Hn : 1 - big <> 0). { intros Hn. apply Hbig1. transitivity (1 - (1 - big)); [ring|]. rewrite Hn. ring. }
      transitivity (a_ * (1 - big) / (1 - big)); [field; auto|]. rewrite Hz. field. auto. }
    rewrite Ha0. field. auto. }
  destruct (ltb (absv a_) (absv (b * small)) && negb (eqb a_ zero)) eqn:E3.
  { apply wp_bind. eapply wp_conseq; [eapply (Sc small); [exact He|reflexivity]| |auto].
    intros x s' He'. cbv beta in He'. clear x. destruct fu as [|fu]; [lia|]. cbn [lascl_loop]. cbv zeta.
    replace (eqb (b * small) (b * small)) with true by (symmetry; apply eqb_spec; reflexivity).
    eapply Sc; [exact He'|]. field. split; auto. }
  destruct (ltb (absv b) (absv (a_ / big))) eqn:E4.
  { apply wp_bind. eapply wp_conseq; [eapply (Sc big); [exact He|reflexivity]| |auto].
    intros x s' He'. cbv beta in He'. clear x. destruct K as [|K].
    - exfalso. cbn [tpow] in Hst. replace (a_ / (big * 1)) with (a_ / big) in Hst by (field; auto). congruence.
    - eapply wp_conseq; [apply (IH K (a_ / big) (k * big) s0 s'); [lia| |exact He']| |auto].
      + replace (a_ / big / tpow big (S K)) with (a_ / tpow big (S (S K))); auto.
        assert (Hp : forall q, tpow big q <> 0).
        { induction q; cbn [tpow]; auto. intros Hq. apply IHq. transitivity (big * tpow big q / big); [field; auto|]. rewrite Hq. field. auto. }
        cbn [tpow]. pose proof (Hp K). field. auto.
      + intros x s'' He''. cbv beta in He''. apply (eff_ext _ _ _ _ _ He''). intros i j Hi Hj.
        destruct ((lo j <=? i)%nat && (i <? hi j)%nat); auto. field. auto. }
  eapply Sc; [exact He|reflexivity].
Qed.
Lemma rscl_real_run safeMin safeMax alpha x s0 : nc x = 1%nat -> vinj x -> alpha <> 0 -> safeMin * safeMax = 1 ->
  runs (rscl_real safeMin safeMax alpha x) s0 (fun _ s' => veff x (fun i => vval x s0 i / alpha) s0 s').
Proof.
  intros Hx HI Ha Hs. unfold runs, rscl_real. cbv zeta.
  assert (Two : forall c d, c * d = 1 / alpha -> wp (bind (scal c x) (fun _ => scal d x)) (fun _ s' => veff x (fun i => vval x s0 i / alpha) s0 s') noX s0).
  { intros c d Hcd. apply wp_bind. eapply wp_conseq; [apply scal_run; auto| |auto]. intros u s1 (H1 & H2 & H3). cbv beta. clear u.
    eapply wp_conseq; [apply scal_run; auto| |auto]. intros u s2 (K1 & K2 & K3). split; [|split].
    - intros i Hi. rewrite K1, H1 by auto. transitivity (vval x s0 i * (c * d)); [ring|]. rewrite Hcd. field. auto.
    - intros l Hl. rewrite K2, H2; auto.
    - congruence. }
  destruct (ltb safeMax (absv alpha)).
  - apply Two. transitivity (safeMin * safeMax / alpha); [field; auto|]. rewrite Hs. reflexivity.
  - destruct (ltb (absv alpha) safeMin).
    + apply Two. transitivity (safeMin * safeMax / alpha); [field; auto|]. rewrite Hs. reflexivity.
    + eapply wp_conseq; [apply scal_run; auto| |auto]. intros u s1 (H1 & H2 & H3). split; [|split]; auto.
      intros i Hi. rewrite H1 by auto. field. auto.
Qed.
End Exact.
End S.
