(** * Application of one reflector: larf *)
From Coq Require Import Bool Arith ZArith Lia Ring Field.
From Verif.Core Require Import Scalar Prog View Slice Loops WorkEff.
From Verif.Spec Require Import LinAlg Outcome Householder.
From Verif.Model Require Import Gemm Blas1 Blas2 Blas3 Legacy LaAux Norms Work Householder.
From Verif.Proof Require Import SumLemmas Tactics GemmProof Blas2Proof ExactBlas LegacyProof SliceTac.
Local Open Scope T_scope.

(** a workspace object that reshape(work, k) accepts *)
Definition wk_ok (work : lmat) (k : nat) : Prop := lok work /\ exists w r, reshape_v work k = Some (w, r).
(** a workspace without padding of sufficient size is accepted *)
Lemma wk_ok_contig work k : lok work -> contiguous work = true -> (k <= lm work * ln work)%nat -> wk_ok work k.
Proof.
  intros H Hc Hk. split; auto. unfold reshape_v. destruct (Nat.ltb_spec (lm work * ln work) k); [lia|]. rewrite Hc. eauto.
Qed.

Section P.
Context {E : Env} {FL : FieldLaws E} {CL : ConjLaws E}.
Add Field Tf : fth.
Implicit Types (A C x w : view) (s : state).

Lemma wp_wk_vec work k (Q : view * lmat -> state -> Prop) X s : wk_ok work k ->
  (forall w r, nr w = k -> nc w = 1%nat -> vinj w -> (forall l, inview w l -> inview (lview work) l) -> Q (w, r) s) -> wp (wk_vec work k) Q X s.
Proof.
  intros (Ho & w & r & Hr) HQ. unfold wk_vec. rewrite Hr. apply wp_ret. destruct (reshape_v_ok work k w r Ho Hr) as (H1 & H2 & H3 & H4 & H5).
  apply HQ; auto. intros l Hl. apply H5. auto.
Qed.

Lemma nin A w i j : disj A w -> (i < nr A)%nat -> (j < nc A)%nat -> ~ inview w (ad A i j).
Proof. intros HD Hi Hj (a & b & Ha & Hb & e). exact (HD i j a b Hi Hj Ha Hb e). Qed.

Definition eff01 C0 (F0 : nat -> T) C1 (F1 : nat -> nat -> T) (P : Z -> Prop) s s' : Prop :=
  (forall i, (i < nr C0)%nat -> vval C0 s' i = F0 i) /\
  (forall i j, (i < nr C1)%nat -> (j < nc C1)%nat -> val C1 s' i j = F1 i j) /\
  (forall l, ~ inview C0 l -> ~ inview C1 l -> ~ P l -> mem s' l = mem s l) /\ imem s' = imem s.

Definition larf_d (side : side_t) (sm : storev_t) (m n : nat) (x C0 : nat -> T) (C1 : mat) : nat -> T := fun j =>
  match side with
  | Left => C0 j + sum m (fun l => conj (hst sm x l) * C1 l j)
  | Right => C0 j + sum n (fun l => C1 j l * hst sm x l)
  end.
Definition larf_F (side : side_t) (sm : storev_t) (tau : T) (x d : nat -> T) (C1 : mat) : mat := fun i j =>
  match side with
  | Left => C1 i j - tau * hst sm x i * d j
  | Right => C1 i j - tau * d i * conj (hst sm x j)
  end.

Lemma larf_work1_run side sm x tau C0 C1 work s : isvec x (sel side (nr C1) (nc C1)) -> isvec C0 (sel side (nc C1) (nr C1)) ->
  vinj C0 -> vinj C1 -> disj C0 C1 -> disj x C0 -> disj x C1 ->
  (if (nr x =? sel side 1 0)%nat then negb (nr C1 =? 0)%nat else negb (nc C1 =? 0)%nat) = true ->
  (nr C1 = 0%nat \/ nc C1 = 0%nat \/ (wk_ok work (nr C0) /\ disj (lview work) x /\ disj (lview work) C0 /\ disj (lview work) C1)) ->
  let d := larf_d side sm (nr C1) (nc C1) (vval x s) (vval C0 s) (val C1 s) in
  runs (larf_work1 side sm x tau C0 C1 work) s
    (fun _ s' => eff01 C0 (fun j => vval C0 s j - tau * d j) C1 (larf_F side sm tau (vval x s) d (val C1 s)) (inview (lview work)) s s').
Proof.
  intros [Hx Hx1] [Hc Hc1] HI0 HI1 HD Dx0 Dx1 Hck Hw d. unfold runs, larf_work1. cbv zeta. apply wp_bind, wp_check; [exact Hck|].
  destruct (Nat.eqb_spec (nr C1) 0) as [Em|Em]; [|destruct (Nat.eqb_spec (nc C1) 0) as [En|En]]; cbn [orb].
  1, 2: apply (wp_forup (fun k s' => eff C0 (fun i j => if (i <? k)%nat then vval C0 s i - tau * vval C0 s i else val C0 s i j) s s')); [lia|apply eff_refl| |].
  1, 3: intros i s1 Hi He; steps; effext; ifs; unfold vval; replace j' with 0%nat by lia; auto.
  - intros s' (H1 & H2 & H3). split; [|split; [|split]]; auto.
    + intros i Hi. unfold vval at 1. rewrite H1 by lia. destruct (Nat.ltb_spec i (nr C0)); [|lia]. unfold d, larf_d. rewrite Em. destruct side; cbn [sum]; [ring|].
      cbn [sel] in Hc. lia.
    + intros i j Hi Hj. lia.
  - intros s' (H1 & H2 & H3). split; [|split; [|split]]; auto.
    + intros i Hi. unfold vval at 1. rewrite H1 by lia. destruct (Nat.ltb_spec i (nr C0)); [|lia]. unfold d, larf_d. rewrite En. destruct side; cbn [sum]; [|ring].
      cbn [sel] in Hc. lia.
    + intros i j Hi Hj. lia.
  - destruct Hw as [|[|(Hk & Wx & W0 & W1)]]; [lia|lia|]. apply wp_bind. apply wp_wk_vec; auto. intros w r Hwn Hw1 Iw Hin. cbn [fst].
    assert (Vx : disj w x). { intros i j i' j' Hi Hj Hi' Hj' e. destruct (Hin (ad w i j)) as (a & b & Ha & Hb & e'); [exists i, j; auto|]. apply (Wx a b i' j'); auto. congruence. }
    assert (V0 : disj w C0). { intros i j i' j' Hi Hj Hi' Hj' e. destruct (Hin (ad w i j)) as (a & b & Ha & Hb & e'); [exists i, j; auto|]. apply (W0 a b i' j'); auto. congruence. }
    assert (V1 : disj w C1). { intros i j i' j' Hi Hj Hi' Hj' e. destruct (Hin (ad w i j)) as (a & b & Ha & Hb & e'); [exists i, j; auto|]. apply (W1 a b i' j'); auto. congruence. }
    assert (V1' := disj_sym _ _ V1). assert (V0' := disj_sym _ _ V0). assert (Vx' := disj_sym _ _ Vx). assert (HD' := disj_sym _ _ HD).
    (* the final loop and assembly, shared *)
    assert (Fin : forall g s1 s2, (forall i, (i < nr C0)%nat -> g (vval w s1 i) = d i) -> (forall i, (i < nr C0)%nat -> vval C0 s1 i = vval C0 s i) ->
       (forall l, ~ inview w l -> mem s1 l = mem s l) -> imem s1 = imem s -> eff C1 (larf_F side sm tau (vval x s) d (val C1 s)) s1 s2 ->
       wp (for_ i in 0 upto nr C0 do (c <- rdv C0 i;; wi <- rdv w i;; wrv C0 i (c - tau * g wi)))
         (fun _ s' => eff01 C0 (fun j => vval C0 s j - tau * d j) C1 (larf_F side sm tau (vval x s) d (val C1 s)) (inview (lview work)) s s') noX s2).
    { intros g s1 s2 Hg Hc0 Hm Hi He. 
      apply (wp_forup (fun k s' => eff C0 (fun i j => if (i <? k)%nat then vval C0 s i - tau * d i else val C0 s2 i j) s2 s')); [lia|apply eff_refl| |].
      - intros i s3 Hi3 He3. steps. effext. ifs. unfold vval at 1. rewrite (eff_frame _ _ _ _ _ _ _ He HD) by lia. change (val C0 s1 i 0) with (vval C0 s1 i). rewrite Hc0 by lia.
        rewrite <- (Hg i) by lia. unfold vval. rewrite (eff_frame _ _ _ _ _ _ _ He V1) by lia. auto.
      - intros s3 (K1 & K2 & K3). destruct He as (L1 & L2 & L3). split; [|split; [|split]].
        + intros i Hi0. unfold vval at 1. rewrite K1 by lia. destruct (Nat.ltb_spec i (nr C0)); [auto|lia].
        + intros i j Hi0 Hj0. unfold val. rewrite K2; [apply L1; auto|]. intros (a & b & Ha & Hb & e). apply (HD' i j a b); auto.
        + intros l Hl0 Hl1 Hlw. rewrite K2, L2, Hm; auto.
        + congruence. }
    (* w := f(C0) *)
    assert (Ini : forall (f : T -> T) (K : M unit) (Q : unit -> state -> Prop), (forall s1, veff w (fun i => f (vval C0 s i)) s s1 -> wp K Q noX s1) ->
       wp ((for_ i in 0 upto nr C0 do (c <- rdv C0 i;; wrv w i (f c)));; K) Q noX s).
    { intros f K Q HK. apply wp_bind. apply (wp_forup (fun k s' => eff w (fun i j => if (i <? k)%nat then f (vval C0 s i) else val w s i j) s s')); [lia|apply eff_refl| |].
      - intros i s1 Hi He. steps. effext.
      - intros s1 (K1 & K2 & K3). apply HK. split; [|split]; auto. intros i Hi. unfold vval at 1. rewrite K1 by lia. destruct (Nat.ltb_spec i (nr C0)); [auto|lia]. }
    destruct side, sm; cbn [sel hst] in *.
    + apply Ini. intros s1 He1. apply wp_bind. eapply wp_use; [apply (gemv_run ConjTrans 1 C1 x (Sc 1) w s1 (nr w) (nr x)); cbn [notransb]; auto; lia|].
      intros r2 s2 He2. cbv beta in He2. destruct He1 as (A1 & A2 & A3), He2 as (B1 & B2 & B3).
      assert (Hm : forall l, ~ inview w l -> mem s2 l = mem s l) by (intros l Hl; rewrite B2, A2; auto).
      assert (X1 : forall l, (l < nr x)%nat -> vval x s1 l = vval x s l) by (intros; apply A2, nin; auto; lia).
      assert (X2 : forall l, (l < nr x)%nat -> vval x s2 l = vval x s l) by (intros; apply Hm, nin; auto; lia).
      assert (Y1 : forall i j, (i < nr C1)%nat -> (j < nc C1)%nat -> val C1 s1 i j = val C1 s i j) by (intros; apply A2, nin; auto).
      assert (Y2 : forall i j, (i < nr C1)%nat -> (j < nc C1)%nat -> val C1 s2 i j = val C1 s i j) by (intros; apply Hm, nin; auto).
      assert (Z2 : forall i, (i < nr C0)%nat -> vval C0 s2 i = vval C0 s i) by (intros; apply Hm, nin; auto; lia).
      assert (W2 : forall i, (i < nr C0)%nat -> conj (vval w s2 i) = d i).
      { intros i Hi. rewrite B1 by lia. rewrite gemv_val_exact. rewrite A1 by lia. cbn [cval]. unfold d, larf_d, mvmul. rewrite conj_add, !conj_mul, conj_1, conj_conj, sum_conj, Hx.
        cbn [opm hst]. rewrite (sum_ext (nr C1) _ (fun l => conj (vval x s l) * val C1 s l i)); [ring|]. intros l Hl. rewrite conj_mul, conj_conj, X1, Y1 by lia. ring. }
      apply wp_bind. eapply wp_use; [apply ger_run; auto; lia|]. intros r3 s3 He3. cbv beta in He3.
      apply (Fin conj s2 s3); auto; [congruence|]. eapply eff_ext; [exact He3|]. intros i j Hi Hj. cbv beta. unfold larf_F. cbn [hst]. rewrite Y2, X2, W2 by lia. ring.
    + apply Ini with (f := fun c => c). intros s1 He1. apply wp_bind. eapply wp_use; [apply (gemv_run Trans 1 C1 x (Sc 1) w s1 (nr w) (nr x)); cbn [notransb]; auto; lia|].
      intros r2 s2 He2. cbv beta in He2. destruct He1 as (A1 & A2 & A3), He2 as (B1 & B2 & B3).
      assert (Hm : forall l, ~ inview w l -> mem s2 l = mem s l) by (intros l Hl; rewrite B2, A2; auto).
      assert (X1 : forall l, (l < nr x)%nat -> vval x s1 l = vval x s l) by (intros; apply A2, nin; auto; lia).
      assert (X2 : forall l, (l < nr x)%nat -> vval x s2 l = vval x s l) by (intros; apply Hm, nin; auto; lia).
      assert (Y1 : forall i j, (i < nr C1)%nat -> (j < nc C1)%nat -> val C1 s1 i j = val C1 s i j) by (intros; apply A2, nin; auto).
      assert (Y2 : forall i j, (i < nr C1)%nat -> (j < nc C1)%nat -> val C1 s2 i j = val C1 s i j) by (intros; apply Hm, nin; auto).
      assert (Z2 : forall i, (i < nr C0)%nat -> vval C0 s2 i = vval C0 s i) by (intros; apply Hm, nin; auto; lia).
      assert (W2 : forall i, (i < nr C0)%nat -> vval w s2 i = d i).
      { intros i Hi. rewrite B1 by lia. rewrite gemv_val_exact. rewrite A1 by lia. cbn [cval]. unfold d, larf_d, mvmul. rewrite Hx.
        cbn [opm hst]. rewrite (sum_ext (nr C1) _ (fun l => conj (conj (vval x s l)) * val C1 s l i)); [ring|]. intros l Hl. rewrite conj_conj, X1, Y1 by lia. ring. }
      apply wp_bind. apply (wp_forup (fun jj s' => eff C1 (fun i j => if (j <? jj)%nat then larf_F Left Rowwise tau (vval x s) d (val C1 s) i j else val C1 s2 i j) s2 s')); [lia|apply eff_refl| |].
      * intros jj s3 Hjj He3. apply (wp_forup (fun ii s' => eff C1 (fun i j => if (j <? jj)%nat || ((j =? jj) && (i <? ii))%nat then larf_F Left Rowwise tau (vval x s) d (val C1 s) i j else val C1 s2 i j) s2 s')); [lia| | |].
        -- effext.
        -- intros ii s4 Hii He4. steps. effext. unfold larf_F. cbn [hst]. change (val x s2 ii 0) with (vval x s2 ii). change (val w s2 jj 0) with (vval w s2 jj). rewrite Y2, X2, W2 by lia. reflexivity.
        -- intros s4 He4. effext.
      * intros s3 He3. apply (Fin (fun c => c) s2 s3); auto; [congruence|]. eapply eff_ext; [exact He3|]. intros i j Hi Hj. cbv beta. destruct (Nat.ltb_spec j (nc C1)); [auto|lia].
    + apply Ini with (f := fun c => c). intros s1 He1. apply wp_bind. eapply wp_use; [apply (gemv_run NoTrans 1 C1 x (Sc 1) w s1 (nr w) (nr x)); cbn [notransb]; auto; lia|].
      intros r2 s2 He2. cbv beta in He2. destruct He1 as (A1 & A2 & A3), He2 as (B1 & B2 & B3).
      assert (Hm : forall l, ~ inview w l -> mem s2 l = mem s l) by (intros l Hl; rewrite B2, A2; auto).
      assert (X1 : forall l, (l < nr x)%nat -> vval x s1 l = vval x s l) by (intros; apply A2, nin; auto; lia).
      assert (X2 : forall l, (l < nr x)%nat -> vval x s2 l = vval x s l) by (intros; apply Hm, nin; auto; lia).
      assert (Y1 : forall i j, (i < nr C1)%nat -> (j < nc C1)%nat -> val C1 s1 i j = val C1 s i j) by (intros; apply A2, nin; auto).
      assert (Y2 : forall i j, (i < nr C1)%nat -> (j < nc C1)%nat -> val C1 s2 i j = val C1 s i j) by (intros; apply Hm, nin; auto).
      assert (Z2 : forall i, (i < nr C0)%nat -> vval C0 s2 i = vval C0 s i) by (intros; apply Hm, nin; auto; lia).
      assert (W2 : forall i, (i < nr C0)%nat -> vval w s2 i = d i).
      { intros i Hi. rewrite B1 by lia. rewrite gemv_val_exact. rewrite A1 by lia. cbn [cval]. unfold d, larf_d, mvmul. rewrite Hx.
        cbn [opm hst]. rewrite (sum_ext (nc C1) _ (fun l => val C1 s i l * vval x s l)); [ring|]. intros l Hl. rewrite X1, Y1 by lia. ring. }
      apply wp_bind. eapply wp_use; [apply ger_run; auto; lia|]. intros r3 s3 He3. cbv beta in He3.
      apply (Fin (fun c => c) s2 s3); auto; [congruence|]. eapply eff_ext; [exact He3|]. intros i j Hi Hj. cbv beta. unfold larf_F. cbn [hst]. rewrite Y2, X2, W2 by lia. ring.
    + apply Ini with (f := fun c => c). intros s1 He1. destruct He1 as (A1 & A2 & A3).
      assert (X1 : forall l, (l < nr x)%nat -> vval x s1 l = vval x s l) by (intros; apply A2, nin; auto; lia).
      assert (Y1 : forall i j, (i < nr C1)%nat -> (j < nc C1)%nat -> val C1 s1 i j = val C1 s i j) by (intros; apply A2, nin; auto).
      set (g := fun jj i => vval C0 s i + sum jj (fun l => val C1 s i l * conj (vval x s l))).
      apply wp_bind. apply (wp_forup (fun jj s' => eff w (fun i _ => g jj i) s1 s')); [lia| | |].
      * split; [|auto]. intros i j Hi Hj. replace j with 0%nat by lia. change (val w s1 i 0) with (vval w s1 i). rewrite A1 by auto. unfold g. cbn [sum]. ring.
      * intros jj s3 Hjj He3. apply (wp_forup (fun ii s' => eff w (fun i _ => if (i <? ii)%nat then g (S jj) i else g jj i) s1 s')); [lia| | |].
        -- effext.
        -- intros ii s4 Hii He4. steps. effext. change (val x s1 jj 0) with (vval x s1 jj). rewrite Y1, X1 by lia. unfold g. cbn [sum]. ring.
        -- intros s4 He4. effext.
      * intros s2 He2. cbv beta in He2. destruct He2 as (B1 & B2 & B3).
        assert (Hm : forall l, ~ inview w l -> mem s2 l = mem s l) by (intros l Hl; rewrite B2, A2; auto).
        assert (X2 : forall l, (l < nr x)%nat -> vval x s2 l = vval x s l) by (intros; apply Hm, nin; auto; lia).
        assert (Y2 : forall i j, (i < nr C1)%nat -> (j < nc C1)%nat -> val C1 s2 i j = val C1 s i j) by (intros; apply Hm, nin; auto).
        assert (Z2 : forall i, (i < nr C0)%nat -> vval C0 s2 i = vval C0 s i) by (intros; apply Hm, nin; auto; lia).
        assert (W2 : forall i, (i < nr C0)%nat -> vval w s2 i = d i) by (intros i Hi; unfold vval at 1; rewrite B1 by lia; reflexivity).
        apply wp_bind. eapply wp_use; [apply geru_run; auto; lia|]. intros r3 s3 He3. cbv beta in He3.
        apply (Fin (fun c => c) s2 s3); auto; [congruence|]. eapply eff_ext; [exact He3|]. intros i j Hi Hj. cbv beta. unfold larf_F. cbn [hst]. rewrite Y2, X2, W2, conj_conj by lia. ring.
Qed.

Lemma refl_l m tau u (C : mat) i j : (i < m)%nat -> mmul m (refl tau u) C i j = C i j - tau * u i * sum m (fun l => conj (u l) * C l j).
Proof.
  intros Hi. unfold mmul, refl. rewrite (sum_ext m _ (fun l => idm i l * C l j - tau * u i * (conj (u l) * C l j))) by (intros; ring).
  rewrite sum_minus, sum_scal_l. rewrite (sum_single m i); [|auto|].
  - unfold idm. rewrite Nat.eqb_refl. ring.
  - intros l Hl Hn. unfold idm. destruct (Nat.eqb_spec i l); [lia|]. ring.
Qed.
Lemma refl_r n tau u (C : mat) i j : (j < n)%nat -> mmul n C (refl tau u) i j = C i j - tau * sum n (fun l => C i l * u l) * conj (u j).
Proof.
  intros Hi. unfold mmul, refl. rewrite (sum_ext n _ (fun l => C i l * idm l j - tau * (C i l * u l) * conj (u j))) by (intros; ring).
  rewrite sum_minus, sum_scal_r, sum_scal_l. rewrite (sum_single n j); [|auto|].
  - unfold idm. rewrite Nat.eqb_refl. ring.
  - intros l Hl Hn. unfold idm. destruct (Nat.eqb_spec l j); [lia|]. ring.
Qed.
(** C := H C or C := C H *)
Definition reflm (side : side_t) (m n : nat) (tau : T) (u : nat -> T) (C : mat) : mat :=
  match side with Left => mmul m (refl tau u) C | Right => mmul n C (refl tau u) end.

Lemma disj_inc A A' B B' : (forall l, inview A' l -> inview A l) -> (forall l, inview B' l -> inview B l) -> disj A B -> disj A' B'.
Proof.
  intros HA HB H i j i' j' Hi Hj Hi' Hj' e. destruct (HA (ad A' i j)) as (a & b & Ha & Hb & e1); [exists i, j; auto|].
  destruct (HB (ad B' i' j')) as (a' & b' & Ha' & Hb' & e2); [exists i', j'; auto|]. apply (H a b a' b'); auto. congruence.
Qed.

Lemma larf_work_run side dir sm v tau C work s : isvec v (sel side (nr C) (nc C)) -> vinj C -> disj v C ->
  (sel side (nr C) (nc C) <= 1 \/ sel side (nc C) (nr C) = 0 \/ (wk_ok work (sel side (nc C) (nr C)) /\ disj (lview work) v /\ disj (lview work) C))%nat ->
  runs (larf_work side dir sm v tau C work) s
    (fun _ s' => effw C (reflm side (nr C) (nc C) tau (hvec dir (nr v) (hst sm (vval v s))) (val C s)) (inview (lview work)) s s').
Proof.
  intros [Hv Hv1] HI HD Hw. unfold runs, larf_work. cbv zeta. apply wp_bind, wp_check; [apply Nat.eqb_eq; auto|].
  destruct (Nat.eqb_spec (nr C) 0) as [Em|Em]; [|destruct (Nat.eqb_spec (nc C) 0) as [En|En]]; cbn [orb].
  1, 2: apply wp_ret; repeat split; auto; intros; lia.
  remember (nr C) as m eqn:Hm. remember (nc C) as n eqn:Hn.
  destruct side, dir; cbn [sel] in *.
  - apply wp_bind, wp_slrow; [lia|lia|lia|]. apply wp_bind, wp_slc; [lia|lia|lia|lia|]. apply wp_bind, wp_slvec; [lia|lia|].
    eapply wp_use.
    { apply (larf_work1_run Left sm).
      - split; cbn; lia.
      - split; cbn; lia.
      - apply vinj_vrow; auto; lia.
      - apply vinj_subv; auto; lia.
      - intros i j i' j' Hi Hj Hi' Hj' e. cbn in *. apply HI in e; lia.
      - eapply disj_inc; [| |exact HD]; intros l; [apply inview_vsub; lia|apply inview_vrow; lia].
      - eapply disj_inc; [| |exact HD]; intros l; [apply inview_vsub; lia|apply inview_subv; lia].
      - cbn [sel nr nc Slice.vsub subv vrow]. destruct (Nat.eqb_spec (m - 1) 1); first [reflexivity|apply negb_true_iff, Nat.eqb_neq; lia].
      - cbn [nr nc subv vrow]. destruct Hw as [Hw|[Hw|(W1 & W2 & W3)]]; [left; lia|right; left; lia|right; right].
        split; [replace (n - 0)%nat with n by lia; auto|]. split; [|split].
        + eapply disj_inc; [| |exact W2]; intros l; [auto|apply inview_vsub; lia].
        + eapply disj_inc; [| |exact W3]; intros l; [auto|apply inview_vrow; lia].
        + eapply disj_inc; [| |exact W3]; intros l; [auto|apply inview_subv; lia]. }
    intros r s' HL. cbv beta in HL. destruct HL as (K1 & K2 & K3 & K4).
    cbn [nr nc vrow subv] in K1, K2. split; [|split; auto].
    + intros i j Hi Hj. rewrite Hv. cbn [reflm]. rewrite refl_l by lia.
      assert (Hs : sum m (fun l => conj (hvec Forward m (hst sm (vval v s)) l) * val C s l j) = larf_d Left sm (m - 1) n (vval (Slice.vsub v 1 m) s) (vval (vrow C 0 0 n) s) (val (subv C 1 m 0 n) s) j).
      { unfold larf_d. replace m with (S (m - 1)) at 1 by lia. rewrite sum_S_l. unfold hvec at 1, hpos at 1. cbn [Nat.eqb]. rewrite conj_1. unfold vval, val. cbn [ad vrow Slice.vsub subv].
        rewrite (sum_ext (m - 1) _ (fun l => conj (hst sm (fun i => mem s (ad v (1 + i) 0)) l) * mem s (ad C (1 + l) (0 + j)))); [cbn [Nat.add]; ring|].
        intros k Hk. unfold hvec, hpos. cbn [Nat.eqb Nat.add]. f_equal. f_equal. destruct sm; reflexivity. }
      rewrite Hs. destruct i as [|i].
      * specialize (K1 j ltac:(lia)). replace (n - 0)%nat with n in K1 by lia.
        unfold vval at 1, val at 1 in K1. cbn [ad vrow] in K1. unfold val at 1. cbn [Nat.add] in K1. rewrite K1. unfold hvec, hpos. cbn [Nat.eqb].
        unfold vval at 1, val at 1. cbn [ad vrow Nat.add]. match goal with |- context [mem s (ad C ?a ?b)] => change (mem s (ad C a b)) with (val C s a b) end. ring.
      * specialize (K2 i j ltac:(lia) ltac:(lia)). replace (n - 0)%nat with n in K2 by lia.
        unfold val at 1 in K2. cbn [ad subv] in K2. unfold val at 1. cbn [Nat.add] in K2. rewrite K2. unfold larf_F, hvec, hpos. cbn [Nat.eqb].
        unfold val at 1. cbn [ad subv Nat.add]. match goal with |- context [mem s (ad C ?a ?b)] => change (mem s (ad C a b)) with (val C s a b) end. replace (hst sm (vval (Slice.vsub v 1 m) s) i) with (hst sm (vval v s) (S i)) by (destruct sm; reflexivity). ring.
    + intros l Hl Hp. apply K3; auto; intros K; apply Hl; [eapply inview_vrow; [| |exact K]; lia|eapply inview_subv; [| |exact K]; lia].
  - apply wp_bind, wp_slrow; [lia|lia|lia|]. apply wp_bind, wp_slc; [lia|lia|lia|lia|]. apply wp_bind, wp_slvec; [lia|lia|].
    eapply wp_use.
    { apply (larf_work1_run Left sm).
      - split; cbn; lia.
      - split; cbn; lia.
      - apply vinj_vrow; auto; lia.
      - apply vinj_subv; auto; lia.
      - intros i j i' j' Hi Hj Hi' Hj' e. cbn in *. apply HI in e; lia.
      - eapply disj_inc; [| |exact HD]; intros l; [apply inview_vsub; lia|apply inview_vrow; lia].
      - eapply disj_inc; [| |exact HD]; intros l; [apply inview_vsub; lia|apply inview_subv; lia].
      - cbn [sel nr nc Slice.vsub subv vrow]. destruct (Nat.eqb_spec (m - 1 - 0) 1); first [reflexivity|apply negb_true_iff, Nat.eqb_neq; lia].
      - cbn [nr nc subv vrow]. destruct Hw as [Hw|[Hw|(W1 & W2 & W3)]]; [left; lia|right; left; lia|right; right].
        split; [replace (n - 0)%nat with n by lia; auto|]. split; [|split].
        + eapply disj_inc; [| |exact W2]; intros l; [auto|apply inview_vsub; lia].
        + eapply disj_inc; [| |exact W3]; intros l; [auto|apply inview_vrow; lia].
        + eapply disj_inc; [| |exact W3]; intros l; [auto|apply inview_subv; lia]. }
    intros r s' HL. cbv beta in HL. destruct HL as (K1 & K2 & K3 & K4).
    cbn [nr nc vrow subv] in K1, K2. split; [|split; auto].
    + intros i j Hi Hj. rewrite Hv. cbn [reflm]. rewrite refl_l by lia.
      assert (Hs : sum m (fun l => conj (hvec Backward m (hst sm (vval v s)) l) * val C s l j) = larf_d Left sm (m - 1) n (vval (Slice.vsub v 0 (m - 1)) s) (vval (vrow C (m - 1) 0 n) s) (val (subv C 0 (m - 1) 0 n) s) j).
      { unfold larf_d. replace m with (S (m - 1)) at 1 by lia. cbn [sum]. unfold hvec at 2, hpos at 1. rewrite Nat.eqb_refl, conj_1. unfold vval, val. cbn [ad vrow Slice.vsub subv].
        rewrite (sum_ext (m - 1) _ (fun l => conj (hst sm (fun i => mem s (ad v (0 + i) 0)) l) * mem s (ad C (0 + l) (0 + j)))); [cbn [Nat.add]; ring|].
        intros k Hk. unfold hvec, hpos. destruct (Nat.eqb_spec k (m - 1)); [lia|]. reflexivity. }
      rewrite Hs. destruct (Nat.eq_dec i (m - 1)) as [->|Hne].
      * specialize (K1 j ltac:(lia)). replace (m - 1 - 0)%nat with (m - 1)%nat in K1 by lia. replace (n - 0)%nat with n in K1 by lia.
        unfold vval at 1, val at 1 in K1. cbn [ad vrow] in K1. unfold val at 1. cbn [Nat.add] in K1. rewrite K1. unfold hvec, hpos. rewrite Nat.eqb_refl.
        unfold vval at 1, val at 1. cbn [ad vrow Nat.add]. match goal with |- context [mem s (ad C ?a ?b)] => change (mem s (ad C a b)) with (val C s a b) end. ring.
      * specialize (K2 i j ltac:(lia) ltac:(lia)). replace (m - 1 - 0)%nat with (m - 1)%nat in K2 by lia. replace (n - 0)%nat with n in K2 by lia.
        unfold val at 1 in K2. cbn [ad subv] in K2. unfold val at 1. cbn [Nat.add] in K2. rewrite K2. unfold larf_F, hvec, hpos. destruct (Nat.eqb_spec i (m - 1)); [lia|].
        unfold val at 1. cbn [ad subv Nat.add]. match goal with |- context [mem s (ad C ?a ?b)] => change (mem s (ad C a b)) with (val C s a b) end. replace (hst sm (vval (Slice.vsub v 0 (m - 1)) s) i) with (hst sm (vval v s) i) by (destruct sm; reflexivity). ring.
    + intros l Hl Hp. apply K3; auto; intros K; apply Hl; [eapply inview_vrow; [| |exact K]; lia|eapply inview_subv; [| |exact K]; lia].
  - apply wp_bind, wp_slcol; [lia|lia|lia|]. apply wp_bind, wp_slc; [lia|lia|lia|lia|]. apply wp_bind, wp_slvec; [lia|lia|].
    eapply wp_use.
    { apply (larf_work1_run Right sm).
      - split; cbn; lia.
      - split; cbn; lia.
      - apply vinj_vcol; auto; lia.
      - apply vinj_subv; auto; lia.
      - intros i j i' j' Hi Hj Hi' Hj' e. cbn in *. apply HI in e; lia.
      - eapply disj_inc; [| |exact HD]; intros l; [apply inview_vsub; lia|apply inview_vcol; lia].
      - eapply disj_inc; [| |exact HD]; intros l; [apply inview_vsub; lia|apply inview_subv; lia].
      - cbn [sel nr nc Slice.vsub subv vcol]. destruct (Nat.eqb_spec (n - 1) 0); first [reflexivity|apply negb_true_iff, Nat.eqb_neq; lia].
      - cbn [nr nc subv vcol]. destruct Hw as [Hw|[Hw|(W1 & W2 & W3)]]; [right; left; lia|left; lia|right; right].
        split; [replace (m - 0)%nat with m by lia; auto|]. split; [|split].
        + eapply disj_inc; [| |exact W2]; intros l; [auto|apply inview_vsub; lia].
        + eapply disj_inc; [| |exact W3]; intros l; [auto|apply inview_vcol; lia].
        + eapply disj_inc; [| |exact W3]; intros l; [auto|apply inview_subv; lia]. }
    intros r s' HL. cbv beta in HL. destruct HL as (K1 & K2 & K3 & K4).
    cbn [nr nc vcol subv] in K1, K2. split; [|split; auto].
    + intros i j Hi Hj. rewrite Hv. cbn [reflm]. rewrite refl_r by lia.
      assert (Hs : sum n (fun l => val C s i l * hvec Forward n (hst sm (vval v s)) l) = larf_d Right sm m (n - 1) (vval (Slice.vsub v 1 n) s) (vval (vcol C 0 m 0) s) (val (subv C 0 m 1 n) s) i).
      { unfold larf_d. replace n with (S (n - 1)) at 1 by lia. rewrite sum_S_l. unfold hvec at 1, hpos at 1. cbn [Nat.eqb]. unfold vval, val. cbn [ad vcol Slice.vsub subv].
        rewrite (sum_ext (n - 1) _ (fun l => mem s (ad C (0 + i) (1 + l)) * hst sm (fun i => mem s (ad v (1 + i) 0)) l)); [cbn [Nat.add]; ring|].
        intros k Hk. unfold hvec, hpos. cbn [Nat.eqb Nat.add]. f_equal. destruct sm; reflexivity. }
      rewrite Hs. destruct j as [|j].
      * specialize (K1 i ltac:(lia)). replace (m - 0)%nat with m in K1 by lia.
        unfold vval at 1, val at 1 in K1. cbn [ad vcol] in K1. unfold val at 1. cbn [Nat.add] in K1. rewrite K1. unfold hvec, hpos. cbn [Nat.eqb]. rewrite conj_1.
        unfold vval at 1, val at 1. cbn [ad vcol Nat.add]. match goal with |- context [mem s (ad C ?a ?b)] => change (mem s (ad C a b)) with (val C s a b) end. ring.
      * specialize (K2 i j ltac:(lia) ltac:(lia)). replace (m - 0)%nat with m in K2 by lia.
        unfold val at 1 in K2. cbn [ad subv] in K2. unfold val at 1. cbn [Nat.add] in K2. rewrite K2. unfold larf_F, hvec, hpos. cbn [Nat.eqb].
        unfold val at 1. cbn [ad subv Nat.add]. match goal with |- context [mem s (ad C ?a ?b)] => change (mem s (ad C a b)) with (val C s a b) end. replace (hst sm (vval (Slice.vsub v 1 n) s) j) with (hst sm (vval v s) (S j)) by (destruct sm; reflexivity). ring.
    + intros l Hl Hp. apply K3; auto; intros K; apply Hl; [eapply inview_vcol; [| |exact K]; lia|eapply inview_subv; [| |exact K]; lia].
  - apply wp_bind, wp_slcol; [lia|lia|lia|]. apply wp_bind, wp_slc; [lia|lia|lia|lia|]. apply wp_bind, wp_slvec; [lia|lia|].
    eapply wp_use.
    { apply (larf_work1_run Right sm).
      - split; cbn; lia.
      - split; cbn; lia.
      - apply vinj_vcol; auto; lia.
      - apply vinj_subv; auto; lia.
      - intros i j i' j' Hi Hj Hi' Hj' e. cbn in *. apply HI in e; lia.
      - eapply disj_inc; [| |exact HD]; intros l; [apply inview_vsub; lia|apply inview_vcol; lia].
      - eapply disj_inc; [| |exact HD]; intros l; [apply inview_vsub; lia|apply inview_subv; lia].
      - cbn [sel nr nc Slice.vsub subv vcol]. destruct (Nat.eqb_spec (n - 1 - 0) 0); first [reflexivity|apply negb_true_iff, Nat.eqb_neq; lia].
      - cbn [nr nc subv vcol]. destruct Hw as [Hw|[Hw|(W1 & W2 & W3)]]; [right; left; lia|left; lia|right; right].
        split; [replace (m - 0)%nat with m by lia; auto|]. split; [|split].
        + eapply disj_inc; [| |exact W2]; intros l; [auto|apply inview_vsub; lia].
        + eapply disj_inc; [| |exact W3]; intros l; [auto|apply inview_vcol; lia].
        + eapply disj_inc; [| |exact W3]; intros l; [auto|apply inview_subv; lia]. }
    intros r s' HL. cbv beta in HL. destruct HL as (K1 & K2 & K3 & K4).
    cbn [nr nc vcol subv] in K1, K2. split; [|split; auto].
    + intros i j Hi Hj. rewrite Hv. cbn [reflm]. rewrite refl_r by lia.
      assert (Hs : sum n (fun l => val C s i l * hvec Backward n (hst sm (vval v s)) l) = larf_d Right sm m (n - 1) (vval (Slice.vsub v 0 (n - 1)) s) (vval (vcol C 0 m (n - 1)) s) (val (subv C 0 m 0 (n - 1)) s) i).
      { unfold larf_d. replace n with (S (n - 1)) at 1 by lia. cbn [sum]. unfold hvec at 2, hpos at 1. rewrite Nat.eqb_refl. unfold vval, val. cbn [ad vcol Slice.vsub subv].
        rewrite (sum_ext (n - 1) _ (fun l => mem s (ad C (0 + i) (0 + l)) * hst sm (fun i => mem s (ad v (0 + i) 0)) l)); [cbn [Nat.add]; ring|].
        intros k Hk. unfold hvec, hpos. destruct (Nat.eqb_spec k (n - 1)); [lia|]. reflexivity. }
      rewrite Hs. destruct (Nat.eq_dec j (n - 1)) as [->|Hne].
      * specialize (K1 i ltac:(lia)). replace (n - 1 - 0)%nat with (n - 1)%nat in K1 by lia. replace (m - 0)%nat with m in K1 by lia.
        unfold vval at 1, val at 1 in K1. cbn [ad vcol] in K1. unfold val at 1. cbn [Nat.add] in K1. rewrite K1. unfold hvec, hpos. rewrite Nat.eqb_refl, conj_1.
        unfold vval at 1, val at 1. cbn [ad vcol Nat.add]. match goal with |- context [mem s (ad C ?a ?b)] => change (mem s (ad C a b)) with (val C s a b) end. ring.
      * specialize (K2 i j ltac:(lia) ltac:(lia)). replace (n - 1 - 0)%nat with (n - 1)%nat in K2 by lia. replace (m - 0)%nat with m in K2 by lia.
        unfold val at 1 in K2. cbn [ad subv] in K2. unfold val at 1. cbn [Nat.add] in K2. rewrite K2. unfold larf_F, hvec, hpos. destruct (Nat.eqb_spec j (n - 1)); [lia|].
        unfold val at 1. cbn [ad subv Nat.add]. match goal with |- context [mem s (ad C ?a ?b)] => change (mem s (ad C a b)) with (val C s a b) end. replace (hst sm (vval (Slice.vsub v 0 (n - 1)) s) j) with (hst sm (vval v s) j) by (destruct sm; reflexivity). ring.
    + intros l Hl Hp. apply K3; auto; intros K; apply Hl; [eapply inview_vcol; [| |exact K]; lia|eapply inview_subv; [| |exact K]; lia].
Qed.
End P.
