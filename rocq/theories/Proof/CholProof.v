(** Cholesky programs *)
From Coq Require Import Bool Arith ZArith Lia Ring Field.
From Verif.Core Require Import Scalar Prog View Rel Slice Loops.
From Verif.Spec Require Import LinAlg PosDef.
From Verif.Model Require Import Gemm Blas1 Blas2 Blas3 Cholesky.
From Verif.Proof Require Import SumLemmas OrdLemmas Tactics SliceTac GemmProof Blas1Proof Blas2Proof TrsmProof HerkProof ExactBlas CholMath.
Local Open Scope T_scope.

Section NoLaws.
Context {E : Env}.
Lemma conj_vec_run x s0 : nc x = 1%nat -> vinj x ->
  runs (conj_vec x) s0 (fun _ s' => eff x (fun i _ => conj (vval x s0 i)) s0 s').
Proof.
  intros Hx HI. unfold runs, conj_vec.
  loop (fun k s => eff x (fun i j => if (i <? k)%nat then conj (vval x s0 i) else vval x s0 i) s0 s) as i s.
  { apply (eff_ext _ _ _ _ _ (eff_refl x s0)). intros i j Hi Hj. replace j with 0%nat by lia. reflexivity. }
  { steps. effext. }
  { effext. }
Qed.
End NoLaws.

Section CholP.
Context {E : Env} {FL : FieldLaws E} {CL : ConjLaws E} {OL : ROrdLaws E} {QL : EqbLaws E}.
Add Field Tf : fth.

Lemma gemv1_run o alpha A x y s0 m n :
  (if notransb o then nr A = m /\ nc A = n else nr A = n /\ nc A = m) ->
  nc x = 1%nat -> nc y = 1%nat -> nr x = n -> nr y = m -> vinj y -> disj A y -> disj x y ->
  runs (gemv o alpha A x (Sc one) y) s0
    (fun _ s' => eff y (fun i _ => alpha * mvmul n (opm o (val A s0)) (vval x s0) i + vval y s0 i) s0 s').
Proof.
  intros HA Hx Hy Hxn Hyn HI HD1 HD2. destruct n as [|n].
  - unfold runs, gemv. cbv zeta.
    replace (if notransb o then nc A else nr A) with 0%nat by (destruct (notransb o); lia).
    replace (if notransb o then nr A else nc A) with m by (destruct (notransb o); lia). checks.
    rewrite orb_true_r. apply wp_ret. apply (eff_ext _ _ _ _ _ (eff_refl y s0)).
    intros i j Hi Hj. replace j with 0%nat by lia. unfold mvmul, vval. cbn [sum]. ring.
  - eapply wp_conseq; [apply (gemv_run o alpha A x (Sc one) y s0 m (S n)); auto; lia| |auto].
    intros ? s' He. apply veff_eff in He; auto. apply (eff_ext _ _ _ _ _ He). intros i j Hi Hj.
    rewrite gemv_val_exact. cbn [cval]. ring.
Qed.

(** result of a Cholesky routine on A started in s0 *)
Definition chol_out (u : uplo_t) (A : view) (s0 : state) (info : Z) (s' : state) : Prop :=
  exists F, eff A F s0 s' /\
    (forall i j, (i < nr A)%nat -> (j < nr A)%nat -> intri u i j = false -> F i j = val A s0 i j) /\
    ((info = 0%Z /\ pchol (nr A) (nr A) (lowf u F) (herm u (val A s0))) \/
     (exists k, (k < nr A)%nat /\ info = (Z.of_nat k + 1)%Z /\ chfail k (herm u (val A s0)))).
Definition chol_exn (u : uplo_t) (A : view) (s0 : state) (e : exn) (s' : state) : Prop :=
  throw_errors = true /\ exists k, (0 < k)%Z /\ e = RuntimeError k /\ chol_out u A s0 k s'.

(** before column j *)
Definition potf2_inv (u : uplo_t) (A : view) (s0 : state) (j : nat) (s : state) : Prop :=
  exists F, eff A F s0 s /\
    (forall i l, (i < nr A)%nat -> (l < nr A)%nat -> intri u i l = false \/ (j <= i /\ j <= l)%nat -> F i l = val A s0 i l) /\
    pchol j (nr A) (lowf u F) (herm u (val A s0)).

Lemma potf2_fail u A s0 s F j d : u = Upper \/ u = Lower -> (j < nr A)%nat -> eff A F s0 s ->
  (forall i l, (i < nr A)%nat -> (l < nr A)%nat -> intri u i l = false \/ (j <= i /\ j <= l)%nat -> F i l = val A s0 i l) ->
  pchol j (nr A) (lowf u F) (herm u (val A s0)) ->
  d = herm u (val A s0) j j - sum j (fun l => lowf u F j l * conj (lowf u F j l)) -> ltb 0 d = false ->
  chol_out u A s0 (Z.of_nat j + 1) s.
Proof.
  intros Hu Hj He Hf HP -> Hd. exists F. split; [exact He|]. split; [auto|]. right. exists j. repeat split; auto.
  exists (lowf u F). split; auto. eapply pchol_le; [exact HP|lia|lia].
Qed.
Lemma wp_error_chol u A s0 s j (Q : option Z -> state -> Prop) : chol_out u A s0 (Z.of_nat j + 1) s ->
  (throw_errors = false -> Q (Some (Z.of_nat j + 1)%Z) s) ->
  wp (error (Z.of_nat j + 1);; ret (Some (Z.of_nat j + 1)%Z)) Q (chol_exn u A s0) s.
Proof.
  intros H HQ. apply wp_bind. unfold error. destruct throw_errors eqn:et.
  - apply wp_throw. split; auto. exists (Z.of_nat j + 1)%Z. repeat split; auto; lia.
  - apply wp_ret. apply wp_ret. apply HQ; auto.
Qed.
(** one more column *)
Lemma pchol_step u A s0 F F' j d : u = Upper \/ u = Lower -> (j < nr A)%nat ->
  pchol j (nr A) (lowf u F) (herm u (val A s0)) ->
  d = herm u (val A s0) j j - sum j (fun l => lowf u F j l * conj (lowf u F j l)) -> ltb 0 d = true ->
  (forall i l, (l <= i < nr A)%nat -> (l < j)%nat -> lowf u F' i l = lowf u F i l) ->
  lowf u F' j j = sqrtv d ->
  (forall i, (j < i < nr A)%nat -> lowf u F' i j = (herm u (val A s0) i j - sum j (fun l => lowf u F i l * conj (lowf u F j l))) / sqrtv d) ->
  pchol (S j) (nr A) (lowf u F') (herm u (val A s0)).
Proof.
  intros Hu Hj HP Hd Hpos Hold Hdiag Hcol.
  assert (Hr : conj d = d).
  { rewrite Hd. apply real_sub; [rewrite herm_diag; apply re_real|apply real_sum; intros; apply real_norm]. }
  destruct (sqrt_pos d Hr Hpos) as (S1 & S2 & S3). assert (N := pos_neq_0 _ S3).
  intros j' Hj'. destruct (Nat.eq_dec j' j) as [->|Hne].
  - rewrite Hdiag. repeat split; auto. intros i Hi. cbn [sum]. rewrite Hdiag, S1.
    rewrite (sum_ext j _ (fun l => lowf u F i l * conj (lowf u F j l))) by (intros; rewrite !Hold by lia; auto).
    destruct (Nat.eq_dec i j) as [->|Hij].
    + rewrite Hdiag, S2, Hd. ring.
    + rewrite Hcol by lia. field; auto.
  - destruct (HP j' ltac:(lia)) as (K1 & K2 & K3). rewrite !Hold by lia. repeat split; auto.
    intros i Hi. rewrite K3 by auto. apply sum_ext. intros l Hl. rewrite !Hold by lia. auto.
Qed.

Lemma dot_self_run x s0 (f : nat -> T) : nc x = 1%nat -> (forall i, (i < nr x)%nat -> f i * conj (f i) = conj (vval x s0 i) * vval x s0 i) ->
  runs (dot x x) s0 (fun r s' => re r = sum (nr x) (fun i => f i * conj (f i)) /\ s' = s0).
Proof.
  intros Hx Hf. eapply wp_conseq; [apply dot_run; auto| |auto]. intros r s' [-> ->]. split; auto.
  rewrite (sum_ext _ _ (fun i => f i * conj (f i))) by (intros; symmetry; auto).
  apply re_idem. apply real_sum. intros; apply real_norm.
Qed.

Lemma potf2_step_run u A s0 j s : u = Upper \/ u = Lower -> nc A = nr A -> vinj A -> (j < nr A)%nat ->
  potf2_inv u A s0 j s ->
  wp (potf2_step u A j) (fun r s' => match r with None => potf2_inv u A s0 (S j) s' | Some k => (0 < k)%Z /\ throw_errors = false /\ chol_out u A s0 k s' end)
     (chol_exn u A s0) s.
Proof.
  intros Hu HC HI Hj (F & He & Hf & HP). set (n := nr A) in *.
  set (d := herm u (val A s0) j j - sum j (fun l => lowf u F j l * conj (lowf u F j l))).
  assert (Hf1 : forall i l, (i < n)%nat -> (l < n)%nat -> intri u i l = false \/ (S j <= i /\ S j <= l)%nat -> F i l = val A s0 i l)
    by (intros i l Hi Hl [Hx|Hx]; apply Hf; auto; right; lia).
  destruct Hu; subst u; unfold potf2_step; change (nr A) with n; cbv zeta.
  - apply wp_bind. slces. apply wp_bind. apply (wp_rd_eff _ _ _ _ _ _ _ _ He); [lia|lia|].
    apply wp_bind. eapply wp_use.
    { apply (dot_self_run (vcol A 0 j j) s (fun l => lowf Upper F j l)); [reflexivity|].
      cbn [nr vcol]. intros i Hi. unfold vval. erewrite val_vcol by (eauto; cbn; lia). cbn [lowf]. rewrite conj_conj. cbn. ring. }
    intros r s' [Hr ->]. rewrite Hr. cbn [nr vcol]. rewrite Nat.sub_0_r.
    replace (re (F j j)) with (herm Upper (val A s0) j j) by (rewrite herm_diag, Hf by lia; auto). change (herm Upper (val A s0) j j - sum j (fun l => lowf Upper F j l * conj (lowf Upper F j l))) with d.
    destruct (ltb 0 d) eqn:Hd.
    2:{ assert (Ho : chol_out Upper A s0 (Z.of_nat j + 1) s) by (eapply potf2_fail; eauto).
        apply wp_error_chol; auto. intros et; repeat split; auto; lia. }
    apply wp_bind. apply (wp_wr_eff _ _ _ _ _ _ _ _ _ He HI); [lia|lia|]. intros s1 He1.
    destruct (Nat.ltb_spec (S j) n).
    2:{ apply wp_ret. exists (fupd F j j (sqrtv d)). split; [exact He1|]. split.
        - intros i l Hi Hl Hil. unfold fupd. destruct (Nat.eqb_spec i j); destruct (Nat.eqb_spec l j); cbn [andb]; try (apply Hf1; auto; lia).
          subst. cbn in Hil. rewrite Nat.leb_refl in Hil. destruct Hil; [discriminate|lia].
        - assert (Hr' : conj d = d) by (apply real_sub; [rewrite herm_diag; apply re_real|apply real_sum; intros; apply real_norm]).
          destruct (sqrt_pos d Hr' Hd) as (S1 & _).
          apply (pchol_step Upper A s0 F) with d; auto.
          + intros i l Hi Hl. cbn. unfold fupd. cases.
          + cbn. unfold fupd. rewrite Nat.eqb_refl. cbn [andb]. auto.
          + intros i Hi; change (nr A) with n in Hi; lia. }
    apply wp_bind. slces. apply wp_bind. slces.
    assert (Icol : vinj (vcol A 0 j j)) by (apply vinj_vcol; auto; lia).
    assert (Irow : vinj (vrow A j (S j) n)) by (apply vinj_vrow; auto; lia).
    apply wp_bind. eapply wp_use; [apply conj_vec_run; [reflexivity|exact Icol]|]. intros ? s2 K2.
    assert (K2' := eff_vcol A 0 j j _ _ _ _ _ HI ltac:(lia) ltac:(lia) He1 K2). clear K2. rename K2' into K2.
    apply wp_bind. eapply wp_use.
    { apply (gemv1_run Trans (- (1)) (subv A 0 j (S j) n) (vcol A 0 j j) (vrow A j (S j) n) s2 (n - S j) j); cbn; auto; try lia.
      - vdisj.
      - vdisj. }
    intros ? s3 K3. assert (K3' := eff_vrow A j (S j) n _ _ _ _ _ HI ltac:(lia) ltac:(lia) K2 K3).
    apply wp_bind. eapply wp_use; [apply conj_vec_run; [reflexivity|exact Icol]|]. intros ? s4 K4.
    assert (K4' := eff_vcol A 0 j j _ _ _ _ _ HI ltac:(lia) ltac:(lia) K3' K4).
    apply wp_bind. eapply wp_use; [apply scal_run; [reflexivity|exact Irow]|]. intros ? s5 K5.
    apply veff_eff in K5; [|reflexivity].
    assert (K5' := eff_vrow A j (S j) n _ _ _ _ _ HI ltac:(lia) ltac:(lia) K4' K5).
    apply wp_ret.
    assert (K : eff A (fun i l => if (i =? j)%nat && (j <? l)%nat then
         (F j l - sum j (fun k => F k l * conj (F k j))) * (1 / sqrtv d) else fupd F j j (sqrtv d) i l) s0 s5).
    { apply (eff_ext _ _ _ _ _ K5'). intros i l Hi Hl. clear - K2 K3 K4 K4' K5 K3' Hi Hl H Hj He1 n HC CL FL.
      assert (V1 : forall i, (i < j)%nat -> vval (vcol A 0 j j) s1 i = F i j).
      { intros a Ha. unfold vval. erewrite val_vcol by (try exact He1; cbn; lia). cbn. unfold fupd. cases. }
      destruct (inbox_spec j (S j) (S j) n i l) as [[Ha Hb]|Hn].
      - assert (i = j) as -> by lia. rewrite Nat.eqb_refl, (proj2 (Nat.ltb_lt j l)) by lia. cbn [andb]. f_equal.
        unfold vval. erewrite val_vrow by (try exact K4'; cbn; lia). cbn [nr nc vrow].
        ibx.
        ibx.
        unfold mvmul. unfold opm. unfold vval.
        replace (val (vrow A j (S j) n) s2 (S j + (l - S j) - S j) 0) with (F j l).
        2:{ erewrite val_vrow by (try exact K2; cbn; lia). ibx.
            unfold fupd. cases. f_equal. lia. }
        rewrite (sum_ext j _ (fun k => F k l * conj (F k j))); [ring|]. intros k Hk. f_equal.
        + erewrite val_sub by (try exact K2; cbn; lia). cbn [Nat.add].
          ibx. unfold fupd. cases. f_equal. lia.
        + erewrite val_vcol by (try exact K2; cbn; lia). cbn [Nat.add].
          ibx. rewrite V1 by lia. do 2 f_equal. lia.
      - replace ((i =? j) && (j <? l))%nat with false.
        2:{ symmetry. destruct (Nat.eqb_spec i j); cbn [andb]; auto. apply Nat.ltb_ge. lia. }
        destruct (inbox_spec 0 j j (S j) i l) as [[Ha Hb]|Hn'].
        + assert (l = j) as -> by lia. unfold vval. erewrite val_vcol by (try exact K3'; cbn; lia). cbn [Nat.add].
          ibx.
          ibx.
          change (val (vcol A 0 j j) s1 (i - 0 - 0) 0) with (vval (vcol A 0 j j) s1 (i - 0 - 0)).
          rewrite V1 by lia. rewrite conj_conj. unfold fupd. cases. f_equal; lia.
        + ibx. ibx. reflexivity. }
    clear - K Hj He HP Hf Hf1 HC H Hd n CL FL OL QL.
    eexists. split; [exact K|]. split.
    + intros i l Hi Hl Hil. destruct (Nat.eqb_spec i j); destruct (Nat.ltb_spec j l); cbn [andb].
      * subst. cbn in Hil. rewrite (proj2 (Nat.leb_le j l)) in Hil by lia. destruct Hil; [discriminate|lia].
      * unfold fupd. destruct (Nat.eqb_spec i j); destruct (Nat.eqb_spec l j); cbn [andb]; try (apply Hf1; auto; lia).
        subst. cbn in Hil. rewrite Nat.leb_refl in Hil. destruct Hil; [discriminate|lia].
      * unfold fupd. rewrite (proj2 (Nat.eqb_neq i j)) by lia. cbn [andb]. apply Hf1; auto; lia.
      * unfold fupd. rewrite (proj2 (Nat.eqb_neq i j)) by lia. cbn [andb]. apply Hf1; auto; lia.
    + assert (Hr' : conj d = d) by (apply real_sub; [rewrite herm_diag; apply re_real|apply real_sum; intros; apply real_norm]).
      destruct (sqrt_pos d Hr' Hd) as (S1 & S2 & S3). assert (N := pos_neq_0 _ S3).
      apply (pchol_step Upper A s0 F) with d; auto; cbn [lowf].
      * intros i l Hi Hl. rewrite (proj2 (Nat.eqb_neq l j)) by lia. cbn [andb]. unfold fupd. rewrite (proj2 (Nat.eqb_neq l j)) by lia. auto.
      * rewrite Nat.ltb_irrefl, andb_false_r. unfold fupd. rewrite Nat.eqb_refl. cbn [andb]. auto.
      * intros i Hi. rewrite Nat.eqb_refl, (proj2 (Nat.ltb_lt j i)) by lia. cbn [andb].
        rewrite herm_low by (auto; lia). cbn [lowf]. rewrite <- (Hf j i) by (change (nr A) with n; auto; lia).
        rewrite conj_mul, conj_sub, sum_conj, (conj_div 1), conj_1, S1 by auto.
        rewrite (sum_ext j (fun k => conj (F k i * conj (F k j))) (fun l => conj (F l i) * conj (conj (F l j)))) by (intros; rewrite conj_mul; auto).
        field; auto.
  - apply wp_bind. slces. apply wp_bind. apply (wp_rd_eff _ _ _ _ _ _ _ _ He); [lia|lia|].
    apply wp_bind. eapply wp_use.
    { apply (dot_self_run (vrow A j 0 j) s (fun l => lowf Lower F j l)); [reflexivity|].
      cbn [nr vrow]. intros i Hi. unfold vval. erewrite val_vrow by (eauto; cbn; lia). cbn [lowf]. cbn. ring. }
    intros r s' [Hr ->]. rewrite Hr. cbn [nr vrow]. rewrite Nat.sub_0_r.
    replace (re (F j j)) with (herm Lower (val A s0) j j) by (rewrite herm_diag, Hf by lia; auto). change (herm Lower (val A s0) j j - sum j (fun l => lowf Lower F j l * conj (lowf Lower F j l))) with d.
    destruct (ltb 0 d) eqn:Hd.
    2:{ assert (Ho : chol_out Lower A s0 (Z.of_nat j + 1) s) by (eapply potf2_fail; eauto).
        apply wp_error_chol; auto. intros et; repeat split; auto; lia. }
    apply wp_bind. apply (wp_wr_eff _ _ _ _ _ _ _ _ _ He HI); [lia|lia|]. intros s1 He1.
    destruct (Nat.ltb_spec (S j) n).
    2:{ apply wp_ret. exists (fupd F j j (sqrtv d)). split; [exact He1|]. split.
        - intros i l Hi Hl Hil. unfold fupd. destruct (Nat.eqb_spec i j); destruct (Nat.eqb_spec l j); cbn [andb]; try (apply Hf1; auto; lia).
          subst. cbn in Hil. rewrite Nat.leb_refl in Hil. destruct Hil; [discriminate|lia].
        - apply (pchol_step Lower A s0 F) with d; auto.
          + intros i l Hi Hl. cbn. unfold fupd. cases.
          + cbn. unfold fupd. rewrite Nat.eqb_refl. cbn [andb]. auto.
          + intros i Hi; change (nr A) with n in Hi; lia. }
    apply wp_bind. slces. apply wp_bind. slces.
    assert (Irow : vinj (vrow A j 0 j)) by (apply vinj_vrow; auto; lia).
    assert (Icol : vinj (vcol A (S j) n j)) by (apply vinj_vcol; auto; lia).
    apply wp_bind. eapply wp_use; [apply conj_vec_run; [reflexivity|exact Irow]|]. intros ? s2 K2.
    assert (K2' := eff_vrow A j 0 j _ _ _ _ _ HI ltac:(lia) ltac:(lia) He1 K2). clear K2. rename K2' into K2.
    apply wp_bind. eapply wp_use.
    { apply (gemv1_run NoTrans (- (1)) (subv A (S j) n 0 j) (vrow A j 0 j) (vcol A (S j) n j) s2 (n - S j) j); cbn; auto; try lia.
      - vdisj.
      - vdisj. }
    intros ? s3 K3. assert (K3' := eff_vcol A (S j) n j _ _ _ _ _ HI ltac:(lia) ltac:(lia) K2 K3).
    apply wp_bind. eapply wp_use; [apply conj_vec_run; [reflexivity|exact Irow]|]. intros ? s4 K4.
    assert (K4' := eff_vrow A j 0 j _ _ _ _ _ HI ltac:(lia) ltac:(lia) K3' K4).
    apply wp_bind. eapply wp_use; [apply scal_run; [reflexivity|exact Icol]|]. intros ? s5 K5.
    apply veff_eff in K5; [|reflexivity].
    assert (K5' := eff_vcol A (S j) n j _ _ _ _ _ HI ltac:(lia) ltac:(lia) K4' K5).
    apply wp_ret.
    assert (K : eff A (fun i l => if (l =? j)%nat && (j <? i)%nat then
         (F i j - sum j (fun k => F i k * conj (F j k))) * (1 / sqrtv d) else fupd F j j (sqrtv d) i l) s0 s5).
    { apply (eff_ext _ _ _ _ _ K5'). intros i l Hi Hl. clear - K2 K3 K4 K4' K5 K3' Hi Hl H Hj He1 n HC CL FL.
      assert (V1 : forall i, (i < j)%nat -> vval (vrow A j 0 j) s1 i = F j i).
      { intros a Ha. unfold vval. erewrite val_vrow by (try exact He1; cbn; lia). cbn. unfold fupd. cases. }
      destruct (inbox_spec (S j) n j (S j) i l) as [[Ha Hb]|Hn].
      - assert (l = j) as -> by lia. rewrite Nat.eqb_refl, (proj2 (Nat.ltb_lt j i)) by lia. cbn [andb]. f_equal.
        unfold vval. erewrite val_vcol by (try exact K4'; cbn; lia). cbn [nr nc vcol].
        ibx.
        ibx.
        unfold mvmul. unfold opm. unfold vval.
        replace (val (vcol A (S j) n j) s2 (S j + (i - S j) - S j) 0) with (F i j).
        2:{ erewrite val_vcol by (try exact K2; cbn; lia). ibx.
            unfold fupd. cases. f_equal. lia. }
        rewrite (sum_ext j _ (fun k => F i k * conj (F j k))); [ring|]. intros k Hk. f_equal.
        + erewrite val_sub by (try exact K2; cbn; lia). cbn [Nat.add].
          ibx. unfold fupd. cases. f_equal. lia.
        + erewrite val_vrow by (try exact K2; cbn; lia). cbn [Nat.add].
          ibx. rewrite V1 by lia. do 2 f_equal. lia.
      - replace ((l =? j) && (j <? i))%nat with false.
        2:{ symmetry. destruct (Nat.eqb_spec l j); cbn [andb]; auto. apply Nat.ltb_ge. lia. }
        destruct (inbox_spec j (S j) 0 j i l) as [[Ha Hb]|Hn'].
        + assert (i = j) as -> by lia. unfold vval. erewrite val_vrow by (try exact K3'; cbn; lia). cbn [Nat.add].
          ibx.
          ibx.
          change (val (vrow A j 0 j) s1 (l - 0 - 0) 0) with (vval (vrow A j 0 j) s1 (l - 0 - 0)).
          rewrite V1 by lia. rewrite conj_conj. unfold fupd. cases. f_equal; lia.
        + ibx. ibx. reflexivity. }
    clear - K Hj He HP Hf Hf1 HC H Hd n CL FL OL QL.
    eexists. split; [exact K|]. split.
    + intros i l Hi Hl Hil. destruct (Nat.eqb_spec l j); destruct (Nat.ltb_spec j i); cbn [andb].
      * subst. cbn in Hil. rewrite (proj2 (Nat.leb_le j i)) in Hil by lia. destruct Hil; [discriminate|lia].
      * unfold fupd. destruct (Nat.eqb_spec i j); destruct (Nat.eqb_spec l j); cbn [andb]; try (apply Hf1; auto; lia).
        subst. cbn in Hil. rewrite Nat.leb_refl in Hil. destruct Hil; [discriminate|lia].
      * unfold fupd. rewrite (proj2 (Nat.eqb_neq l j)), andb_false_r by lia. apply Hf1; auto; lia.
      * unfold fupd. rewrite (proj2 (Nat.eqb_neq l j)), andb_false_r by lia. apply Hf1; auto; lia.
    + assert (Hr' : conj d = d) by (apply real_sub; [rewrite herm_diag; apply re_real|apply real_sum; intros; apply real_norm]).
      destruct (sqrt_pos d Hr' Hd) as (S1 & S2 & S3). assert (N := pos_neq_0 _ S3).
      apply (pchol_step Lower A s0 F) with d; auto; cbn [lowf].
      * intros i l Hi Hl. rewrite (proj2 (Nat.eqb_neq l j)) by lia. cbn [andb]. unfold fupd. rewrite (proj2 (Nat.eqb_neq l j)) by lia. rewrite andb_false_r. auto.
      * rewrite Nat.ltb_irrefl, andb_false_r. unfold fupd. rewrite Nat.eqb_refl. cbn [andb]. auto.
      * intros i Hi. rewrite Nat.eqb_refl, (proj2 (Nat.ltb_lt j i)) by lia. cbn [andb].
        rewrite herm_low by (auto; lia). cbn [lowf]. rewrite <- (Hf i j) by (change (nr A) with n; auto; lia).
        field; auto.
Qed.

(** [ec] tells whether failures are reported by exceptions (when enabled) *)
Definition chol_ret (u : uplo_t) (A : view) (s0 : state) (ec : bool) (info : Z) (s' : state) : Prop :=
  (0 <= info)%Z /\ (ec = true -> throw_errors = true -> info = 0%Z) /\ chol_out u A s0 info s'.

Lemma potf2_run u A s0 : u = Upper \/ u = Lower -> nc A = nr A -> vinj A ->
  wp (potf2 u A) (chol_ret u A s0 true) (chol_exn u A s0) s0.
Proof.
  intros Hu HC HI. unfold potf2. apply wp_bind, wp_check; [destruct Hu; subst; auto|].
  apply wp_bind, wp_check; [apply Nat.eqb_eq; auto|].
  apply wp_bind.
  apply (wp_forret _ (potf2_inv u A s0)); [lia| |intros j s' Hj Hi'; eapply wp_conseq; [apply potf2_step_run; eauto; lia| |auto]; intros [k|] s'' Hk; auto; apply wp_ret; cbn [info_of]; destruct Hk as (K1 & K2 & K3); split; [lia|]; split; [congruence|auto]|].
  - exists (val A s0). split; [apply eff_refl|]. split; [auto|]. intros j Hj; lia.
  - intros s' (F & He & Hf & HP). apply wp_ret. split; [reflexivity|]. split; auto. exists F. split; auto.
Qed.
End CholP.
