(** Blocked and recursive Cholesky *)
From Coq Require Import Bool Arith ZArith Lia Ring Field.
From Verif.Core Require Import Scalar Prog View Rel Slice Loops.
From Verif.Spec Require Import LinAlg PosDef.
From Verif.Model Require Import Gemm Blas1 Blas2 Blas3 Cholesky.
From Verif.Proof Require Import SumLemmas OrdLemmas Tactics SliceTac TrsmProof CholMath CholProof LowView.
Local Open Scope T_scope.

Section Potrf.
Context {E : Env} {FL : FieldLaws E} {CL : ConjLaws E} {OL : ROrdLaws E} {QL : EqbLaws E}.
Add Field Tf : fth.
Implicit Types (L H : mat).

Lemma chol_combine n p k m L2 L4 H Sc : pchol p n L2 H -> (forall i l, (l <= i < m)%nat -> Sc i l = schur p L2 H i l) ->
  (p + m <= n)%nat -> (k <= m)%nat -> pchol k m (shift p L4) Sc -> (forall i l, (l < p)%nat -> (l <= i < n)%nat -> L4 i l = L2 i l) ->
  pchol (p + k) (p + m) L4 H.
Proof.
  intros HP HS Hn Hk HP4 He.
  apply (pchol_ext _ _ (glue p L2 (shift p L4)) _ H H); auto; [|lia|].
  - apply pchol_app with n; auto. eapply pchol_ext; [exact HP4|lia|auto|]. intros; apply HS; lia.
  - intros i l Hi Hl. unfold glue, shift. destruct (Nat.ltb_spec l p); [symmetry; apply He; lia|]. f_equal; lia.
Qed.
Lemma chfail_combine n p k L2 H Sc : pchol p n L2 H -> (forall i l, (l <= i <= k)%nat -> Sc i l = schur p L2 H i l) ->
  (p + k < n)%nat -> chfail k Sc -> chfail (p + k) H.
Proof. intros HP HS Hn HF. apply chfail_app with n L2; auto. eapply chfail_ext; [exact HF|auto]. Qed.
Lemma pchol_nz k n L H l : pchol k n L H -> (l < k)%nat -> L l l <> 0.
Proof. intros HP Hl. apply pos_neq_0. apply (HP l Hl). Qed.
Lemma hl_real_diff L i l (f : nat -> T) m : (forall k, (k < m)%nat -> i = l -> conj (f k) = f k) ->
  (fun x => if (i =? l)%nat then re x else x) (hl L i l - sum m f) = hl L i l - sum m f.
Proof.
  intros Hf. cbv beta. unfold hl. destruct (Nat.eqb_spec i l) as [e|]; auto.
  apply re_idem. apply real_sub; [apply re_real|apply real_sum; intros; auto].
Qed.

Lemma potrf2_f_run u : u = Upper \/ u = Lower -> forall fuel ec A s0, nc A = nr A -> vinj A -> (nr A < fuel)%nat ->
  wp (potrf2_f fuel ec u A) (chol_ret u A s0 ec)
     (fun e s' => ec = true /\ chol_exn u A s0 e s') s0.
Proof.
  intros Hu. induction fuel as [|fu IH]; intros ec A s0 HC HI Hf; [lia|]. cbn [potrf2_f].
  apply wp_bind, wp_check; [destruct Hu; subst; auto|]. apply wp_bind, wp_check; [apply Nat.eqb_eq; auto|].
  remember (nr A) as n eqn:En. assert (HC' : nc A = nr A) by lia. cbv zeta.
  assert (Herr : forall k s', (0 < k)%Z -> chol_out u A s0 k s' ->
    wp (error_if ec k;; ret k) (chol_ret u A s0 ec) (fun e s' => ec = true /\ chol_exn u A s0 e s') s').
  { intros k s' Hk Ho. apply wp_bind. unfold error_if, error. destruct ec; [destruct throw_errors eqn:et|].
    - apply wp_throw. split; auto. split; auto. exists k. auto.
    - do 2 apply wp_ret. split; [lia|]. split; [congruence|auto].
    - do 2 apply wp_ret. split; [lia|]. split; [congruence|auto]. }
  assert (Hok : forall s', chol_out u A s0 0 s' -> chol_ret u A s0 ec 0 s').
  { intros s' Ho. split; [lia|]. split; auto. }
  destruct (Nat.eqb_spec n 0) as [H0|H0].
  { apply wp_ret. apply Hok. exists (val A s0). split; [apply eff_refl|]. split; auto. left. split; auto.
    rewrite <- ?En. rewrite H0. intros j Hj; lia. }
  destruct (Nat.eqb_spec n 1) as [H1|H1].
  { apply wp_bind. apply wp_rd; [lia|lia|].
    set (d := re (val A s0 0 0)). assert (Hr : conj d = d) by apply re_real.
    destruct (ltb 0 d) eqn:Hd.
    - apply wp_bind. apply (wp_wr_eff _ _ _ _ _ _ _ _ _ (eff_refl A s0) HI); [lia|lia|]. intros s1 He1. apply wp_ret. apply Hok.
      eexists. split; [exact He1|]. split.
      + intros i j Hi Hj Hij. exfalso. rewrite <- ?En. assert (i = 0 /\ j = 0)%nat as [-> ->] by lia. destruct u; discriminate.
      + left. split; auto. rewrite <- ?En. rewrite H1. intros j Hj. replace j with 0%nat by lia.
        destruct (sqrt_pos d Hr Hd) as (S1 & S2 & S3).
        assert (e : lowf u (fupd (val A s0) 0 0 (sqrtv d)) 0%nat 0%nat = sqrtv d) by (unfold lowf, fupd; cbn; destruct u; auto).
        rewrite !e. repeat split; auto. intros i Hi. replace i with 0%nat by lia. cbn [sum]. rewrite !e, S1, S2, herm_diag. unfold d. ring.
    - apply Herr; [lia|]. exists (val A s0). split; [apply eff_refl|]. split; auto. right. exists 0%nat. rewrite <- ?En.
      repeat split; auto; try lia. exists (val A s0). split; [intros j Hj; lia|]. cbn [sum]. rewrite herm_diag.
      change (re (val A s0 0 0)) with d. replace (d - 0) with d by ring. auto. }
  set (n1 := Nat.div2 n).
  assert (Hn1 : (0 < n1 < n)%nat).
  { unfold n1. clear - H0 H1. split; [destruct n as [|[|]]; cbn; lia|apply Nat.lt_div2; lia]. }
  set (L0 := lowf u (val A s0)).
  apply wp_bind, wp_slc; [lia..|]. apply wp_bind, wp_slc; [lia..|].
  apply wp_bind. eapply wp_conseq; [apply (IH false (subv A 0 n1 0 n1) s0); cbn [nr nc subv]; [lia|apply vinj_subv; auto; lia|lia]| |intros ? ? [K _]; discriminate].
  intros info s1 (Hinfo & _ & Ho).
  destruct (chol_sub u A L0 s0 s0 0 n1 info s1 Hu HI ltac:(lia) ltac:(lia) ltac:(lia) (leff_refl _ _ _) Ho) as (L1 & E1 & F1 & R1).
  rewrite Nat.sub_0_r in R1.
  assert (HF : forall k, chfail k (shift 0 (hl L0)) -> chfail k (hl L0)) by (intros k Hk; exact Hk).
  destruct R1 as [[-> P1]|(k & Hk & -> & Hfail)].
  2:{ replace (Z.of_nat k + 1 =? 0)%Z with false by (symmetry; apply Z.eqb_neq; lia). cbn [negb].
      apply Herr; [lia|]. apply chol_whole with L1; auto; [intros; apply F1; lia|]. right. exists k. rewrite <- ?En. repeat split; auto; lia. }
  cbn [Z.eqb negb]. change (pchol n1 n1 L1 (hl L0)) in P1.
  apply wp_bind.
  assert (Hpr : wp (trsm_low u (subv A 0 n1 0 n1) (lrows u A n1 n 0 n1);; herk_low u (lrows u A n1 n 0 n1) (subv A n1 n n1 n))
     (fun _ s' => exists L2 L3, leff u A L3 s0 s' /\ pchol n1 n L2 (hl L0) /\
        (forall i l, (i < n)%nat -> (l < n)%nat -> ~ (n1 <= l <= i)%nat -> L3 i l = L2 i l) /\
        (forall i l, (i < l < n)%nat -> L2 i l = L0 i l) /\
        forall i l, (l <= i < n - n1)%nat -> shift n1 (hl L3) i l = schur n1 L2 (hl L0) i l) (fun e s' => ec = true /\ chol_exn u A s0 e s') s1).
  { apply wp_bind. eapply wp_conseq; [apply (trsm_low_run u A L1 s0 s1 0 n1 n) with (X := fun e s' => ec = true /\ chol_exn u A s0 e s'); auto; [lia..|] | |auto].
    { intros l Hl. eapply pchol_nz; [exact P1|lia]. }
    intros ? s2 (L2 & E2 & F2 & R2). eapply wp_conseq; [apply (herk_low_run u A L2 s0 s2 n1 n 0 n1) with (X := fun e s' => ec = true /\ chol_exn u A s0 e s'); auto; lia| |auto].
    intros ? s3 E3. exists L2. eexists. split; [exact E3|]. split; [|split; [|split]].
    - apply pchol_panel.
      + eapply pchol_ext; [exact P1|lia| |auto]. intros i l Hi Hl. symmetry. apply F2; lia.
      + intros i l Hi Hl. assert (e := R2 i l ltac:(lia) ltac:(lia)). rewrite Nat.sub_0_r in e. cbn [Nat.add] in e.
        assert (eL : L1 i l = hl L0 i l). { unfold hl. rewrite (proj2 (Nat.eqb_neq i l)) by lia. apply F1; lia. }
        rewrite <- eL, <- e. apply sum_ext. intros k Hk. f_equal. f_equal. apply F2; lia.
    - intros i l Hi Hl Hn. cbv beta. destruct (inbox_spec n1 n n1 n i l); cbn [andb]; auto. rewrite (proj2 (Nat.leb_gt l i)) by lia. auto.
    - intros i l Hi. rewrite F2 by (lia). apply F1; lia.
    - intros i l Hi. unfold shift, schur. clear a. set (a := (n1 + i)%nat). set (b := (n1 + l)%nat).
      assert (e2 : L2 a b = L0 a b) by (rewrite F2 by (lia); apply F1; lia).
      unfold hl at 1. destruct (inbox_spec n1 n n1 n a b); [|lia]. rewrite (proj2 (Nat.leb_le b a)) by lia. cbn [andb].
      rewrite Nat.sub_0_r. cbn [Nat.add].
      assert (eh : hl L2 a b = hl L0 a b) by (apply hl_ext; auto).
      transitivity (hl L2 a b - sum n1 (fun k => L2 a k * conj (L2 b k))); [|rewrite eh; auto].
      apply (hl_real_diff L2 a b (fun k => L2 a k * conj (L2 b k)) n1). intros k Hk ->. apply real_norm. }
  apply (wp_conseq _ _ (fun _ s' => exists L2 L3, leff u A L3 s0 s' /\ pchol n1 n L2 (hl L0) /\
        (forall i l, (i < n)%nat -> (l < n)%nat -> ~ (n1 <= l <= i)%nat -> L3 i l = L2 i l) /\
        (forall i l, (i < l < n)%nat -> L2 i l = L0 i l) /\
        forall i l, (l <= i < n - n1)%nat -> shift n1 (hl L3) i l = schur n1 L2 (hl L0) i l) _ (fun e s' => ec = true /\ chol_exn u A s0 e s')); [| |auto].
  { destruct Hu; subst u; apply wp_bind, wp_slc; try lia; exact Hpr. }
  clear Hpr P1 E1 F1 Ho. intros ? s3 (L2 & L3 & E3 & P2 & F3 & F2 & HS).
  apply wp_bind. eapply wp_conseq; [apply (IH false (subv A n1 n n1 n) s3); cbn [nr nc subv]; [lia|apply vinj_subv; auto; lia|lia]| |intros ? ? [K _]; discriminate].
  intros info s4 (Hinfo' & _ & Ho).
  destruct (chol_sub u A L3 s0 s3 n1 n info s4 Hu HI ltac:(lia) ltac:(lia) ltac:(lia) E3 Ho) as (L4 & E4 & F4 & R4).
  destruct R4 as [[-> P4]|(k & Hk & -> & Hfail)].
  - cbn [Z.eqb]. apply wp_ret. apply Hok. apply chol_whole with L4; auto.
    + intros i l Hi. rewrite <- ?En. rewrite F4, F3 by lia. apply F2; lia.
    + left. split; auto. rewrite <- ?En. replace n with (n1 + (n - n1))%nat by lia.
      apply (chol_combine n n1 (n - n1) (n - n1) L2 L4 (hl L0) (shift n1 (hl L3))); auto; [lia|].
      intros i l Hl Hi. rewrite <- ?En. rewrite F4 by lia. apply F3; lia.
  - replace (Z.of_nat k + 1 =? 0)%Z with false by (symmetry; apply Z.eqb_neq; lia).
    apply Herr; [lia|]. apply chol_whole with L4; auto.
    + intros i l Hi. rewrite <- ?En. rewrite F4, F3 by lia. apply F2; lia.
    + right. exists (n1 + k)%nat. rewrite <- ?En. repeat split; try lia.
      apply (chfail_combine n n1 k L2 (hl L0) (shift n1 (hl L3))); auto; [intros; apply HS|]; lia.
Qed.
Lemma potrf2_run u ec A s0 : u = Upper \/ u = Lower -> nc A = nr A -> vinj A ->
  wp (potrf2 ec u A) (chol_ret u A s0 ec) (fun e s' => ec = true /\ chol_exn u A s0 e s') s0.
Proof. intros. apply potrf2_f_run; auto. Qed.

(** ** blocked algorithms: in throwing mode the exception carries the index local to the block *)
Definition chol_exn_blk (u : uplo_t) (nb : nat) (A : view) (s0 : state) (e : exn) (s' : state) : Prop :=
  throw_errors = true /\ exists j k, (0 < k <= Z.of_nat nb)%Z /\ (j mod nb = 0)%nat /\ e = RuntimeError k /\ chol_out u A s0 (Z.of_nat j + k) s'.

Definition ll_inv (u : uplo_t) (A : view) (s0 : state) (j : nat) (s : state) : Prop :=
  exists L, leff u A L s0 s /\
    (forall i l, (i < nr A)%nat -> (l < nr A)%nat -> (i < l)%nat \/ (j <= l)%nat -> L i l = lowf u (val A s0) i l) /\
    pchol j (nr A) L (hl (lowf u (val A s0))).

Lemma potrf_blocked_step_run u nb A s0 j s : u = Upper \/ u = Lower -> nc A = nr A -> vinj A -> (0 < nb)%nat -> (j < nr A)%nat -> (j mod nb = 0)%nat ->
  ll_inv u A s0 j s ->
  wp (potrf_blocked_step nb u A j) (fun r s' => match r with None => ll_inv u A s0 (Nat.min (j + nb) (nr A)) s'
       | Some k => (0 < k)%Z /\ throw_errors = false /\ chol_out u A s0 k s' end) (chol_exn_blk u nb A s0) s.
Proof.
  intros Hu HC HI Hnb Hj Hmod (L & EL & FL0 & PL). remember (nr A) as n eqn:En. assert (HC' : nc A = nr A) by lia. set (L0 := lowf u (val A s0)) in *.
  set (jb := Nat.min nb (n - j)). set (q := (j + jb)%nat).
  assert (Hq : q = Nat.min (j + nb) n) by (unfold q, jb; lia). rewrite <- Hq.
  assert (Hjq : (j < q <= n)%nat) by (unfold q, jb; lia).
  assert (Hjb : (q - j <= nb)%nat) by (unfold q, jb; lia).
  set (X := chol_exn_blk u nb A s0).
  assert (Hmain : wp (herk_low u (lrows u A j q 0 j) (subv A j q j q);;
      info <- potf2 u (subv A j q j q);;
      if negb (info =? 0)%Z then error (info + Z.of_nat j);; ret (Some (info + Z.of_nat j)%Z)
      else if (q <? n)%nat then
        gemm_low u (lrows u A q n 0 j) (lrows u A j q 0 j) (lrows u A q n j q);;
        trsm_low u (subv A j q j q) (lrows u A q n j q);;
        ret None
      else ret None)
     (fun r s' => match r with None => ll_inv u A s0 q s' | Some k => (0 < k)%Z /\ throw_errors = false /\ chol_out u A s0 k s' end) X s).
  { apply wp_bind. eapply wp_conseq; [apply (herk_low_run u A L s0 s j q 0 j X); auto; lia| |auto].
    intros x1 s1 E1. cbv beta in E1. clear x1. rewrite Nat.sub_0_r in E1.
    set (L1 := fun i l => if inbox j q j q i l && (l <=? i)%nat then hl L i l - sum j (fun k => L i (0 + k)%nat * conj (L l (0 + k)%nat)) else L i l) in E1.
    assert (HS1 : forall i l, (l <= i < q - j)%nat -> shift j (hl L1) i l = schur j L (hl L0) i l).
    { intros i l Hi. unfold shift, schur. set (a := (j + i)%nat). set (b := (j + l)%nat).
      assert (e2 : L a b = L0 a b) by (apply FL0; lia). unfold hl at 1, L1.
      destruct (inbox_spec j q j q a b); [|lia]. rewrite (proj2 (Nat.leb_le b a)) by lia. cbn [andb Nat.add].
      assert (eh : hl L a b = hl L0 a b) by (apply hl_ext; auto).
      transitivity (hl L a b - sum j (fun k => L a k * conj (L b k))); [|rewrite eh; auto].
      apply (hl_real_diff L a b (fun k => L a k * conj (L b k)) j). intros k Hk ->. apply real_norm. }
    assert (F1 : forall i l, ~ (j <= l <= i /\ i < q)%nat -> L1 i l = L i l).
    { intros i l Hn. unfold L1. destruct (inbox_spec j q j q i l); cbn [andb]; auto. rewrite (proj2 (Nat.leb_gt l i)) by lia. auto. }
    assert (Hfl : forall k s', (k < q - j)%nat -> chol_out u (subv A j q j q) s1 (Z.of_nat k + 1) s' -> chol_out u A s0 (Z.of_nat j + (Z.of_nat k + 1)) s').
    { intros k s' Hk Ho. destruct (chol_sub u A L1 s0 s1 j q _ s' Hu HI HC' ltac:(lia) ltac:(lia) E1 Ho) as (L2 & E2 & F2 & R2).
      destruct R2 as [[K _]|(k' & Hk' & ek & Hfail)]; [lia|]. assert (k' = k) as -> by lia.
      apply chol_whole with L2; auto.
      - intros i l Hi. rewrite F2, F1 by lia. apply FL0; lia.
      - right. exists (j + k)%nat. rewrite <- ?En. repeat split; try lia.
        apply (chfail_combine n j k L (hl L0) (shift j (hl L1))); auto; [intros; apply HS1|]; lia. }
    apply wp_bind. eapply wp_conseq; [apply (potf2_run u (subv A j q j q) s1); cbn; auto; apply vinj_subv; auto; lia| |].
    2:{ intros e s' (Ht & k & Hk & -> & Ho). split; auto. exists j, k.
        assert (Ho' := Ho). destruct Ho' as (F & _ & _ & [[K _]|(k' & Hk' & -> & _)]); [lia|]. cbn [nr subv] in Hk'.
        split; [lia|]. split; auto. }
    intros info s2 (Hinfo & Het & Ho).
    destruct (chol_sub u A L1 s0 s1 j q _ s2 Hu HI HC' ltac:(lia) ltac:(lia) E1 Ho) as (L2 & E2 & F2 & R2).
    destruct R2 as [[-> P2]|(k & Hk & -> & Hfail)].
    2:{ replace (Z.of_nat k + 1 =? 0)%Z with false by (symmetry; apply Z.eqb_neq; lia). cbn [negb].
        assert (Ho' := Hfl k s2 Hk Ho). apply wp_bind. unfold error. destruct throw_errors eqn:et.
        - specialize (Het eq_refl eq_refl). lia.
        - do 2 apply wp_ret. replace (Z.of_nat k + 1 + Z.of_nat j)%Z with (Z.of_nat j + (Z.of_nat k + 1))%Z by lia. repeat split; auto; lia. }
    cbn [Z.eqb negb].
    assert (P2' : pchol (j + (q - j)) (j + (q - j)) L2 (hl L0)).
    { apply (chol_combine n j (q - j) (q - j) L L2 (hl L0) (shift j (hl L1))); auto; [lia|].
      intros i l Hl Hi. rewrite F2, F1 by lia. auto. }
    replace (j + (q - j))%nat with q in P2' by lia.
    assert (FA : forall i l, (i < n)%nat -> (l < n)%nat -> (i < l)%nat \/ (j <= l /\ q <= i)%nat -> L2 i l = L0 i l).
    { intros i l Hi Hl Hn. rewrite F2, F1 by lia. apply FL0; lia. }
    destruct (Nat.ltb_spec q n) as [Hqn|Hqn].
    2:{ apply wp_ret. exists L2. split; auto. assert (q = n) as e by lia. rewrite <- En. split.
        - intros i l Hi Hl Hn. apply FA; auto; lia.
        - rewrite e in *. auto. }
    apply wp_bind. eapply wp_conseq; [apply (gemm_low_run u A L2 s0 s2 j q n X); auto; lia| |auto].
    intros ? s3 E3. cbv beta in E3.
    set (L3 := fun i l => if inbox q n j q i l then L2 i l - sum j (fun k => L2 i k * conj (L2 l k)) else L2 i l) in E3.
    assert (F3 : forall i l, ~ (q <= i < n /\ j <= l < q)%nat -> L3 i l = L2 i l).
    { intros i l Hn. unfold L3. destruct (inbox_spec q n j q i l); auto. tauto. }
    apply wp_bind. eapply wp_conseq; [apply (trsm_low_run u A L3 s0 s3 j q n X); auto; [lia..|]| |auto].
    { intros l Hl. rewrite F3 by lia. eapply pchol_nz; [exact P2'|lia]. }
    intros ? s4 (L4 & E4 & F4 & R4). apply wp_ret. exists L4. split; auto. rewrite <- En. split.
    - intros i l Hi Hl Hn. rewrite F4, F3 by lia. apply FA; auto; lia.
    - apply pchol_panel.
      + eapply pchol_ext; [exact P2'|lia| |auto]. intros i l Hi Hl. rewrite F4, F3 by lia. auto.
      + intros i l Hi Hl. destruct (Nat.lt_ge_cases l j) as [Hlj|Hlj].
        * destruct (PL l Hlj) as (_ & _ & K). rewrite K by lia. apply sum_ext. intros k Hk.
          rewrite !F4, !F3, !F2, !F1 by lia. auto.
        * replace (S l) with (j + (S l - j))%nat by lia. rewrite sum_split.
          rewrite (sum_ext (S l - j) _ (fun k => L4 i (j + k)%nat * conj (L3 l (j + k)%nat))).
          2:{ intros k Hk. do 2 f_equal. apply F4; lia. }
          rewrite R4 by lia. unfold L3. destruct (inbox_spec q n j q i l); [|lia].
          rewrite (sum_ext j (fun k => L4 i k * conj (L4 l k)) (fun k => L2 i k * conj (L2 l k))) by (intros; rewrite !F4, !F3 by lia; auto).
          rewrite (FA i l) by lia. unfold hl. rewrite (proj2 (Nat.eqb_neq i l)) by lia. change (lowf u (val A s0) i l) with (L0 i l). ring. }
  unfold potrf_blocked_step. rewrite <- En. cbv zeta. change (j + Nat.min nb (n - j))%nat with q.
  destruct Hu; subst u; cbn [herk_low lrows gemm_low trsm_low] in Hmain; revert Hmain;
    destruct (Nat.ltb_spec q n); rewrite !slc_ret by lia; intros Hmain; exact Hmain.
Qed.

(** the block loop, given its step *)
Definition blk_post (u : uplo_t) (nb : nat) (A : view) (s0 : state) (inv : nat -> state -> Prop) (j : nat) (r : option Z) (s' : state) : Prop :=
  match r with None => inv (Nat.min (j + nb) (nr A)) s' | Some k => (0 < k)%Z /\ throw_errors = false /\ chol_out u A s0 k s' end.
Lemma blk_run u nb A s0 (inv : nat -> state -> Prop) step : u = Upper \/ u = Lower -> nc A = nr A -> vinj A -> (0 < nb)%nat ->
  inv 0%nat s0 -> (forall s', inv (nr A) s' -> chol_out u A s0 0 s') ->
  (forall j s, (j < nr A)%nat -> (j mod nb = 0)%nat -> inv j s -> wp (step j) (blk_post u nb A s0 inv j) (chol_exn_blk u nb A s0) s) ->
  wp (check (uplo2 u);; check (nr A =? nc A)%nat;;
      if (nr A =? 0)%nat then ret 0%Z
      else if (nr A <=? nb)%nat then potf2 u A
      else r <- blkret (nr A) 0 (nr A) nb step;; ret (info_of r)) (chol_ret u A s0 true) (chol_exn_blk u nb A s0) s0.
Proof.
  intros Hu HC HI Hnb H0 Hend Hstep.
  apply wp_bind, wp_check; [destruct Hu; subst; auto|]. apply wp_bind, wp_check; [apply Nat.eqb_eq; auto|].
  destruct (Nat.eqb_spec (nr A) 0) as [Hz|Hz].
  { apply wp_ret. split; [lia|]. split; auto. apply Hend. rewrite Hz. auto. }
  destruct (Nat.leb_spec (nr A) nb) as [Hl|Hl].
  { eapply wp_conseq; [apply potf2_run; auto|auto|]. intros e s' (Ht & k & Hk & -> & Ho). split; auto. exists 0%nat, k.
    assert (Ho' := Ho). destruct Ho' as (F & _ & _ & [[K _]|(k' & Hk' & -> & _)]); [lia|].
    split; [lia|]. split; [apply Nat.mod_0_l; lia|]. split; auto. }
  apply wp_bind.
  apply (wp_blkret _ (fun j s => inv j s /\ ((j < nr A)%nat -> (j mod nb = 0)%nat))); auto; [lia|..].
  - cbn [Nat.min]. split; auto. intros _. apply Nat.mod_0_l; lia.
  - intros j s' Hj [Hi Hm]. eapply wp_conseq; [apply Hstep; auto| |auto]. intros [k|] s'' Hk; cbn in Hk.
    + apply wp_ret. destruct Hk as (K1 & K2 & K3). split; [cbn; lia|]. split; [congruence|auto].
    + split; auto. intros Hlt. replace (Nat.min (j + nb) (nr A)) with (j + 1 * nb)%nat by lia. rewrite Nat.mod_add by lia. auto.
  - intros s' [Hi _]. apply wp_ret. split; [cbn; lia|]. split; auto.
Qed.

Lemma potrf_blocked_run u nb A s0 : u = Upper \/ u = Lower -> nc A = nr A -> vinj A -> (0 < nb)%nat ->
  wp (potrf_blocked nb u A) (chol_ret u A s0 true) (chol_exn_blk u nb A s0) s0.
Proof.
  intros Hu HC HI Hnb. apply (blk_run u nb A s0 (ll_inv u A s0)); auto.
  - exists (lowf u (val A s0)). split; [apply leff_refl|]. split; auto. intros j Hj; lia.
  - intros s' (L & EL & FL0 & PL). apply chol_whole with L; auto. intros. apply FL0; lia.
  - intros j s Hj Hm Hi. apply potrf_blocked_step_run; auto.
Qed.

(** ** right-looking *)
Definition rl_inv (u : uplo_t) (A : view) (s0 : state) (j : nat) (s : state) : Prop :=
  exists L, leff u A L s0 s /\
    (forall i l, (i < l < nr A)%nat -> L i l = lowf u (val A s0) i l) /\
    pchol j (nr A) L (hl (lowf u (val A s0))) /\
    (forall i l, (l <= i < nr A - j)%nat -> shift j (hl L) i l = schur j L (hl (lowf u (val A s0))) i l).

Lemma potrf_rl_step_run u nb A s0 j s : u = Upper \/ u = Lower -> nc A = nr A -> vinj A -> (0 < nb)%nat -> (j < nr A)%nat -> (j mod nb = 0)%nat ->
  rl_inv u A s0 j s ->
  wp (potrf_rl_step nb u A j) (blk_post u nb A s0 (rl_inv u A s0) j) (chol_exn_blk u nb A s0) s.
Proof.
  intros Hu HC HI Hnb Hj Hmod (L & EL & FU & PL & HS). unfold blk_post. remember (nr A) as n eqn:En. assert (HC' : nc A = nr A) by lia.
  set (L0 := lowf u (val A s0)) in *.
  set (jb := Nat.min nb (n - j)). set (q := (j + jb)%nat).
  assert (Hq : q = Nat.min (j + nb) n) by (unfold q, jb; lia). rewrite <- Hq.
  assert (Hjq : (j < q <= n)%nat) by (unfold q, jb; lia).
  assert (Hjb : (q - j <= nb)%nat) by (unfold q, jb; lia).
  set (X := chol_exn_blk u nb A s0).
  assert (Hmain : wp (
      info <- potf2 u (subv A j q j q);;
      if negb (info =? 0)%Z then error (info + Z.of_nat j);; ret (Some (info + Z.of_nat j)%Z)
      else if (q <? n)%nat then
        trsm_low u (subv A j q j q) (lrows u A q n j q);;
        herk_low u (lrows u A q n j q) (subv A q n q n);;
        ret None
      else ret None)
     (fun r s' => match r with None => rl_inv u A s0 q s' | Some k => (0 < k)%Z /\ throw_errors = false /\ chol_out u A s0 k s' end) X s).
  { assert (Hfl : forall k s', (k < q - j)%nat -> chol_out u (subv A j q j q) s (Z.of_nat k + 1) s' -> chol_out u A s0 (Z.of_nat j + (Z.of_nat k + 1)) s').
    { intros k s' Hk Ho. destruct (chol_sub u A L s0 s j q _ s' Hu HI HC' ltac:(lia) ltac:(lia) EL Ho) as (L2 & E2 & F2 & R2).
      destruct R2 as [[K _]|(k' & Hk' & ek & Hfail)]; [lia|]. assert (k' = k) as -> by lia.
      apply chol_whole with L2; auto.
      - intros i l Hi. rewrite F2 by lia. apply FU; lia.
      - right. exists (j + k)%nat. repeat split; try lia.
        apply (chfail_combine n j k L (hl L0) (shift j (hl L))); auto; [intros; apply HS|]; lia. }
    apply wp_bind. eapply wp_conseq; [apply (potf2_run u (subv A j q j q) s); cbn; auto; apply vinj_subv; auto; lia| |].
    2:{ intros e s' (Ht & k & Hk & -> & Ho). split; auto. exists j, k.
        assert (Ho' := Ho). destruct Ho' as (F & _ & _ & [[K _]|(k' & Hk' & -> & _)]); [lia|]. cbn [nr subv] in Hk'.
        split; [lia|]. split; auto. }
    intros info s2 (Hinfo & Het & Ho).
    destruct (chol_sub u A L s0 s j q _ s2 Hu HI HC' ltac:(lia) ltac:(lia) EL Ho) as (L2 & E2 & F2 & R2).
    destruct R2 as [[-> P2]|(k & Hk & -> & Hfail)].
    2:{ replace (Z.of_nat k + 1 =? 0)%Z with false by (symmetry; apply Z.eqb_neq; lia). cbn [negb].
        assert (Ho' := Hfl k s2 Hk Ho). apply wp_bind. unfold error. destruct throw_errors eqn:et.
        - specialize (Het eq_refl eq_refl). lia.
        - do 2 apply wp_ret. replace (Z.of_nat k + 1 + Z.of_nat j)%Z with (Z.of_nat j + (Z.of_nat k + 1))%Z by lia. repeat split; auto; lia. }
    cbn [Z.eqb negb].
    assert (P2' : pchol (j + (q - j)) (j + (q - j)) L2 (hl L0)).
    { apply (chol_combine n j (q - j) (q - j) L L2 (hl L0) (shift j (hl L))); auto; [intros; apply HS; lia|lia|].
      intros i l Hl Hi. rewrite F2 by lia. auto. }
    replace (j + (q - j))%nat with q in P2' by lia.
    destruct (Nat.ltb_spec q n) as [Hqn|Hqn].
    2:{ apply wp_ret. exists L2. split; auto. assert (q = n) as e by lia. rewrite <- En. split; [|split].
        - intros i l Hi. rewrite F2 by lia. apply FU; auto; lia.
        - rewrite e in *. auto.
        - intros i l Hi. lia. }
    apply wp_bind. eapply wp_conseq; [apply (trsm_low_run u A L2 s0 s2 j q n X); auto; [lia..|]| |auto].
    { intros l Hl. eapply pchol_nz; [exact P2'|lia]. }
    intros x4 s4 (L4 & E4 & F4 & R4). clear x4.
    apply wp_bind. eapply wp_conseq; [apply (herk_low_run u A L4 s0 s4 q n j q X); auto; lia| |auto].
    intros x5 s5 E5. cbv beta in E5. clear x5.
    set (L5 := fun i l => if inbox q n q n i l && (l <=? i)%nat then hl L4 i l - sum (q - j) (fun k => L4 i (j + k)%nat * conj (L4 l (j + k)%nat)) else L4 i l) in E5.
    assert (F5 : forall i l, ~ (q <= l <= i)%nat -> L5 i l = L4 i l).
    { intros i l Hn. unfold L5. destruct (inbox_spec q n q n i l); cbn [andb]; auto. rewrite (proj2 (Nat.leb_gt l i)) by lia. auto. }
    assert (eS : forall i l, (j <= l <= i)%nat -> (i < n)%nat -> hl L i l = hl L0 i l - sum j (fun k => L i k * conj (L l k))).
    { intros i l Hl Hi. assert (e := HS (i - j)%nat (l - j)%nat ltac:(lia)). unfold shift, schur in e.
      replace (j + (i - j))%nat with i in e by lia. replace (j + (l - j))%nat with l in e by lia. exact e. }
    assert (P4 : pchol q n L4 (hl L0)).
    { apply pchol_panel.
      + eapply pchol_ext; [exact P2'|lia| |auto]. intros i l Hi Hl. rewrite F4 by lia. auto.
      + intros i l Hi Hl. destruct (Nat.lt_ge_cases l j) as [Hlj|Hlj].
        * destruct (PL l Hlj) as (_ & _ & K). rewrite K by lia. apply sum_ext. intros k Hk.
          rewrite !F4, !F2 by lia. auto.
        * replace (S l) with (j + (S l - j))%nat by lia. rewrite sum_split.
          rewrite (sum_ext (S l - j) _ (fun k => L4 i (j + k)%nat * conj (L2 l (j + k)%nat))).
          2:{ intros k Hk. do 2 f_equal. apply F4; lia. }
          rewrite R4 by lia. rewrite F2 by lia.
          rewrite (sum_ext j (fun k => L4 i k * conj (L4 l k)) (fun k => L i k * conj (L l k))) by (intros; rewrite !F4, !F2 by lia; auto).
          assert (e := eS i l ltac:(lia) ltac:(lia)). unfold hl at 1 in e. rewrite (proj2 (Nat.eqb_neq i l)) in e by lia. rewrite e. ring. }
    apply wp_ret. exists L5. split; auto. rewrite <- En. split; [|split].
    - intros i l Hi. rewrite F5, F4, F2 by lia. apply FU; lia.
    - eapply pchol_ext; [exact P4|lia| |auto]. intros i l Hi Hl. rewrite F5 by lia. auto.
    - intros i l Hi. unfold shift, schur.
      rewrite (sum_ext q _ (fun k => L4 (q + i)%nat k * conj (L4 (q + l)%nat k))) by (intros; rewrite !F5 by lia; auto).
      set (x := (q + i)%nat). set (y := (q + l)%nat).
      assert (e2 : hl L4 x y = hl L x y) by (apply hl_ext; rewrite F4, F2 by lia; auto).
      unfold hl at 1, L5. destruct (inbox_spec q n q n x y); [|lia]. rewrite (proj2 (Nat.leb_le y x)) by lia. cbn [andb].
      transitivity (hl L4 x y - sum (q - j) (fun k => L4 x (j + k)%nat * conj (L4 y (j + k)%nat))).
      + apply (hl_real_diff L4 x y (fun k => L4 x (j + k)%nat * conj (L4 y (j + k)%nat)) (q - j)). intros k Hk ->. apply real_norm.
      + rewrite e2, eS by lia. replace (sum q) with (sum (j + (q - j))) by (f_equal; lia). rewrite sum_split.
        rewrite (sum_ext j (fun k => L4 x k * conj (L4 y k)) (fun k => L x k * conj (L y k))) by (intros; rewrite !F4, !F2 by lia; auto).
        change (hl (lowf u (val A s0)) x y) with (hl L0 x y). ring. }
  unfold potrf_rl_step. rewrite <- En. cbv zeta. change (j + Nat.min nb (n - j))%nat with q.
  destruct Hu; subst u; cbn [herk_low lrows gemm_low trsm_low] in Hmain; revert Hmain;
    destruct (Nat.ltb_spec q n); rewrite !slc_ret by lia; intros Hmain; exact Hmain.
Qed.
Lemma potrf_rl_run u nb A s0 : u = Upper \/ u = Lower -> nc A = nr A -> vinj A -> (0 < nb)%nat ->
  wp (potrf_rl nb u A) (chol_ret u A s0 true) (chol_exn_blk u nb A s0) s0.
Proof.
  intros Hu HC HI Hnb. apply (blk_run u nb A s0 (rl_inv u A s0)); auto.
  - exists (lowf u (val A s0)). split; [apply leff_refl|]. split; auto. split; [intros j Hj; lia|].
    intros i l Hi. unfold shift, schur. cbn [sum Nat.add]. ring.
  - intros s' (L & EL & FL0 & PL & _). apply chol_whole with L; auto.
  - intros j s Hj Hm Hi. apply potrf_rl_step_run; auto.
Qed.

(** potrf: any variant *)
Definition potrf_exn (var : potrf_variant) (u : uplo_t) (nb : nat) (A : view) (s0 : state) (e : exn) (s' : state) : Prop :=
  match var with PBlocked | PRightLooking => chol_exn_blk u nb A s0 e s' | _ => chol_exn u A s0 e s' end.
Definition variant_ec (var : potrf_variant) (ec : bool) : bool := match var with PRecursive => ec | _ => true end.
Lemma potrf_run var nb ec u A s0 : u = Upper \/ u = Lower -> nc A = nr A -> vinj A -> (0 < nb)%nat ->
  wp (potrf var nb ec u A) (chol_ret u A s0 (variant_ec var ec)) (fun e s' => variant_ec var ec = true /\ potrf_exn var u nb A s0 e s') s0.
Proof.
  intros Hu HC HI Hnb. apply wp_bind, wp_check; [destruct Hu; subst; auto|]. apply wp_bind, wp_check; [apply Nat.eqb_eq; auto|].
  destruct var; cbn [variant_ec potrf_exn].
  - eapply wp_conseq; [apply potrf_blocked_run; auto|auto|auto].
  - apply potrf2_run; auto.
  - eapply wp_conseq; [apply potf2_run; auto|auto|auto].
  - eapply wp_conseq; [apply potrf_rl_run; auto|auto|auto].
Qed.
End Potrf.

(** ** potrs *)
Section Potrs.
Context {E : Env} {FL : FieldLaws E} {CL : ConjLaws E}.
Add Field Tf2 : fth.
Lemma mmul_assoc k l A B C i j : mmul k A (mmul l B C) i j = mmul l (mmul k A B) C i j.
Proof.
  unfold mmul. rewrite (sum_ext k _ (fun a => sum l (fun b => A i a * B a b * C b j))).
  2:{ intros a Ha. rewrite <- sum_scal_l. apply sum_ext. intros; ring. }
  rewrite sum_swap. apply sum_ext. intros b Hb. rewrite sum_scal_r. auto.
Qed.
Lemma mmul_ext k A B A' B' i j : (forall l, (l < k)%nat -> A i l = A' i l) -> (forall l, (l < k)%nat -> B l j = B' l j) ->
  mmul k A B i j = mmul k A' B' i j.
Proof. intros HA HB. apply sum_ext. intros l Hl. rewrite HA, HB by auto. auto. Qed.

Lemma potrs_run u A B s0 n m H : u = Upper \/ u = Lower -> nr A = n -> nc A = n -> nr B = n -> nc B = m -> vinj B -> disj A B ->
  (forall j, (j < n)%nat -> val A s0 j j <> 0) ->
  (forall i j, (i < n)%nat -> (j < n)%nat -> match u with
    | Upper => mmul n (ctr (trim Upper NonUnit (val A s0))) (trim Upper NonUnit (val A s0)) i j = H i j
    | _ => mmul n (trim Lower NonUnit (val A s0)) (ctr (trim Lower NonUnit (val A s0))) i j = H i j end) ->
  runs (potrs u A B) s0 (fun r s' => r = 0%Z /\ exists X, eff B X s0 s' /\
    forall i j, (i < n)%nat -> (j < m)%nat -> mmul n H X i j = val B s0 i j).
Proof.
  intros Hu HA1 HA2 HB1 HB2 HI HD Hnz HH. unfold runs, potrs.
  apply wp_bind, wp_check; [destruct Hu; subst; auto|]. apply wp_bind, wp_check; [apply Nat.eqb_eq; lia|].
  apply wp_bind, wp_check; [apply Nat.eqb_eq; lia|].
  assert (Hs : forall s1 X, eff B X s0 s1 -> forall i j, (i < n)%nat -> (j < n)%nat -> val A s1 i j = val A s0 i j).
  { intros s1 X (_ & K & _) i j Hi Hj. unfold val. apply K. intros (a & b & Ha & Hb & e). apply (HD i j a b); auto; lia. }
  apply wp_bind. apply (wp_conseq _ _ (fun _ s' => exists X, eff B X s0 s' /\
    forall i j, (i < n)%nat -> (j < m)%nat -> mmul n H X i j = val B s0 i j) _ noX).
  2:{ intros ? s' HX. apply wp_ret. split; auto. }
  2:{ auto. }
  set (o1 := match u with Upper => ConjTrans | _ => NoTrans end). set (o2 := match u with Upper => NoTrans | _ => ConjTrans end).
  set (u' := match u with Upper => Upper | _ => Lower end).
  assert (Hr : wp (trsm Left u' o1 NonUnit one A B;; trsm Left u' o2 NonUnit one A B) (fun _ s' => exists X, eff B X s0 s' /\
    forall i j, (i < n)%nat -> (j < m)%nat -> mmul n H X i j = val B s0 i j) noX s0).
  { assert (Ho1 : op3 o1 = true) by (unfold o1; destruct u; auto). assert (Ho2 : op3 o2 = true) by (unfold o2; destruct u; auto).
    assert (Hu' : uplo2 u' = true) by (unfold u'; destruct u; auto).
    apply wp_bind. eapply wp_use; [apply (trsm_run Left u' o1 NonUnit 1 A B s0 n m); auto|].
    intros ? s1 (X1 & E1 & R1).
    eapply wp_use; [apply (trsm_run Left u' o2 NonUnit 1 A B s1 n m); auto; intros _ j Hj; cbn [sel] in Hj; rewrite (Hs s1 X1) by auto; auto|].
    intros ? s2 (X2 & E2 & R2). exists X2. split; [eapply eff_trans; eauto|]. intros i j Hi Hj.
    assert (Ht : forall i j, (i < n)%nat -> (j < n)%nat -> trim u' NonUnit (val A s1) i j = trim u' NonUnit (val A s0) i j).
    { intros a' b' Ha Hb. unfold trim. rewrite (Hs s1 X1) by auto. auto. }
    rewrite (mmul_ext n H X2 (mmul n (opm o1 (trim u' NonUnit (val A s0))) (opm o2 (trim u' NonUnit (val A s0)))) X2).
    - rewrite <- mmul_assoc. rewrite (mmul_ext n _ _ (opm o1 (trim u' NonUnit (val A s0))) X1); auto.
      + rewrite R1 by auto. ring.
      + intros l Hl. specialize (R2 l j Hl Hj).
        assert (e1 : val B s1 l j = X1 l j) by (apply E1; lia). rewrite e1 in R2.
        transitivity (1 * X1 l j); [|ring]. rewrite <- R2. apply mmul_ext; auto. intros k Hk. unfold opm. destruct o2; rewrite Ht by auto; auto.
    - intros l Hl. assert (K := HH i l Hi Hl). symmetry. unfold o1, o2, u'. destruct Hu as [e|e]; rewrite e in K |- *; exact K.
    - auto. }
  destruct Hu; subst u; exact Hr.
Qed.
End Potrs.
