(** LU factorization in an arbitrary arithmetic: termination, bounds, frame, validity of the pivots *)
From Coq Require Import Bool Arith ZArith Lia.
From Verif.Core Require Import Scalar Prog View Rel Slice Loops IVec.
From Verif.Spec Require Import LinAlg LU Outcome.
From Verif.Model Require Import Gemm Blas1 Blas2 Blas3 LaAux Triangular LU.
From Verif.Proof Require Import RelTac BlasRel TwoRuns TwoRunsX Tactics SliceTac Blas1Proof IamaxProof GetrfRecProof.
From Verif.Properties Require Import Blas2 Safety.

Section S.
Context {E : Env}.
Implicit Types (A B piv : view) (s : state).
(** [A] may have changed, the integer vector [p] holds [g], nothing else has changed *)
Definition pf A (p : view) (g : nat -> Z) s0 s : Prop :=
  (forall l, ~ inview A l -> mem s l = mem s0 l) /\ (forall i, i < nr p -> ival p s i = g i) /\ (forall l, ~ inview p l -> imem s l = imem s0 l).
Lemma pf_refl A (p : view) s : pf A p (ival p s) s s.
Proof. split; auto. Qed.
Lemma pf_ext A p g g' s0 s : pf A p g s0 s -> (forall i, i < nr p -> g i = g' i) -> pf A p g' s0 s.
Proof. intros (H1 & H2 & H3) H. split; auto. split; auto. intros. rewrite <- H; auto. Qed.
(** changes inside a part of A *)
Lemma pf_oc A B w p g s0 s s' : (forall l, inview B l -> inview A l) -> pf A p g s0 s -> only_changes (cells B w) s s' -> pf A p g s0 s'.
Proof.
  intros HB (H1 & H2 & H3) [K1 K2]. split; [|split].
  - intros l Hl. rewrite K1, H1; auto. intros (i & j & Hi & Hj & _ & e). apply Hl, HB. exists i, j. auto.
  - intros i Hi. unfold ival. rewrite K2. apply H2. auto.
  - intros l Hl. rewrite K2. auto.
Qed.
Lemma pf_eff A B F p g s0 s s' : (forall l, inview B l -> inview A l) -> pf A p g s0 s -> eff B F s s' -> pf A p g s0 s'.
Proof.
  intros HB (H1 & H2 & H3) (_ & K1 & K2). split; [|split].
  - intros l Hl. rewrite K1, H1; auto.
  - intros i Hi. unfold ival. rewrite K2. apply H2. auto.
  - intros l Hl. rewrite K2. auto.
Qed.
(** changes inside a part of A and a part of p *)
Lemma pf_sub A B p a b g h s0 s s' : (forall l, inview B l -> inview A l) -> vinj p -> nc p = 1 -> b <= nr p ->
  pf A p g s0 s -> pf B (vsub p a b) h s s' -> pf A p (fun i => if (a <=? i) && (i <? b) then h (i - a) else g i) s0 s'.
Proof.
  intros HB HP Hp Hb (H1 & H2 & H3) (K1 & K2 & K3). cbn [nr vsub] in K2.
  assert (Hin : forall l, inview (vsub p a b) l -> inview p l).
  { intros l (i & j & Hi & Hj & e). cbn [nr nc vsub ad] in *. exists (a + i), 0. repeat split; auto; lia. }
  split; [|split].
  - intros l Hl. rewrite K1, H1; auto.
  - intros i Hi. destruct (Nat.leb_spec a i), (Nat.ltb_spec i b); cbn [andb].
    2-4: rewrite <- H2 by auto; apply K3; intros (i' & j & Hi' & Hj & e); cbn [nr nc vsub ad] in *; apply HP in e; lia.
    rewrite <- K2 by lia. unfold ival; cbn [ad vsub]. f_equal. f_equal; lia.
  - intros l Hl. rewrite K3, H3; auto.
Qed.
Lemma pf_sub_A A B p g h s0 s s' : (forall l, inview B l -> inview A l) -> pf A p g s0 s -> pf B p h s s' -> pf A p h s0 s'.
Proof. intros HB (H1 & H2 & H3) (K1 & K2 & K3). split; [|split; auto]; intros l Hl; [rewrite K1, H1; auto|rewrite K3, H3; auto]. Qed.
Lemma wr_pf A p g s0 i j v (Q : unit -> state -> Prop) X s : pf A p g s0 s -> i < nr A -> j < nc A -> (forall s', pf A p g s0 s' -> Q tt s') -> wp (wr A i j v) Q X s.
Proof.
  intros H Hi Hj HQ. apply wp_wr; auto. apply HQ. destruct H as (H1 & H2 & H3). split; [|split; auto].
  intros l Hl. unfold setm; cbn [mem]. destruct (Z.eqb_spec l (ad A i j)) as [->|]; auto. exfalso. apply Hl. exists i, j. auto.
Qed.
Lemma ird_pf A p g s0 i v (Q : nat -> state -> Prop) X s : pf A p g s0 s -> i < nr p -> nc p = 1 -> g i = Z.of_nat v -> Q v s -> wp (ird p i) Q X s.
Proof.
  intros (H1 & H2 & H3) Hi Hp Hg HQ. unfold wp, ird. rewrite inb_true, H2, Hg by lia. destruct (Z.leb_spec 0 (Z.of_nat v)); [|lia]. cbn [andb]. rewrite Nat2Z.id. auto.
Qed.
Lemma iwr_pf A p g s0 i v (Q : unit -> state -> Prop) X s : vinj p -> pf A p g s0 s -> i < nr p -> nc p = 1 ->
  (forall s', pf A p (fun k => if k =? i then Z.of_nat v else g k) s0 s' -> Q tt s') -> wp (iwr p i v) Q X s.
Proof.
  intros HP (H1 & H2 & H3) Hi Hp HQ. unfold wp, iwr. rewrite inb_true by lia. apply HQ. split; [|split].
  - intros l Hl. cbn. auto.
  - intros k Hk. unfold ival, seti; cbn [imem]. destruct (Nat.eqb_spec k i) as [->|Hne]; [rewrite Z.eqb_refl; auto|].
    destruct (Z.eqb_spec (ad p k 0) (ad p i 0)) as [e|e]; [apply HP in e; lia|]. apply H2. auto.
  - intros l Hl. unfold seti; cbn [imem]. destruct (Z.eqb_spec l (ad p i 0)) as [->|]; auto. exfalso. apply Hl. exists i, 0. repeat split; auto; lia.
Qed.
Ltac frd := match goal with |- wp (rd _ _ _) _ _ _ => apply wp_rd; [lia|lia|] end.
Ltac fwr := match goal with H : pf ?A _ _ _ ?s |- wp (wr ?A _ _ _) _ _ ?s => apply (wr_pf _ _ _ _ _ _ _ _ _ _ H); [lia|lia|]; clear H; let s' := fresh "s" in let H' := fresh "Hf" in intros s' H' end.
Ltac fird v := match goal with H : pf _ ?p _ _ ?s |- wp (ird ?p _) _ _ ?s => apply (ird_pf _ _ _ _ _ v _ _ _ H); [lia|auto| |] end.
Ltac fiwr := match goal with H : pf _ ?p _ _ ?s, D : vinj ?p |- wp (iwr ?p _ _) _ _ ?s => apply (iwr_pf _ _ _ _ _ _ _ _ _ D H); [lia|auto|]; clear H; let s' := fresh "s" in let H' := fresh "Hf" in intros s' H' end.

Definition lusafe A piv s0 (info : Z) s' : Prop :=
  let k := Nat.min (nr A) (nc A) in
  exists g, pf A piv g s0 s' /\ (forall i, k <= i < nr piv -> g i = ival piv s0 i) /\ (0 <= info <= Z.of_nat k)%Z /\
   (info = 0%Z -> exists ip, forall j, j < k -> g j = Z.of_nat (ip j) /\ j <= ip j < nr A).

Lemma getrf_level0_safe A piv s0 : vinj piv -> nc piv = 1 -> Nat.min (nr A) (nc A) <= nr piv ->
  wp (getrf_level0 A piv) (lusafe A piv s0) noX s0.
Proof.
  intros HP HP1 Hk. unfold getrf_level0, lusafe. cbv zeta. set (m := nr A) in *. set (n := nc A) in *. set (k := Nat.min m n) in *.
  apply wp_bind, wp_check; [apply Nat.leb_le; auto|].
  destruct ((m <=? 0) || (n <=? 0)) eqn:Q0.
  { apply wp_ret. exists (ival piv s0). split; [apply pf_refl|]. split; auto. split; [lia|]. intros _. exists (fun j => j).
    assert (k = 0). { apply orb_true_iff in Q0. rewrite !Nat.leb_le in Q0. unfold k. lia. } intros; lia. }
  assert (Hmn : 0 < m /\ 0 < n). { apply orb_false_iff in Q0. rewrite !Nat.leb_gt in Q0. lia. }
  apply wp_bind.
  apply (wp_forret _ (fun j s => exists g ip, pf A piv g s0 s /\ (forall i, k <= i < nr piv -> g i = ival piv s0 i) /\
     (forall i, i < j -> g i = Z.of_nat (ip i) /\ i <= ip i < m))); [lia| | |].
  - exists (ival piv s0), (fun j => j). split; [apply pf_refl|]. split; auto. intros; lia.
  - intros j s Hj (g & ip & He & Hgk & Hg).
    apply wp_bind. fiwr. apply wp_bind.
    apply (wp_forup (fun i s => exists p, j <= p < i /\ pf A piv (fun q => if q =? j then Z.of_nat p else g q) s0 s)); [lia| | |].
    { exists j. split; [lia|]. auto. }
    { intros i s2 Hi (p & Hp & He2). apply wp_bind. frd. apply wp_bind. fird p; [rewrite Nat.eqb_refl; auto|]. apply wp_bind. frd.
      destruct (ltb _ _).
      - fiwr. exists i. split; [lia|]. eapply pf_ext; [eauto|]. intros q Hq. cbv beta. destruct (Nat.eqb_spec q j); auto.
      - apply wp_ret. exists p. split; [lia|]. auto. }
    intros s2 (p & Hp & He2). apply wp_bind. fird p; [rewrite Nat.eqb_refl; auto|]. apply wp_bind. frd.
    set (g1 := fun q => if q =? j then Z.of_nat p else g q) in *.
    assert (G1 : forall i, k <= i < nr piv -> g1 i = ival piv s0 i). { intros i Hi. unfold g1. destruct (Nat.eqb_spec i j); [lia|]. auto. }
    assert (Gj : g1 j = Z.of_nat p) by (unfold g1; rewrite Nat.eqb_refl; auto).
    destruct (eqb _ zero).
    { apply wp_ret. apply wp_ret. exists g1. split; auto. split; auto. split; [lia|]. intros; lia. }
    apply wp_bind. fird p; [auto|]. apply wp_bind.
    assert (SW : forall (Q : unit -> state -> Prop), (forall s', pf A piv g1 s0 s' -> Q tt s') -> wp (if negb (p =? j)
        then for_ i in 0 upto n do (tmp <- rd A j i;; p0 <- ird piv j;; a <- rd A p0 i;; wr A j i a;; p1 <- ird piv j;; wr A p1 i tmp) else ret tt) Q noX s2).
    { intros Q HQ. destruct (negb _); [|apply wp_ret; auto].
      apply (wp_forup (fun q s => pf A piv g1 s0 s)); [lia|auto| |auto].
      intros q s3 Hq He3. apply wp_bind. frd. apply wp_bind. fird p; [auto|]. apply wp_bind. frd. apply wp_bind. fwr. apply wp_bind. fird p; [auto|]. fwr. auto. }
    apply SW. clear SW. intros s3 He3. apply wp_bind.
    apply (wp_forup (fun q s => pf A piv g1 s0 s)); [lia|auto| |].
    { intros q s4 Hq He4. apply wp_bind. frd. apply wp_bind. frd. fwr. auto. }
    intros s4 He4. apply wp_bind.
    apply (wp_forup (fun q s => pf A piv g1 s0 s)); [lia|auto| |].
    { intros q s5 Hq He5. apply (wp_forup (fun q s => pf A piv g1 s0 s)); [lia|auto| |auto].
      intros r s6 Hr He6. apply wp_bind. frd. apply wp_bind. frd. apply wp_bind. frd. fwr. auto. }
    intros s5 He5. apply wp_ret. exists g1, (fun q => if q =? j then p else ip q). split; auto. split; auto.
    intros i Hi. unfold g1. destruct (Nat.eqb_spec i j); [lia|]. apply Hg. lia.
  - intros s (g & ip & He & Hgk & Hg). apply wp_ret. exists g. split; auto. split; auto. split; [lia|]. intros _. exists ip. auto.
Qed.

Lemma rscl_oc sm sM d x s : nc x = 1 -> returns (rscl sm sM d x) s (fun _ s' => only_changes (cells x anywhere) s s').
Proof.
  intros Hx. apply safe_run. intros R HR WC. assert (RA := HR x everywhere).
  assert (SC : forall c, rr R noExn (scal c x) (scal c x)) by (intros; apply scal_rr; auto).
  unfold rscl, rscl_cplx, rscl_real. cbv zeta. repeat match goal with |- context [if ?b then _ else _] => destruct b end; repeat (first [apply SC | apply rr_bind; [apply SC|intros ?]]).
Qed.
Lemma in_subv A i0 i1 j0 j1 l : i1 <= nr A -> j1 <= nc A -> inview (subv A i0 i1 j0 j1) l -> inview A l.
Proof. intros H1 H2 (i & j & Hi & Hj & e). cbn [nr nc subv ad] in *. exists (i0 + i), (j0 + j). repeat split; auto; lia. Qed.
Lemma in_vcol A i0 i1 j l : i1 <= nr A -> j < nc A -> inview (vcol A i0 i1 j) l -> inview A l.
Proof. intros H1 H2 (i & j' & Hi & Hj & e). cbn [nr nc vcol ad] in *. exists (i0 + i), j. repeat split; auto; lia. Qed.

Context (sm sM q4 : T) (nan : bool) (MF : mag_found absv).
Lemma getrf_recursive_f_safe : forall fuel A piv s0, vinj A -> vinj piv -> nc piv = 1 -> Nat.min (nr A) (nc A) <= nr piv -> nr A + nc A < fuel ->
  wp (getrf_recursive_f fuel sm sM q4 nan A piv) (lusafe A piv s0) noX s0.
Proof.
  induction fuel as [|fu IH]; intros A piv s0 HI HP HP1 Hk Hf; [lia|]. cbn [getrf_recursive_f]. cbv zeta.
  set (m := nr A) in *. set (n := nc A) in *. set (k := Nat.min m n) in *.
  apply wp_bind, wp_check; [apply Nat.leb_le; auto|].
  destruct ((m <=? 0) || (n <=? 0)) eqn:Q0.
  { apply wp_ret. exists (ival piv s0). split; [apply pf_refl|]. split; auto. split; [lia|]. intros _. exists (fun j => j).
    assert (k = 0). { apply orb_true_iff in Q0. rewrite !Nat.leb_le in Q0. unfold k. lia. } unfold k, m, n in *. intros; lia. }
  assert (Hmn : 0 < m /\ 0 < n). { apply orb_false_iff in Q0. rewrite !Nat.leb_gt in Q0. lia. } clear Q0.
  assert (He0 := pf_refl A piv s0).
  destruct (Nat.eqb_spec m 1) as [Hm1|Hm1].
  { apply wp_bind. fiwr. apply wp_bind. fird 0; [auto|]. apply wp_bind. apply wp_rd; [unfold m in *; lia|unfold n in *; lia|].
    assert (K : forall info, (0 <= info <= 1)%Z -> lusafe A piv s0 info s).
    { intros info Hi. unfold lusafe. change (nr A) with m. change (nc A) with n. change (Nat.min m n) with k. eexists. split; [eauto|]. split.
      - intros i Hi'. destruct (Nat.eqb_spec i 0); auto. unfold k in *. lia.
      - split; [unfold k; lia|]. intros _. exists (fun _ => 0). intros j Hj. destruct (Nat.eqb_spec j 0); unfold k in *; lia. }
    destruct (eqb _ _); apply wp_ret; apply K; lia. }
  destruct (Nat.eqb_spec n 1) as [Hn1|Hn1].
  { assert (HK : k = 1) by (unfold k; lia).
    apply wp_bind, wp_slcol; try (unfold n, m in *; lia).
    apply wp_bind. eapply wp_conseq; [apply (iamax_range q4 nan absv (vcol A 0 m 0) s0 MF); cbn [nr nc vcol]; [auto|lia]| |auto].
    intros r s1 [-> (p & -> & Hp)]. cbn [nr vcol] in Hp. rewrite Nat.sub_0_r in Hp.
    apply wp_bind. fiwr. set (g1 := fun k0 => if k0 =? 0 then Z.of_nat p else ival piv s0 k0) in *.
    assert (G0 : g1 0 = Z.of_nat p) by reflexivity.
    assert (Gk : forall i, 1 <= i -> g1 i = ival piv s0 i). { intros i Hi. unfold g1. destruct (Nat.eqb_spec i 0); auto; lia. }
    assert (K : forall info s, pf A piv g1 s0 s -> (0 <= info <= 1)%Z -> lusafe A piv s0 info s).
    { intros info s' Hs Hi. unfold lusafe. change (nr A) with m. change (nc A) with n. change (Nat.min m n) with k. exists g1. split; auto. split.
      - intros i Hi'. apply Gk. lia.
      - split; [lia|]. intros _. exists (fun _ => p). intros j Hj. assert (j = 0) by lia. subst j. split; auto; lia. }
    apply wp_bind. fird p; [auto|]. apply wp_bind. apply wp_rd; [unfold m in *; lia|unfold n in *; lia|]. destruct (eqb _ zero); [apply wp_ret, K; auto; lia|].
    apply wp_bind. fird p; [auto|]. apply wp_bind.
    assert (SW : forall (Q : unit -> state -> Prop), (forall s', pf A piv g1 s0 s' -> Q tt s') -> wp (if negb (p =? 0)
        then p0 <- ird piv 0;; aux <- rd A p0 0;; a0 <- rd A 0 0;; p1 <- ird piv 0;; wr A p1 0 a0;; wr A 0 0 aux else ret tt) Q noX s).
    { intros Q HQ. unfold m, n in *. destruct (negb _); [|apply wp_ret; auto].
      apply wp_bind. fird p; [auto|]. apply wp_bind. frd. apply wp_bind. frd. apply wp_bind. fird p; [auto|]. apply wp_bind. fwr. fwr. auto. }
    apply SW. clear SW. intros s2 He2. apply wp_bind, wp_slcol; try (unfold n, m in *; lia). apply wp_bind. apply wp_rd; [unfold m in *; lia|unfold n in *; lia|]. apply wp_bind.
    apply returns_wp. destruct (rscl_oc sm sM (val A s2 0 0) (vcol A 1 m 0) s2 eq_refl) as (a & s3 & e & OC). exists a, s3. split; auto.
    apply wp_ret, K; [|lia]. eapply pf_oc; [|exact He2|exact OC]. intros l. apply in_vcol; unfold m, n in *; lia. }
  destruct (Nat.ltb_spec m n) as [Hlt|Hge].
  { assert (HK : k = m) by (unfold k; lia).
    apply wp_bind. slces. apply wp_bind. slces. apply wp_bind.
    assert (HI0 := vinj_subv A 0 m 0 m HI ltac:(unfold m; lia) ltac:(unfold n in *; lia)).
    assert (HI1 := vinj_subv A 0 m m n HI ltac:(unfold m; lia) ltac:(unfold n in *; lia)).
    assert (B0 : forall l, inview (subv A 0 m 0 m) l -> inview A l) by (intros l; apply in_subv; unfold m, n in *; lia).
    assert (B1 : forall l, inview (subv A 0 m m n) l -> inview A l) by (intros l; apply in_subv; unfold m, n in *; lia).
    eapply wp_conseq; [apply (IH (subv A 0 m 0 m) piv s0); auto; cbn [nr nc subv]; lia| |auto].
    intros info s1 (g & He & Hgk & Hinf & Hres). cbn [nr nc subv] in Hgk, Hres, Hinf. rewrite !Nat.sub_0_r, Nat.min_id in Hgk, Hres, Hinf.
    assert (He1 := pf_sub_A A _ piv _ _ s0 s0 s1 B0 He0 He).
    destruct (Z.eqb_spec info 0) as [->|Hi0]; cbn [negb].
    2: { apply wp_ret. exists g. change (nr A) with m. change (nc A) with n. change (Nat.min m n) with k. rewrite HK. split; [auto|split; [auto|split; [auto|intros; lia]]]. }
    destruct (Hres eq_refl) as (ip & Hip). 
    apply wp_bind. eapply wp_conseq; [apply (swap_rows_run k piv (subv A 0 m m n) ip s1 noX); auto; cbn [nr subv]; try lia| |auto].
    { intros j Hj. destruct (Hip j ltac:(lia)) as [K1 K2]. split; [|lia]. rewrite <- K1. apply He1. lia. }
    intros u2 s2 HX. cbv beta in HX. assert (He2 := pf_eff A _ _ piv _ s0 s1 s2 B1 He1 HX).
    apply wp_bind, returns_wp. destruct (trsm_safe Left Lower NoTrans Unit one (subv A 0 m 0 m) (subv A 0 m m n) s2 m (n - m)) as (a & s3 & e & OC).
    { split; auto; discriminate. } { split; cbn; lia. } { split; cbn; lia. }
    exists a, s3. split; auto. apply wp_ret. exists g. change (nr A) with m. change (nc A) with n. change (Nat.min m n) with k. rewrite HK.
    split; [eapply pf_oc; [exact B1|exact He2|exact OC]|split; [auto|split; [lia|intros _; exists ip; auto]]]. }
  assert (HK : k = n) by (unfold k; lia).
  set (k0 := Nat.div2 k). assert (Hk0 : 0 < k0 /\ k0 < n).
  { subst k0. rewrite HK. assert (K := Nat.div2_odd n). destruct (Nat.odd n); cbn in K; lia. }
  apply wp_bind. slces. apply wp_bind. slces. apply wp_bind. slces. apply wp_bind.
  assert (HI0 := vinj_subv A 0 m 0 k0 HI ltac:(unfold m; lia) ltac:(unfold n in *; lia)).
  assert (HI1 := vinj_subv A 0 m k0 n HI ltac:(unfold m; lia) ltac:(unfold n in *; lia)).
  assert (HI2 := vinj_subv A k0 m 0 k0 HI ltac:(unfold m; lia) ltac:(unfold n in *; lia)).
  assert (HI3 := vinj_subv A k0 m k0 n HI ltac:(unfold m; lia) ltac:(unfold n in *; lia)).
  assert (HP0 := vinj_vsub piv 0 k0 HP ltac:(lia) ltac:(lia)).
  assert (HP2 := vinj_vsub piv k0 k HP ltac:(lia) ltac:(lia)).
  assert (BB : forall i0 i1 j0 j1, i1 <= m -> j1 <= n -> forall l, inview (subv A i0 i1 j0 j1) l -> inview A l) by (intros i0 i1 j0 j1 Hi Hj l; apply in_subv; auto).
  eapply wp_conseq; [apply (IH (subv A 0 m 0 k0) (vsub piv 0 k0) s0); auto; cbn [nr nc subv vsub]; lia| |auto].
  intros info s1 (g & He & Hgk & Hinf & Hres). cbn [nr nc subv vsub] in Hgk, Hres, Hinf. rewrite !Nat.sub_0_r in Hgk, Hres, Hinf. replace (Nat.min m k0) with k0 in * by lia.
  assert (He1 := pf_sub A _ piv 0 k0 _ _ s0 s0 s1 (BB 0 m 0 k0 ltac:(lia) ltac:(lia)) HP HP1 ltac:(lia) He0 He). clear He.
  set (g1 := fun j => if (0 <=? j) && (j <? k0) then g (j - 0) else ival piv s0 j) in He1.
  assert (G1 : forall i, k0 <= i -> g1 i = ival piv s0 i). { intros i Hi. unfold g1. destruct (Nat.ltb_spec i k0); [lia|]. rewrite andb_false_r. auto. }
  destruct (Z.eqb_spec info 0) as [->|Hi0]; cbn [negb].
  2: { apply wp_ret. exists g1. change (nr A) with m. change (nc A) with n. change (Nat.min m n) with k. split; auto. split; [intros; apply G1; lia|]. split; [lia|]. intros; lia. }
  destruct (Hres eq_refl) as (ip & Hip). clear Hres Hgk Hinf.
  assert (Hg1 : forall l, l < k0 -> g1 l = Z.of_nat (ip l) /\ l <= ip l < m).
  { intros l Hl. unfold g1. destruct (Nat.leb_spec 0 l), (Nat.ltb_spec l k0); try lia. cbn [andb]. rewrite Nat.sub_0_r. auto. }
  apply wp_bind. eapply wp_conseq; [apply (swap_rows_run k0 (vsub piv 0 k0) (subv A 0 m k0 n) ip s1 noX); auto; cbn [nr nc subv vsub]; try lia| |auto].
  { intros j Hj. destruct (Hg1 j Hj) as [K1 K2]. split; [|lia]. rewrite <- K1. change (ival (vsub piv 0 k0) s1 j) with (ival piv s1 j). apply He1. lia. }
  intros u2 s2 HX. cbv beta in HX. clear u2. assert (He2 := pf_eff A _ _ piv _ s0 s1 s2 (BB 0 m k0 n ltac:(lia) ltac:(lia)) He1 HX). clear HX.
  do 4 (apply wp_bind; slces). apply wp_bind. slces.
  apply wp_bind, returns_wp. destruct (trsm_safe Left Lower NoTrans Unit one (subv A 0 k0 0 k0) (subv A 0 k0 k0 n) s2 k0 (n - k0)) as (a3 & s3 & e3 & OC3).
  { split; auto; discriminate. } { split; cbn; lia. } { split; cbn; lia. }
  exists a3, s3. split; auto. clear e3. assert (He3 := pf_oc A _ _ piv _ s0 s2 s3 (BB 0 k0 k0 n ltac:(lia) ltac:(lia)) He2 OC3).
  apply wp_bind, returns_wp. destruct (gemm_safe NoTrans NoTrans (opp one) (Sc one) (subv A k0 m 0 k0) (subv A 0 k0 k0 n) (subv A k0 m k0 n) s3 (m - k0) (n - k0) k0) as (a4 & s4 & e4 & OC4).
  { split; discriminate. } { split; cbn; lia. } { split; cbn; lia. } { split; cbn; lia. }
  exists a4, s4. split; auto. clear e4. assert (He4 := pf_oc A _ _ piv _ s0 s3 s4 (BB k0 m k0 n ltac:(lia) ltac:(lia)) He3 OC4).
  apply wp_bind.
  eapply wp_conseq; [apply (IH (subv A k0 m k0 n) (vsub piv k0 k) s4); auto; cbn [nr nc subv vsub]; lia| |auto].
  intros info s5 (h & He & _ & Hinf & Hres). cbn [nr nc subv vsub] in Hres, Hinf. replace (Nat.min (m - k0) (n - k0)) with (n - k0) in * by lia.
  assert (He5 := pf_sub A _ piv k0 k _ _ s0 s4 s5 (BB k0 m k0 n ltac:(lia) ltac:(lia)) HP HP1 ltac:(lia) He4 He). clear He.
  set (g5 := fun j => if (k0 <=? j) && (j <? k) then h (j - k0) else g1 j) in He5.
  assert (Hg5 : forall i, k <= i -> g5 i = ival piv s0 i).
  { intros i Hi. unfold g5. destruct (Nat.ltb_spec i k); try lia. rewrite !andb_false_r. apply G1. lia. }
  destruct (Z.eqb_spec info 0) as [->|Hi0]; cbn [negb].
  2: { apply wp_ret. exists g5. change (nr A) with m. change (nc A) with n. change (Nat.min m n) with k. split; auto. split; [intros; apply Hg5; lia|]. split; [lia|]. intros; lia. }
  destruct (Hres eq_refl) as (ip1 & Hip1). clear Hres Hinf.
  assert (G5 : forall j, j < n - k0 -> g5 (k0 + j) = Z.of_nat (ip1 j)).
  { intros j Hj. unfold g5. destruct (Nat.leb_spec k0 (k0 + j)), (Nat.ltb_spec (k0 + j) k); try lia. cbn [andb]. replace (k0 + j - k0) with j by lia. apply Hip1. auto. }
  apply wp_bind. eapply wp_conseq; [apply (swap_rows_run (k - k0) (vsub piv k0 k) (subv A k0 m 0 k0) ip1 s5 noX); auto; cbn [nr nc subv vsub]; try lia| |auto].
  { intros j Hj. split; [|specialize (Hip1 j ltac:(lia)); lia]. change (ival (vsub piv k0 k) s5 j) with (ival piv s5 (k0 + j)). rewrite <- G5 by lia. apply He5. lia. }
  intros u6 s6 HX. cbv beta in HX. clear u6. assert (He6 := pf_eff A _ _ piv _ s0 s5 s6 (BB k0 m 0 k0 ltac:(lia) ltac:(lia)) He5 HX). clear HX.
  apply wp_bind.
  apply (wp_forup (fun q s => pf A piv (fun j => if (k0 <=? j) && (j <? k0 + q) then Z.of_nat (k0 + ip1 (j - k0)) else g5 j) s0 s)); [lia| | |].
  - eapply pf_ext; [exact He6|]. intros j Hj. destruct (Nat.leb_spec k0 j), (Nat.ltb_spec j (k0 + 0)); auto; lia.
  - intros q s7 Hq He7. apply wp_bind. apply wp_ird_sub; auto; [lia|]. fird (ip1 q).
    + cbv beta. destruct (Nat.ltb_spec (k0 + q) (k0 + q)); [lia|]. rewrite andb_false_r. apply G5. lia.
    + apply wp_iwr_sub; auto; [lia|]. fiwr. eapply pf_ext; [eauto|]. intros j Hj. cbv beta.
      destruct (Nat.eqb_spec j (k0 + q)), (Nat.leb_spec k0 j), (Nat.ltb_spec j (k0 + q)), (Nat.ltb_spec j (k0 + S q)); try lia; cbn [andb]; auto.
      subst j. f_equal. replace (k0 + q - k0) with q by lia. lia.
  - intros s7 He7. apply wp_ret. eexists. split; [exact He7|]. change (nr A) with m. change (nc A) with n. change (Nat.min m n) with k. split; [|split; [lia|]].
    + intros i Hi. destruct (Nat.ltb_spec i (k0 + (k - k0))); [lia|]. rewrite andb_false_r. apply Hg5. lia.
    + intros _. exists (fun j => if j <? k0 then ip j else k0 + ip1 (j - k0)). intros j Hj.
      destruct (Nat.ltb_spec j k0), (Nat.leb_spec k0 j), (Nat.ltb_spec j (k0 + (k - k0))); try lia; cbn [andb].
      * unfold g5. destruct (Nat.leb_spec k0 j); [lia|]. cbn [andb]. apply Hg1. auto.
      * split; auto. specialize (Hip1 (j - k0) ltac:(lia)). lia.
Qed.
End S.
