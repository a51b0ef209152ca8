(** LU factorization: the recursive algorithm *)
From Coq Require Import Bool Arith ZArith Lia Ring Field.
From Verif.Core Require Import Scalar Prog View Rel Slice Loops IVec.
From Verif.Spec Require Import LinAlg LU Outcome.
From Verif.Model Require Import Gemm Blas1 Blas2 Blas3 LaAux Triangular LU.
From Verif.Proof Require Import SumLemmas Tactics SliceTac OrdLemmas PotrfProof LowOps BlockAlg BlkOps LuMultProof LUMath Blas1Proof IamaxProof RsclProof GetrfProof.
From Verif.Properties Require Import Blas1.
Local Open Scope T_scope.

Section Aux.
Context {E : Env}.
Lemma returns_wp B (p : M B) s Q X : returns p s Q -> wp p Q X s.
Proof. intros (a & s' & e & H). unfold wp. rewrite e. auto. Qed.
Lemma inview_vrow B j a : inview (vrow B j 0 (nc B)) a <-> exists c, (c < nc B)%nat /\ a = ad B j c.
Proof.
  split.
  - intros (i & c & Hi & Hc & e). cbn in *. exists i. split; [lia|auto].
  - intros (c & Hc & e). exists c, 0%nat. cbn. repeat split; auto; lia.
Qed.
(** exchanging two rows *)
Lemma swap_two B j p X s : vinj B -> (j < nr B)%nat -> (p < nr B)%nat -> j <> p ->
  wp (swap (vrow B j 0 (nc B)) (vrow B p 0 (nc B))) (fun _ s' => eff B (exchange j p (val B s)) s s') X s.
Proof.
  intros HI Hj Hp Hn. apply wp_noX. eapply wp_conseq; [apply swap_run; auto| |auto].
  - apply vinj_vrow; auto.
  - apply vinj_vrow; auto.
  - intros a b c d. cbn. intros Ha Hb Hc Hd e. apply HI in e; lia.
  - intros _ s' (H1 & H2 & H3 & H4). cbn [nr vrow] in *. rewrite Nat.sub_0_r in *. split; [|split]; auto.
    + intros i c Hi Hc. unfold exchange. destruct (Nat.eqb_spec i j) as [->|]; [|destruct (Nat.eqb_spec i p) as [->|]].
      * exact (H1 c Hc).
      * exact (H2 c Hc).
      * unfold val. apply H3; rewrite inview_vrow; intros (c' & Hc' & e); apply HI in e; lia.
    + intros l Hl. apply H3; rewrite inview_vrow; intros (c' & Hc' & e); apply Hl; [exists j, c'|exists p, c']; auto.
Qed.
Lemma swap_rows_run k piv B ip s X : vinj B -> (k <= nr piv)%nat -> (0 < nc piv)%nat -> (k <= nr B)%nat ->
  (forall j, (j < k)%nat -> ival piv s j = Z.of_nat (ip j) /\ (ip j < nr B)%nat) ->
  wp (swap_rows k piv B) (fun _ s' => eff B (interchange k ip (val B s)) s s') X s.
Proof.
  intros HI Hk Hc HkB Hp. unfold swap_rows.
  apply (wp_forup (fun j s' => eff B (interchange j ip (val B s)) s s')); [lia|apply eff_refl| |auto].
  intros j s' Hj He. destruct (Hp j) as [Hv Hlt]; [lia|].
  assert (RD : forall (Q : nat -> state -> Prop), Q (ip j) s' -> wp (ird piv j) Q X s').
  { intros Q HQ. unfold wp, ird, ival. destruct He as (_ & _ & Hi). rewrite Hi. change (imem s (ad piv j 0)) with (ival piv s j). rewrite Hv.
    rewrite inb_true by lia. destruct (Z.leb_spec 0 (Z.of_nat (ip j))); [|lia]. cbn [andb]. rewrite Nat2Z.id. auto. }
  apply wp_bind, RD. cbn [interchange]. destruct (Nat.eqb_spec (ip j) j) as [e|Hne]; cbn [negb].
  - apply wp_ret. apply (eff_ext _ _ _ _ _ He). intros i c Hi Hc'. unfold exchange. rewrite e. destruct (Nat.eqb_spec i j); subst; auto.
  - apply wp_bind, wp_slrow; try lia. apply wp_bind, RD. apply wp_bind, wp_slrow; try lia.
    eapply wp_conseq; [apply (swap_two B j (ip j) X); auto; lia| |auto]. intros u2 s2 He2. cbv beta in He2. eapply eff_trans; [exact He|].
    apply (eff_ext _ _ _ _ _ He2). intros i c Hi Hc'. unfold exchange. apply He; auto. destruct (Nat.eqb_spec i j), (Nat.eqb_spec i (ip j)); lia.
Qed.
Lemma peff_sub_same A i0 i1 j0 j1 p F G g h s0 s s' : vinj A -> (i1 <= nr A)%nat -> (j1 <= nc A)%nat ->
  peff A F p g s0 s -> peff (subv A i0 i1 j0 j1) G p h s s' ->
  peff A (fun i j => if inbox i0 i1 j0 j1 i j then G (i - i0)%nat (j - j0)%nat else F i j) p h s0 s'.
Proof.
  intros HI Hi1 Hj1 (H1 & H2 & H3 & H4) (K1 & K2 & K3 & K4). cbn [nr nc subv] in *.
  assert (Hin : forall l, inview (subv A i0 i1 j0 j1) l -> inview A l).
  { intros l (i & j & Hi & Hj & e). cbn [nr nc subv ad] in *. exists (i0 + i)%nat, (j0 + j)%nat. repeat split; auto; lia. }
  repeat split; auto.
  - intros i j Hi Hj. destruct (inbox_spec i0 i1 j0 j1 i j) as [Hb'|Hb'].
    + rewrite <- (K1 (i - i0)%nat (j - j0)%nat) by lia. unfold val; cbn [ad subv]. f_equal. f_equal; lia.
    + rewrite <- H1 by auto. unfold val. apply K2. intros (i' & j' & Hi' & Hj' & e). cbn [nr nc subv ad] in *. apply HI in e; lia.
  - intros l Hl. rewrite K2, H2; auto.
  - intros l Hl. rewrite K4, H4; auto.
Qed.
Lemma wp_ird_sub p a b i (Q : nat -> state -> Prop) X s : nc p = 1%nat -> (b <= nr p)%nat -> (i < b - a)%nat -> wp (ird p (a + i)) Q X s -> wp (ird (vsub p a b) i) Q X s.
Proof.
  intros Hp Hb Hi. unfold wp, ird. rewrite !inb_true by (cbn [nr nc vsub]; lia). auto.
Qed.
Lemma wp_iwr_sub p a b i v (Q : unit -> state -> Prop) X s : nc p = 1%nat -> (b <= nr p)%nat -> (i < b - a)%nat -> wp (iwr p (a + i) v) Q X s -> wp (iwr (vsub p a b) i v) Q X s.
Proof.
  intros Hp Hb Hi. unfold wp, iwr. rewrite !inb_true by (cbn [nr nc vsub]; lia). auto.
Qed.
End Aux.

Section Rec.
Context {E : Env} {FL : FieldLaws E} {CL : ConjLaws E} {QL : EqbLaws E} {OL : OrdLaws E} {RL : ROrdLaws E} {XL : CplxLaws E} {NL : FinLaws E}.
Add Field Tf : fth.
Implicit Types (F G : mat).
Context (safeMin safeMax q4 : T) (nan : bool) (Rm : conj safeMin = safeMin) (RM : conj safeMax = safeMax) (HmM : safeMin * safeMax = 1).

Lemma lupost_1 A piv s0 : vinj A -> vinj piv -> nc piv = 1%nat -> (1 <= nr piv)%nat -> nr A = 1%nat -> (0 < nc A)%nat ->
  wp (iwr piv 0 0;; p <- ird piv 0;; a <- rd A p 0;; if eqb a 0 then ret 1%Z else ret 0%Z) (lupost absv A piv s0) noX s0.
Proof.
  intros HI HP HP1 Hk Hm Hn. assert (He := peff_refl A piv s0). assert (HK : Nat.min (nr A) (nc A) = 1%nat) by lia.
  apply wp_bind. piwr. apply wp_bind. pird 0%nat; [reflexivity|]. apply wp_bind. prd.
  assert (Hmax : forall i, (i < nr A)%nat -> ltb (absv (val A s0 0 0)) (absv (val A s0 i 0)) = false).
  { intros i Hi. replace i with 0%nat by lia. apply lt_irr. }
  destruct (eqb (val A s0 0 0) 0) eqn:Hz; apply wp_ret; eexists _, _; (split; [exact He0|]); (split; [rewrite HK; intros i Hi; cbv beta; destruct (Nat.eqb_spec i 0); auto; lia|]).
  - right. exists 1%nat. split; auto. apply eqb_spec in Hz. apply (fail_at (nr A) (nc A) 0 absv (fun _ => 0%nat) _ (val A s0) 0); auto using goodmag_absv; try lia.
    + apply lustep_0; auto.
    + intros; apply Hmax; lia.
  - left. split; auto. exists (fun _ => 0%nat). rewrite HK. split; [intros j Hj; replace j with 0%nat by lia; auto|].
    apply (lustep_ext absv (nr A) (nc A) 1 (fun _ => 0%nat) _ (val A s0) (val A s0) (elim1 (exchange 0 0 (val A s0)))); auto; try lia.
    + intros i c Hi Hc. replace i with 0%nat by lia. reflexivity.
    + apply lustep_1; auto; try lia. intros e. rewrite e in Hz. assert (K := proj2 (eqb_spec 0 0) eq_refl). congruence.
Qed.

Lemma getrf_recursive_f_run : forall fuel A piv s0, vinj A -> vinj piv -> nc piv = 1%nat -> (Nat.min (nr A) (nc A) <= nr piv)%nat -> (nr A + nc A < fuel)%nat ->
  wp (getrf_recursive_f fuel safeMin safeMax q4 nan A piv) (lupost absv A piv s0) noX s0.
Proof.
  induction fuel as [|fu IH]; intros A piv s0 HI HP HP1 Hk Hf; [lia|]. cbn [getrf_recursive_f]. cbv zeta.
  set (m := nr A) in *. set (n := nc A) in *. set (k := Nat.min m n) in *.
  apply wp_bind, wp_check; [apply Nat.leb_le; auto|].
  destruct ((m <=? 0)%nat || (n <=? 0)%nat) eqn:Q0.
  { apply wp_ret. exists (val A s0), (ival piv s0). split; [apply peff_refl|]. split; auto. left. split; auto. exists (fun j => j).
    assert (e : k = 0%nat). { apply orb_true_iff in Q0. rewrite !Nat.leb_le in Q0. unfold k. lia. }
    change (Nat.min (nr A) (nc A)) with k. rewrite e. split; [intros; lia|]. apply lustep_0; auto. }
  assert (Hmn : (0 < m)%nat /\ (0 < n)%nat). { apply orb_false_iff in Q0. rewrite !Nat.leb_gt in Q0. lia. } clear Q0.
  destruct (Nat.eqb_spec m 1) as [Hm1|Hm1]; [apply lupost_1; auto; unfold m, n, k in *; lia|].
  destruct (Nat.eqb_spec n 1) as [Hn1|Hn1].
  { (* one column *)
    assert (HK : Nat.min (nr A) (nc A) = 1%nat) by (unfold k, m, n in *; lia).
    apply wp_bind, wp_slcol; try (unfold n, m in *; lia).
    assert (Hneg : forall x, ltb (- (1)) (absv x) = true).
    { intros x. assert (K := pos_opp 1 one_pos). destruct (nonneg_cases _ (absv_nonneg x)) as [->|H]; [auto|]. eapply lt_trans; eauto. }
    destruct (iamax_correct q4 nan absv (vcol A 0 m 0) s0 m) as (r & s1 & e & -> & p & -> & Hfm).
    { split; cbn; lia. } { lia. } { intros j Hj. split; [apply fin_nan|apply fin_inf]. } { intros _ j Hj. apply fin_inf. } { auto. }
    apply wp_bind. unfold wp at 1. rewrite e. clear e.
    destruct Hfm as (Hp & Hmax & _).
    change (forall j, (j < m)%nat -> ltb (absv (val A s0 p 0)) (absv (val A s0 j 0)) = false) in Hmax.
    assert (He := peff_refl A piv s0). set (V := val A s0) in *.
    apply wp_bind. piwr. set (g1 := fun k0 : nat => if (k0 =? 0)%nat then Z.of_nat p else ival piv s0 k0) in *.
    assert (G0 : g1 0%nat = Z.of_nat p) by reflexivity.
    assert (Gk : forall i, (1 <= i)%nat -> g1 i = ival piv s0 i). { intros i Hi. unfold g1. destruct (Nat.eqb_spec i 0); auto; lia. }
    apply wp_bind. pird p; [auto|]. apply wp_bind. prd. destruct (eqb (V p 0%nat) 0) eqn:Hz.
    { apply wp_ret. exists V, g1. split; auto. rewrite HK. split; [intros; apply Gk; lia|]. right. exists 1%nat. split; auto.
      apply eqb_spec in Hz. apply (fail_at m n 0 absv (fun _ => 0%nat) _ V p); auto using goodmag_absv; try lia.
      - apply lustep_0; auto. 
      - intros; apply Hmax; lia. }
    assert (Hnz : V p 0%nat <> 0). { intros e. rewrite e in Hz. assert (K := proj2 (eqb_spec 0 0) eq_refl). congruence. }
    apply wp_bind. pird p; [auto|]. apply wp_bind.
    assert (SW : forall (Q : unit -> state -> Prop), (forall s', peff A (exchange 0 p V) piv g1 s0 s' -> Q tt s') -> wp (if negb (p =? 0)%nat
        then p0 <- ird piv 0;; aux <- rd A p0 0;; a0 <- rd A 0 0;; p1 <- ird piv 0;; wr A p1 0 a0;; wr A 0 0 aux else ret tt) Q noX s).
    { intros Q HQ. destruct (Nat.eqb_spec p 0) as [e0|Hp0]; cbn [negb].
      - apply wp_ret, HQ. pext; auto. intros i c Hi Hc. unfold exchange. subst p. destruct (Nat.eqb_spec i 0); subst; auto.
      - apply wp_bind. pird p; [auto|]. apply wp_bind. prd. apply wp_bind. prd. apply wp_bind. pird p; [auto|]. apply wp_bind. pwr. pwr.
        apply HQ. pext; auto. intros i c Hi Hc. assert (c = 0%nat) by (unfold n in *; lia). subst c. unfold exchange. cases. }
    apply SW. clear SW. intros s2 He2. apply wp_bind, wp_slcol; try (unfold n, m in *; lia). apply wp_bind. prd.
    change (exchange 0 p V 0%nat 0%nat) with (V p 0%nat). apply wp_bind.
    eapply wp_conseq; [apply (rscl_run safeMin safeMax (V p 0%nat) (vcol A 1 m 0) s2); auto; apply vinj_vcol; unfold m, n in *; auto; lia| |auto].
    intros u3 s3 He3. cbv beta in He3. clear u3. apply veff_eff in He3; [|auto].
    assert (He4 := peff_eff _ _ _ _ _ _ _ _ He2 (eff_vcol A 1 m 0 _ _ s2 s2 s3 HI ltac:(unfold m; lia) ltac:(lia) (peff_here _ _ _ _ _ _ He2) He3)).
    apply wp_ret. eexists _, g1. split; [exact He4|]. rewrite HK. split; [intros; apply Gk; lia|]. left. split; auto. exists (fun _ => p).
    split; [intros j Hj; replace j with 0%nat by lia; auto|].
    apply (lustep_ext absv m n 1 (fun _ => p) _ V V (elim1 (exchange 0 p V))); auto; try lia.
    - intros i c Hi Hc. assert (c = 0%nat) by lia. subst c. unfold elim1. cbn [Nat.eqb]. destruct (inbox_spec 1 m 0 1 i 0), (Nat.eqb_spec i 0); try lia.
      + change (exchange 0 p V 0%nat 0%nat) with (V p 0%nat). f_equal. symmetry. unfold vval, val, vcol; cbn [ad]. change (val A s2 (1 + (i - 1)) 0 = exchange 0 p V i 0%nat).
        replace (1 + (i - 1))%nat with i by lia. apply He2; unfold m, n in *; lia.
      + subst i. auto.
    - apply lustep_1; auto; lia. }
  destruct (Nat.ltb_spec m n) as [Hlt|Hge].
  { (* wide *)
    assert (HK : k = m) by (unfold k; lia).
    apply wp_bind. slces. apply wp_bind. slces. apply wp_bind.
    assert (HI0 := vinj_subv A 0 m 0 m HI ltac:(unfold m; lia) ltac:(unfold n in *; lia)).
    assert (HI1 := vinj_subv A 0 m m n HI ltac:(unfold m; lia) ltac:(unfold n in *; lia)).
    eapply wp_conseq; [apply (IH (subv A 0 m 0 m) piv s0); auto; cbn [nr nc subv]; lia| |auto].
    intros info s1 (F & g & He & Hgk & Hres). cbn [nr nc subv] in Hgk, Hres. rewrite !Nat.sub_0_r, Nat.min_id in Hgk, Hres.
    assert (He1 := peff_sub_same A 0 m 0 m piv _ _ _ _ s0 s0 s1 HI ltac:(unfold m; lia) ltac:(unfold n in *; lia) (peff_refl A piv s0) He). clear He.
    destruct Hres as [(-> & ip & Hg & HL)|(c & -> & HF)]; cbn [Z.eqb negb].
    2: { destruct HF as (Hc & HF'). assert (HF : lufail absv m m c (val (subv A 0 m 0 m) s0)) by (split; auto). clear HF'.
         destruct (Z.eqb_spec (Z.of_nat c) 0); [lia|]. cbn [negb]. apply wp_ret. eexists _, g. split; [exact He1|]. split; [intros; apply Hgk; unfold k, m, n in *; lia|].
         right. exists c. split; auto. apply (lufail_cols absv m n m); [lia|]. apply (lufail_ext absv m m c (val (subv A 0 m 0 m) s0)); auto. }
    set (F1 := fun i j => if inbox 0 m 0 m i j then F (i - 0)%nat (j - 0)%nat else val A s0 i j) in He1.
    assert (Hip : forall l, (l < m)%nat -> (l <= ip l < m)%nat) by (intros l Hl; apply HL; auto).
    apply wp_bind. eapply wp_conseq; [apply (swap_rows_run k piv (subv A 0 m m n) ip s1 noX); auto; cbn [nr subv]; try lia| |auto].
    { intros j Hj. split; [|specialize (Hip j ltac:(lia)); lia]. destruct He1 as (_ & _ & K & _). rewrite K by lia. apply Hg. lia. }
    intros u2 s2 HX. cbv beta in HX. clear u2.
    assert (He2 := peff_eff _ _ _ _ _ _ _ _ He1 (eff_sub A 0 m m n _ _ s1 s1 s2 HI ltac:(unfold m; lia) ltac:(unfold n; lia) (peff_here _ _ _ _ _ _ He1) HX)). clear HX.
    set (F2 := fun i c => if (c <? m)%nat then F i c else interchange m ip (val A s0) i c).
    assert (Hpl : forall i, (i < m)%nat -> (pidx m ip i < m)%nat) by (intros i Hi; apply pidx_lt; auto; intros; apply Hip; auto).
    apply (peff_ext _ _ F2 _ _ g) in He2; auto.
    2: { intros i c Hi Hc. unfold F2. destruct (inbox_spec 0 m m n i c), (Nat.ltb_spec c m); try lia.
         - rewrite HK, !interchange_pidx. rewrite Nat.sub_0_r. rewrite (val_sub A F1 s1 s1) by (try eapply peff_here; eauto; unfold n, m in *; specialize (Hpl i); lia).
           unfold F1. specialize (Hpl i ltac:(unfold m; lia)). ibx. f_equal. lia.
         - unfold F1. ibx. f_equal; lia.
         }
    apply wp_bind. eapply wp_conseq; [apply (trsm_b Left Lower NoTrans Unit 1 A F2 s2 s2 0 m 0 m m n noX); auto; unfold m, n in *; try lia; try (eapply peff_here; eauto); cbn [sel]; try lia; try discriminate| |auto].
    intros u3 s3 (Y & HX & HY). clear u3. assert (He3 := peff_eff _ _ _ _ _ _ _ _ He2 HX). clear HX.
    apply wp_ret. eexists _, g. split; [exact He3|]. split; [intros; apply Hgk; unfold k, m, n in *; lia|]. left. split; auto. exists ip.
    change (Nat.min (nr A) (nc A)) with k. change (nr A) with m. change (nc A) with n. rewrite HK. split; [intros; apply Hg; lia|].
    rewrite !Nat.sub_0_r in HY. cbn [opm] in HY.
    destruct HL as (L1 & L2 & L3). split; [|split].
    - intros l Hl. split; [apply Hip; auto|]. ibx. unfold F2. destruct (Nat.ltb_spec l m); [|lia]. apply L1; auto.
    - intros i c Hi Hc. destruct (Nat.leb_spec m i); [lia|]. cbn [andb]. destruct (Nat.lt_ge_cases c m) as [Hcm|Hcm].
      + assert (K := L2 i c Hi Hcm). destruct (Nat.leb_spec m i); [lia|]. cbn [andb] in K.
        transitivity (interchange m ip (val (subv A 0 m 0 m) s0) i c); [rewrite !interchange_pidx; reflexivity|]. rewrite K. f_equal.
        apply mmul_ext2; intros l Hl; [apply Lf_ext|apply Uf_ext]; ibx; unfold F2; destruct (Nat.ltb_spec l m), (Nat.ltb_spec c m); auto; lia.
      + assert (K := HY i (c - m)%nat Hi ltac:(lia)). unfold blk in K. replace (m + (c - m))%nat with c in K by lia. cbn [Nat.add] in K.
        unfold F2 at 2 in K. destruct (Nat.ltb_spec c m); [lia|].
        transitivity (1 * interchange m ip (val A s0) i c); [ring|]. rewrite <- K. transitivity (mmul m (Lf (fun i0 j => if inbox 0 m m n i0 j then Y (i0 - 0)%nat (j - m)%nat else F2 i0 j)) (Uf (fun i0 j => if inbox 0 m m n i0 j then Y (i0 - 0)%nat (j - m)%nat else F2 i0 j)) i c); [|ring].
        unfold mmul. apply sum_ext. intros l Hl. f_equal.
        * apply Lf_ext. ibx. auto.
        * rewrite Uf_up by lia. ibx. f_equal; lia.
    - intros i l Hl Hi. ibx. unfold F2. destruct (Nat.ltb_spec l m); [|lia]. apply L3; auto. }
  (* tall or square *)
  assert (HK : k = n) by (unfold k; lia).
  set (k0 := Nat.div2 k). assert (Hk0 : (0 < k0 /\ k0 < n)%nat).
  { subst k0. rewrite HK. assert (K := Nat.div2_odd n). destruct (Nat.odd n); cbn in K; lia. }
  apply wp_bind. slces. apply wp_bind. slces. apply wp_bind. slces. apply wp_bind.
  assert (HI0 := vinj_subv A 0 m 0 k0 HI ltac:(unfold m; lia) ltac:(unfold n in *; lia)).
  assert (HI1 := vinj_subv A 0 m k0 n HI ltac:(unfold m; lia) ltac:(unfold n in *; lia)).
  assert (HI2 := vinj_subv A k0 m 0 k0 HI ltac:(unfold m; lia) ltac:(unfold n in *; lia)).
  assert (HI3 := vinj_subv A k0 m k0 n HI ltac:(unfold m; lia) ltac:(unfold n in *; lia)).
  assert (HP0 := vinj_vsub piv 0 k0 HP ltac:(lia) ltac:(lia)).
  assert (HP2 := vinj_vsub piv k0 k HP ltac:(lia) ltac:(lia)).
  eapply wp_conseq; [apply (IH (subv A 0 m 0 k0) (vsub piv 0 k0) s0); auto; cbn [nr nc subv vsub]; lia| |auto].
  intros info s1 (F & g & He & Hgk & Hres). cbn [nr nc subv vsub] in Hgk, Hres. rewrite !Nat.sub_0_r in Hgk, Hres. replace (Nat.min m k0) with k0 in * by lia.
  assert (He1 := peff_sub A 0 m 0 k0 piv 0 k0 _ _ _ _ s0 s0 s1 HI ltac:(unfold m; lia) ltac:(unfold n in *; lia) HP HP1 ltac:(lia) (peff_refl A piv s0) He). clear He.
  destruct Hres as [(-> & ip & Hg & HL)|(c & -> & HF)]; cbn [Z.eqb negb].
  2: { destruct HF as (Hc & HF'). assert (HF : lufail absv m k0 c (val (subv A 0 m 0 k0) s0)) by (split; auto). clear HF'.
       destruct (Z.eqb_spec (Z.of_nat c) 0); [lia|]. cbn [negb]. apply wp_ret. eexists _, _. split; [exact He1|]. split.
       - intros i Hi. cbv beta. destruct (Nat.leb_spec 0 i), (Nat.ltb_spec i k0); auto; unfold k, m, n in *; lia.
       - right. exists c. split; auto. apply (lufail_cols absv m n k0); [lia|]. apply (lufail_ext absv m k0 c (val (subv A 0 m 0 k0) s0)); auto. }
  set (F1 := fun i j => if inbox 0 m 0 k0 i j then F (i - 0)%nat (j - 0)%nat else val A s0 i j) in He1.
  set (g1 := fun j => if (0 <=? j)%nat && (j <? k0)%nat then g (j - 0)%nat else ival piv s0 j) in He1.
  assert (Hip : forall l, (l < k0)%nat -> (l <= ip l < m)%nat) by (intros l Hl; apply HL; auto).
  assert (Hg1 : forall l, (l < k0)%nat -> g1 l = Z.of_nat (ip l)).
  { intros l Hl. unfold g1. destruct (Nat.leb_spec 0 l), (Nat.ltb_spec l k0); try lia. cbn [andb]. rewrite Nat.sub_0_r. auto. }
  apply wp_bind. eapply wp_conseq; [apply (swap_rows_run k0 (vsub piv 0 k0) (subv A 0 m k0 n) ip s1 noX); auto; cbn [nr nc subv vsub]; try lia| |auto].
  { intros j Hj. split; [|specialize (Hip j ltac:(lia)); lia]. destruct He1 as (_ & _ & K & _). change (ival (vsub piv 0 k0) s1 j) with (ival piv s1 j). rewrite K by lia. auto. }
  intros u2 s2 HX. cbv beta in HX. clear u2.
  assert (He2 := peff_eff _ _ _ _ _ _ _ _ He1 (eff_sub A 0 m k0 n _ _ s1 s1 s2 HI ltac:(unfold m; lia) ltac:(unfold n; lia) (peff_here _ _ _ _ _ _ He1) HX)). clear HX.
  set (F2 := fun i c => if (c <? k0)%nat then F i c else interchange k0 ip (val A s0) i c).
  assert (Hpl : forall i, (i < m)%nat -> (pidx k0 ip i < m)%nat) by (intros i Hi; apply pidx_lt; auto; [lia|intros; apply Hip; auto]).
  apply (peff_ext _ _ F2 _ _ g1) in He2; auto.
  2: { intros i c Hi Hc. unfold F2. destruct (inbox_spec 0 m k0 n i c), (Nat.ltb_spec c k0); try lia.
       - rewrite !interchange_pidx. rewrite Nat.sub_0_r. rewrite (val_sub A F1 s1 s1) by (try eapply peff_here; eauto; unfold n, m in *; specialize (Hpl i); lia).
         unfold F1. specialize (Hpl i ltac:(unfold m; lia)). ibx. f_equal. lia.
       - unfold F1. ibx. f_equal; lia.
       }
  do 4 (apply wp_bind; slces). apply wp_bind. slces.
  apply wp_bind. eapply wp_conseq; [apply (trsm_b Left Lower NoTrans Unit 1 A F2 s2 s2 0 k0 0 k0 k0 n noX); auto; unfold m, n in *; try lia; try (eapply peff_here; eauto); cbn [sel]; try lia; try discriminate| |auto].
  intros u3 s3 (Y & HX & HY). clear u3. assert (He3 := peff_eff _ _ _ _ _ _ _ _ He2 HX). clear HX.
  set (F3 := fun i j => if inbox 0 k0 k0 (nc A) i j then Y (i - 0)%nat (j - k0)%nat else F2 i j) in He3.
  apply wp_bind. eapply wp_conseq; [apply (gemm_b (- (1)) 1 A F3 s3 s3 k0 (nr A) k0 (nc A) 0 k0 0 k0 noX); auto; try lia; try (eapply peff_here; eauto)| |auto].
  intros u4 s4 HX. cbv beta in HX. clear u4. assert (He4 := peff_eff _ _ _ _ _ _ _ _ He3 HX). clear HX.
  set (F4 := fun i j => if inbox k0 (nr A) k0 (nc A) i j then - (1) * mmul (k0 - 0) (blk k0 0 F3) (blk 0 k0 F3) (i - k0)%nat (j - k0)%nat + 1 * F3 i j else F3 i j) in He4.
  change (nr A) with m. change (nc A) with n.
  rewrite !Nat.sub_0_r in HY. cbn [opm] in HY.
  assert (E4 : forall i c, (c < k0)%nat -> F4 i c = F i c).
  { intros i c Hc. unfold F4, F3, F2. ibx. destruct (Nat.ltb_spec c k0); auto; lia. }
  assert (HL4 : lustep absv m n k0 ip (val A s0) F4).
  { destruct HL as (L1 & L2 & L3). split; [|split].
    - intros l Hl. split; [apply Hip; auto|]. rewrite E4 by auto. apply L1; auto.
    - intros i c Hi Hc. destruct (Nat.lt_ge_cases c k0) as [Hcm|Hcm].
      + assert (K := L2 i c Hi Hcm). destruct (Nat.leb_spec k0 c); [lia|]. rewrite andb_false_r in *.
        transitivity (interchange k0 ip (val (subv A 0 m 0 k0) s0) i c); [rewrite !interchange_pidx; reflexivity|]. rewrite K. f_equal.
        apply mmul_ext2; intros l Hl; [apply Lf_ext|apply Uf_ext]; symmetry; apply E4; auto.
      + destruct (Nat.leb_spec k0 c); [|lia]. rewrite andb_true_r.
        assert (EY : forall l, (l < k0)%nat -> F4 l c = Y l (c - k0)%nat). { intros l Hl. unfold F4, F3. ibx. f_equal; lia. }
        destruct (Nat.leb_spec k0 i) as [Hik|Hik].
        * replace (interchange k0 ip (val A s0) i c) with (F3 i c).
          2: { unfold F3, F2. ibx. destruct (Nat.ltb_spec c k0); auto; lia. }
          unfold F4 at 3. ibx. rewrite Nat.sub_0_r.
          replace (mmul k0 (Lf F4) (Uf F4) i c) with (mmul k0 (blk k0 0 F3) (blk 0 k0 F3) (i - k0)%nat (c - k0)%nat); [ring|].
          unfold mmul. apply sum_ext. intros l Hl. rewrite Lf_lo, Uf_up by lia. unfold blk. replace (k0 + (i - k0))%nat with i by lia. replace (k0 + (c - k0))%nat with c by lia. cbn [Nat.add].
          f_equal; unfold F4; ibx; auto.
        * assert (K := HY i (c - k0)%nat Hik ltac:(lia)). unfold blk in K. replace (k0 + (c - k0))%nat with c in K by lia. cbn [Nat.add] in K.
          unfold F2 at 2 in K. destruct (Nat.ltb_spec c k0); [lia|].
          transitivity (1 * interchange k0 ip (val A s0) i c); [ring|]. rewrite <- K. transitivity (mmul k0 (Lf F4) (Uf F4) i c); [|ring].
          unfold mmul. apply sum_ext. intros l Hl. f_equal.
          -- apply Lf_ext. rewrite E4 by auto. unfold F2. destruct (Nat.ltb_spec l k0); auto; lia.
          -- rewrite Uf_up by lia. symmetry; apply EY; auto.
    - intros i l Hl Hi. rewrite E4 by auto. apply L3; auto. }
  apply wp_bind.
  eapply wp_conseq; [apply (IH (subv A k0 m k0 n) (vsub piv k0 k) s4); auto; cbn [nr nc subv vsub]; lia| |auto].
  intros info s5 (G & h & He & Hhk & Hres). cbn [nr nc subv vsub] in Hhk, Hres. replace (Nat.min (m - k0) (n - k0)) with (n - k0)%nat in * by lia.
  assert (He5 := peff_sub A k0 m k0 n piv k0 k _ _ _ _ s0 s4 s5 HI ltac:(unfold m; lia) ltac:(unfold n in *; lia) HP HP1 ltac:(lia) He4 He). clear He.
  set (g5 := fun j => if (k0 <=? j)%nat && (j <? k)%nat then h (j - k0)%nat else g1 j) in He5.
  assert (Hg5 : forall i, (k <= i)%nat -> g5 i = ival piv s0 i).
  { intros i Hi. unfold g5, g1. destruct (Nat.ltb_spec i k), (Nat.ltb_spec i k0); try lia. rewrite !andb_false_r. auto. }
  assert (Vb : forall i c, (i < m - k0)%nat -> (c < n - k0)%nat -> val (subv A k0 m k0 n) s4 i c = blk k0 k0 F4 i c).
  { intros i c Hi Hc. rewrite (val_sub A F4 s4 s4); auto; [eapply peff_here; eauto|unfold m in *; lia|unfold n in *; lia]. }
  destruct Hres as [(-> & ip1 & Hh & HG)|(c & -> & HF)]; cbn [Z.eqb negb].
  2: { destruct HF as (Hc & HF'). assert (HF : lufail absv (m - k0) (n - k0) c (val (subv A k0 m k0 n) s4)) by (split; auto). clear HF'.
       destruct (Z.eqb_spec (Z.of_nat c) 0); [lia|]. cbn [negb]. apply wp_ret. eexists _, _. split; [exact He5|]. split.
       - intros i Hi. apply Hg5. unfold k, m, n in *. lia.
       - right. exists (k0 + c)%nat. split; [lia|]. apply (lufail_comp absv m n k0 c ip _ F4); auto; try lia.
         apply (lufail_ext absv _ _ c (val (subv A k0 m k0 n) s4)); auto. }
  assert (Hip1 : forall l, (l < n - k0)%nat -> (l <= ip1 l < m - k0)%nat) by (intros l Hl; apply HG; auto).
  apply wp_bind. eapply wp_conseq; [apply (swap_rows_run (k - k0) (vsub piv k0 k) (subv A k0 m 0 k0) ip1 s5 noX); auto; cbn [nr nc subv vsub]; try lia| |auto].
  { intros j Hj. split; [|specialize (Hip1 j ltac:(lia)); lia]. destruct He5 as (_ & _ & K & _). change (ival (vsub piv k0 k) s5 j) with (ival piv s5 (k0 + j)). rewrite K by lia.
    unfold g5. destruct (Nat.leb_spec k0 (k0 + j)), (Nat.ltb_spec (k0 + j) k); try lia. cbn [andb]. replace (k0 + j - k0)%nat with j by lia. apply Hh. lia. }
  intros u6 s6 HX. cbv beta in HX. clear u6.
  assert (He6 := peff_eff _ _ _ _ _ _ _ _ He5 (eff_sub A k0 m 0 k0 _ _ s5 s5 s6 HI ltac:(unfold m; lia) ltac:(unfold n in *; lia) (peff_here _ _ _ _ _ _ He5) HX)). clear HX.
  set (F6 := lucomb k0 (n - k0) ip1 F4 G).
  assert (Hpl1 : forall i, (i < m - k0)%nat -> (pidx (n - k0) ip1 i < m - k0)%nat) by (intros i Hi; apply pidx_lt; auto; [lia|intros; apply Hip1; auto]).
  apply (peff_ext _ _ F6 _ _ g5) in He6; auto.
  2: { intros i c Hi Hc. unfold F6, lucomb. change (nr A) with m in Hi. change (nc A) with n in Hc. destruct (inbox_spec k0 m 0 k0 i c), (Nat.ltb_spec i k0), (Nat.ltb_spec c k0); try lia.
       - rewrite HK, !interchange_pidx. specialize (Hpl1 (i - k0)%nat ltac:(lia)). rewrite (val_sub A _ s5 s5 k0 m 0 k0 _ _ (peff_here _ _ _ _ _ _ He5)) by (unfold n, m in *; lia). ibx. f_equal. lia.
       - ibx. auto.
       - ibx. auto.
       - ibx. auto. }
  apply wp_bind.
  apply (wp_forup (fun q s => peff A F6 piv (fun j => if (k0 <=? j)%nat && (j <? k0 + q)%nat then Z.of_nat (k0 + ip1 (j - k0))%nat else g5 j) s0 s)); [lia| | |].
  - pext; auto. intros j Hj. destruct (Nat.leb_spec k0 j), (Nat.ltb_spec j (k0 + 0)); auto; lia.
  - intros q s7 Hq He7. apply wp_bind. apply wp_ird_sub; auto; [lia|]. pird (ip1 q).
    + cbv beta. destruct (Nat.leb_spec k0 (k0 + q)), (Nat.ltb_spec (k0 + q) (k0 + q)); try lia. cbn [andb]. unfold g5.
      destruct (Nat.leb_spec k0 (k0 + q)), (Nat.ltb_spec (k0 + q) k); try lia. cbn [andb]. replace (k0 + q - k0)%nat with q by lia. apply Hh. lia.
    + apply wp_iwr_sub; auto; [lia|]. piwr. pext; auto. intros j Hj. cbv beta. destruct (Nat.eqb_spec j (k0 + q)).
      * subst. destruct (Nat.leb_spec k0 (k0 + q)), (Nat.ltb_spec (k0 + q) (k0 + S q)); try lia. cbn [andb]. f_equal. replace (k0 + q - k0)%nat with q by lia. lia.
      * destruct (Nat.leb_spec k0 j), (Nat.ltb_spec j (k0 + q)), (Nat.ltb_spec j (k0 + S q)); auto; lia.
  - intros s7 He7. apply wp_ret. eexists _, _. split; [exact He7|]. change (Nat.min (nr A) (nc A)) with k. split.
    + intros i Hi. cbv beta. destruct (Nat.ltb_spec i (k0 + (k - k0))); [lia|]. rewrite andb_false_r. apply Hg5. lia.
    + left. split; auto. exists (ipcomb k0 ip ip1). split.
      * intros j Hj. unfold ipcomb. destruct (Nat.leb_spec k0 j), (Nat.ltb_spec j k0), (Nat.ltb_spec j (k0 + (k - k0))); try lia; cbn [andb]; auto.
        unfold g5. destruct (Nat.leb_spec k0 j); [lia|]. cbn [andb]. auto.
      * change (nr A) with m. change (nc A) with n. replace k with (k0 + (n - k0))%nat at 1 by lia. apply lustep_comp; auto; try lia.
        apply (lustep_ext absv (m - k0) (n - k0) (n - k0) ip1 ip1 (val (subv A k0 m k0 n) s4) _ G G); auto; lia.
Qed.
End Rec.
