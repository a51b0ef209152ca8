(** LU factorization: the level-0 algorithm *)
From Coq Require Import Bool Arith ZArith Lia Ring Field.
From Verif.Core Require Import Scalar Prog View Rel Slice Loops IVec.
From Verif.Spec Require Import LinAlg LU.
From Verif.Model Require Import Gemm Blas1 Blas2 Blas3 LaAux Triangular LU.
From Verif.Proof Require Import SumLemmas Tactics SliceTac OrdLemmas PotrfProof LowOps BlockAlg BlkOps LuMultProof LUMath.
Local Open Scope T_scope.

Ltac prd := match goal with
  | H : peff ?A _ _ _ _ ?s |- wp (rd ?A _ _) _ _ ?s => apply (wp_rd_p _ _ _ _ _ _ _ _ _ _ H); [lia|lia|]
  end.
Ltac pwr := match goal with
  | H : peff ?A _ _ _ _ ?s, D : vinj ?A |- wp (wr ?A _ _ _) _ _ ?s =>
    apply (wp_wr_p _ _ _ _ _ _ _ _ _ _ _ D H); [lia|lia|]; let s' := fresh "s" in let H' := fresh "He" in intros s' H'
  end.
Ltac pird v := match goal with
  | H : peff _ _ ?p _ _ ?s |- wp (ird ?p _) _ _ ?s => apply (wp_ird_p _ _ _ _ _ _ v _ _ _ H); [lia|lia| |]
  end.
Ltac piwr := match goal with
  | H : peff _ _ ?p _ _ ?s, D : vinj ?p, N : nc ?p = 1%nat |- wp (iwr ?p _ _) _ _ ?s =>
    apply (wp_iwr_p _ _ _ _ _ _ _ _ _ _ D N H); [lia|]; let s' := fresh "s" in let H' := fresh "He" in intros s' H'
  end.

Ltac pext := match goal with
  | H : peff ?A _ ?p _ ?s0 ?s |- peff ?A _ ?p _ ?s0 ?s => apply (peff_ext _ _ _ _ _ _ _ _ H)
  end.

Section L0.
Context {E : Env} {FL : FieldLaws E} {CL : ConjLaws E} {QL : EqbLaws E} {RL : ROrdLaws E}.
Add Field Tf : fth.
Implicit Types (F G : mat).

Lemma absv_0 : absv 0 = 0.
Proof. destruct (abs_spec 0) as (_ & K & _). replace (0 * conj 0) with 0 in K by ring. apply mul_0_inv in K. tauto. Qed.
Lemma absv_pos x : x <> 0 -> ltb 0 (absv x) = true.
Proof.
  intros Hx. destruct (abs_spec x) as (K1 & K2 & K3). destruct (nonneg_cases (absv x)) as [e|]; [split; auto| |auto].
  exfalso. rewrite e in K2. apply (mul_neq_0 x (conj x)); auto; [apply conj_neq_0; auto|]. rewrite <- K2. ring.
Qed.
Lemma absv_nonneg x : nonneg (absv x).
Proof. destruct (abs_spec x) as (K1 & K2 & K3). split; auto. Qed.
Lemma abs1_0 : abs1 0 = 0.
Proof.
  rewrite abs1_spec. assert (r0 : re 0 = 0) by (apply re_idem, conj_0).
  assert (i0 : im 0 = 0). { assert (K := norm_re_im 0). rewrite r0 in K. assert (e : im 0 * im 0 = 0) by (transitivity (0 * 0 + im 0 * im 0); [ring|rewrite <- K; ring]). apply mul_0_inv in e. tauto. }
  rewrite r0, i0, absv_0. ring.
Qed.
Lemma abs1_pos x : x <> 0 -> ltb 0 (abs1 x) = true.
Proof.
  intros Hx. rewrite abs1_spec. destruct (eq0_dec (re x)) as [e|].
  - destruct (eq0_dec (im x)) as [e'|].
    + exfalso. apply (mul_neq_0 x (conj x)); auto; [apply conj_neq_0; auto|]. rewrite norm_re_im, e, e'. ring.
    + rewrite e, absv_0. replace (0 + absv (im x)) with (absv (im x)) by ring. apply absv_pos; auto.
  - apply pos_nonneg_add; [apply absv_pos; auto|apply absv_nonneg].
Qed.
(** a magnitude for which only zero has minimal size *)
Definition goodmag (mag : T -> T) : Prop := forall x, ltb (mag 0) (mag x) = false -> x = 0.
Lemma goodmag_absv : goodmag absv.
Proof. intros x H. destruct (eq0_dec x); auto. rewrite absv_0, absv_pos in H; auto. discriminate. Qed.
Lemma goodmag_abs1 : goodmag abs1.
Proof. intros x H. destruct (eq0_dec x); auto. rewrite abs1_0, abs1_pos in H; auto. discriminate. Qed.

(** what a factorization routine leaves *)
Definition lupost (mag : T -> T) (A piv : view) (s0 : state) (info : Z) (s' : state) : Prop :=
  exists F g, peff A F piv g s0 s' /\ (forall i, (Nat.min (nr A) (nc A) <= i < nr piv)%nat -> g i = ival piv s0 i) /\
   ((info = 0%Z /\ exists ip, (forall j, (j < Nat.min (nr A) (nc A))%nat -> g j = Z.of_nat (ip j)) /\
        lustep mag (nr A) (nc A) (Nat.min (nr A) (nc A)) ip (val A s0) F) \/
    (exists c, info = Z.of_nat c /\ lufail mag (nr A) (nc A) c (val A s0))).

Lemma fail_at m n j mag ip A0 F p : goodmag mag -> (j < Nat.min m n)%nat -> (j <= p < m)%nat -> lustep mag m n j ip A0 F -> F p j = 0 ->
  (forall i, (j <= i < m)%nat -> ltb (mag (F p j)) (mag (F i j)) = false) -> lufail mag m n (S j) A0.
Proof.
  intros Hg Hj Hp HL Hz Hmax. split; [lia|]. split; [lia|]. exists ip, F. replace (S j - 1)%nat with j by lia. split.
  - apply (lustep_cols mag m n); auto; lia.
  - intros i Hi. apply Hg. rewrite <- Hz. apply Hmax; auto.
Qed.

Lemma getrf_level0_run A piv s0 : vinj A -> vinj piv -> nc piv = 1%nat -> (Nat.min (nr A) (nc A) <= nr piv)%nat ->
  wp (getrf_level0 A piv) (lupost abs1 A piv s0) noX s0.
Proof.
  intros HI HP HP1 Hk. unfold getrf_level0. cbv zeta. set (m := nr A) in *. set (n := nc A) in *. set (k := Nat.min m n) in *.
  apply wp_bind, wp_check; [apply Nat.leb_le; auto|].
  destruct ((m <=? 0)%nat || (n <=? 0)%nat) eqn:Q0.
  { apply wp_ret. exists (val A s0), (ival piv s0). split; [apply peff_refl|]. split; auto. left. split; auto. exists (fun j => j).
    assert (k = 0%nat). { apply orb_true_iff in Q0. rewrite !Nat.leb_le in Q0. unfold k. lia. }
    change (Nat.min (nr A) (nc A)) with k. rewrite H. split; [intros; lia|]. apply lustep_0; auto. }
  assert (Hmn : (0 < m)%nat /\ (0 < n)%nat). { apply orb_false_iff in Q0. rewrite !Nat.leb_gt in Q0. lia. }
  apply wp_bind.
  apply (wp_forret _ (fun j s => exists F g ip, peff A F piv g s0 s /\ (forall i, (k <= i < nr piv)%nat -> g i = ival piv s0 i) /\
     (forall i, (i < j)%nat -> g i = Z.of_nat (ip i)) /\ lustep abs1 m n j ip (val A s0) F)); [lia| | |].
  - exists (val A s0), (ival piv s0), (fun j => j). split; [apply peff_refl|]. split; auto. split; [intros; lia|]. apply lustep_0; auto.
  - intros j s Hj (F & g & ip & He & Hgk & Hg & HL).
    apply wp_bind. piwr. apply wp_bind.
    (* pivot search *)
    apply (wp_forup (fun i s => exists p, (j <= p < i)%nat /\ peff A F piv (fun q => if (q =? j)%nat then Z.of_nat p else g q) s0 s /\
       forall i', (j <= i' < i)%nat -> ltb (abs1 (F p j)) (abs1 (F i' j)) = false)); [lia| | |].
    { exists j. split; [lia|]. split; auto. intros i' Hi'. replace i' with j by lia. apply lt_irr. }
    { intros i s2 Hi (p & Hp & He2 & Hmax). apply wp_bind. prd. apply wp_bind. pird p; [rewrite Nat.eqb_refl; auto|]. apply wp_bind. prd.
      destruct (ltb (abs1 (F p j)) (abs1 (F i j))) eqn:Hlt.
      - piwr. exists i. split; [lia|]. split.
        + pext; auto. intros q Hq. cbv beta. destruct (Nat.eqb_spec q j); auto.
        + intros i' Hi'. destruct (Nat.eq_dec i' i) as [->|]; [apply lt_irr|]. destruct (ltb (abs1 (F i j)) (abs1 (F i' j))) eqn:Hx; auto.
          assert (K := lt_trans _ _ _ Hlt Hx). rewrite Hmax in K by lia. discriminate.
      - apply wp_ret. exists p. split; [lia|]. split; auto. intros i' Hi'. destruct (Nat.eq_dec i' i) as [->|]; auto. apply Hmax. lia. }
        intros s2 (p & Hp & He2 & Hmax). apply wp_bind. pird p; [rewrite Nat.eqb_refl; auto|]. apply wp_bind. prd.
    destruct (eqb (F p j) 0) eqn:Hz.
    { apply wp_ret. apply wp_ret. apply eqb_spec in Hz. exists F, (fun q => if (q =? j)%nat then Z.of_nat p else g q).
      split; auto. split.
      - intros i Hi. destruct (Nat.eqb_spec i j); [subst; change (Nat.min (nr A) (nc A)) with k in *; lia|]. apply Hgk. auto.
      - right. exists (S j). split; [lia|]. apply (fail_at m n j abs1 ip _ F p); auto using goodmag_abs1; lia. }
    assert (Hnz : F p j <> 0). { intros e. rewrite e in Hz. assert (K := proj2 (eqb_spec 0 0) eq_refl). congruence. }
    apply wp_bind. pird p; [rewrite Nat.eqb_refl; auto|].
    set (g1 := fun q => if (q =? j)%nat then Z.of_nat p else g q) in *.
    set (Fs := fun i c => F (tau j p i) c).
    apply wp_bind.
    (* row exchange *)
    assert (SW : forall (Q : unit -> state -> Prop), (forall s', peff A Fs piv g1 s0 s' -> Q tt s') -> wp (if negb (p =? j)%nat
        then for_ i in 0 upto n do (tmp <- rd A j i;; p0 <- ird piv j;; a <- rd A p0 i;; wr A j i a;; p1 <- ird piv j;; wr A p1 i tmp) else ret tt) Q noX s2).
    { intros Q HQ. destruct (Nat.eqb_spec p j) as [->|Hpj]; cbn [negb].
      - apply wp_ret, HQ. pext; auto. intros i c Hi Hc. unfold Fs. rewrite tau_id. auto.
      - apply (wp_forup (fun q s => peff A (fun i c => if (c <? q)%nat then Fs i c else F i c) piv g1 s0 s)); [lia| | |].
        + pext; auto.
        + intros q s3 Hq He3. apply wp_bind. prd. apply wp_bind. pird p; [unfold g1; rewrite Nat.eqb_refl; auto|]. apply wp_bind. prd.
          apply wp_bind. pwr. apply wp_bind. pird p; [unfold g1; rewrite Nat.eqb_refl; auto|]. pwr.
          pext; auto. intros i c Hi Hc. rewrite Nat.ltb_irrefl. unfold Fs, tau. cases.
        + intros s3 He3. apply HQ. pext; auto. intros i c Hi Hc. destruct (Nat.ltb_spec c n); auto; lia. }
    apply SW. clear SW. intros s3 He3. apply wp_bind.
    assert (Ej : Fs j j = F p j). { unfold Fs, tau. rewrite Nat.eqb_refl. auto. }
    (* scaling *)
    set (F2 := fun i c => if (c =? j)%nat && (j <? i)%nat then Fs i j / Fs j j else Fs i c).
    apply (wp_forup (fun q s => peff A (fun i c => if (c =? j)%nat && (j <? i)%nat && (i <? q)%nat then Fs i j / Fs j j else Fs i c) piv g1 s0 s)); [lia| | |].
    { pext; auto. intros i c Hi Hc. cases. }
    { intros q s4 Hq He4. apply wp_bind. prd. apply wp_bind. prd. pwr. pext; auto. intros i c Hi Hc. cases. }
    intros s4 He4. apply wp_bind.
    assert (He4' : peff A F2 piv g1 s0 s4).
    { pext; auto. intros i c Hi Hc. unfold F2. cases. }
    clear He4.
    (* trailing update *)
    apply (wp_forup (fun q s => peff A (fun i c => if (j <? i)%nat && (i <? q)%nat && (j <? c)%nat then Fs i c - Fs i j / Fs j j * Fs j c else F2 i c) piv g1 s0 s)); [lia| | |].
    { pext; auto. intros i c Hi Hc. cases. }
    { intros q s5 Hq He5.
      apply (wp_forup (fun r s => peff A (fun i c => if (j <? i)%nat && (i <? q)%nat && (j <? c)%nat || (i =? q)%nat && (j <? c)%nat && (c <? r)%nat then Fs i c - Fs i j / Fs j j * Fs j c else F2 i c) piv g1 s0 s)); [lia| | |].
      - pext; auto. intros i c Hi Hc. cases.
      - intros r s6 Hr He6. apply wp_bind. prd. apply wp_bind. prd. apply wp_bind. prd. pwr.
        pext; auto. intros i c Hi Hc. unfold F2. cases.
      - intros s6 He6. pext; auto. intros i c Hi Hc. cases. }
    intros s5 He5. apply wp_ret.
    set (F3 := fun i c => if (j <? i)%nat && (i <? m)%nat && (j <? c)%nat then Fs i c - Fs i j / Fs j j * Fs j c else F2 i c) in He5.
    exists F3, g1, (ipcomb j ip (fun _ => (p - j)%nat)). split; auto. split; [|split].
    + intros i Hi. unfold g1. destruct (Nat.eqb_spec i j); [lia|]. auto.
    + intros i Hi. unfold g1, ipcomb. destruct (Nat.eqb_spec i j), (Nat.ltb_spec i j); try lia; auto.
    + replace (S j) with (j + 1)%nat by lia.
      assert (L1 := lustep_1 abs1 (m - j) (n - j) (p - j) (blk j j F) ltac:(lia) ltac:(lia)).
      assert (B0 : blk j j F (p - j)%nat 0%nat = F p j) by (unfold blk; f_equal; lia). rewrite B0 in L1.
      specialize (L1 Hnz). assert (Hm' : forall i, (i < m - j)%nat -> ltb (abs1 (F p j)) (abs1 (blk j j F i 0%nat)) = false).
      { intros i Hi. unfold blk. rewrite Nat.add_0_r. apply Hmax. lia. }
      specialize (L1 Hm').
      apply (lustep_ext abs1 m n (j + 1) (ipcomb j ip (fun _ => (p - j)%nat)) _ (val A s0) (val A s0) (lucomb j 1 (fun _ => (p - j)%nat) F (elim1 (exchange 0 (p - j) (blk j j F))))); auto; try lia.
      2: { apply lustep_comp; auto; lia. }
      assert (Tau : forall i, (j <= i)%nat -> (j + tau 0 (p - j) (i - j))%nat = tau j p i).
      { intros i Hi. unfold tau. destruct (Nat.eqb_spec (i - j) 0), (Nat.eqb_spec (i - j) (p - j)), (Nat.eqb_spec i j), (Nat.eqb_spec i p); lia. }
      assert (Ex : forall i c, (j <= i)%nat -> (j <= c)%nat -> exchange 0 (p - j) (blk j j F) (i - j)%nat (c - j)%nat = Fs i c).
      { intros i c Hi Hc. unfold exchange, blk, Fs. rewrite <- Tau by auto. unfold tau. f_equal. lia. }
      intros i c Hi Hc. unfold lucomb. cbn [pidx]. destruct (Nat.ltb_spec i j).
      * unfold F3, F2, Fs. rewrite tau_below by lia. cases.
      * destruct (Nat.ltb_spec c j).
        -- rewrite Tau by auto. unfold F3, F2, Fs. cases.
        -- unfold elim1.
           assert (E0 : forall c, (j <= c)%nat -> exchange 0 (p - j) (blk j j F) 0%nat (c - j)%nat = Fs j c) by (intros c' Hc'; rewrite <- (Ex j c') by lia; f_equal; lia).
           assert (E1 : exchange 0 (p - j) (blk j j F) (i - j)%nat 0%nat = Fs i j) by (rewrite <- (Ex i j) by lia; f_equal; lia).
           assert (E2 : exchange 0 (p - j) (blk j j F) 0%nat 0%nat = Fs j j) by (rewrite <- (E0 j) by lia; f_equal; lia).
           rewrite E0, E1, E2, Ex by auto. unfold F3, F2. cases. all: f_equal; lia.
  - intros s (F & g & ip & He & Hgk & Hg & HL). apply wp_ret. exists F, g. split; auto. split; auto. left. split; auto. exists ip. auto.
Qed.
End L0.
