(** * Rounding errors of Gaussian elimination with row interchanges *)
From Coq Require Import Bool Arith ZArith Reals Lra Lia Psatz.
From Verif.Core Require Import Scalar Prog View Rel Slice Loops IVec FpModel.
From Verif.Spec Require Import LinAlg LU Rounding.
From Verif.Model Require Import Gemm Blas1 Blas2 Blas3 LaAux Triangular LU.
From Verif.Proof Require Import RoundProof RoundTrsv SumLemmas Tactics SliceTac LuMultProof LUMath GetrfProof.
Local Open Scope T_scope.

Section L.
Context {E : Env} {FP : FpModel E}.
Implicit Types (F G : mat).

(** the real terms of entry (i,c) of L*U *)
Definition lu_t F i c : nat -> R := fun l => (fR (F i l) * fR (F l c))%R.
Definition lures (q : nat) (b : R) F i c : Prop := res q b (F i c) (rsum q (lu_t F i c)) (rsum q (fun l => Rabs (lu_t F i c l))).
Definition luresd (b : R) F i c : Prop := resd (S c) b (fR (F c c)) (F i c) (rsum c (lu_t F i c)) (rsum c (fun l => Rabs (lu_t F i c l))).
(** after j elimination steps *)
Definition luerr (m n j : nat) (ip : nat -> nat) (A0 F : mat) : Prop :=
  (forall l, (l < j)%nat -> (l <= ip l < m)%nat) /\
  ((forall l, (l < j)%nat -> fin (F l l)) ->
    (forall l, (l < j)%nat -> fR (F l l) <> 0%R) /\
    forall i c, (i < m)%nat -> (c < n)%nat -> let b := fR (interchange j ip A0 i c) in
     ((j <= i)%nat -> (j <= c)%nat -> lures j b F i c) /\ ((i < j)%nat -> (i <= c)%nat -> lures i b F i c) /\ ((c < j)%nat -> (c < i)%nat -> luresd b F i c)).

Lemma lures_ext q b F G i i' c : lures q b F i c -> F i c = G i' c -> (forall l, (l < q)%nat -> F i l = G i' l /\ F l c = G l c) -> lures q b G i' c.
Proof.
  intros H H1 H2. unfold lures in *. rewrite <- H1.
  rewrite <- (rsum_ext q (lu_t F i c) (lu_t G i' c)) by (intros l Hl; unfold lu_t; destruct (H2 l Hl) as [-> ->]; auto).
  rewrite <- (rsum_ext q (fun l => Rabs (lu_t F i c l)) (fun l => Rabs (lu_t G i' c l))) by (intros l Hl; unfold lu_t; destruct (H2 l Hl) as [-> ->]; auto). auto.
Qed.
Lemma luresd_ext b F G i i' c : luresd b F i c -> F i c = G i' c -> F c c = G c c -> (forall l, (l < c)%nat -> F i l = G i' l /\ F l c = G l c) -> luresd b G i' c.
Proof.
  intros H H1 H3 H2. unfold luresd in *. rewrite <- H1, <- H3.
  rewrite <- (rsum_ext c (lu_t F i c) (lu_t G i' c)) by (intros l Hl; unfold lu_t; destruct (H2 l Hl) as [-> ->]; auto).
  rewrite <- (rsum_ext c (fun l => Rabs (lu_t F i c l)) (fun l => Rabs (lu_t G i' c l))) by (intros l Hl; unfold lu_t; destruct (H2 l Hl) as [-> ->]; auto). auto.
Qed.
Lemma luerr_0 m n ip A0 F : (forall i c, (i < m)%nat -> (c < n)%nat -> F i c = A0 i c) -> luerr m n 0 ip A0 F.
Proof.
  intros H. split; [intros; lia|]. intros _. split; [intros; lia|]. intros i c Hi Hc. cbn [interchange]. split; [|split; intros; lia].
  intros _ _. unfold lures. cbn [rsum]. rewrite <- H by auto. apply res_start.
Qed.
(** one elimination step on the matrix with the rows exchanged *)
Lemma luerr_step m n j p ip ip' A0 F F3 : (j < m)%nat -> (j < n)%nat -> (j <= p < m)%nat -> ip' j = p -> (forall l, (l < j)%nat -> ip' l = ip l) ->
  eqb (F p j) zero = false -> luerr m n j ip A0 F ->
  (let Fs := fun i c => F (tau j p i) c in
   (forall i c, (i < m)%nat -> (c < n)%nat -> F3 i c =
     if (j <? i)%nat then if (c =? j)%nat then Fs i j / Fs j j else if (j <? c)%nat then Fs i c - Fs i j / Fs j j * Fs j c else Fs i c else Fs i c)) ->
  luerr m n (S j) ip' A0 F3.
Proof.
  intros Hjm Hjn Hp Hip Hip' Hz (H1 & H2) HF3. cbv zeta in HF3. set (Fs := fun i c => F (tau j p i) c) in *.
  assert (Int : forall i c, interchange (S j) ip' A0 i c = interchange j ip A0 (tau j p i) c).
  { intros i c. cbn [interchange]. unfold exchange. rewrite Hip. change (if (i =? j)%nat then p else if (i =? p)%nat then j else i) with (tau j p i).
    rewrite !interchange_pidx. f_equal. apply pidx_ext. auto. }
  assert (Tl : forall i, (i < j)%nat -> tau j p i = i) by (intros; apply tau_below; lia).
  assert (Th : forall i, (i < m)%nat -> (tau j p i < m)%nat) by (intros; apply tau_lt; lia).
  assert (Ta : forall i, (j <= i)%nat -> (j <= tau j p i)%nat) by (intros; apply tau_above; lia).
  assert (Tj : tau j p j = p) by (unfold tau; rewrite Nat.eqb_refl; auto).
  assert (Up : forall i c, (i <= j)%nat -> (c < n)%nat -> F3 i c = F (tau j p i) c).
  { intros i c Hi Hc. rewrite HF3 by lia. destruct (Nat.ltb_spec j i); [lia|]. auto. }
  assert (Lft : forall i c, (i < m)%nat -> (c < j)%nat -> F3 i c = F (tau j p i) c).
  { intros i c Hi Hc. rewrite HF3 by lia. destruct (Nat.ltb_spec j i), (Nat.eqb_spec c j), (Nat.ltb_spec j c); auto; lia. }
  split.
  { intros l Hl. destruct (Nat.eq_dec l j) as [->|]; [lia|]. rewrite Hip' by lia. apply H1. lia. }
  intros Hfin.
  assert (Hfin' : forall l, (l < j)%nat -> fin (F l l)). { intros l Hl. specialize (Hfin l). rewrite Up, Tl in Hfin by lia. apply Hfin. lia. }
  destruct (H2 Hfin') as (K1 & K2). clear H2.
  assert (Fj : fin (F p j)). { specialize (Hfin j). rewrite Up, Tj in Hfin by lia. apply Hfin. lia. }
  assert (Nj : fR (F p j) <> 0%R). { intros e. rewrite <- fR_0 in e. apply fp_eqb in e; [congruence|auto|apply fin_0]. }
  split.
  { intros l Hl. rewrite Up by lia. destruct (Nat.eq_dec l j) as [->|]; [rewrite Tj; auto|]. rewrite Tl by lia. apply K1. lia. }
  intros i c Hi Hc b. unfold b. rewrite Int. clear b.
  destruct (K2 (tau j p i) c) as (Q1 & Q2 & Q3); auto.
  (* old terms: rows < j of F3 are those of F, columns < j are those of the exchanged matrix *)
  assert (Row : forall q, (q <= j)%nat -> (q <= c)%nat -> forall l, (l < q)%nat -> F (tau j p i) l = F3 i l /\ F l c = F3 l c).
  { intros q Hq Hqc l Hl. rewrite Lft, Up, (Tl l) by lia. auto. }
  split; [|split].
  - intros Hi' Hc'. assert (Q := Q1 ltac:(apply Ta; lia) ltac:(lia)).
    unfold lures. cbn [rsum]. 
    assert (V : F3 i c = F (tau j p i) c - F3 i j * F3 j c).
    { rewrite (HF3 i c), (HF3 i j), (HF3 j c) by lia. destruct (Nat.ltb_spec j i), (Nat.eqb_spec c j), (Nat.ltb_spec j c); try lia.
      rewrite Nat.eqb_refl, Nat.ltb_irrefl. reflexivity. }
    rewrite V. 
    replace (rsum j (lu_t F3 i c)) with (rsum j (lu_t F (tau j p i) c)) by (apply rsum_ext; intros l Hl; unfold lu_t; destruct (Row j ltac:(lia) ltac:(lia) l Hl) as [-> ->]; auto).
    replace (rsum j (fun l => Rabs (lu_t F3 i c l))) with (rsum j (fun l => Rabs (lu_t F (tau j p i) c l))) by (apply rsum_ext; intros l Hl; unfold lu_t; destruct (Row j ltac:(lia) ltac:(lia) l Hl) as [-> ->]; auto).
    apply res_sub; [apply Q|]. unfold lu_t. intros Hm. apply fp_mul. auto.
  - intros Hi' Hc'. destruct (Nat.eq_dec i j) as [->|].
    + apply (lures_ext j _ F F3 (tau j p j)); [apply Q1; [apply Ta; lia|lia]|rewrite Up by lia; auto|]. apply Row; lia.
    + apply (lures_ext i _ F F3 (tau j p i)); [|rewrite Up by lia; auto|apply Row; lia]. rewrite Tl in * by lia. apply Q2; lia.
  - intros Hc' Hi'. destruct (Nat.eq_dec c j) as [->|].
    + assert (Q := Q1 ltac:(apply Ta; lia) ltac:(lia)). unfold luresd.
      assert (V : F3 i j = F (tau j p i) j / F p j). { rewrite HF3 by lia. destruct (Nat.ltb_spec j i); [|lia]. rewrite Nat.eqb_refl. unfold Fs. rewrite Tj. auto. }
      rewrite V, (Up j j), Tj by lia.
      replace (rsum j (lu_t F3 i j)) with (rsum j (lu_t F (tau j p i) j)) by (apply rsum_ext; intros l Hl; unfold lu_t; destruct (Row j ltac:(lia) ltac:(lia) l Hl) as [-> ->]; auto).
      replace (rsum j (fun l => Rabs (lu_t F3 i j l))) with (rsum j (fun l => Rabs (lu_t F (tau j p i) j l))) by (apply rsum_ext; intros l Hl; unfold lu_t; destruct (Row j ltac:(lia) ltac:(lia) l Hl) as [-> ->]; auto).
      apply res_div; auto.
    + assert (c < tau j p i)%nat. { destruct (Nat.lt_ge_cases i j); [rewrite Tl by lia; lia|]. pose proof (Ta i ltac:(lia)). lia. }
      apply (luresd_ext _ F F3 (tau j p i)); [apply Q3; lia|rewrite Lft by lia; auto|rewrite Up, Tl by lia; auto|apply Row; lia].
Qed.

Definition lupost_err (A piv : view) (s0 : state) (info : Z) (s' : state) : Prop :=
  exists F g, peff A F piv g s0 s' /\ (forall i, (Nat.min (nr A) (nc A) <= i < nr piv)%nat -> g i = ival piv s0 i) /\
   (info = 0%Z -> exists ip, (forall j, (j < Nat.min (nr A) (nc A))%nat -> g j = Z.of_nat (ip j)) /\
        luerr (nr A) (nc A) (Nat.min (nr A) (nc A)) ip (val A s0) F).

Lemma getrf_level0_err A piv s0 : vinj A -> vinj piv -> nc piv = 1%nat -> (Nat.min (nr A) (nc A) <= nr piv)%nat ->
  wp (getrf_level0 A piv) (lupost_err A piv s0) noX s0.
Proof.
  intros HI HP HP1 Hk. unfold getrf_level0. cbv zeta. set (m := nr A) in *. set (n := nc A) in *. set (k := Nat.min m n) in *.
  apply wp_bind, wp_check; [apply Nat.leb_le; auto|].
  destruct ((m <=? 0)%nat || (n <=? 0)%nat) eqn:Q0.
  { apply wp_ret. exists (val A s0), (ival piv s0). split; [apply peff_refl|]. split; auto. intros _. exists (fun j => j).
    assert (k = 0%nat). { apply orb_true_iff in Q0. rewrite !Nat.leb_le in Q0. unfold k. lia. }
    change (Nat.min (nr A) (nc A)) with k. rewrite H. split; [intros; lia|]. apply luerr_0; auto. }
  assert (Hmn : (0 < m)%nat /\ (0 < n)%nat). { apply orb_false_iff in Q0. rewrite !Nat.leb_gt in Q0. lia. }
  apply wp_bind.
  apply (wp_forret _ (fun j s => exists F g ip, peff A F piv g s0 s /\ (forall i, (k <= i < nr piv)%nat -> g i = ival piv s0 i) /\
     (forall i, (i < j)%nat -> g i = Z.of_nat (ip i)) /\ luerr m n j ip (val A s0) F)); [lia| | |].
  - exists (val A s0), (ival piv s0), (fun j => j). split; [apply peff_refl|]. split; auto. split; [intros; lia|]. apply luerr_0; auto.
  - intros j s Hj (F & g & ip & He & Hgk & Hg & HL).
    apply wp_bind. piwr. apply wp_bind.
    apply (wp_forup (fun i s => exists p, (j <= p < i)%nat /\ peff A F piv (fun q => if (q =? j)%nat then Z.of_nat p else g q) s0 s)); [lia| | |].
    { exists j. split; [lia|]. auto. }
    { intros i s2 Hi (p & Hp & He2). apply wp_bind. prd. apply wp_bind. pird p; [rewrite Nat.eqb_refl; auto|]. apply wp_bind. prd.
      destruct (ltb (abs1 (F p j)) (abs1 (F i j))) eqn:Hlt.
      - piwr. exists i. split; [lia|]. pext; auto. intros q Hq. cbv beta. destruct (Nat.eqb_spec q j); auto.
      - apply wp_ret. exists p. split; [lia|]. auto. }
    intros s2 (p & Hp & He2). apply wp_bind. pird p; [rewrite Nat.eqb_refl; auto|]. apply wp_bind. prd.
    destruct (eqb (F p j) 0) eqn:Hz.
    { apply wp_ret. apply wp_ret. exists F, (fun q => if (q =? j)%nat then Z.of_nat p else g q).
      split; auto. split.
      - intros i Hi. destruct (Nat.eqb_spec i j); [subst; change (Nat.min (nr A) (nc A)) with k in *; lia|]. apply Hgk. auto.
      - intros e. lia. }
    apply wp_bind. pird p; [rewrite Nat.eqb_refl; auto|].
    set (g1 := fun q => if (q =? j)%nat then Z.of_nat p else g q) in *.
    set (Fs := fun i c => F (tau j p i) c).
    apply wp_bind.
    assert (SW : forall (Q : unit -> state -> Prop), (forall s', peff A Fs piv g1 s0 s' -> Q tt s') -> wp (if negb (p =? j)%nat
        then for_ i in 0 upto n do (tmp <- rd A j i;; p0 <- ird piv j;; a <- rd A p0 i;; wr A j i a;; p1 <- ird piv j;; wr A p1 i tmp) else ret tt) Q noX s2).
    { intros Q HQ. destruct (Nat.eqb_spec p j) as [->|Hpj]; cbn [negb].
      - apply wp_ret, HQ. pext; auto. intros i c Hi Hc. unfold Fs. rewrite tau_id. auto.
      - apply (wp_forup (fun q s => peff A (fun i c => if (c <? q)%nat then Fs i c else F i c) piv g1 s0 s)); [lia| | |].
        + pext; auto.
        + intros q s3 Hq He3. apply wp_bind. prd. apply wp_bind. pird p; [unfold g1; rewrite Nat.eqb_refl; auto|]. apply wp_bind. prd.
          apply wp_bind. pwr. apply wp_bind. pird p; [unfold g1; rewrite Nat.eqb_refl; auto|]. pwr.
          pext; auto. intros i c Hi Hc. rewrite Nat.ltb_irrefl. unfold Fs, tau. cases.
        + intros s3 He3. apply HQ. pext; auto. intros i c Hi Hc. destruct (Nat.ltb_spec c n); auto; lia. }
    apply SW. clear SW. intros s3 He3. apply wp_bind.
    set (F2 := fun i c => if (c =? j)%nat && (j <? i)%nat then Fs i j / Fs j j else Fs i c).
    apply (wp_forup (fun q s => peff A (fun i c => if (c =? j)%nat && (j <? i)%nat && (i <? q)%nat then Fs i j / Fs j j else Fs i c) piv g1 s0 s)); [lia| | |].
    { pext; auto. intros i c Hi Hc. cases. }
    { intros q s4 Hq He4. apply wp_bind. prd. apply wp_bind. prd. pwr. pext; auto. intros i c Hi Hc. cases. }
    intros s4 He4. apply wp_bind.
    assert (He4' : peff A F2 piv g1 s0 s4).
    { pext; auto. intros i c Hi Hc. unfold F2. cases. }
    clear He4.
    apply (wp_forup (fun q s => peff A (fun i c => if (j <? i)%nat && (i <? q)%nat && (j <? c)%nat then Fs i c - Fs i j / Fs j j * Fs j c else F2 i c) piv g1 s0 s)); [lia| | |].
    { pext; auto. intros i c Hi Hc. cases. }
    { intros q s5 Hq He5.
      apply (wp_forup (fun r s => peff A (fun i c => if (j <? i)%nat && (i <? q)%nat && (j <? c)%nat || (i =? q)%nat && (j <? c)%nat && (c <? r)%nat then Fs i c - Fs i j / Fs j j * Fs j c else F2 i c) piv g1 s0 s)); [lia| | |].
      - pext; auto. intros i c Hi Hc. cases.
      - intros r s6 Hr He6. apply wp_bind. prd. apply wp_bind. prd. apply wp_bind. prd. pwr.
        pext; auto. intros i c Hi Hc. unfold F2. cases.
      - intros s6 He6. pext; auto. intros i c Hi Hc. cases. }
    intros s5 He5. apply wp_ret.
    set (F3 := fun i c => if (j <? i)%nat && (i <? m)%nat && (j <? c)%nat then Fs i c - Fs i j / Fs j j * Fs j c else F2 i c) in He5.
    exists F3, g1, (fun q => if (q =? j)%nat then p else ip q). split; auto. split; [|split].
    + intros i Hi. unfold g1. destruct (Nat.eqb_spec i j); [lia|]. auto.
    + intros i Hi. unfold g1. destruct (Nat.eqb_spec i j); auto. apply Hg. lia.
    + apply (luerr_step m n j p ip _ _ F); auto; try lia.
      * rewrite Nat.eqb_refl. auto.
      * intros l Hl. destruct (Nat.eqb_spec l j); [lia|auto].
      * cbv zeta. intros i c Hi Hc. unfold F3, F2. cases.
  - intros s (F & g & ip & He & Hgk & Hg & HL). apply wp_ret. exists F, g. split; auto. split; auto. intros _. exists ip. auto.
Qed.
End L.
Section Final.
Context {E : Env} {FP : FpModel E}.
Local Open Scope R_scope.
Lemma lu_cell m n k ip A0 F i c : k = Nat.min m n -> luerr m n k ip A0 F -> INR k * fu < 1 -> (forall l, (l < k)%nat -> fin (F l l)) -> (i < m)%nat -> (c < n)%nat -> fin (F i c) ->
  Rabs (fR (interchange k ip A0 i c) - rsum k (fun l => fR (trim Lower Unit F i l) * fR (trim Upper NonUnit F l c)))
   <= gam k fu * rsum k (fun l => Rabs (fR (trim Lower Unit F i l)) * Rabs (fR (trim Upper NonUnit F l c)))
      + (1 + gam k fu) * feta * (INR k + Rabs (fR (F (Nat.min i c) (Nat.min i c)))).
Proof.
  intros Hk (H1 & H2) Hu Hfin Hi Hc Hf. destruct (H2 Hfin) as (_ & K). destruct (K i c Hi Hc) as (_ & K2 & K3). clear K H2.
  set (b := fR (interchange k ip A0 i c)) in *. set (r := Nat.min i c).
  assert (G := pow_gam k fu fu_pos Hu). assert (G0 := gam_pos k fu fu_pos Hu). assert (Fe := feta_pos).
  change (trim Lower Unit F) with (Lf F). change (trim Upper NonUnit F) with (Uf F).
  assert (Cut : forall f : nat -> R, (forall l, (r < l < k)%nat -> f l = 0) -> rsum k f = rsum r f + f r).
  { intros f Hf0. rewrite (rsum_cut k r) by lia. rewrite (rsumr_l r k) by lia. rewrite (rsumr_0 (S r) k) by (intros; apply Hf0; lia). ring. }
  assert (Z : forall l, (r < l < k)%nat -> Lf F i l = zero \/ Uf F l c = zero).
  { intros l Hl. destruct (Nat.le_gt_cases i c); [left; apply Lf_up; lia|right; apply Uf_lo; lia]. }
  assert (S1 : rsum k (fun l => fR (Lf F i l) * fR (Uf F l c)) = rsum r (lu_t F i c) + fR (Lf F i r) * fR (Uf F r c)).
  { rewrite Cut by (intros l Hl; destruct (Z l Hl) as [-> | ->]; rewrite fR_0; ring). f_equal. apply rsum_ext. intros l Hl. unfold lu_t. rewrite Lf_lo, Uf_up by lia. auto. }
  assert (S2 : rsum k (fun l => Rabs (fR (Lf F i l)) * Rabs (fR (Uf F l c))) = rsum r (fun l => Rabs (lu_t F i c l)) + Rabs (fR (Lf F i r) * fR (Uf F r c))).
  { rewrite Cut by (intros l Hl; destruct (Z l Hl) as [-> | ->]; rewrite fR_0, Rabs_R0; ring). rewrite Rabs_mult. f_equal. apply rsum_ext. intros l Hl. unfold lu_t. rewrite Lf_lo, Uf_up, Rabs_mult by lia. auto. }
  rewrite S1, S2. set (Sr := rsum r (lu_t F i c)) in *. set (Sa := rsum r (fun l => Rabs (lu_t F i c l))) in *.
  assert (HSa : 0 <= Sa) by (apply rsum_pos; intros; apply Rabs_pos).
  assert (Kp := pos_INR k). assert (Up := Rabs_pos (fR (F r r))).
  destruct (Nat.le_gt_cases i c) as [Hic|Hic].
  - assert (r = i) as -> by lia. rewrite Lf_d, Uf_up, fR_1, Rmult_1_l by lia.
    apply (res_wk i k) in K2; try lia. destruct K2 as (_ & K2). specialize (K2 Hf).
    replace (b - (Sr + fR (F i c))) with (b - Sr - fR (F i c)) by ring. eapply Rle_trans; [exact K2|].
    pose proof (Rabs_pos (fR (F i c))). apply Rplus_le_compat; [apply Rmult_le_compat_r; lra|].
    assert (INR k * (1 + fu) ^ k * feta <= INR k * (1 + gam k fu) * feta) by (apply Rmult_le_compat_r; [lra|]; apply Rmult_le_compat_l; lra).
    assert (0 <= (1 + gam k fu) * feta * Rabs (fR (F i i))) by (repeat apply Rmult_le_pos; lra). nra.
  - assert (r = c) as -> by lia. rewrite Lf_lo, Uf_up by lia.
    assert (K3' := resd_wk (S c) k _ _ _ _ _ (K3 ltac:(lia) ltac:(lia)) HSa ltac:(lia) Hf).
    replace (b - (Sr + fR (F i c) * fR (F c c))) with (b - Sr - fR (F c c) * fR (F i c)) by ring. rewrite (Rmult_comm (fR (F i c))). eapply Rle_trans; [exact K3'|].
    pose proof (Rabs_pos (fR (F c c) * fR (F i c))). apply Rplus_le_compat; [apply Rmult_le_compat_r; lra|].
    apply Rmult_le_compat_r; [lra|]. apply Rmult_le_compat_r; lra.
Qed.
End Final.
