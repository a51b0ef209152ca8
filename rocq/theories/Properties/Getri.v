(** * C23: the inverse from an LU factorization with row interchanges (getri, both variants) *)
From Coq Require Import Bool Arith ZArith Lia Reals Lra Ring Field.
From Verif.Core Require Import Scalar Prog View Slice Loops IVec WorkEff Instances Quiet.
From Verif.Spec Require Import LinAlg Outcome Inverse Parts LU.
From Verif.Model Require Import Gemm Blas1 Blas2 Blas3 Legacy LaAux Triangular LU.
From Verif.Proof Require Import SumLemmas OrdLemmas SliceTac Blas1Proof LegacyProof LowOps BlockAlg LuMultProof BorderInv LUMath RsclProof GetrfProof GetrfRecProof GetriProof.
From Verif.Properties Require Import ExTac Blas1 Blas2 Triangular TriMult LU.
Local Open Scope T_scope.

Section P.
Context {E : Env} {FL : FieldLaws E} {CL : ConjLaws E} {QL : EqbLaws E}.
Add Field Tf : fth.
Implicit Types (A W piv : view) (s : state).

Lemma tau_inj j p a b : tau j p a = tau j p b -> a = b.
Proof. intros e. rewrite <- (tau_inv j p a), <- (tau_inv j p b). congruence. Qed.
Lemma sum_tau n j p f : (j < n)%nat -> (p < n)%nat -> sum n (fun k => f (tau j p k)) = sum n f.
Proof.
  intros Hj Hp. transitivity (sum n (fun k => sum n (fun l => idm (tau j p k) l * f l))).
  - apply sum_ext. intros k Hk. rewrite sum_id_l; auto using tau_lt.
  - rewrite sum_swap. apply sum_ext. intros l Hl. rewrite sum_scal_r. transitivity (1 * f l); [|ring]. f_equal.
    rewrite (sum_single n (tau j p l)); [|apply tau_lt; auto|].
    + rewrite tau_inv. unfold idm. rewrite Nat.eqb_refl. auto.
    + intros i Hi Hn. unfold idm. destruct (Nat.eqb_spec (tau j p i) l); auto. subst. rewrite tau_inv in Hn. lia.
Qed.
Lemma inverse_tau n j p (B Y : mat) : (j < n)%nat -> (p < n)%nat -> inverse n (exchange j p B) Y -> inverse n B (fun i c => Y i (tau j p c)).
Proof.
  intros Hj Hp H i c Hi Hc. split.
  - destruct (H (tau j p i) (tau j p c)) as [K _]; auto using tau_lt. transitivity (idm (tau j p i) (tau j p c)).
    + rewrite <- K. unfold mmul. apply sum_ext. intros k Hk. f_equal. unfold exchange. change (B i k = B (tau j p (tau j p i)) k). rewrite tau_inv. auto.
    + unfold idm. destruct (Nat.eqb_spec i c) as [->|Hn]; [rewrite Nat.eqb_refl; auto|]. destruct (Nat.eqb_spec (tau j p i) (tau j p c)) as [e|]; auto. apply tau_inj in e. lia.
  - destruct (H i c) as [_ K]; auto. rewrite <- K. unfold mmul. rewrite <- (sum_tau n j p (fun k => Y i k * exchange j p B k c)) by auto.
    apply sum_ext. intros k Hk. f_equal. unfold exchange. change (B k c = B (tau j p (tau j p k)) c). rewrite tau_inv. auto.
Qed.
Lemma inverse_ext n (A A' X X' : mat) : (forall i j, (i < n)%nat -> (j < n)%nat -> A i j = A' i j) -> (forall i j, (i < n)%nat -> (j < n)%nat -> X i j = X' i j) ->
  inverse n A X -> inverse n A' X'.
Proof.
  intros HA HX H i j Hi Hj. destruct (H i j Hi Hj) as [K1 K2]. split; [rewrite <- K1|rewrite <- K2]; apply mmul_ext2; intros l Hl; rewrite ?HA, ?HX by auto; auto.
Qed.
Lemma swap_two_cols A j p X s : vinj A -> (j < nc A)%nat -> (p < nc A)%nat -> j <> p ->
  wp (swap (vcol A 0 (nr A) j) (vcol A 0 (nr A) p)) (fun _ s' => eff A (fun i c => val A s i (tau j p c)) s s') X s.
Proof.
  intros HI Hj Hp Hn. apply wp_noX. eapply wp_conseq; [apply swap_run; auto| |auto].
  - apply vinj_vcol; auto.
  - apply vinj_vcol; auto.
  - intros a b c d. cbn. intros Ha Hb Hc Hd e. apply HI in e; lia.
  - intros _ s' (H1 & H2 & H3 & H4). cbn [nr vcol] in *. rewrite Nat.sub_0_r in *. split; [|split]; auto.
    + intros i c Hi Hc. unfold tau. destruct (Nat.eqb_spec c j) as [->|]; [|destruct (Nat.eqb_spec c p) as [->|]].
      * exact (H1 i Hi).
      * exact (H2 i Hi).
      * unfold val. apply H3; intros (i' & c' & Hi' & Hc' & e); cbn [nr nc vcol ad] in *; apply HI in e; lia.
    + intros l Hl. apply H3; intros K; apply Hl; [apply (WorkEff.inview_vcol A 0 (nr A) j)|apply (WorkEff.inview_vcol A 0 (nr A) p)]; auto.
Qed.

(** admissible variant: the workspace vector has n-1 elements and does not overlap A *)
Definition variant_ok (v : getri_variant) A (n : nat) : Prop :=
  match v with UILI => True | UXLI W => isvec W (n - 1) /\ vinj W /\ disj A W end.
(** the scratch locations of a variant *)
Definition scratch (v : getri_variant) : Z -> Prop := match v with UILI => fun _ => False | UXLI W => cells W anywhere end.

(** if the factors L, U stored in A and the interchanges in piv are those of some matrix A0 (P A0 = L U),
    then A is overwritten by the inverse of A0; nothing else but the workspace changes *)
Theorem getri_correct v A piv s n np ip (A0 : mat) : shape A n n -> vinj A -> isvec piv np -> (n <= np)%nat -> (0 < n)%nat -> variant_ok v A n ->
  pivots n n piv s ip -> (forall j, (j < n)%nat -> val A s j j <> 0) ->
  (forall i c, (i < n)%nat -> (c < n)%nat -> interchange n ip A0 i c = mmul n (trim Lower Unit (val A s)) (trim Upper NonUnit (val A s)) i c) ->
  returns (getri v A piv) s (fun info s' => info = 0%Z /\ inverse n A0 (val A s') /\
    (forall l, ~ cells A anywhere l -> ~ scratch v l -> mem s' l = mem s l) /\ imem s' = imem s).
Proof.
  intros HA HI HP Hnp Hn Hv Hip Hd HLU. assert (HA' := HA). destruct HA' as [H1 H2]. destruct HP as [P1 P2]. apply runs_inv. unfold getri. cbv zeta.
  apply wp_bind.
  assert (Hin : forall l, ~ cells A anywhere l -> ~ inview A l).
  { intros l Hl (i & j & Hi & Hj & e). apply Hl. exists i, j. repeat split; auto. }
  assert (ST : wp (match v with UXLI W => getri_uxli A W | UILI => getri_uili A end)
    (fun info s' => info = 0%Z /\ exists G, effw A G (scratch v) s s' /\ inverse n (interchange n ip A0) G) noX s).
  { destruct v as [|W]; cbn [scratch variant_ok] in *.
    - destruct (getri_uili_correct A s n HA HI Hn Hd) as (info & s' & K & -> & KX & Kc). unfold wp. rewrite K. split; auto. exists (val A s'). split.
      + split; [auto|split; [|apply Kc]]. intros l Hl _. apply Kc. intros (i & j & Hi & Hj & _ & e). apply Hl. exists i, j. auto.
      + eapply inverse_ext; [| |exact KX]; auto. intros; symmetry; apply HLU; auto.
    - destruct Hv as ([V1 V2] & V3 & V4). eapply wp_conseq; [apply (getri_uxli_run n A W s); auto| |auto]. intros info s' (-> & G & (G1 & G2 & G3) & KX). split; auto. exists G. split.
      + split; [auto|split; auto]. intros l Hl Hl'. apply G2; auto. intros (i & j & Hi & Hj & e). apply Hl'. exists i, j. repeat split; auto.
      + eapply inverse_ext; [| |exact KX]; auto. intros; symmetry; apply HLU; auto. }
  eapply wp_conseq; [exact ST| |auto]. clear ST. intros info s1 (-> & G & HG & HX). cbn [Z.eqb negb]. apply wp_bind.
  apply (wp_fordown (fun k s' => exists G, effw A G (scratch v) s s' /\ inverse n (interchange k ip A0) G)); [lia|rewrite H2; eauto| |].
  - intros j s' Hj (G' & He & HX'). rewrite H2 in Hj. destruct (Hip j ltac:(lia)) as [Hv' Hlt].
    assert (RD : forall (Q : nat -> state -> Prop), Q (ip j) s' -> wp (ird piv j) Q noX s').
    { intros Q HQ. unfold wp, ird, ival. destruct He as (_ & _ & Hi). rewrite Hi. change (imem s (ad piv j 0)) with (ival piv s j). rewrite Hv'.
      rewrite inb_true by lia. destruct (Z.leb_spec 0 (Z.of_nat (ip j))); [|lia]. cbn [andb]. rewrite Nat2Z.id. auto. }
    apply wp_bind, RD. cbn [interchange] in HX'. destruct (Nat.eqb_spec (ip j) j) as [e|Hne]; cbn [negb].
    + apply wp_ret. exists G'. split; auto. apply (inverse_tau n j (ip j)) in HX'; [|lia|lia]. eapply inverse_ext; [| |exact HX']; auto. intros i c Hi Hc. rewrite e, tau_id. auto.
    + apply wp_bind, wp_slcol; try lia. apply wp_bind, RD. apply wp_bind, wp_slcol; try lia.
      eapply wp_conseq; [apply (swap_two_cols A j (ip j) noX s'); auto; lia| |auto]. intros u s2 He2. cbv beta in He2. eexists. split; [eapply effw_eff; eauto|].
      apply (inverse_tau n j (ip j)) in HX'; [|lia|lia]. eapply inverse_ext; [| |exact HX']; auto. intros i c Hi Hc. symmetry. apply He; rewrite ?H1, ?H2; auto. apply tau_lt; lia.
  - intros s' (G' & (E1 & E2 & E3) & HX'). apply wp_ret. cbn [interchange] in HX'. split; auto. split.
    + eapply inverse_ext; [| |exact HX']; auto. intros; symmetry; apply E1; lia.
    + split; auto.
Qed.
End P.

Section Q.
Context {E : Env} {FL : FieldLaws E} {CL : ConjLaws E} {QL : EqbLaws E} {OL : OrdLaws E} {RL : ROrdLaws E} {XL : CplxLaws E} {NL : FinLaws E}.
Implicit Types (A W piv : view) (s : state).
(** getrf followed by getri inverts every matrix with linearly independent columns *)
Theorem getrf_getri_inverts v v' sm sM q4 nan A piv s n np : conj sm = sm -> conj sM = sM -> sm * sM = 1 ->
  shape A n n -> vinj A -> isvec piv np -> vinj piv -> (n <= np)%nat -> (0 < n)%nat -> variant_ok v' A n -> independent n n (val A s) ->
  returns (info <- getrf v sm sM q4 nan A piv;; if Z.eqb info 0 then getri v' A piv else ret info) s (fun info s' =>
    info = 0%Z /\ inverse n (val A s) (val A s') /\
    (forall l, ~ cells A anywhere l -> ~ scratch v' l -> mem s' l = mem s l) /\ (forall l, ~ first_entries piv n l -> imem s' l = imem s l)).
Proof.
  intros Hm HM HmM HA HI HP HPI Hnp Hn Hv Hind.
  destruct (getrf_correct v sm sM q4 nan A piv s n n np) as (info & s1 & R & [Hc Hci] & Hres); auto; [lia|]. rewrite Nat.min_id in *.
  destruct Hres as [(-> & _ & Hd & ip & Hip & HLU)|(c & -> & Hc' & HD & _)].
  2: { exfalso. apply (dep_not_indep n n (val A s)); auto. apply (dependent_mono n c); auto. lia. }
  destruct (getri_correct v' A piv s1 n np ip (val A s)) as (i2 & s2 & R2 & -> & HX & F1 & F2); auto.
  exists 0%Z, s2. split; [unfold bind; rewrite R; cbn [Z.eqb]; auto|]. split; auto. split; auto. split.
  - intros l H1 H2. rewrite F1 by auto. apply Hc; auto.
  - intros l Hl. rewrite F2. apply Hci; auto.
Qed.
(** getri_uxli on an empty matrix: the length n - 1 of the workspace vector wraps around *)
Theorem getri_uxli_empty_refuted A W s : shape A 0 0 -> getri_uxli A W s = UB.
Proof. intros [H1 H2]. unfold getri_uxli. rewrite H1, H2. unfold bind, check. cbn [Nat.eqb negb]. rewrite andb_false_r. reflexivity. Qed.
End Q.

(** the 2 x 2 matrix [1 2; 3 4] in row-major storage, the workspace at address 50 *)
Definition exI : view := lview (mklmat 2 2 10 3 RowMajor).
Definition exIW : view := vview (mklvec 1 50 1 Forward).
#[global] Hint Unfold exI exIW : exv.
Definition exI_s : @state RE := mkst RE (fun l => if (l =? 10)%Z then 1%R else if (l =? 11)%Z then 2%R else if (l =? 13)%Z then 3%R else if (l =? 14)%Z then 4%R else 99%R) (fun _ => 0%Z).
Example getrf_getri_example v (b : bool) : returns (info <- getrf (E:=RE) v (1/8)%R 8%R (1/4)%R true exI exP;; if Z.eqb info 0 then getri (E:=RE) (if b then UILI else UXLI exIW) exI exP else ret info) exI_s
  (fun info s' => info = 0%Z /\ inverse (E:=RE) 2 (val exI exI_s) (val exI s')).
Proof.
  destruct (getrf_getri_inverts (E:=RE) v (if b then UILI else UXLI exIW) (1/8)%R 8%R (1/4)%R true exI exP exI_s 2 2) as (info & s' & K & H1 & H2 & _); try exv; try reflexivity; auto.
  - cbn; lra.
  - destruct b; cbn [variant_ok]; auto. split; [exv|split; exv].
  - intros x Hx j Hj. assert (D0 := Hx 0%nat ltac:(lia)). assert (D1 := Hx 1%nat ltac:(lia)). unfold mvmul in *. cbn in D0, D1. destruct j as [|[|]]; try lia; cbn; lra.
  - exists info, s'. auto.
Qed.
