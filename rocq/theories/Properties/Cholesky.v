(** * C17-C19: Cholesky factorization and solution *)
From Coq Require Import Bool Arith ZArith Lia Reals Lra Ring Field.
From Verif.Core Require Import Scalar Prog View Slice Loops Instances Quiet.
From Verif.Spec Require Import LinAlg Outcome PosDef Cholesky.
From Verif.Model Require Import Gemm Blas1 Blas2 Blas3 Legacy Cholesky.
From Verif.Proof Require Import SumLemmas OrdLemmas CholMath CholProof PotrfProof LegacyProof.
From Verif.Properties Require Import ExTac Blas2.
Local Open Scope T_scope.

Section S.
Context {E : Env} {FL : FieldLaws E} {CL : ConjLaws E} {OL : ROrdLaws E} {QL : EqbLaws E}.
Add Field Tf : fth.
Implicit Types (A B : view) (s : state).

Lemma chol_out_changes u A s info s' : u = Upper \/ u = Lower -> nc A = nr A -> chol_out u A s info s' -> only_changes (cells A (in_triangle u)) s s'.
Proof.
  intros Hu HC (F & (H1 & H2 & H3) & Hf & _). split; auto. intros l Hl.
  destruct (inview_dec A l) as [(i & j & Hi & Hj & e)|Hn]; [|apply H2; auto].
  subst l. change (val A s' i j = val A s i j). rewrite H1 by auto. apply Hf; try lia.
  destruct (intri u i j) eqn:et; auto. exfalso. apply Hl. exists i, j. repeat split; auto.
  destruct Hu; subst u; cbn in *; apply Nat.leb_le; auto.
Qed.

(** the possible ends of a run of potrf *)
Lemma potrf_cases var nb ec u A s n : u = Upper \/ u = Lower -> shape A n n -> vinj A -> (0 < nb)%nat ->
  let H := herm u (val A s) in
  (exists s', potrf var nb ec u A s = Ok 0%Z s' /\ posdef n H /\ cholesky_factor u n (val A s') H /\ only_changes (cells A (in_triangle u)) s s') \/
  (exists k s', first_not_posdef n k H /\ only_changes (cells A (in_triangle u)) s s' /\
     potrf var nb ec u A s = (if throw_errors && variant_ec var ec
       then Exn (RuntimeError (match var with PBlocked | PRightLooking => Z.of_nat ((k - 1) mod nb) + 1 | _ => Z.of_nat k end)) s'
       else Ok (Z.of_nat k) s')).
Proof.
  intros Hu [H1 H2] HI Hnb H. assert (HC : nc A = nr A) by lia.
  assert (Hh : forall m, hermitian m H) by (intros; apply herm_hermitian; auto).
  assert (Hsucc : forall s', chol_out u A s 0 s' -> posdef n H /\ cholesky_factor u n (val A s') H).
  { intros s' (F & He & Hf & [[_ HP]|(k & _ & K & _)]); [|lia]. rewrite H1 in HP.
    assert (HP' : pchol n n (lowf u (val A s')) H).
    { eapply pchol_ext; [exact HP|lia| |auto]. intros i l Hi Hl. destruct He as (K & _). unfold lowf.
      destruct Hu; subst u; rewrite K by lia; auto. }
    split; [eapply pchol_posdef; eauto|]. split.
    - intros j Hj. destruct (HP' j Hj) as (R1 & R2 & _). destruct Hu; subst u; cbn [lowf] in R1, R2; auto.
      rewrite conj_conj in R1. split; auto. rewrite R1. auto.
    - intros i j Hi Hj. apply (pchol_full u (val A s') n H); auto. }
  assert (Hfail : forall k s', (0 < k)%Z -> chol_out u A s k s' -> exists k', k = Z.of_nat k' /\ first_not_posdef n k' H).
  { intros k s' Hk (F & He & Hf & [[K _]|(k' & Hk' & -> & HF)]); [lia|]. exists (S k'). split; [lia|]. repeat split; try lia.
    - replace (S k' - 1)%nat with k' by lia. apply chfail_posdef; auto.
    - apply chfail_not_posdef; auto. }
  assert (K := potrf_run var nb ec u A s Hu HC HI Hnb). unfold wp in K.
  destruct (potrf var nb ec u A s) as [info s'|e s'| |]; [| |tauto|tauto].
  - destruct K as (K1 & K2 & Ho). destruct (Z.eq_dec info 0) as [->|Hne].
    + left. exists s'. destruct (Hsucc s' Ho) as [K3 K4]. split; auto. split; auto. split; auto. eapply chol_out_changes; eauto.
    + right. destruct (Hfail info s') as (k & -> & Hk); auto; [lia|]. exists k, s'. split; auto. split; [eapply chol_out_changes; eauto|].
      destruct throw_errors, (variant_ec var ec); cbn [andb]; auto. exfalso. apply Hne. auto.
  - destruct K as (K1 & K2). right. rewrite K1.
    assert (Hb : forall e, chol_exn_blk u nb A s e s' -> exists k, throw_errors = true /\ first_not_posdef n k H /\ only_changes (cells A (in_triangle u)) s s' /\ e = RuntimeError (Z.of_nat ((k - 1) mod nb) + 1)).
    { intros e' (Ht & j & k & Hk & Hj & -> & Ho). destruct (Hfail (Z.of_nat j + k)%Z s') as (k' & ek & Hk'); auto; [lia|]. exists k'.
      split; auto. split; auto. split; [eapply chol_out_changes; eauto|]. do 2 f_equal.
      destruct Hk' as [Hk' _]. apply Nat.mod_divides in Hj; [|lia]. destruct Hj as [c ->].
      replace (k' - 1)%nat with (Z.to_nat (k - 1) + c * nb)%nat by nia. rewrite Nat.mod_add by lia.
      rewrite Nat.mod_small by lia. lia. }
    assert (Hu' : forall e, chol_exn u A s e s' -> exists k, throw_errors = true /\ first_not_posdef n k H /\ only_changes (cells A (in_triangle u)) s s' /\ e = RuntimeError (Z.of_nat k)).
    { intros e' (Ht & k & Hk & -> & Ho). destruct (Hfail k s') as (k' & -> & Hk'); auto. exists k'.
      split; auto. split; auto. split; [eapply chol_out_changes; eauto|auto]. }
    destruct var; cbn [potrf_exn] in K2; first [destruct (Hb e K2) as (k & Ht & Hk & Ho & ->) | destruct (Hu' e K2) as (k & Ht & Hk & Ho & ->)];
      exists k, s'; rewrite Ht; (split; [exact Hk|]); (split; [exact Ho|reflexivity]).
Qed.

(** ** C17: a positive definite matrix is factorized, by every variant *)
Theorem potrf_factorizes var nb ec u A s n : u = Upper \/ u = Lower -> shape A n n -> vinj A -> (0 < nb)%nat ->
  posdef n (herm u (val A s)) ->
  returns (potrf var nb ec u A) s (fun info s' => info = 0%Z /\ cholesky_factor u n (val A s') (herm u (val A s)) /\
    only_changes (cells A (in_triangle u)) s s').
Proof.
  intros Hu HA HI Hnb HP. destruct (potrf_cases var nb ec u A s n Hu HA HI Hnb) as [(s' & K & _ & K2 & K3)|(k & s' & (Hk & _ & Hn) & _)].
  - exists 0%Z, s'. auto.
  - exfalso. apply Hn. eapply posdef_le; eauto. lia.
Qed.
(** ... and a return value of 0 always means that the triangle holds the factor *)
Theorem potrf_zero_means_factorized var nb ec u A s n s' : u = Upper \/ u = Lower -> shape A n n -> vinj A -> (0 < nb)%nat ->
  potrf var nb ec u A s = Ok 0%Z s' ->
  posdef n (herm u (val A s)) /\ cholesky_factor u n (val A s') (herm u (val A s)) /\ only_changes (cells A (in_triangle u)) s s'.
Proof.
  intros Hu HA HI Hnb K. destruct (potrf_cases var nb ec u A s n Hu HA HI Hnb) as [(s'' & K' & HP & K2 & K3)|(k & s'' & (Hk & _) & _ & K')].
  - assert (s'' = s') as -> by congruence. auto.
  - exfalso. destruct (throw_errors && variant_ec var ec); rewrite K in K'; [discriminate|]. injection K'. intros. lia.
Qed.
(** all variants and block sizes give the same factor *)
Theorem potrf_variants_agree var1 nb1 ec1 var2 nb2 ec2 u A s n s1 s2 : u = Upper \/ u = Lower -> shape A n n -> vinj A ->
  (0 < nb1)%nat -> (0 < nb2)%nat ->
  potrf var1 nb1 ec1 u A s = Ok 0%Z s1 -> potrf var2 nb2 ec2 u A s = Ok 0%Z s2 ->
  agree anywhere A s1 A s2.
Proof.
  intros Hu HA HI Hn1 Hn2 K1 K2. destruct HA as [H1 H2].
  assert (R1 := potrf_run var1 nb1 ec1 u A s Hu ltac:(lia) HI Hn1). unfold wp in R1. rewrite K1 in R1. destruct R1 as (_ & _ & (F1 & E1 & U1 & [[_ P1]|(k & _ & K & _)])); [|lia].
  assert (R2 := potrf_run var2 nb2 ec2 u A s Hu ltac:(lia) HI Hn2). unfold wp in R2. rewrite K2 in R2. destruct R2 as (_ & _ & (F2 & E2 & U2 & [[_ P2]|(k & _ & K & _)])); [|lia].
  split; auto. split; auto. intros i j Hi Hj _.
  destruct E1 as (E1 & _), E2 as (E2 & _). rewrite E1, E2 by auto.
  destruct (intri u i j) eqn:et; [|rewrite U1, U2 by (auto; lia); auto].
  destruct Hu; subst u; cbn in et; apply Nat.leb_le in et.
  - assert (e := pchol_unique _ _ _ _ _ P1 P2 ltac:(lia) i j ltac:(lia) ltac:(lia)). cbn in e.
    rewrite <- (conj_conj (F1 i j)), e. apply conj_conj.
  - apply (pchol_unique _ _ _ _ _ P1 P2 ltac:(lia) j i ltac:(lia) ltac:(lia)).
Qed.

(** ** C18: failure is reported exactly when, and where, positive definiteness fails *)
(** when failures are not thrown, the return value is the order of the first non-positive-definite leading
    principal submatrix *)
Theorem potrf_detects var nb ec u A s n : u = Upper \/ u = Lower -> shape A n n -> vinj A -> (0 < nb)%nat ->
  throw_errors && variant_ec var ec = false ->
  let H := herm u (val A s) in
  returns (potrf var nb ec u A) s (fun info s' =>
    (info = 0%Z /\ posdef n H \/ exists k, info = Z.of_nat k /\ first_not_posdef n k H) /\
    only_changes (cells A (in_triangle u)) s s').
Proof.
  intros Hu HA HI Hnb Ht H. destruct (potrf_cases var nb ec u A s n Hu HA HI Hnb) as [(s' & K & HP & K2 & K3)|(k & s' & Hk & Ho & K)].
  - exists 0%Z, s'. auto.
  - rewrite Ht in K. exists (Z.of_nat k), s'. split; auto. split; auto. right. exists k. auto.
Qed.
(** so 0 is returned if and only if the matrix is positive definite *)
Theorem potrf_zero_iff_posdef var nb ec u A s n info s' : u = Upper \/ u = Lower -> shape A n n -> vinj A -> (0 < nb)%nat ->
  potrf var nb ec u A s = Ok info s' -> (info = 0%Z <-> posdef n (herm u (val A s))).
Proof.
  intros Hu HA HI Hnb K. destruct (potrf_cases var nb ec u A s n Hu HA HI Hnb) as [(s'' & K' & HP & _)|(k & s'' & (Hk & _ & Hn) & _ & K')].
  - split; auto. congruence.
  - destruct (throw_errors && variant_ec var ec); rewrite K in K'; [discriminate|]. injection K'. intros _ ->.
    split; [lia|]. intros HP. exfalso. apply Hn. eapply posdef_le; eauto. lia.
Qed.
(** and all variants report the same order *)
Theorem potrf_variants_same_info var1 nb1 ec1 var2 nb2 ec2 u A s n i1 i2 s1 s2 : u = Upper \/ u = Lower -> shape A n n -> vinj A ->
  (0 < nb1)%nat -> (0 < nb2)%nat ->
  potrf var1 nb1 ec1 u A s = Ok i1 s1 -> potrf var2 nb2 ec2 u A s = Ok i2 s2 -> i1 = i2.
Proof.
  intros Hu HA HI Hn1 Hn2 K1 K2.
  assert (Hc : forall var nb ec i s', (0 < nb)%nat -> potrf var nb ec u A s = Ok i s' ->
     (i = 0%Z /\ posdef n (herm u (val A s))) \/ exists k, i = Z.of_nat k /\ first_not_posdef n k (herm u (val A s))).
  { intros var nb ec i s' Hnb K. destruct (potrf_cases var nb ec u A s n Hu HA HI Hnb) as [(s'' & K' & HP & _)|(k & s'' & Hk & _ & K')].
    - left. split; auto. congruence.
    - right. exists k. split; auto. destruct (throw_errors && variant_ec var ec); rewrite K in K'; [discriminate|]. injection K'. auto. }
  assert (Hle : forall a b, (a < b)%nat -> first_not_posdef n a (herm u (val A s)) -> first_not_posdef n b (herm u (val A s)) -> False).
  { intros a b Hab (_ & _ & Ha) (_ & Hb & _). apply Ha. eapply posdef_le; [exact Hb|lia]. }
  destruct (Hc _ _ _ _ _ Hn1 K1) as [[-> P1]|(k1 & -> & P1)], (Hc _ _ _ _ _ Hn2 K2) as [[-> P2]|(k2 & -> & P2)]; auto.
  - exfalso. destruct P2 as (Hk & _ & Hn). apply Hn. eapply posdef_le; eauto. lia.
  - exfalso. destruct P1 as (Hk & _ & Hn). apply Hn. eapply posdef_le; eauto. lia.
  - f_equal. destruct (Nat.lt_trichotomy k1 k2) as [|[|]]; auto; exfalso; eauto.
Qed.
(** when failures are thrown: the exception of the unblocked and recursive variants carries the order ... *)
Theorem potrf_throws_order var nb ec u A s n : u = Upper \/ u = Lower -> shape A n n -> vinj A -> (0 < nb)%nat ->
  throw_errors && variant_ec var ec = true -> var = PLevel2 \/ var = PRecursive -> ~ posdef n (herm u (val A s)) ->
  exists k s', potrf var nb ec u A s = Exn (RuntimeError (Z.of_nat k)) s' /\ first_not_posdef n k (herm u (val A s)) /\
    only_changes (cells A (in_triangle u)) s s'.
Proof.
  intros Hu HA HI Hnb Ht Hv HN. destruct (potrf_cases var nb ec u A s n Hu HA HI Hnb) as [(s'' & K' & HP & _)|(k & s'' & Hk & Ho & K')].
  - contradiction.
  - exists k, s''. rewrite Ht in K'. rewrite K'. destruct Hv; subst var; auto.
Qed.
(** ... while that of the blocked variants only carries the position inside the failing diagonal block *)
Theorem potrf_blocked_throws_local_order var nb ec u A s n : u = Upper \/ u = Lower -> shape A n n -> vinj A -> (0 < nb)%nat ->
  throw_errors = true -> var = PBlocked \/ var = PRightLooking -> ~ posdef n (herm u (val A s)) ->
  exists k s', potrf var nb ec u A s = Exn (RuntimeError (Z.of_nat ((k - 1) mod nb) + 1)) s' /\ first_not_posdef n k (herm u (val A s)) /\
    only_changes (cells A (in_triangle u)) s s'.
Proof.
  intros Hu HA HI Hnb Ht Hv HN. destruct (potrf_cases var nb ec u A s n Hu HA HI Hnb) as [(s'' & K' & HP & _)|(k & s'' & Hk & Ho & K')].
  - contradiction.
  - exists k, s''. rewrite Ht in K'. rewrite K'. destruct Hv; subst var; auto.
Qed.

(** ** C19 *)
Theorem potrs_correct u A B s n m H : u = Upper \/ u = Lower -> shape A n n -> shape B n m -> vinj B -> disj A B ->
  cholesky_factor u n (val A s) H ->
  returns (potrs u A B) s (fun info s' => info = 0%Z /\
    (forall i j, (i < n)%nat -> (j < m)%nat -> mmul n H (val B s') i j = val B s i j) /\
    only_changes (inview B) s s').
Proof.
  intros Hu [H1 H2] [H3 H4] HI HD [Hd HH]. apply runs_inv. eapply wp_conseq; [apply (potrs_run u A B s n m H); auto| |auto].
  - intros j Hj. apply pos_neq_0. apply (Hd j Hj).
  - intros info s' (-> & X & (K1 & K2 & K3) & HX). split; auto. split; [|split; auto]. intros i j Hi Hj. rewrite <- HX by auto.
    apply mmul_ext; auto. intros l Hl. apply K1; lia.
Qed.
(** factorization followed by solution *)
Theorem potrf_potrs_solve var nb ec u A B s n m : u = Upper \/ u = Lower -> shape A n n -> shape B n m -> vinj A -> vinj B -> disj A B ->
  (0 < nb)%nat -> posdef n (herm u (val A s)) ->
  returns (info <- potrf var nb ec u A;; potrs u A B) s (fun info s' => info = 0%Z /\
    forall i j, (i < n)%nat -> (j < m)%nat -> mmul n (herm u (val A s)) (val B s') i j = val B s i j).
Proof.
  intros Hu HA HB HIA HIB HD Hnb HP.
  destruct (potrf_factorizes var nb ec u A s n Hu HA HIA Hnb HP) as (i1 & s1 & K1 & -> & F1 & C1).
  destruct (potrs_correct u A B s1 n m _ Hu HA HB HIB HD F1) as (i2 & s2 & K2 & -> & F2 & C2).
  exists 0%Z, s2. unfold bind. rewrite K1. split; auto. split; auto. intros i j Hi Hj. rewrite F2 by auto.
  unfold val. apply (proj1 C1). intros (a & b & Ha & Hb & _ & e). destruct HA, HB. apply (HD a b i j); auto; lia.
Qed.
End S.

(** ** Findings *)
Section Nb0.
Context {E : Env} {FL : FieldLaws E} {CL : ConjLaws E}.
(** block size 0: the blocked variants never finish on a non-empty matrix, whatever the number of steps allowed *)
Theorem potrf_blocked_zero_block_diverges fuel u A s n : u = Upper \/ u = Lower -> shape A n n -> vinj A -> (0 < n)%nat ->
  potrf_blocked_f fuel 0 u A s = OutOfFuel.
Proof.
  intros Hu [H1 H2] HI Hn. unfold potrf_blocked_f.
  assert (Hc : forall B (f : unit -> M B), bind (check (uplo2 u)) f = f tt).
  { intros B f. unfold check. destruct Hu; subst u; rewrite andb_false_r; reflexivity. }
  rewrite Hc. unfold check at 1. rewrite H1, H2, Nat.eqb_refl, andb_false_r. unfold bind at 1, ret at 1.
  rewrite (proj2 (Nat.eqb_neq n 0)), (proj2 (Nat.leb_gt n 0)) by lia.
  unfold bind. rewrite blkret_0; auto. intros s'.
  unfold potrf_blocked_step. rewrite H1. cbn [Nat.min Nat.add]. cbv zeta. rewrite (proj2 (Nat.ltb_lt 0 n)) by lia.
  assert (Hp : forall s', potf2 u (subv A 0 0 0 0) s' = Ok 0%Z s').
  { intros s''. unfold potf2. rewrite Hc. unfold check. cbn. rewrite andb_false_r. reflexivity. }
  assert (Z1 : vinj (subv A 0 0 0 0)) by (intros a b c d Ha; cbn in Ha; lia).
  destruct Hu; subst u; rewrite !Slice.slc_ret by lia.
  - assert (K1 := HerkProof.herk_run Upper ConjTrans (- one) (subv A 0 0 0 0) (Sc one) (subv A 0 0 0 0) s' 0 0).
    assert (K2 : forall s', runs (gemm ConjTrans NoTrans (- one) (subv A 0 0 0 0) (subv A 0 0 0 n) (Sc one) (subv A 0 0 0 n)) s' (fun _ _ => True)).
    { intros s1. eapply wp_conseq; [apply (GemmProof.gemm_run ConjTrans NoTrans (- one) (subv A 0 0 0 0) (subv A 0 0 0 n) (Sc one) (subv A 0 0 0 n) s1 0 n 0); cbn; auto; try lia; try (split; lia); intros a b c d Ha; cbn in Ha; lia|auto|auto]. }
    assert (K3 : forall s', runs (trsm Left Upper ConjTrans NonUnit one (subv A 0 0 0 0) (subv A 0 0 0 n)) s' (fun _ _ => True)).
    { intros s1. eapply wp_conseq; [apply (TrsmProof.trsm_run Left Upper ConjTrans NonUnit one (subv A 0 0 0 0) (subv A 0 0 0 n) s1 0 n); cbn; auto; try lia; intros a b c d Ha; cbn in Ha; lia|auto|auto]. }
    destruct (runs_inv _ _ _ _ (K1 eq_refl ltac:(auto) ltac:(rewrite conj_opp, conj_1; auto) conj_1 eq_refl eq_refl eq_refl eq_refl Z1 ltac:(intros a b c d Ha; cbn in Ha; lia))) as (? & s1 & e1 & _).
    unfold bind, ret. rewrite e1, Hp. cbn [Z.eqb negb].
    destruct (runs_inv _ _ _ _ (K2 s1)) as (? & s2 & -> & _). destruct (runs_inv _ _ _ _ (K3 s2)) as (? & s3 & -> & _). eauto.
  - assert (K1 := HerkProof.herk_run Lower NoTrans (- one) (subv A 0 0 0 0) (Sc one) (subv A 0 0 0 0) s' 0 0).
    assert (K2 : forall s', runs (gemm NoTrans ConjTrans (- one) (subv A 0 n 0 0) (subv A 0 0 0 0) (Sc one) (subv A 0 n 0 0)) s' (fun _ _ => True)).
    { intros s1. eapply wp_conseq; [apply (GemmProof.gemm_run NoTrans ConjTrans (- one) (subv A 0 n 0 0) (subv A 0 0 0 0) (Sc one) (subv A 0 n 0 0) s1 n 0 0); cbn; auto; try lia; try (split; lia); intros a b c d Ha; cbn in Ha; cbn; lia|auto|auto]. }
    assert (K3 : forall s', runs (trsm Right Lower ConjTrans NonUnit one (subv A 0 0 0 0) (subv A 0 n 0 0)) s' (fun _ _ => True)).
    { intros s1. eapply wp_conseq; [apply (TrsmProof.trsm_run Right Lower ConjTrans NonUnit one (subv A 0 0 0 0) (subv A 0 n 0 0) s1 n 0); cbn; auto; try lia; intros a b c d Ha; cbn in Ha; cbn; lia|auto|auto]. }
    destruct (runs_inv _ _ _ _ (K1 eq_refl ltac:(auto) ltac:(rewrite conj_opp, conj_1; auto) conj_1 eq_refl eq_refl eq_refl eq_refl Z1 ltac:(intros a b c d Ha; cbn in Ha; lia))) as (? & s1 & e1 & _).
    unfold bind, ret. rewrite e1, Hp. cbn [Z.eqb negb].
    destruct (runs_inv _ _ _ _ (K2 s1)) as (? & s2 & -> & _). destruct (runs_inv _ _ _ _ (K3 s2)) as (? & s3 & -> & _). eauto.
Qed.
End Nb0.

(** a Hermitian positive definite matrix [2 i; -i 2], upper triangle stored, with junk below *)
Definition exH : view := lview (mklmat 2 2 100 3 ColMajor).
Definition exH_s : @state CE := mkst CE (fun l => if (l =? 100)%Z then c 2 5 else if (l =? 103)%Z then c 0 1 else if (l =? 104)%Z then c 2 0 else c 77 7) (fun _ => 0%Z).
#[global] Hint Unfold exH : exv.
Lemma exH_posdef : posdef (E:=CE) 2 (herm Upper (val exH exH_s)).
Proof.
  intros x (i & Hi & Hx). cbn. apply Rltb_t. cbn.
  destruct (x 0%nat) as [a b] eqn:e0, (x 1%nat) as [p q] eqn:e1. cbn.
  match goal with |- (0 < ?t)%R => replace t with ((a - q)*(a - q) + (b + p)*(b + p) + (a*a + b*b + p*p + q*q))%R by (unfold c; cbn; ring) end.
    assert (H : (a <> 0 \/ b <> 0 \/ p <> 0 \/ q <> 0)%R).
    { destruct (Req_dec a 0); auto. destruct (Req_dec b 0); auto. destruct (Req_dec p 0); auto. destruct (Req_dec q 0); auto. subst.
      exfalso. apply Hx. destruct i as [|[|]]; [rewrite e0|rewrite e1|lia]; reflexivity. }
    assert (P : forall t, (t <> 0 -> 0 < t * t)%R) by (intros t Ht; destruct (Rtotal_order t 0) as [|[|]]; nra).
    assert (Q : forall t, (0 <= t * t)%R) by (intros; nra).
    assert (Ha := Q a). assert (Hb := Q b). assert (Hp := Q p). assert (Hq := Q q). assert (H1 := Q (a-q)%R). assert (H2 := Q (b+p)%R).
    destruct H as [H|[H|[H|H]]]; apply P in H; lra.
Qed.
Example potrf_factorizes_example var nb : (0 < nb)%nat -> returns (potrf (E:=CE) var nb true Upper exH) exH_s (fun info s' =>
   info = 0%Z /\ cholesky_factor (E:=CE) Upper 2 (val exH s') (herm Upper (val exH exH_s)) /\ only_changes (cells exH (in_triangle Upper)) exH_s s').
Proof. intros Hnb. apply (potrf_factorizes (E:=CE)); auto; try exv. apply exH_posdef. Qed.
Definition exRhs : view := lview (mklmat 2 3 300 4 RowMajor).
#[global] Hint Unfold exRhs : exv.
Example potrf_potrs_solve_example var nb : (0 < nb)%nat -> returns (bind (potrf (E:=CE) var nb true Upper exH) (fun _ => potrs Upper exH exRhs)) exH_s (fun info s' =>
   info = 0%Z /\ forall i j, (i < 2)%nat -> (j < 3)%nat -> mmul (E:=CE) 2 (herm Upper (val exH exH_s)) (val exRhs s') i j = val exRhs exH_s i j).
Proof. intros Hnb. apply (potrf_potrs_solve (E:=CE)); auto; try exv. apply exH_posdef. Qed.

(** diag(1,-1): the first non-positive minor is the second, but with block size 1 the exception says 1 *)
Definition exN_s (E : Env) : @state E := mkst E (fun l => if (l =? 100)%Z then one else if (l =? 104)%Z then (opp one) else zero) (fun _ => 0%Z).
Lemma exN_first u : u = Upper \/ u = Lower -> first_not_posdef (E:=RE) 2 2 (herm u (val exH (exN_s RE))).
Proof.
  intros Hu. split; [lia|]. split.
  - intros x (i & Hi & Hx). assert (i = 0)%nat as -> by lia. destruct Hu; subst u; cbn in *; apply Rltb_t; destruct (Rtotal_order (x 0%nat) 0) as [|[|]]; nra.
  - intros HP. specialize (HP (fun i => if (i =? 1)%nat then 1%R else 0%R)).
    assert (K : Rltb 0 (@qform RE 2 (herm u (val exH (exN_s RE))) (fun i => if (i =? 1)%nat then 1%R else 0%R)) = true).
    { apply HP. exists 1%nat. cbn. split; [lia|lra]. }
    apply Rltb_t in K. destruct Hu; subst u; cbn in K; lra.
Qed.
Theorem potrf_blocked_exception_order_refuted :
  exists (A : view) (s s' : @state RE), shape A 2 2 /\ vinj A /\ first_not_posdef (E:=RE) 2 2 (herm Upper (val A s)) /\
    potrf (E:=RE) PBlocked 1 true Upper A s = Exn (RuntimeError 1) s'.
Proof.
  assert (HN := exN_first Upper (or_introl eq_refl)).
  destruct (potrf_blocked_throws_local_order (E:=RE) PBlocked 1 true Upper exH (exN_s RE) 2) as (k & s' & K & Hk & _); auto; try exv; [apply HN|].
  rewrite Nat.mod_1_r in K. exists exH, (exN_s RE), s'. split; [exv|]. split; [exv|]. split; [exact HN|exact K].
Qed.
Example potrf_detects_example var nb : (0 < nb)%nat ->
  returns (potrf (E:=quiet RE) var nb true Lower exH) (exN_s (quiet RE)) (fun info s' => info = 2%Z).
Proof.
  intros Hnb. destruct (potrf_detects (E:=quiet RE) var nb true Lower exH (exN_s (quiet RE)) 2) as (info & s' & K & [[-> HP]|(k & -> & HP)] & _); auto; try exv.
  - exfalso. apply (exN_first Lower (or_intror eq_refl)). exact HP.
  - exists (Z.of_nat k), s'. split; auto. destruct (exN_first Lower (or_intror eq_refl)) as (_ & P1 & P2). destruct HP as (Hk & Q1 & Q2).
    destruct (Nat.eq_dec k 2) as [->|]; auto. exfalso. assert (k = 1)%nat as -> by lia. apply Q2. exact P1.
Qed.
Example potrf_throws_order_example : exists s', potrf (E:=RE) PRecursive 1 true Lower exH (exN_s RE) = Exn (RuntimeError 2) s'.
Proof.
  destruct (exN_first Lower (or_intror eq_refl)) as (P0 & P1 & P2).
  destruct (potrf_throws_order (E:=RE) PRecursive 1 true Lower exH (exN_s RE) 2) as (k & s' & K & HP & _); auto; try exv.
  exists s'. rewrite K. destruct HP as (Hk & Q1 & Q2). destruct (Nat.eq_dec k 2) as [->|]; auto. exfalso. assert (k = 1)%nat as -> by lia. apply Q2. exact P1.
Qed.
