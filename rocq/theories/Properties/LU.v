(** * C20: LU factorization with partial pivoting (getrf, both variants) *)
From Coq Require Import Bool Arith ZArith Lia Reals Lra Ring Field.
From Verif.Core Require Import Scalar Prog View Slice Loops IVec Instances Quiet.
From Verif.Spec Require Import LinAlg Outcome Inverse Parts LU.
From Verif.Model Require Import Gemm Blas1 Blas2 Blas3 Legacy LaAux Triangular LU.
From Verif.Proof Require Import SumLemmas OrdLemmas LegacyProof LuMultProof LUMath RsclProof GetrfProof GetrfRecProof MultBound.
From Verif.Properties Require Import ExTac Blas2 Triangular.
Local Open Scope T_scope.

Section S.
Context {E : Env} {FL : FieldLaws E} {CL : ConjLaws E} {QL : EqbLaws E} {OL : OrdLaws E} {RL : ROrdLaws E} {XL : CplxLaws E} {NL : FinLaws E}.
Add Field Tf : fth.
Implicit Types (A piv : view) (s : state).

(** the magnitude used for pivoting *)
Definition vmag (v : getrf_variant) : T -> T := match v with Level0 => abs1 | RecursiveLU => absv end.
Lemma getrf_run v sm sM q4 nan A piv s : conj sm = sm -> conj sM = sM -> sm * sM = 1 ->
  vinj A -> vinj piv -> nc piv = 1%nat -> (Nat.min (nr A) (nc A) <= nr piv)%nat ->
  returns (getrf v sm sM q4 nan A piv) s (lupost (vmag v) A piv s).
Proof.
  intros. apply runs_inv. destruct v; cbn [getrf vmag].
  - apply getrf_level0_run; auto.
  - apply getrf_recursive_f_run; auto.
Qed.

(** P A = L U: the rows of the input, interchanged as recorded in [piv], are the product of the unit lower
    trapezoidal L and the upper trapezoidal U left in A; 0 is returned exactly when this succeeds with all
    pivots nonzero; otherwise the number c of the first column that depends linearly on those before it is
    returned.  Nothing but A and the first min(m,n) entries of piv changes. *)
Theorem getrf_correct v sm sM q4 nan A piv s m n np : conj sm = sm -> conj sM = sM -> sm * sM = 1 ->
  shape A m n -> vinj A -> isvec piv np -> vinj piv -> (Nat.min m n <= np)%nat ->
  returns (getrf v sm sM q4 nan A piv) s (fun info s' =>
    only_changes2 (cells A anywhere) (first_entries piv (Nat.min m n)) s s' /\
    ((info = 0%Z /\ independent m (Nat.min m n) (val A s) /\
      (forall j, (j < Nat.min m n)%nat -> val A s' j j <> 0) /\
      exists ip, pivots m (Nat.min m n) piv s' ip /\
        forall i c, (i < m)%nat -> (c < n)%nat ->
          interchange (Nat.min m n) ip (val A s) i c =
          mmul (Nat.min m n) (trim Lower Unit (val A s')) (trim Upper NonUnit (val A s')) i c) \/
     (exists c, info = Z.of_nat c /\ (1 <= c <= Nat.min m n)%nat /\ dependent m c (val A s) /\ independent m (c - 1) (val A s)))).
Proof.
  intros Hm HM HmM HA HI HP HPI Hk. destruct (getrf_run v sm sM q4 nan A piv s) as (info & s' & Hrun & F & g & He & Hg & Hres); auto.
  { apply HP. } { destruct HA as [-> ->], HP as [-> _]. auto. }
  exists info, s'. split; auto. destruct HA as [H1 H2], HP as [H3 H4]. rewrite H1, H2 in *. set (k := Nat.min m n) in *. destruct He as (E1 & E2 & E3 & E4).
  rewrite H1, H2 in *. rewrite H3 in *. split.
  - split.
    + intros l Hl. apply E2. intros (i & j & Hi & Hj & e). apply Hl. exists i, j. repeat split; auto.
    + intros l Hl. destruct (inview_dec piv l) as [Hin|Hin]; [|auto]. destruct Hin as (i & j & Hi & Hj & ->).
      rewrite H3, H4 in *. replace j with 0%nat in * by lia. assert (~ (i < k)%nat) by (intros K; apply Hl; exists i; auto).
      change (ival piv s' i = ival piv s i). rewrite E3, Hg by lia. auto.
  - destruct Hres as [(-> & ip & Hip & HL)|(c & -> & HF)]; [left|right].
    + split; auto. split; [apply (lustep_indep (vmag v) m n k ip (val A s) F); auto; unfold k; lia|]. assert (HL' := HL). destruct HL' as (L1 & L2 & L3). split.
      { intros j Hj. rewrite E1 by (unfold k in *; lia). apply L1; auto. }
      exists ip. split.
      { intros j Hj. split; [|apply L1; auto]. rewrite E3 by lia. auto. }
      intros i c Hi Hc. rewrite L2 by auto. assert (((k <=? i) && (k <=? c))%nat = false) as -> by (destruct (Nat.leb_spec k i), (Nat.leb_spec k c); auto; unfold k in *; lia).
      transitivity (mmul k (Lf F) (Uf F) i c); [ring|]. unfold mmul. apply sum_ext. intros l Hl. f_equal; [apply Lf_ext|apply Uf_ext]; rewrite E1; auto; unfold k in *; lia.
    + exists c. split; auto. split; [destruct HF as (? & ? & _); unfold k; lia|]. apply (lufail_dep (vmag v) m n c (val A s) HF).
Qed.
(** multipliers (the entries of L) do not exceed 1 in modulus: the recursive variant always, the level-0
    variant for real types *)
Theorem getrf_multipliers v sm sM q4 nan A piv s m n np : conj sm = sm -> conj sM = sM -> sm * sM = 1 ->
  shape A m n -> vinj A -> isvec piv np -> vinj piv -> (Nat.min m n <= np)%nat -> (v = RecursiveLU \/ cplx = false) ->
  returns (getrf v sm sM q4 nan A piv) s (fun info s' => info = 0%Z ->
    forall i j, (i < m)%nat -> (j < n)%nat -> (j < i)%nat -> ltb 1 (absv (val A s' i j)) = false).
Proof.
  intros Hm HM HmM HA HI HP HPI Hk Hv. destruct (getrf_run v sm sM q4 nan A piv s) as (info & s' & Hrun & F & g & He & Hg & Hres); auto.
  { apply HP. } { destruct HA as [-> ->], HP as [-> _]. auto. }
  exists info, s'. split; auto. intros ->. destruct HA as [H1 H2]. rewrite H1, H2 in *. intros i j Hi Hj Hij.
  destruct Hres as [(_ & ip & Hip & HL)|(c & e & HF & _)]; [|lia]. destruct He as (E1 & _). rewrite E1 by lia. destruct HL as (_ & _ & L3).
  assert (K := L3 i j ltac:(lia) ltac:(lia)). destruct v; cbn [vmag] in K; [apply multiplier_abs1_real; auto; destruct Hv; [discriminate|auto]|apply multiplier_absv; auto].
Qed.
(** the level-0 variant on complex types pivots by |re| + |im|: the moduli are bounded by sqrt 2 only
    (getrf_level0_multipliers_refuted shows that 1 is exceeded) *)
Theorem getrf_level0_multipliers sm sM q4 nan A piv s m n np :
  shape A m n -> vinj A -> isvec piv np -> vinj piv -> (Nat.min m n <= np)%nat ->
  returns (getrf Level0 sm sM q4 nan A piv) s (fun info s' => info = 0%Z ->
    forall i j, (i < m)%nat -> (j < n)%nat -> (j < i)%nat -> ltb (1 + 1) (absv (val A s' i j) * absv (val A s' i j)) = false).
Proof.
  intros HA HI HP HPI Hk. destruct (runs_inv _ _ _ _ (getrf_level0_run A piv s HI HPI (proj2 HP) ltac:(destruct HA as [-> ->], HP as [-> _]; auto))) as (info & s' & Hrun & F & g & He & Hg & Hres).
  exists info, s'. split; auto. intros ->. destruct HA as [H1 H2]. rewrite H1, H2 in *. intros i j Hi Hj Hij.
  destruct Hres as [(_ & ip & Hip & HL)|(c & e & HF & _)]; [|lia]. destruct He as (E1 & _). rewrite E1 by lia. destruct HL as (_ & _ & L3).
  apply multiplier_abs1. apply L3; lia.
Qed.

Lemma dependent_mono m c c' (A : mat) : (c <= c')%nat -> dependent m c A -> dependent m c' A.
Proof.
  intros Hc (x & (j & Hj & Hx) & H). exists (fun l => if (l <? c)%nat then x l else 0). split.
  - exists j. split; [lia|]. destruct (Nat.ltb_spec j c); auto; lia.
  - intros i Hi. transitivity (mvmul c A x i); [|apply (H i Hi)]. unfold mvmul. replace c' with (c + (c' - c))%nat by lia. rewrite sum_split.
    rewrite (sum_0 (c' - c)).
    2: { intros l Hl. cbv beta. destruct (Nat.ltb_spec (c + l) c); [lia|]. ring. }
    transitivity (sum c (fun k => A i k * (if (k <? c)%nat then x k else 0))); [ring|]. apply sum_ext. intros l Hl. destruct (Nat.ltb_spec l c); auto; lia.
Qed.
Lemma dep_not_indep m c (A : mat) : dependent m c A -> independent m c A -> False.
Proof. intros (x & (j & Hj & Hx) & H) Hi. apply Hx. apply (Hi x H j Hj). Qed.
(** the two variants agree on success, and on the number returned otherwise *)
Theorem getrf_variants_agree sm sM q4 nan A piv s m n np : conj sm = sm -> conj sM = sM -> sm * sM = 1 ->
  shape A m n -> vinj A -> isvec piv np -> vinj piv -> (Nat.min m n <= np)%nat ->
  exists info s1 s2, getrf Level0 sm sM q4 nan A piv s = Ok info s1 /\ getrf RecursiveLU sm sM q4 nan A piv s = Ok info s2.
Proof.
  intros Hm HM HmM HA HI HP HPI Hk.
  destruct (getrf_correct Level0 sm sM q4 nan A piv s m n np) as (i1 & s1 & R1 & _ & P1); auto.
  destruct (getrf_correct RecursiveLU sm sM q4 nan A piv s m n np) as (i2 & s2 & R2 & _ & P2); auto.
  exists i1, s1, s2. split; auto. rewrite R2. f_equal.
  destruct P1 as [(-> & I1 & _)|(c1 & -> & B1 & D1 & I1)], P2 as [(-> & I2 & _)|(c2 & -> & B2 & D2 & I2)]; auto.
  - exfalso. apply (dep_not_indep m (Nat.min m n) (val A s)); auto. apply (dependent_mono m c2); auto; lia.
  - exfalso. apply (dep_not_indep m (Nat.min m n) (val A s)); auto. apply (dependent_mono m c1); auto; lia.
  - destruct (Nat.lt_trichotomy c1 c2) as [H|[->|H]]; auto; exfalso.
    + apply (dep_not_indep m (c2 - 1) (val A s)); auto. apply (dependent_mono m c1); auto; lia.
    + apply (dep_not_indep m (c1 - 1) (val A s)); auto. apply (dependent_mono m c2); auto; lia.
Qed.
(** success exactly when the leading min(m,n) columns are linearly independent *)
Theorem getrf_success_iff v sm sM q4 nan A piv s m n np : conj sm = sm -> conj sM = sM -> sm * sM = 1 ->
  shape A m n -> vinj A -> isvec piv np -> vinj piv -> (Nat.min m n <= np)%nat ->
  returns (getrf v sm sM q4 nan A piv) s (fun info _ => info = 0%Z <-> independent m (Nat.min m n) (val A s)).
Proof.
  intros Hm HM HmM HA HI HP HPI Hk. destruct (getrf_correct v sm sM q4 nan A piv s m n np) as (i1 & s1 & R1 & _ & P1); auto.
  exists i1, s1. split; auto. destruct P1 as [(-> & I1 & _)|(c1 & -> & B1 & D1 & I1)]; [tauto|]. split; [lia|]. intros HX. exfalso.
  apply (dep_not_indep m (Nat.min m n) (val A s)); auto. apply (dependent_mono m c1); auto; lia.
Qed.
End S.

(** a pivot vector that is too short is rejected before anything is written *)
Theorem getrf_rejects {E : Env} v sm sM q4 nan A piv s : check_input = true -> (nr piv < Nat.min (nr A) (nc A))%nat ->
  rejects (getrf v sm sM q4 nan A piv) s.
Proof.
  intros Hc H. unfold rejects, getrf. assert (((Nat.min (nr A) (nc A) <=? nr piv)%nat) = false) as K by (apply Nat.leb_gt; auto).
  destruct v; [unfold getrf_level0|unfold getrf_recursive; cbn [getrf_recursive_f]]; cbv zeta; unfold bind, check; rewrite Hc, K; reflexivity.
Qed.

(** ** Examples *)
(** [1 2; 3 4; 5 6] column-major with leading dimension 4, pivots at 7 and 8 of the index memory *)
Definition exL : view := lview (mklmat 3 2 100 4 ColMajor).
Definition exP : view := vview (mklvec 2 7 1 Forward).
#[global] Hint Unfold exL exP : exv.
Definition exL_s : @state RE := mkst RE (fun l => if (l =? 100)%Z then 1%R else if (l =? 101)%Z then 3%R else if (l =? 102)%Z then 5%R else if (l =? 104)%Z then 2%R else if (l =? 105)%Z then 4%R else 6%R) (fun _ => 0%Z).
Example getrf_correct_example v : returns (getrf (E:=RE) v (1/8)%R 8%R (1/4)%R true exL exP) exL_s (fun info s' => info = 0%Z /\
   exists ip, pivots (E:=RE) 3 2 exP s' ip /\ forall i c, (i < 3)%nat -> (c < 2)%nat ->
     interchange (E:=RE) 2 ip (val exL exL_s) i c = mmul (E:=RE) 2 (trim Lower Unit (val exL s')) (trim Upper NonUnit (val exL s')) i c).
Proof.
  destruct (getrf_correct (E:=RE) v (1/8)%R 8%R (1/4)%R true exL exP exL_s 3 2 2) as (info & s' & K & _ & P); try exv; try reflexivity; [cbn; lra|].
  exists info, s'. split; auto. destruct P as [(-> & _ & _ & P)|(c & -> & Hc & (x & (j & Hj & Hx) & HD) & _)]; [split; auto|exfalso].
  assert (D0 := HD 0%nat ltac:(lia)). assert (D1 := HD 1%nat ltac:(lia)). unfold mvmul in *. cbn in Hc.
  destruct c as [|[|[|]]]; try lia; cbn in D0, D1; destruct j as [|[|]]; try lia; cbn in Hx; apply Hx; lra.
Qed.
(** the column (1 + i, 3/2): |re|+|im| prefers 1 + i although its modulus is smaller; the multiplier is
    3/4 - 3/4 i, of modulus > 1 *)
Definition exC : view := lview (mklmat 2 1 10 2 ColMajor).
Definition exCP : view := vview (mklvec 1 7 1 Forward).
Definition exC_s : @state CE := mkst CE (fun l => if (l =? 10)%Z then (1, 1)%R else (3/2, 0)%R) (fun _ => 0%Z).
Ltac crun := lazy -[Rltb Rplus Rmult Rdiv Rinv Rminus Ropp IZR Rabs Reqb sqrt].
Theorem getrf_level0_multipliers_refuted : exists s', getrf (E:=CE) Level0 (1/8, 0)%R (8, 0)%R (1/4, 0)%R true exC exCP exC_s = Ok 0%Z s' /\
  ltb (Env:=CE) one (absv (val exC s' 1 0)) = true.
Proof.
  assert (B1 : Rltb (Rabs 1 + Rabs 1) (Rabs (3 / 2) + Rabs 0) = false).
  { apply Rltb_f. rewrite Rabs_R0, !Rabs_right by lra. lra. }
  assert (B2 : Reqb 1 0 = false). { destruct (Reqb 1 0) eqn:e; auto. apply Reqb_t in e. lra. }
  crun. rewrite B1. crun. rewrite B2. crun. eexists. split; [reflexivity|]. crun. apply Rltb_t.
  rewrite <- sqrt_1 at 1. apply sqrt_lt_1; lra.
Qed.
