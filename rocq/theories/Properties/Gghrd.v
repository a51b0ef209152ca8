(** * C50: reduction to Hessenberg-triangular form *)
From Coq Require Import Bool Arith ZArith List Lia Reals Lra Ring Field.
From Verif.Core Require Import Scalar Prog View Instances RealLaws.
From Verif.Spec Require Import LinAlg Outcome Householder Reduce Rot.
From Verif.Model Require Import Legacy Rot Gghrd.
From Verif.Proof Require Import SumLemmas Tactics PotrfProof BlockAlg LarfgProof QRProof QGenProof ReduceMath RotgProof GghrdProof HrqProof.
From Verif.Properties Require Import ExTac.
Local Open Scope T_scope.

Section S.
Context {E : Env} {FL : FieldLaws E} {CL : ConjLaws E} {QL : EqbLaws E}.
Add Field Tf : fth.
Implicit Types (A B Q : view) (s : state).
Lemma two_inv n U M V X i j : unitary n U -> unitary n V -> (i < n)%nat -> (j < n)%nat ->
  (forall r q, (r < n)%nat -> (q < n)%nat -> X r q = two n U M V r q) -> M i j = mmul n (mmul n U X) (ctr V) i j.
Proof.
  intros UU UV Hi Hj H. transitivity (mmul n (mmul n U (two n U M V)) (ctr V) i j).
  - unfold two. transitivity (mmul n (mmul n M V) (ctr V) i j); [symmetry; apply uni_cancel'; auto|].
    apply mmul_ext; auto. intros l Hl. symmetry. apply uni_cancel; auto.
  - apply mmul_ext; auto. intros l Hl. apply mmul_ext; auto. intros l' Hl'. symmetry. auto.
Qed.
(** four square matrices of order n in separate memory *)
Definition quad (n : nat) A B Q (Z : view) : Prop :=
  shape A n n /\ shape B n n /\ shape Q n n /\ shape Z n n /\ vinj A /\ vinj B /\ vinj Q /\ vinj Z /\
  disj A B /\ disj A Q /\ disj A Z /\ disj B Q /\ disj B Z /\ disj Q Z.
Lemma disj_sym' A B : disj A B -> disj B A.
Proof. intros D a b c d H1 H2 H3 H4 e. apply (D c d a b); auto. Qed.
Lemma gghrd_run rotg wantq wantz ilo ihi A B Q (Z : view) s n : rotg_good rotg -> quad n A B Q Z -> (ilo < ihi <= n)%nat -> hess_input n ilo ihi (val A s) ->
  returns (gghrd rotg wantq wantz ilo ihi A B Q Z) s (fun z s' => z = 0%Z /\
    hesstri_reduction n ilo ihi wantq wantz (val A s) (val B s) (val Q s) (val Z s) (val A s') (val B s') (val Q s') (val Z s') /\
    only_changes (fun l => inview A l \/ inview B l \/ inview Q l \/ inview Z l) s s').
Proof.
  intros Hg ([A1 A2] & [B1 B2] & [Q1 Q2] & [Z1 Z2] & IA & IB & IQ & IZ & D1 & D2 & D3 & D4 & D5 & D6) Hi HinA. apply runs_inv. unfold runs, gghrd. cbv zeta. rewrite A2, A1, B1, B2, Q1, Q2, Z1, Z2, Nat.eqb_refl.
  destruct (Nat.ltb_spec ilo n); [|lia]. destruct (Nat.ltb_spec ilo ihi); [|lia]. destruct (Nat.leb_spec ihi n); [|lia]. cbn [andb].
  do 9 (apply wp_bind, wp_check; [auto|]).
  assert (HV : forall k, (k < 4)%nat -> vinj (vs A B Q Z k) /\ nr (vs A B Q Z k) = n /\ nc (vs A B Q Z k) = n).
  { intros [|[|[|[|k]]]] Hk; try lia; cbn [vs]; auto. }
  assert (HD : forall k k', (k < 4)%nat -> (k' < 4)%nat -> k <> k' -> disj (vs A B Q Z k) (vs A B Q Z k')).
  { intros [|[|[|[|k]]]] [|[|[|[|k']]]] Hk Hk' N; try lia; cbn [vs]; auto using disj_sym'. }
  set (F0 := fun k => match k with 0 => val A s | 1 => val B s | 2 => val Q s | _ => val Z s end%nat).
  assert (HS0 : St n A B Q Z s F0 s). { split; [|split]; auto. intros [|[|[|[|k]]]] r q Hk Hr Hq; try lia; reflexivity. }
  destruct (Nat.leb_spec n 1) as [Hn|Hn].
  { apply wp_ret. split; auto. split; [|split; auto].
    exists idm, idm. split; [apply unitary_id|]. split; [apply unitary_id|].
    assert (T2 : forall (M : mat) r q, (r < n)%nat -> (q < n)%nat -> M r q = two n idm M idm r q).
    { intros M r q Hr Hq. unfold two. symmetry. transitivity (mmul n idm (mmul n M idm) r q); [apply mmul_ext; auto; intros; apply ctr_idm|]. rewrite mmul_id_l, mmul_id_r; auto. }
    split; [|split; [|split; [|split; [|split; [|split]]]]].
    - intros i j Hi' Hj. apply two_inv; auto using unitary_id.
    - intros i j Hi' Hj. apply two_inv; auto using unitary_id. intros r q Hr Hq. rewrite <- T2 by auto. unfold upper_part. destruct (Nat.ltb_spec q r); auto; lia.
    - intros i j Hi' Hj. destruct wantq; auto. rewrite mmul_id_r; auto.
    - intros i j Hi' Hj. destruct wantz; auto. rewrite mmul_id_r; auto.
    - intros; lia.
    - intros; lia.
    - intros; auto. }
  apply wp_bind. eapply wp_conseq; [apply (gg_zero_run n ilo ihi A B Q Z HV HD ltac:(lia) ltac:(lia) s F0 s HS0)| |intros ? ? []]. intros [] s1 HS1. cbv beta in HS1.
  apply wp_bind. eapply wp_conseq; [eapply (gg_loop rotg Hg wantq wantz n ilo ihi A B Q Z HV HD ltac:(lia) ltac:(lia) s (val A s) (upper_part (val B s)) (val Q s) (val Z s) HinA _ s1 HS1)| |intros ? ? []].
  - exists idm, idm. split; [apply unitary_id|]. split; [apply unitary_id|].
    assert (T2 : forall (M : mat) r q, (r < n)%nat -> (q < n)%nat -> M r q = two n idm M idm r q).
    { intros M r q Hr Hq. unfold two. symmetry. transitivity (mmul n idm (mmul n M idm) r q); [apply mmul_ext; auto; intros; apply ctr_idm|]. rewrite mmul_id_l, mmul_id_r; auto. }
    unfold updv. cbn [Nat.eqb]. split; [intros; apply T2; auto|]. split; [intros; rewrite <- T2 by auto; auto|].
    split; [intros; destruct wantq; auto; rewrite mmul_id_r; auto|]. split; [intros; destruct wantz; auto; rewrite mmul_id_r; auto|].
    split; [intros r q Hr Hq; destruct (Nat.ltb_spec q r); auto; lia|]. split; [intros; auto|]. split; intros; lia.
  - intros [] s2 (F & HS & (U & V & UU & UV & I0 & I1 & I2 & I3 & J1 & J2 & J3 & J4)). apply wp_ret. split; auto. destruct HS as (G1 & G2 & G3). split.
    + exists U, V. split; [auto|]. split; [auto|].
      split; [|split; [|split; [|split; [|split; [|split]]]]].
      * intros i j Hi' Hj. apply two_inv; auto. intros r q Hr Hq. rewrite <- I0 by auto. apply (G1 0%nat); auto; lia.
      * intros i j Hi' Hj. apply two_inv; auto. intros r q Hr Hq. rewrite <- I1 by auto. apply (G1 1%nat); auto; lia.
      * intros i j Hi' Hj. rewrite <- I2 by auto. apply (G1 2%nat); auto; lia.
      * intros i j Hi' Hj. rewrite <- I3 by auto. apply (G1 3%nat); auto; lia.
      * intros i j Hi' Hj. rewrite <- (J1 i j) by auto. apply (G1 1%nat); auto; lia.
      * intros i j Hi' Hj Hx. rewrite <- (J3 i j) by lia. apply (G1 0%nat); auto; lia.
      * intros i j Hi' Hj Hx. rewrite <- (J2 i j) by lia. apply (G1 0%nat); auto; lia.
    + split; auto. intros l Hl. apply G2. intros [|[|[|[|k]]]] Hk K; try lia; apply Hl; cbn [vs] in K; auto.
Qed.
(** invalid arguments are rejected before anything is written; so is every call with n = 0 *)
Theorem gghrd_rejects rotg wantq wantz ilo ihi A B Q (Z : view) s : check_input = true ->
  let n := nc A in
  ~ ((ilo < ihi <= n)%nat /\ shape A n n /\ shape B n n /\ shape Q n n /\ shape Z n n) -> rejects (gghrd rotg wantq wantz ilo ihi A B Q Z) s.
Proof.
  intros Hc n Hn. unfold rejects, gghrd. change (nc A) with n. cbv zeta. unfold check. rewrite Hc. cbn [andb].
  destruct (Nat.ltb_spec ilo n); [|reflexivity]. destruct (Nat.ltb_spec ilo ihi); [|reflexivity]. destruct (Nat.leb_spec ihi n); [|reflexivity]. cbn [andb].
  destruct (Nat.eqb_spec n (nr A)); [|reflexivity]. destruct (Nat.eqb_spec n (nc B)); [|reflexivity]. destruct (Nat.eqb_spec n (nr B)); [|reflexivity].
  destruct (Nat.eqb_spec n (nc Q)); [|reflexivity]. destruct (Nat.eqb_spec n (nr Q)); [|reflexivity].
  destruct (Nat.eqb_spec n (nc Z)); [|reflexivity]. destruct (Nat.eqb_spec n (nr Z)); [|reflexivity].
  exfalso. apply Hn. unfold shape. repeat split; auto.
Qed.
End S.

Section G.
Context {E : Env} {FL : FieldLaws E} {CL : ConjLaws E} {OL : ROrdLaws E} {QL : EqbLaws E} {XL : CplxLaws E} {RL : RLaws E} {NL : FinLaws E}.
Add Field Tf2 : fth.
Implicit Types (A B Q : view) (s : state).
Lemma rotgR_good (safmin safmax : R) : (0 < safmin)%R -> (0 < safmax)%R -> (forall x : T, conj x = x) -> rotg_good (rotgR (ofR safmin) (ofR safmax)).
Proof.
  intros H1 H2 Hr a b r c s. unfold rotgR. assert (EX : forall x : T, exists y, x = ofR y) by (intros x; exists (toR x); symmetry; apply ofR_toR; auto).
  destruct (EX a) as (a' & ->), (EX b) as (b' & ->). destruct (rotg_real_run safmin safmax a' b' H1 H2) as (r' & z & c' & s' & -> & K1 & K2 & K3 & _).
  intros e. injection e as <- <- <-. rewrite !Hr. rewrite <- !ofR_mul, <- !ofR_add, <- ofR_sub, K1, K2, ofR_1. repeat split; auto. replace (c' * b' - s' * a')%R with 0%R by lra. apply ofR_0.
Qed.
Lemma rotgC_good (safmin safmax rtmin rtmax : R) : (0 < safmin)%R -> (0 < safmax)%R -> rotg_good (rotgC (ofR safmin) (ofR safmax) (ofR rtmin) (ofR rtmax)).
Proof.
  intros H1 H2 a b r c s. unfold rotgC. destruct (rotg_cplx_run safmin safmax rtmin rtmax a b H1 H2) as (r' & c' & s' & -> & (K0 & K1 & K2 & K3) & _).
  intros e. injection e as <- <- <-. split; [apply ofR_real|]. split; [|split; [auto|rewrite <- K3; ring]].
  rewrite <- ofR_1, <- K1, ofR_add, ofR_mul. f_equal. apply modulus_ofR_sq.
Qed.
(** In exact arithmetic, for every n, ilo < ihi <= n and A as hess_input describes: gghrd reduces the pair (A, B) to
    Hessenberg-triangular form, accumulates the transformations in Q and Z if asked to, leaves them alone otherwise, and
    changes nothing else.  Real element types (first theorem) and complex ones (second) use different versions of rotg *)
Theorem gghrd_real_correct safmin safmax wantq wantz ilo ihi A B Q (Z : view) s n : (0 < safmin)%R -> (0 < safmax)%R -> (forall x : T, conj x = x) ->
  quad n A B Q Z -> (ilo < ihi <= n)%nat -> hess_input n ilo ihi (val A s) ->
  returns (gghrd (rotgR (ofR safmin) (ofR safmax)) wantq wantz ilo ihi A B Q Z) s (fun z s' => z = 0%Z /\
    hesstri_reduction n ilo ihi wantq wantz (val A s) (val B s) (val Q s) (val Z s) (val A s') (val B s') (val Q s') (val Z s') /\
    only_changes (fun l => inview A l \/ inview B l \/ inview Q l \/ inview Z l) s s').
Proof. intros. apply gghrd_run; auto. apply rotgR_good; auto. Qed.
Theorem gghrd_cplx_correct safmin safmax rtmin rtmax wantq wantz ilo ihi A B Q (Z : view) s n : (0 < safmin)%R -> (0 < safmax)%R ->
  quad n A B Q Z -> (ilo < ihi <= n)%nat -> hess_input n ilo ihi (val A s) ->
  returns (gghrd (rotgC (ofR safmin) (ofR safmax) (ofR rtmin) (ofR rtmax)) wantq wantz ilo ihi A B Q Z) s (fun z s' => z = 0%Z /\
    hesstri_reduction n ilo ihi wantq wantz (val A s) (val B s) (val Q s) (val Z s) (val A s') (val B s') (val Q s') (val Z s') /\
    only_changes (fun l => inview A l \/ inview B l \/ inview Q l \/ inview Z l) s s').
Proof. intros. apply gghrd_run; auto. apply rotgC_good; auto. Qed.
(** in particular, with ilo = 0 and ihi = n, for every A: Q0 = Z0 = I gives unitary Q and Z with A0 = Q A Z^H,
    triu(B0) = Q B Z^H, A upper Hessenberg, B upper triangular *)
Theorem gghrd_full safmin safmax rtmin rtmax A B Q (Z : view) s n : (0 < safmin)%R -> (0 < safmax)%R -> quad n A B Q Z -> (0 < n)%nat ->
  (forall i j, (i < n)%nat -> (j < n)%nat -> val Q s i j = idm i j /\ val Z s i j = idm i j) ->
  returns (gghrd (rotgC (ofR safmin) (ofR safmax) (ofR rtmin) (ofR rtmax)) true true 0 n A B Q Z) s (fun z s' => z = 0%Z /\
    unitary n (val Q s') /\ unitary n (val Z s') /\
    forall i j, (i < n)%nat -> (j < n)%nat ->
      val A s i j = mmul n (mmul n (val Q s') (val A s')) (ctr (val Z s')) i j /\
      upper_part (val B s) i j = mmul n (mmul n (val Q s') (val B s')) (ctr (val Z s')) i j /\
      ((j + 1 < i)%nat -> val A s' i j = 0) /\ ((j < i)%nat -> val B s' i j = 0)).
Proof.
  intros H1 H2 Hq Hn HI. destruct (gghrd_cplx_correct safmin safmax rtmin rtmax true true 0 n A B Q Z s n) as (z & s' & K & -> & (U & V & UU & UV & I0 & I1 & I2 & I3 & J1 & J2 & J3) & _); auto.
  { intros i j Hi Hj [?|?]; lia. }
  assert (EQ : forall i j, (i < n)%nat -> (j < n)%nat -> U i j = val Q s' i j). { intros i j Hi Hj. rewrite I2 by auto. transitivity (mmul n idm U i j); [symmetry; apply mmul_id_l; auto|]. apply mmul_ext; auto. intros l Hl. symmetry. apply HI; auto. }
  assert (EZ : forall i j, (i < n)%nat -> (j < n)%nat -> V i j = val Z s' i j). { intros i j Hi Hj. rewrite I3 by auto. transitivity (mmul n idm V i j); [symmetry; apply mmul_id_l; auto|]. apply mmul_ext; auto. intros l Hl. symmetry. apply HI; auto. }
  exists 0%Z, s'. split; [exact K|]. split; auto. split; [apply (unitary_ext n U); auto|]. split; [apply (unitary_ext n V); auto|]. intros i j Hi Hj.
  assert (EX : forall M : mat, mmul n (mmul n U M) (ctr V) i j = mmul n (mmul n (val Q s') M) (ctr (val Z s')) i j).
  { intros M. apply mmul_ext; intros l Hl; [apply mmul_ext; auto|unfold ctr; rewrite EZ; auto]. }
  rewrite <- !EX. split; [auto|]. split; [auto|]. split; [intros; apply J2; auto; lia|intros; apply J1; auto].
Qed.
End G.

(** ** hessenberg_rq *)
Section Hrq.
Context {E : Env} {FL : FieldLaws E} {CL : ConjLaws E} {OL : ROrdLaws E} {QL : EqbLaws E} {XL : CplxLaws E} {RL : RLaws E} {NL : FinLaws E}.
Add Field Tf3 : fth.
Implicit Types (A cl sl cr sr : view) (s : state).
(** a matrix of order n and four vectors of length n-1 in separate memory, cl real *)
Definition hrq_args (n : nat) A cl sl cr sr s : Prop :=
  shape A n n /\ vinj A /\ isvec cl (n - 1) /\ isvec sl (n - 1) /\ isvec cr (n - 1) /\ isvec sr (n - 1) /\ vinj cr /\ vinj sr /\
  disj cl A /\ disj sl A /\ disj cr A /\ disj sr A /\ disj cl cr /\ disj cl sr /\ disj sl cr /\ disj sl sr /\ disj cr sr /\
  (forall j, (j < n - 1)%nat -> conj (vval cl s j) = vval cl s j) /\
  (forall q, (q + 1 < n)%nat -> val A s (q + 1) q = 0).
(** what hessenberg_rq has to achieve: with P and R the products of the left and of the right rotations, the new upper
    triangle is P triu(A0) R^H, the right rotations are rotations, below the diagonal nothing changes *)
Definition hrq_post (n : nat) A cl sl cr sr s s' : Prop :=
  (forall j, (j < n - 1)%nat -> conj (vval cr s' j) = vval cr s' j /\ vval cr s' j * vval cr s' j + vval sr s' j * conj (vval sr s' j) = 1) /\
  (forall i j, (i < n)%nat -> (j < n)%nat -> upper_part (val A s') i j =
     mmul n (mmul n (pasc n (vval cl s) (vval sl s) (n - 1)) (upper_part (val A s))) (ctr (pasc n (vval cr s') (vval sr s') (n - 1))) i j) /\
  (forall i j, (i < n)%nat -> (j < i)%nat -> val A s' i j = val A s i j) /\
  only_changes (fun l => inview A l \/ inview cr l \/ inview sr l) s s'.
Lemma hrq_run rotg n A cl sl cr sr s : rotg_good rotg -> (0 < n)%nat -> hrq_args n A cl sl cr sr s ->
  returns (hessenberg_rq rotg A cl sl cr sr) s (fun _ s' => hrq_post n A cl sl cr sr s s').
Proof.
  intros Hg Hn ([RA CA] & IA & [N1 L1] & [N2 L2] & [N3 L3] & [N4 L4] & Ic & Is & D1 & D2 & D3 & D4 & D5 & D6 & D7 & D8 & D9 & Hc & Hz). apply runs_inv. unfold runs.
  destruct (Nat.eq_dec n 1) as [e|N].
  { unfold hessenberg_rq. rewrite CA, e. cbn [Nat.eqb Nat.sub Nat.ltb Nat.leb]. apply wp_ret. split; [intros; lia|]. split; [|split; [intros; lia|split; auto]].
    intros i j Hi Hj. rewrite e in *. assert (i = 0)%nat as -> by lia. assert (j = 0)%nat as -> by lia. unfold pasc, pseq. cbn [seq fold_right Nat.sub]. unfold mmul, ctr, idm. cbn [sum Nat.eqb]. rewrite conj_1. ring. }
  eapply wp_conseq; [apply (hessenberg_rq_run rotg Hg n A cl sl cr sr s IA RA CA ltac:(lia) L1 L2 L3 L4 N1 N2 N3 N4 Ic Is D1 D2 D3 D4 D5 D6 D7 D8 D9 Hc (val A s)); auto| |intros ? ? []].
  intros [] s' (M & cf & sf & HR & HM & _ & HZ & (V1 & V2 & V3 & V4 & V5)). unfold hrq_post. split; [|split; [|split]].
  - intros j Hj. rewrite V2, V3 by auto. apply HR. lia.
  - intros i j Hi Hj. rewrite Nat.sub_0_r in HM. transitivity (M i j).
    + unfold upper_part. destruct (Nat.ltb_spec j i) as [L|L]; [symmetry; apply HZ; lia|]. rewrite V1 by auto. cbn [Nat.leb]. destruct (Nat.leb_spec i j); [auto|lia].
    + rewrite HM by auto. apply mmul_ext; auto. intros l Hl. unfold ctr. f_equal. apply pseq_ext. intros a Ha. apply in_seq in Ha. rewrite V2, V3 by lia. auto.
  - intros i j Hi Hj. rewrite V1 by lia. cbn [Nat.leb andb]. destruct (Nat.leb_spec i j); [lia|auto].
  - split; auto. intros l Hl. apply V4; tauto.
Qed.
(** In exact arithmetic, for every n > 0, whatever is stored below the subdiagonal of A *)
Theorem hessenberg_rq_real_correct safmin safmax n A cl sl cr sr s : (0 < safmin)%R -> (0 < safmax)%R -> (forall x : T, conj x = x) ->
  (0 < n)%nat -> hrq_args n A cl sl cr sr s ->
  returns (hessenberg_rq (rotgR (ofR safmin) (ofR safmax)) A cl sl cr sr) s (fun _ s' => hrq_post n A cl sl cr sr s s').
Proof. intros. apply hrq_run; auto. apply rotgR_good; auto. Qed.
Theorem hessenberg_rq_cplx_correct safmin safmax rtmin rtmax n A cl sl cr sr s : (0 < safmin)%R -> (0 < safmax)%R ->
  (0 < n)%nat -> hrq_args n A cl sl cr sr s ->
  returns (hessenberg_rq (rotgC (ofR safmin) (ofR safmax) (ofR rtmin) (ofR rtmax)) A cl sl cr sr) s (fun _ s' => hrq_post n A cl sl cr sr s s').
Proof. intros. apply hrq_run; auto. apply rotgC_good; auto. Qed.
(** an empty matrix is not a quick return: n-1 wraps around *)
Theorem hessenberg_rq_empty_refuted rotg A cl sl cr sr s : nc A = 0%nat -> hessenberg_rq rotg A cl sl cr sr s = UB.
Proof. intros H. unfold hessenberg_rq. rewrite H. reflexivity. Qed.
End Hrq.

(** ** The hypotheses are met *)
Definition ex_A : view := lview (mklmat 3 3 0 3 ColMajor).
Definition ex_B : view := lview (mklmat 3 3 10 3 ColMajor).
Definition ex_Q : view := lview (mklmat 3 3 20 3 RowMajor).
Definition ex_Z : view := lview (mklmat 3 3 30 3 ColMajor).
#[local] Hint Unfold ex_A ex_B ex_Q ex_Z : exv.
Lemma ex_quad : quad 3 ex_A ex_B ex_Q ex_Z.
Proof. do 4 (split; [split; auto|]). do 9 (split; [exv|]). exv. Qed.
Example gghrd_example (s : @state CE) : returns (gghrd (E:=CE) (rotgC (E:=CE) (@ofR CE _ (1 / 1024)%R) (@ofR CE _ 1024%R) (@ofR CE _ (1 / 32)%R) (@ofR CE _ 32%R)) true false 0 3 ex_A ex_B ex_Q ex_Z) s (fun z s' => z = 0%Z /\
    hesstri_reduction (E:=CE) 3 0 3 true false (val ex_A s) (val ex_B s) (val ex_Q s) (val ex_Z s) (val ex_A s') (val ex_B s') (val ex_Q s') (val ex_Z s') /\
    only_changes (fun l => inview ex_A l \/ inview ex_B l \/ inview ex_Q l \/ inview ex_Z l) s s').
Proof. apply (gghrd_cplx_correct (E:=CE) (1 / 1024) 1024 (1 / 32) 32); [lra|lra|exact ex_quad|lia|intros i j Hi Hj [?|?]; lia]. Qed.
Example gghrd_real_example (s : @state RE) : returns (gghrd (E:=RE) (rotgR (E:=RE) (1 / 1024)%R 1024%R) false true 0 2 ex_A ex_B ex_Q ex_Z) (mkst RE (fun l => if (l =? 2)%Z || (l =? 5)%Z then 0%R else IZR l) (fun _ => 0%Z)) (fun z s' => z = 0%Z).
Proof.
  destruct (gghrd_real_correct (E:=RE) (1 / 1024) 1024 false true 0 2 ex_A ex_B ex_Q ex_Z (mkst RE (fun l => if (l =? 2)%Z || (l =? 5)%Z then 0%R else IZR l) (fun _ => 0%Z)) 3) as (z & s' & K & -> & _).
  - lra. - lra. - reflexivity. - exact ex_quad. - lia.
  - intros i j Hi Hj [[? ?]|[? ?]]; [|lia]. assert (i = 2)%nat as -> by lia. assert (j = 1)%nat as -> by lia. reflexivity.
  - exists 0%Z, s'. split; [exact K|reflexivity].
Qed.
Definition ex_H : view := lview (mklmat 2 2 0 2 ColMajor).
Definition ex_v (p : BinNums.Z) : view := lview (mklmat 1 1 p 1 ColMajor).
#[local] Hint Unfold ex_H ex_v : exv.
(** the identity of order 2, rotation (3/5, 4/5) *)
Definition ex_hs : @state RE := mkst RE (fun l => if (l =? 0)%Z || (l =? 3)%Z then 1%R else if (l =? 10)%Z then (3 / 5)%R else if (l =? 11)%Z then (4 / 5)%R else 0%R) (fun _ => 0%Z).
Lemma ex_hrq : hrq_args (E:=RE) 2 ex_H (ex_v 10) (ex_v 11) (ex_v 12) (ex_v 13) ex_hs.
Proof.
  split; [split; auto|]. split; [exv|]. do 4 (split; [split; auto|]). do 11 (split; [exv|]). split; [auto|]. intros q Hq. assert (q = 0)%nat as -> by lia. reflexivity.
Qed.
(** the equation in the documentation, P triu(A0) = triu(A) R^H, does not hold (with R instead of R^H it would) *)
Theorem hessenberg_rq_documented_equation_refuted : exists s', hessenberg_rq (E:=RE) (rotgR (E:=RE) (1 / 1024)%R 1024%R) ex_H (ex_v 10) (ex_v 11) (ex_v 12) (ex_v 13) ex_hs = Ok tt s' /\
  ~ (forall i j, (i < 2)%nat -> (j < 2)%nat -> mmul (E:=RE) 2 (pasc 2 (vval (ex_v 10) ex_hs) (vval (ex_v 11) ex_hs) 1) (upper_part (val ex_H ex_hs)) i j =
       mmul (E:=RE) 2 (upper_part (val ex_H s')) (ctr (pasc 2 (vval (ex_v 12) s') (vval (ex_v 13) s') 1)) i j).
Proof.
  destruct (hessenberg_rq_real_correct (E:=RE) (1 / 1024) 1024 2 ex_H (ex_v 10) (ex_v 11) (ex_v 12) (ex_v 13) ex_hs) as ([] & s' & K & (_ & HU & _)); [lra|lra|reflexivity|lia|exact ex_hrq|].
  exists s'. split; [exact K|]. intros HD. clear K. assert (D := HD 0%nat 1%nat ltac:(lia) ltac:(lia)). assert (U00 := HU 0%nat 0%nat ltac:(lia) ltac:(lia)). assert (U01 := HU 0%nat 1%nat ltac:(lia) ltac:(lia)). assert (U10 := HU 1%nat 0%nat ltac:(lia) ltac:(lia)). clear HD HU.
  set (cr := vval (E:=RE) (ex_v 12) s') in *. set (sr := vval (E:=RE) (ex_v 13) s') in *. set (V := val (E:=RE) ex_H s') in *. clearbody cr sr V.
  assert (Hcl : vval (E:=RE) (ex_v 10) ex_hs 0 = (3 / 5)%R) by reflexivity. assert (Hsl : vval (E:=RE) (ex_v 11) ex_hs 0 = (4 / 5)%R) by reflexivity.
  set (cl := vval (E:=RE) (ex_v 10) ex_hs) in *. set (sl := vval (E:=RE) (ex_v 11) ex_hs) in *.
  assert (HA : forall i j, (i < 2)%nat -> (j < 2)%nat -> upper_part (E:=RE) (val ex_H ex_hs) i j = idm (E:=RE) i j). { intros [|[|i]] [|[|j]] Hi Hj; try lia; reflexivity. }
  set (A := upper_part (E:=RE) (val ex_H ex_hs)) in *.
  unfold mmul, pasc, pseq in *. cbn [sum fold_right seq Nat.sub] in *. rewrite !HA in * by lia. clearbody cl sl A.
  unfold upper_part, ctr, mmul, prot, idm in *. cbn [sum Nat.eqb Nat.add Nat.ltb Nat.leb] in *. cbn in *. rewrite ?Hcl, ?Hsl in *.
  nra.
Qed.
