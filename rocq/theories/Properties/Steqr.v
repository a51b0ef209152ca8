(** * Properties of the symmetric tridiagonal eigenvalue solver and its 2-by-2 kernels *)
From Coq Require Import PrimFloat Bool Arith ZArith Lia Reals Lra.
From Verif.Core Require Import Scalar Instances Quiet Inv0 Prog View RealLaws FloatOrd.
From Verif.Model Require Import Legacy Rot Sort Steqr.
From Verif.Spec Require Import Outcome LinAlg Norms Householder Sort Reduce Steqr.
From Verif.Proof Require Import Tactics SteqrMath Ev2Proof SteqrProof SteqrSort SteqrSafe.
From Verif.Properties Require Import ExTac.
Local Open Scope T_scope.

Section S.
Context {E : Env} {FL : FieldLaws E} {CL : ConjLaws E} {OL : ROrdLaws E} {QL : EqbLaws E} {XL : CplxLaws E} {RL : RLaws E} {NL : FinLaws E} {IL : Inv0Laws E}.
Add Field Tf : fth.
(** ** Kernels *)
(** lapy2 is sqrt(x^2 + y^2) *)
Theorem lapy2_correct (x y : R) : lapy2 (ofR x) (ofR y) = ofR (sqrt (x * x + y * y)).
Proof. apply lapy2_run. Qed.
(** lartg returns a rotation that maps (a, b) to (r, 0) *)
Theorem lartg_correct (safmin safmax a b : R) : (0 < safmin)%R -> (0 < safmax)%R ->
  exists c s r : R, lartg (ofR safmin) (ofR safmax) (ofR a) (ofR b) = (ofR c, ofR s, ofR r) /\
    (c * c + s * s = 1)%R /\ (c * a + s * b = r)%R /\ (- s * a + c * b = 0)%R.
Proof.
  intros H1 H2. destruct (lartg_run safmin safmax a b H1 H2) as (c & s & r & K & K1 & K2 & K3). exists c, s, r. repeat split; auto. lra.
Qed.
(** laev2 on the matrix [[a, b], [b, c]]: (cs, sn) is a unit eigenvector for s1, (-sn, cs) one for s2, s1 is the
    eigenvalue of larger modulus; lae2 returns the same eigenvalues *)
Theorem laev2_correct (a b c : R) : exists s1 s2 cs sn : R,
  laev2 (ofR a) (ofR b) (ofR c) = (ofR s1, ofR s2, ofR cs, ofR sn) /\ lae2 (ofR a) (ofR b) (ofR c) = (ofR s1, ofR s2) /\
  (cs * cs + sn * sn = 1)%R /\
  (a * cs + b * sn = s1 * cs)%R /\ (b * cs + c * sn = s1 * sn)%R /\
  (a * - sn + b * cs = s2 * - sn)%R /\ (b * - sn + c * cs = s2 * cs)%R /\ (Rabs s2 <= Rabs s1)%R.
Proof.
  destruct (ev2_run a b c) as (s1 & s2 & cs & sn & K1 & K2 & K3 & K4 & K5 & K6 & K7). exists s1, s2, cs, sn.
  split; auto. split; auto. split; auto. split; auto. split; auto.
  assert (D : (a * c - b * b = s1 * s2)%R).
  { assert (E1 : ((a - s1) * (c - s1) = b * b)%R).
    { assert (X1 : ((a - s1) * cs = - b * sn)%R) by lra. assert (X2 : ((c - s1) * sn = - b * cs)%R) by lra.
      transitivity ((a - s1) * (c - s1) * (cs * cs + sn * sn))%R; [rewrite K3; ring|].
      transitivity ((c - s1) * cs * ((a - s1) * cs) + (a - s1) * sn * ((c - s1) * sn))%R; [ring|]. rewrite X1, X2.
      transitivity (- b * (cs * ((c - s1) * sn) + sn * ((a - s1) * cs)))%R; [ring|]. rewrite X1, X2.
      transitivity (b * b * (cs * cs + sn * sn))%R; [ring|]. rewrite K3. ring. }
    replace s2 with (a + c - s1)%R by lra. lra. }
  assert (Y1 : (a - s2 = c * -1 + s1)%R) by lra. assert (Y2 : (c - s2 = - a + s1)%R) by lra.
  split; [|split; auto].
  - assert (X : (b * cs = (a - s2) * sn)%R) by (rewrite Y1; lra). lra.
  - assert (X : (b * sn = (c - s2) * cs)%R) by (rewrite Y2; lra). lra.
Qed.

(** ** steqr *)
(** d and e hold a real symmetric tridiagonal matrix T.  The routine returns 0; at the end the diagonal holds real
    numbers in increasing order, Z has been multiplied from the right by a unitary matrix W, nothing else has
    changed, and when the off-diagonal has become zero (the iteration has converged),
    T = W diag(d) W^H up to (n-1) sqrt(eps^2 ||T||_F^2 + 2 safmin).
    Missing for the full property: that the off-diagonal always becomes zero within the 30 n iterations, and the
    effect of rounding. *)
Theorem steqr_correct_partial fuel want_z d e Z s n (eps safmin safmax : R) :
  (0 <= eps)%R -> (0 < safmin)%R -> (0 < safmax)%R -> (2 * n <= fuel)%nat ->
  isvec d n -> isvec e (n - 1) -> (want_z = true -> nc Z = n) ->
  vinj d -> vinj e -> disj d e -> (want_z = true -> vinj Z /\ disj Z d /\ disj Z e) ->
  (forall i, (i < n)%nat -> conj (vval d s i) = vval d s i) -> (forall i, (i < n - 1)%nat -> conj (vval e s i) = vval e s i) ->
  returns (steqr fuel (ofR eps) (ofR safmin) (ofR safmax) want_z d e Z) s (fun info s' => info = 0%Z /\
    only_changes (fun l => inview d l \/ inview e l \/ want_z = true /\ inview Z l) s s' /\
    (forall i, (i < n)%nat -> conj (vval d s' i) = vval d s' i) /\ increasing n (vval d s') /\
    exists W, unitary n W /\
      (want_z = true -> forall r q, (r < nr Z)%nat -> (q < n)%nat -> val Z s' r q = mmul n (val Z s) W r q) /\
      ((forall i, (i < n - 1)%nat -> vval e s' i = 0) ->
       let T0 := symtri (vval d s) (vval e s) in
       (fro n n (fun i j => (T0 i j - mmul n (mmul n W (diagm (vval d s'))) (ctr W) i j)%T)
          <= INR (n - 1) * sqrt (eps * eps * fro2 n n T0 + 2 * safmin))%R)).
Proof.
  intros H1 H2 H3 Hf [Hd Hd1] [He He1] HZn Id Ie Dde HZ RD RE. subst n.
  apply runs_inv. eapply (wp_conseq _ _ _ _ noX noX); [| |auto].
  - apply (steqr_run fuel want_z d e Z s eps safmin safmax); auto; try lia.
    intros i Hi. apply RE. lia.
  - cbv beta. intros info s' (-> & dv & ev & W & (S1 & S2 & S3 & S4 & S5) & R1 & R2 & R3 & R4). split; auto.
    split. { split; auto. intros l Hl. apply S4; intros ?; try intros ?; apply Hl; auto. }
    split. { intros i Hi. rewrite S1 by auto. auto. }
    split. { intros i j Hij. rewrite !S1 by lia. apply R2; auto. }
    exists W. split; auto. split; auto. intros EZ. cbv zeta.
    erewrite fro_ext; [apply R4|].
    + intros i Hi. rewrite <- S2 by auto. apply EZ. lia.
    + intros i j Hi Hj. cbv beta. f_equal. apply wmw_ext; auto. intros r q Hr Hq. unfold diagm. destruct (r =? q)%nat; auto.
Qed.
End S.

(** In every arithmetic — with rounding, overflow, NaNs — steqr returns 0 and changes only d, e and, when asked to, Z.
    In particular a matrix for which the iteration has not converged is not reported. *)
Theorem steqr_always_returns_0 {E : Env} fuel want_z d e Z s n (eps safmin safmax : T) :
  (2 * n <= fuel)%nat -> isvec d n -> isvec e (n - 1) -> (want_z = true -> nc Z = n) ->
  (want_z = false -> vinj d /\ forall a b, ltb a b = true -> ltb b a = false) ->
  returns (steqr fuel eps safmin safmax want_z d e Z) s (fun info s' => info = 0%Z /\
    only_changes (fun l => inview d l \/ inview e l \/ want_z = true /\ inview Z l) s s').
Proof.
  intros Hf [Hd Hd1] [He He1] HZ HS. subst n. apply runs_inv. apply steqr_fr; auto. lia.
Qed.

(** ** A failure *)
(** binary64: on the 3-by-3 second-difference matrix (2 on the diagonal, -1 beside it) every eigenvalue returned is
    NaN, and 0 is returned.  The shift divides by g + sgn(g) r with g = (d(i+1) - d(i)) / (2 e(i)) = 0. *)
Definition ex_d : view := vview (mklvec 3 0 1 Forward).
Definition ex_e : view := vview (mklvec 2 10 1 Forward).
Definition ex_Z : view := lview (mklmat 3 3 20 3 ColMajor).
#[local] Hint Unfold ex_d ex_e ex_Z : exv.
Definition ex_lap : @state FE := mkst FE (fun l => (if (l <? 3)%Z then 2 else if (l <? 12)%Z then -1 else if (l =? 20)%Z || (l =? 24)%Z || (l =? 28)%Z then 1 else 0)%float) (fun _ => 0%Z).
Theorem steqr_second_difference_nan_refuted : forall want_z,
  returns (steqr (E:=FE) 6 0x1p-52%float 0x1p-1022%float 0x1p1022%float want_z ex_d ex_e ex_Z) ex_lap (fun info s' =>
    info = 0%Z /\ forall i, (i < 3)%nat -> is_nan (vval ex_d s' i) = true).
Proof.
  intros []; (eexists; eexists; split; [vm_compute; reflexivity|]; split; [reflexivity|]; intros i Hi; do 3 (destruct i as [|i]; [vm_compute; reflexivity|]); lia).
Qed.

(** ** The hypotheses are met *)
Definition ex_tri : @state RE := mkst RE (fun l => if (l <? 3)%Z then (2 + IZR l)%R else if (l <? 12)%Z then (-1)%R else if (l =? 20)%Z || (l =? 24)%Z || (l =? 28)%Z then 1%R else 0%R) (fun _ => 0%Z).
Example steqr_example : returns (steqr (E:=RE) 6 (1 / 2 ^ 52)%R (1 / 2 ^ 1000)%R (2 ^ 1000)%R true ex_d ex_e ex_Z) ex_tri (fun info s' => info = 0%Z /\
  increasing (E:=RE) 3 (vval ex_d s')).
Proof.
  destruct (steqr_correct_partial (E:=RE) 6 true ex_d ex_e ex_Z ex_tri 3 (1 / 2 ^ 52) (1 / 2 ^ 1000) (2 ^ 1000)) as (i & s' & K & K1 & _ & _ & K2 & _).
  - apply Rlt_le, Rdiv_lt_0_compat; [lra|apply pow_lt; lra].
  - apply Rdiv_lt_0_compat; [lra|apply pow_lt; lra].
  - apply pow_lt; lra.
  - lia.
  - split; auto.
  - split; auto.
  - auto.
  - exv.
  - exv.
  - exv.
  - intros _. split; [exv|]. split; exv.
  - intros; reflexivity.
  - intros; reflexivity.
  - exists i, s'. split; auto.
Qed.
Example steqr_float_example (s : @state FE) : returns (steqr (E:=FE) 6 0x1p-52%float 0x1p-1022%float 0x1p1022%float false ex_d ex_e ex_Z) s (fun info s' => info = 0%Z).
Proof.
  destruct (steqr_always_returns_0 (E:=FE) 6 false ex_d ex_e ex_Z s 3 0x1p-52%float 0x1p-1022%float 0x1p1022%float) as (i & s' & K & K1 & _);
    [lia|split; auto|split; auto|discriminate| |exists i, s'; auto].
  intros _. split; [exv|]. intros a b H. apply fltb_asym; auto.
Qed.
Example laev2_example : exists s1 s2 cs sn : R, laev2 (E:=RE) 2%R 1%R 2%R = (s1, s2, cs, sn) /\ (cs * cs + sn * sn = 1)%R /\ (2 * cs + 1 * sn = s1 * cs)%R.
Proof. destruct (laev2_correct (E:=RE) 2 1 2) as (s1 & s2 & cs & sn & K & _ & K1 & K2 & _). exists s1, s2, cs, sn. auto. Qed.
