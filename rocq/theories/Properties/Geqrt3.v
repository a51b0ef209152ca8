(** * C56: the recursive QR factorization geqrt3 *)
From Coq Require Import Bool Arith ZArith Lia Reals Lra Ring Field.
From Verif.Core Require Import Scalar Prog View Slice Loops WorkEff Instances RealLaws.
From Verif.Spec Require Import LinAlg Outcome Norms Householder.
From Verif.Model Require Import Gemm Blas1 Blas2 Blas3 Legacy LaAux Norms Work Householder QGen QFact BlockQ Geqrt3.
From Verif.Proof Require Import SumLemmas SliceTac PotrfProof BlockAlg LarfProof LarfgProof QRProof WorkProof QGenProof QFactProof LarfbProof Geqrt3Proof Geqrt3Run.
From Verif.Properties Require Import ExTac Work QFact BlockQ.
From Verif.Properties Require Householder.
Local Open Scope T_scope.

(** the workspace geqrf takes on blocks of at most nx columns: min(32, k) times k elements, k = min(nx, n) *)
Definition geqrt3_size (nx n : nat) : nat := (Nat.min 32 (Nat.min nx n) * Nat.min nx n)%nat.

Section R.
Context {E : Env} {FL : FieldLaws E} {CL : ConjLaws E} {OL : ROrdLaws E} {QL : EqbLaws E} {XL : CplxLaws E} {RL : RLaws E} {NL : FinLaws E}.

(** what a call on an m-by-n A and an n-by-n T does: A = Q R in place, with the scalar factors on the diagonal of T;
    unless isw, T is moreover the factor of Q = I - V T V^H. Nothing below the diagonal of T changes *)
Definition geqrt3_result (isw : bool) (m n : nat) (A Tm : view) (W : Z -> Prop) (s : state) (_ : unit) (s' : state) : Prop :=
  let tau := fun i => val Tm s' i i in
  factorization Forward Columnwise m n (val A s) (val A s') tau /\
  (isw = false -> forall i j, (i < m)%nat -> (j < m)%nat ->
    qof Forward Columnwise m (val A s') tau n i j = blkrefl n (trim Upper NonUnit (val Tm s')) (rvec Forward Columnwise m n (val A s')) i j) /\
  (forall i j, (j < i < n)%nat -> val Tm s' i j = val Tm s i j) /\
  only_changes (fun l => inview A l \/ inview Tm l \/ W l) s s'.

Theorem geqrt3_correct (p : Z) (l : layout_t) (h : hconst) (st bt hsm : R) (nx m n : nat) (isw : bool) (A Tm : view) (s : state) :
  hconst_ok h st bt hsm -> shape A m n -> shape Tm n n -> (n <= m)%nat -> vinj A -> vinj Tm -> disj A Tm ->
  fresh p (geqrt3_size nx n) A -> fresh p (geqrt3_size nx n) Tm ->
  (forall j, (j < n)%nat -> (vsq m (fun i => val A s i j) <= bt * bt)%R) ->
  returns (geqrt3 p l h nx isw A Tm) s (geqrt3_result isw m n A Tm (block p (geqrt3_size nx n)) s).
Proof.
  intros Hh [Hm Hn] [HT1 HT2] Hmn HI HIT HD F1 F2 Hv. apply runs_inv. unfold runs, geqrt3.
  assert (NB : forall B, fresh p (geqrt3_size nx n) B -> forall a, block p (geqrt3_size nx n) a -> ~ inview B a).
  { intros B FB a Ha K. destruct (FB a K); unfold block in Ha; lia. }
  eapply wp_conseq; [apply (geqrt3_run p l h st bt hsm nx Hh (S (nc A)) isw A Tm (block p (geqrt3_size nx n)) s); auto; try lia| |auto].
  - intros m' n' a Hn' [Ha Hb]. rewrite Hn in Hn'. split; [exact Ha|]. assert (B1 := bsize_le m' n'). 
    assert (B2 : (Nat.min 32 n' * n' <= geqrt3_size nx n)%nat) by (unfold geqrt3_size; apply Nat.mul_le_mono; lia). lia.
  - rewrite Hm, Hn. exact Hv.
  - intros u0 s' G. cbv beta in G. unfold gq in G. rewrite Hm, Hn in G. cbv zeta in G. destruct G as (GU & GF & GD & GT & GL & GC & GI).
    unfold geqrt3_result, factorization. cbv zeta. rewrite (Nat.min_r m n) by auto. split; [|split; [|split; [exact GL|split; [|exact GI]]]].
    + split; [exact GU|]. split; [exact GF|]. intros i Hi. unfold trap. rewrite Nat.leb_refl. apply GD; auto.
    + intros Hw i j Hi Hj. exact (GT Hw i j Hi Hj).
    + intros a Ha. apply GC; tauto.
Qed.
(** A with more columns than rows: a message on the standard output (not modelled), and nothing else *)
Theorem geqrt3_wide (p : Z) (l : layout_t) (h : hconst) (nx m n : nat) (isw : bool) (A Tm : view) (s : state) :
  shape A m n -> (m < n)%nat -> geqrt3 p l h nx isw A Tm s = Ok tt s.
Proof. intros [Hm Hn] Hlt. unfold geqrt3. cbn [geqrt3_f]. rewrite Hm, Hn. cbv zeta. destruct (Nat.ltb_spec m n); [|lia]. reflexivity. Qed.
End R.

(** ** What the code does not do *)
Local Ltac slcub := apply slc_ub; repeat match goal with |- context[(?a <=? ?b)%nat] => destruct (Nat.leb_spec a b) end; cbn [andb]; auto; lia.
(** the shape of T is not checked: a T with fewer than n rows or columns is sliced out of range *)
Theorem geqrt3_small_T_refuted {E : Env} (p : Z) (l : layout_t) (h : hconst) (nx m n : nat) (isw : bool) (A Tm : view) (s : state) :
  shape A m n -> (n <= m)%nat -> (nx < n)%nat -> (2 <= n)%nat -> (nr Tm < n \/ nc Tm < n)%nat -> geqrt3 p l h nx isw A Tm s = UB.
Proof.
  intros [Hm Hn] Hmn Hx H2 HT. unfold geqrt3. cbn [geqrt3_f]. rewrite Hm, Hn. cbv zeta.
  destruct (Nat.ltb_spec m n); [lia|]. destruct (Nat.eqb_spec n 1); [lia|]. destruct (Nat.leb_spec n nx); [lia|].
  assert (Hn1 : (1 <= n / 2 /\ n / 2 < n)%nat) by (split; [apply Nat.div_le_lower_bound; lia|apply Nat.div_lt; lia]).
  set (n1 := (n / 2)%nat) in *. do 8 (apply ub_bind, wp_slc; [lia..|]).
  destruct (Nat.le_gt_cases n1 (nr Tm)), (Nat.le_gt_cases n1 (nc Tm)); try (slcub).
  apply ub_bind, wp_slc; [lia..|]. destruct (Nat.le_gt_cases n (nc Tm)); [|slcub]. apply ub_bind, wp_slc; [lia..|]. slcub.
Qed.

(** ** Concrete cases: the 3-by-2 matrix with elements 0, ..., 5 *)
Definition exR3 : view := lview (mklmat 3 2 0 3 ColMajor).
Definition exR3t : view := lview (mklmat 2 2 10 2 ColMajor).
Definition exR3_s : @state RE := mkst RE (fun l => IZR l) (fun _ => 0%Z).
#[local] Hint Unfold exR3 exR3t : exv.
Example geqrt3_example isw nx : (nx <= 2)%nat -> returns (geqrt3 (E:=RE) 100 ColMajor (Householder.ex_h RE) nx isw exR3 exR3t) exR3_s (geqrt3_result (E:=RE) isw 3 2 exR3 exR3t (block 100 (geqrt3_size nx 2)) exR3_s).
Proof.
  intros Hx. apply (geqrt3_correct (E:=RE) 100 ColMajor (Householder.ex_h RE) (1/8) 1000 (1/1000)); [apply (Householder.ex_h_ok RE)|split; reflexivity|split; reflexivity|lia|exv|exv|exv| | |].
  - intros a (i & j & Hi & Hj & e). left. cbn in *. lia.
  - intros a (i & j & Hi & Hj & ->). left. cbn in Hi, Hj. destruct i as [|[|i]]; [| |lia]; (destruct j as [|[|j]]; [| |lia]); cbn; lia.
  - intros j Hj. assert (B : forall x : R, (0 <= x <= 5)%R -> (Rabs x * Rabs x <= 25)%R) by (intros x Hx0; rewrite Rabs_right by lra; nra).
    pose proof (B 0%R ltac:(lra)). pose proof (B 1%R ltac:(lra)). pose proof (B 2%R ltac:(lra)). pose proof (B 3%R ltac:(lra)). pose proof (B 4%R ltac:(lra)). pose proof (B 5%R ltac:(lra)).
    destruct j as [|[|j]]; [| |lia]; unfold vsq; cbn [rsum]; unfold modulus; cbn; lra.
Qed.
Example geqrt3_small_T_example : geqrt3 (E:=RE) 100 ColMajor (Householder.ex_h RE) 1 false exR3 (lview (mklmat 1 2 10 1 ColMajor)) exR3_s = UB.
Proof. apply (geqrt3_small_T_refuted (E:=RE) 100 ColMajor (Householder.ex_h RE) 1 3 2); [split; reflexivity|lia|lia|lia|left; cbn; lia]. Qed.
