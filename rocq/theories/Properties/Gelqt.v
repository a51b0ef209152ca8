(** * C57: gelqt, the blocked LQ factorization that keeps the factors of its block reflectors *)
From Coq Require Import Bool Arith ZArith Lia Reals Lra Ring Field.
From Verif.Core Require Import Scalar Prog View Slice Loops WorkEff Instances RealLaws.
From Verif.Spec Require Import LinAlg Outcome Norms Householder.
From Verif.Model Require Import Gemm Blas1 Blas2 Blas3 Legacy LaAux Norms Work Householder QGen QFact BlockQ Gelqt.
From Verif.Proof Require Import SumLemmas SliceTac PotrfProof LegacyProof BlockAlg LarfProof LarfgProof QRProof WorkProof QGenProof QFactProof LarftProof LarfbProof BlockProof BlockFact GelqtProof.
From Verif.Properties Require Import ExTac Work QFact BlockQ.
From Verif.Properties Require Householder.
Local Open Scope T_scope.

Section R.
Context {E : Env} {FL : FieldLaws E} {CL : ConjLaws E} {OL : ROrdLaws E} {QL : EqbLaws E} {XL : CplxLaws E} {RL : RLaws E} {NL : FinLaws E}.

(** what a call on an m-by-n A, m <= n, and a TT with nb columns does: A = L Q in place, reflector i having the scalar
    factor TT(i, i mod nb); for each block j, j+1, ..., j+ib-1 of reflectors (j a multiple of nb, ib <= nb), the upper
    triangle of the ib-by-ib block of TT that starts in row j is the factor of the product of these reflectors *)
Definition gelqt_result (m n nb : nat) (A TT : view) (W : Z -> Prop) (s : state) (r : Z) (s' : state) : Prop :=
  let tau := fun i => val TT s' i (i mod nb) in
  r = 0%Z /\ factorization Forward Rowwise m n (val A s) (val A s') tau /\
  (forall q, (q * nb < m)%nat -> let j := (q * nb)%nat in let ib := Nat.min nb (m - j) in
     let V := rvec Forward Rowwise (n - j) ib (fun a b => val A s' (j + a)%nat (j + b)%nat) in
     forall a b, (a < n - j)%nat -> (b < n - j)%nat ->
       hprod Forward (n - j) (fun i => refl (tau (j + i)%nat) (V i)) ib a b = blkrefl ib (trim Upper NonUnit (fun i l => val TT s' (j + i)%nat l)) V a b) /\
  only_changes (fun l => inview A l \/ inview TT l \/ W l) s s'.

Theorem gelqt_work_correct_partial (h : hconst) (st bt hsm : R) (m n : nat) (A : view) (TT work : lmat) (s : state) :
  hconst_ok h st bt hsm -> shape A m n -> (m <= n)%nat -> (m <= lm TT)%nat -> (0 < ln TT)%nat -> lok TT -> vinj A -> vinj (lview TT) ->
  disj A (lview TT) -> disj (lview work) A -> disj (lview work) (lview TT) -> lok work -> contiguous work = true -> (Nat.min (ln TT) m - 1 <= lm work * ln work)%nat ->
  (forall i, (i < m)%nat -> (vsq n (fun j => val A s i j) <= bt * bt)%R) ->
  returns (gelqt_work h A TT work) s (gelqt_result m n (ln TT) A (lview TT) (inview (lview work)) s).
Proof.
  intros Hh HS Hmn HmT Hnb LT HI HIT HD D1 D2 W1 W2 W3 Hv. apply runs_inv. destruct (ghost_ex TT work) as [G HG].
  eapply wp_conseq; [apply (gelqt_work_run h st bt hsm A TT work G m n s); auto; rewrite ?(Nat.min_l m n) by auto; auto| |auto].
  intros z s' [-> (J1 & _ & J3 & J4 & J5)]. destruct HS as [Hm Hn]. rewrite (Nat.min_l m n) in * by auto.
  assert (HF : factored Forward Rowwise A (gtau TT m n) G s 0%Z s').
  { apply finv_factored; auto; rewrite ?Hm, ?Hn, ?(Nat.min_l m n) by auto; auto. }
  destruct (factored_spec Forward Rowwise A (gtau TT m n) G s s 0%Z s' m n (Logic.conj Hm Hn) ltac:(auto) HF) as (_ & K2 & _).
  split; auto. split; [exact K2|]. split.
  - cbv zeta. intros q Hq a b Ha Hb. assert (e := J5 q Hq a b Ha Hb). unfold gvec in e. etransitivity; [|exact e]. cbn [hprod].
    apply mprod_ext; auto. intros u x y Hu Hx Hy. unfold refl. change (val (lview TT) s' (q * ln TT + u)%nat ((q * ln TT + u) mod ln TT)) with (mem s' (laddr TT (q * ln TT + u) ((q * ln TT + u) mod ln TT))).
    rewrite (Nat.add_comm (q * ln TT)%nat u), Nat.mod_add, Nat.mod_small by lia. rewrite (Nat.add_comm u). reflexivity.
  - split; auto. intros l Hl. apply J3; tauto.
Qed.
(** the same, allocating the workspace *)
Definition gelqt_size (m n nb : nat) : nat := rowsz (Nat.min nb m) n.
Theorem gelqt_correct_partial (p : Z) (l : layout_t) (h : hconst) (st bt hsm : R) (m n : nat) (A : view) (TT : lmat) (s : state) :
  hconst_ok h st bt hsm -> shape A m n -> (m <= n)%nat -> (m <= lm TT)%nat -> (0 < ln TT)%nat -> lok TT -> vinj A -> vinj (lview TT) -> disj A (lview TT) ->
  let z := gelqt_size m n (ln TT) in fresh p z A -> fresh p z (lview TT) ->
  (forall i, (i < m)%nat -> (vsq n (fun j => val A s i j) <= bt * bt)%R) ->
  returns (gelqt p l h A TT) s (gelqt_result m n (ln TT) A (lview TT) (block p z) s).
Proof.
  intros Hh HS Hmn HmT Hnb LT HI HIT HD z F1 F2 Hv. apply runs_inv. unfold runs, gelqt, gelqt_worksize, gelq2_worksize. cbv zeta. pose proof HS as [Hm Hn]. rewrite Hm, Hn. rewrite (Nat.min_l m n) by auto.
  apply wp_bind. apply wp_bind. apply wp_slc; cbn [nr nc lview]; [lia..|]. apply wp_bind. apply wp_slc; [lia..|]. cbn [nr nc subv]. rewrite !Nat.sub_0_r.
  eapply wp_use with (Q := fun w s1 => w = (if (1 <? Nat.min (ln TT) m)%nat then larf_worksize Right (Nat.min (ln TT) m - 1) n else winfo_v 0) /\ s1 = s).
  { destruct (Nat.ltb_spec 1 (Nat.min (ln TT) m)); [apply wp_bind; apply wp_rd; [unfold vdiag; cbn [nr nc subv]; lia|cbn [nc vdiag]; lia|]|]; apply wp_ret; auto. }
  intros w s0 HL. cbv beta in HL. destruct HL as [-> ->].
  assert (Ez : wsize (if (1 <? Nat.min (ln TT) m)%nat then larf_worksize Right (Nat.min (ln TT) m - 1) n else winfo_v 0) = z) by (unfold z, gelqt_size, rowsz; destruct (1 <? _)%nat; reflexivity).
  apply wp_bind. apply wp_new_work. intros s1 K1 K2. set (work := new_lmat0 _ _ p l). rewrite Ez in K1.
  assert (Ez' : (lm work * ln work)%nat = z) by exact Ez.
  assert (EV : forall i j, (i < nr A)%nat -> (j < nc A)%nat -> val A s1 i j = val A s i j) by (intros; eapply fresh_val; eauto).
  assert (DW : forall X, fresh p z X -> disj (lview work) X) by (intros X FX; apply fresh_disj; unfold wsize in Ez; rewrite Ez; auto).
  eapply wp_returns; [apply (gelqt_work_correct_partial h st bt hsm m n A TT work s1); auto|].
  - apply lok_new0.
  - apply contig_new0.
  - rewrite Ez'. unfold z, gelqt_size. destruct (rowsz_ok (Nat.min (ln TT) m) n) as [|[|]]; lia.
  - intros i Hi. rewrite (vsq_ext _ _ (fun j => val A s i j)) by (intros; apply EV; lia). auto.
  - intros r s' (-> & G2 & G3 & G4 & G5). split; auto. split; [|split; [exact G3|]].
    + destruct G2 as (U1 & U2 & U3). split; auto. split; auto. intros i j Hi Hj. rewrite <- EV by lia. apply U2; auto.
    + split; [|congruence]. intros a Ha. rewrite G4; [apply K1; tauto|]. intros [J|[J|J]]; apply Ha; auto. apply new_inview in J. unfold wsize in Ez. rewrite Ez in J. auto.
Qed.
End R.

(** ** What the code does not do *)
Section X.
Context {E : Env} {FL : FieldLaws E} {CL : ConjLaws E} {OL : ROrdLaws E} {QL : EqbLaws E} {XL : CplxLaws E} {RL : RLaws E} {NL : FinLaws E}.
(** m > n: the loop body updates the rows below the block only if reflectors are left, [j + ib < k], not if rows are left.
    When one block holds all the reflectors, the last m - n rows of A are not touched *)
Theorem gelqt_tall_untouched (h : hconst) (st bt hsm : R) (m n : nat) (A : view) (TT work : lmat) (s : state) :
  hconst_ok h st bt hsm -> shape A m n -> (n < m)%nat -> (0 < n <= ln TT)%nat -> (m <= lm TT)%nat -> lok TT -> vinj A -> vinj (lview TT) ->
  disj A (lview TT) -> disj (lview work) A -> disj (lview work) (lview TT) -> lok work -> contiguous work = true -> (n - 1 <= lm work * ln work)%nat ->
  (forall i, (i < m)%nat -> (vsq n (fun j => val A s i j) <= bt * bt)%R) ->
  returns (gelqt_work h A TT work) s (fun r s' => r = 0%Z /\ forall i j, (n <= i < m)%nat -> (j < n)%nat -> val A s' i j = val A s i j).
Proof.
  intros Hh HS Hnm Hnb HmT LT HI HIT HD D1 D2 W1 W2 W3 Hv. apply runs_inv. destruct (ghost_ex TT work) as [G HG].
  eapply wp_conseq; [apply (tall_run h st bt hsm A TT work m n s); auto; try lia| |auto].
  intros z s' (-> & K & _). auto.
Qed.
(** nb = 0, and a reflector to compute: the loop never ends, whatever the bound on the number of its iterations *)
Theorem gelqt_nb0_refuted (fuel : nat) (h : hconst) (m n : nat) (A : view) (TT work : lmat) (s : state) :
  shape A m n -> (0 < m)%nat -> (0 < n)%nat -> (m <= lm TT)%nat -> ln TT = 0%nat -> gelqt_work_f fuel h A TT work s = OutOfFuel.
Proof.
  intros [Hm Hn] H1 H2 H3 H4. unfold gelqt_work_f. rewrite Hm, Hn, H4. unfold bind at 1. unfold check. rewrite Nat.ltb_irrefl. destruct (Nat.ltb_spec (lm TT) m); [lia|]. cbn [orb negb].
  unfold bind. unfold check. cbn [negb]. rewrite andb_false_r. change (ret tt s) with (Ok tt s). cbv beta iota. rewrite blkret_0; [reflexivity|lia|]. intros s'.
  assert (K : wp (gelqt_step h A TT work 0) (fun r _ => r = None) noX s').
  2:{ apply runs_inv in K. destruct K as (a & s'' & K & ->). eauto. }
  unfold gelqt_step. cbv zeta. rewrite Hm, Hn, H4. assert (LT1 : nr (lview TT) = lm TT) by reflexivity. assert (LT2 : nc (lview TT) = 0%nat) by exact H4.
  cbn [Nat.min Nat.add]. apply wp_bind. apply wp_slc; try lia. apply wp_bind. apply wp_slc; try lia.
  apply wp_bind. unfold gelq2_work. cbv zeta. cbn [nr nc subv vdiag Nat.sub Nat.min]. apply wp_bind. apply wp_check; [reflexivity|]. apply wp_bind. apply wp_ret. apply wp_ret.
  apply wp_bind. unfold larft. cbv zeta. cbn [nr nc subv vdiag Nat.sub Nat.min]. apply wp_bind, wp_check; [reflexivity|]. apply wp_bind, wp_check; [reflexivity|].
  rewrite orb_true_r. apply wp_ret. apply wp_bind. rewrite (proj2 (Nat.ltb_lt 0 (Nat.min m n))) by lia.
  apply wp_bind. apply wp_slc; try lia. apply wp_bind. apply wp_assert; [rewrite !andb_true_iff, !Nat.leb_le; lia|].
  apply wp_bind. unfold larfb_work. cbv zeta. cbn [nr nc subv Nat.sub]. apply wp_bind, wp_check; [reflexivity|]. apply wp_bind, wp_check; [cbn [Nat.eqb andb Nat.sub]; apply Nat.eqb_refl|]. apply wp_bind, wp_check; [reflexivity|].
  cbn [Nat.leb]. rewrite orb_true_r. apply wp_ret, wp_ret, wp_ret. auto.
Qed.
End X.

(** so gelqt does not factorize a tall matrix: the full property, with m and n arbitrary, is false *)
Definition exG : view := lview (mklmat 3 2 0 3 ColMajor).
Definition exGt : lmat := mklmat 3 2 10 3 ColMajor.
Definition exGw : lmat := mklmat 1 1 20 1 ColMajor.
(** rows (3,4), (0,1), (4,3) *)
Definition exG_s : @state RE := mkst RE (fun l => if (l =? 0)%Z then 3%R else if (l =? 3)%Z then 4%R else if (l =? 4)%Z then 1%R else if (l =? 2)%Z then 4%R else if (l =? 5)%Z then 3%R else 0%R) (fun _ => 0%Z).
#[local] Hint Unfold exG exGt exGw : exv.
Lemma exG_norm i : (i < 3)%nat -> (vsq (E:=RE) 2 (fun j => val exG exG_s i j) <= 1000 * 1000)%R.
Proof.
  intros Hi. assert (B : forall x : R, (0 <= x <= 5)%R -> (Rabs x * Rabs x <= 25)%R) by (intros x Hx0; rewrite Rabs_right by lra; nra).
  pose proof (B 0%R ltac:(lra)). pose proof (B 1%R ltac:(lra)). pose proof (B 3%R ltac:(lra)). pose proof (B 4%R ltac:(lra)).
  destruct i as [|[|[|i]]]; [| | |lia]; unfold vsq; cbn [rsum]; unfold modulus; cbn; lra.
Qed.
Lemma tall_arith (L a b c d : R) : (L * a = 3 -> L * b = 4 -> 4 * a + 3 * c = 4 -> 4 * b + 3 * d = 3 -> a * a + b * b = 1 -> a * c + b * d = 0 -> False)%R.
Proof.
  intros H1 H2 H3 H4 H5 H6.
  assert (J : (4 * a + 3 * b = 4)%R).
  { replace (4 * a + 3 * b)%R with (a * (4 * a + 3 * c) + b * (4 * b + 3 * d))%R by (rewrite H3, H4; lra).
    replace (a * (4 * a + 3 * c) + b * (4 * b + 3 * d))%R with (4 * (a * a + b * b) + 3 * (a * c + b * d))%R by ring. rewrite H5, H6. lra. }
  assert (J2 : (L * 4 = 24)%R) by (rewrite <- J; replace (L * (4 * a + 3 * b))%R with (4 * (L * a) + 3 * (L * b))%R by ring; rewrite H1, H2; lra).
  assert (L = 6)%R by lra. subst L. assert (a = 1/2)%R by lra. assert (b = 2/3)%R by lra. subst a b. lra.
Qed.
Theorem gelqt_tall_refuted : exists (A : view) (TT work : lmat) (s : @state RE),
  hconst_ok (Householder.ex_h RE) (1/8) 1000 (1/1000) /\ shape A 3 2 /\ lm TT = 3%nat /\ ln TT = 2%nat /\ lok TT /\ vinj A /\ vinj (lview TT) /\ disj A (lview TT) /\ disj (lview work) A /\ disj (lview work) (lview TT) /\
  lok work /\ contiguous work = true /\ (Nat.min 2 3 - 1 <= lm work * ln work)%nat /\ (forall i, (i < 3)%nat -> (vsq (E:=RE) 2 (fun j => val A s i j) <= 1000 * 1000)%R) /\
  ~ returns (gelqt_work (E:=RE) (Householder.ex_h RE) A TT work) s (gelqt_result (E:=RE) 3 2 2 A (lview TT) (inview (lview work)) s).
Proof.
  assert (Hh := Householder.ex_h_ok RE).
  assert (P : lok exGt /\ vinj exG /\ vinj (lview exGt) /\ disj exG (lview exGt) /\ disj (lview exGw) exG /\ disj (lview exGw) (lview exGt) /\ lok exGw /\ contiguous exGw = true).
  { split; [unfold lok, exGt; cbn; lia|]. split; [exv|]. split; [exv|]. split; [exv|]. split; [exv|]. split; [exv|]. split; [unfold lok, exGw; cbn; lia|reflexivity]. }
  destruct P as (P1 & P2 & P3 & P4 & P5 & P6 & P7 & P8).
  exists exG, exGt, exGw, exG_s. split; [exact Hh|]. split; [split; reflexivity|]. split; [reflexivity|]. split; [reflexivity|].
  split; [exact P1|]. split; [exact P2|]. split; [exact P3|]. split; [exact P4|]. split; [exact P5|]. split; [exact P6|]. split; [exact P7|]. split; [exact P8|]. split; [cbn; lia|]. split; [exact exG_norm|].
  intros (r & s' & Hrun & (_ & (U & F & _) & _)).
  destruct (gelqt_tall_untouched (E:=RE) (Householder.ex_h RE) (1/8) 1000 (1/1000) 3 2 exG exGt exGw exG_s Hh ltac:(split; reflexivity) ltac:(lia) ltac:(cbn; lia) ltac:(cbn; lia) P1 P2 P3 P4 P5 P6 P7 P8 ltac:(cbn; lia) exG_norm) as (r2 & s2 & Hrun2 & _ & K).
  rewrite Hrun in Hrun2. injection Hrun2 as <- <-. clear Hrun.
  cbv zeta in *. set (Q := qof _ _ _ _ _ _) in *. clearbody Q.
  pose proof (F 0%nat 0%nat ltac:(lia) ltac:(lia)) as F00. pose proof (F 0%nat 1%nat ltac:(lia) ltac:(lia)) as F01. pose proof (F 2%nat 0%nat ltac:(lia) ltac:(lia)) as F20. pose proof (F 2%nat 1%nat ltac:(lia) ltac:(lia)) as F21.
  pose proof (proj2 (U 0%nat 0%nat ltac:(lia) ltac:(lia))) as U00. pose proof (proj2 (U 0%nat 1%nat ltac:(lia) ltac:(lia))) as U01.
  pose proof (K 2%nat 0%nat ltac:(lia) ltac:(lia)) as K0. pose proof (K 2%nat 1%nat ltac:(lia) ltac:(lia)) as K1. clear F U K.
  unfold trap, mmul in F00, F01, F20, F21. unfold mmul, ctr, idm in U00, U01. cbn [sum Nat.leb] in *. rewrite K0 in F20, F21. rewrite K1 in F20, F21. 
  cbn in *. apply (tall_arith (val exG s' 0 0) (Q 0%nat 0%nat) (Q 0%nat 1%nat) (Q 1%nat 0%nat) (Q 1%nat 1%nat)); lra.
Qed.
(** a wide matrix, two blocks *)
Definition exGW : view := lview (mklmat 2 3 0 2 ColMajor).
Definition exGWt : lmat := mklmat 2 1 10 2 ColMajor.
#[local] Hint Unfold exGW exGWt : exv.
Example gelqt_example : returns (gelqt (E:=RE) 100 ColMajor (Householder.ex_h RE) exGW exGWt) exG_s (gelqt_result (E:=RE) 2 3 1 exGW (lview exGWt) (block 100 (gelqt_size 2 3 1)) exG_s).
Proof.
  apply (gelqt_correct_partial (E:=RE) 100 ColMajor (Householder.ex_h RE) (1/8) 1000 (1/1000)); [apply (Householder.ex_h_ok RE)|split; reflexivity|lia|cbn; lia|cbn; lia|unfold lok, exGWt; cbn; lia|exv|exv|exv| | |].
  - intros a (i & j & Hi & Hj & e). left. cbn in *. lia.
  - intros a (i & j & Hi & Hj & ->). left. cbn in Hi, Hj. destruct i as [|[|i]]; [| |lia]; (destruct j as [|j]; [|lia]); cbn; lia.
  - intros i Hi. assert (B : forall x : R, (0 <= x <= 5)%R -> (Rabs x * Rabs x <= 25)%R) by (intros x Hx0; rewrite Rabs_right by lra; nra).
    pose proof (B 0%R ltac:(lra)). pose proof (B 1%R ltac:(lra)). pose proof (B 3%R ltac:(lra)). pose proof (B 4%R ltac:(lra)).
    destruct i as [|[|i]]; [| |lia]; unfold vsq; cbn [rsum]; unfold modulus; cbn; lra.
Qed.
