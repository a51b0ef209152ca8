(** * C49: rot_sequence3 *)
From Coq Require Import Bool Arith ZArith Lia List Ring Field.
From Coq Require Import PrimFloat.
From Coq Require Import Reals Lra.
From Verif.Core Require Import Scalar Prog View Slice Instances.
From Verif.Spec Require Import LinAlg Outcome Rot Householder.
From Verif.Model Require Import Legacy Householder Rot RotSeq3.
From Verif.Proof Require Import SumLemmas Tactics RotSeqProof RotSeq3Proof QRProof.
From Verif.Properties Require Import ExTac Rot.
Import ListNotations.
Local Open Scope T_scope.

Section S.
Context {E : Env}.
Implicit Types (A C : view) (s : state).
Lemma seqs_rot_seqs side (Cv Sv : mat) order x n : forall r, seqs side Cv Sv order n x r = rot_seqs side Cv Sv order n x r.
Proof.
  induction n as [|n IH]; intros r; auto. cbn [seqs]. unfold rot_seqs. rewrite seq_S, fold_left_app. cbn [fold_left Nat.add].
  rewrite <- rsteps_lines. apply rsteps_ext. auto.
Qed.
(** In every arithmetic (IEEE included) and for both layouts: rot_sequence3 applies the sequences of rotations in the
    columns 0, ..., l-1 of C and S, one sequence after the other, each in the order of rot_sequence, to every column
    (Left) or row (Right) of A, and changes nothing else.  For side = Left, direction = Forward and l >= 2 this needs
    A to have no more than 256 columns (see [rot_sequence3_many_columns_refuted]) *)
Theorem rot_sequence3_applies_partial colmajor side dir C S A s k l : shape C k l -> shape S k l -> vinj A -> disj C A -> disj S A ->
  (match side with Left => nr A | Right => nc A end = (k + 1)%nat) ->
  (side = Left -> dir = Forward -> (nc A <= 256 \/ l <= 1 \/ k < l)%nat) ->
  returns (rot_sequence3 colmajor side dir C S A) s (fun _ s' =>
    eff A (fun i j => let order := match dir with Forward => rev (seq 0 k) | Backward => seq 0 k end in
      match side with
      | Left => rot_seqs Left (val C s) (val S s) order l (fun r => val A s r j) i
      | Right => rot_seqs Right (val C s) (val S s) order l (fun r => val A s i r) j
      end) s s').
Proof.
  intros [C1 C2] [S1 S2] HI Dc Ds HA Hb. apply runs_inv.
  eapply wp_conseq; [apply (rot_sequence3_run 256 colmajor side dir C S A s k l); auto; [lia|destruct side; exact HA|intros ->; auto]| |intros ? ? []].
  intros [] s' He. cbv beta in He. cbv zeta. destruct side.
  - apply (eff_ext _ _ _ _ _ He). intros i j Hi Hj. rewrite seqs_rot_seqs. auto.
  - apply eff_trv in He. apply (eff_ext _ _ _ _ _ He). intros i j Hi Hj. rewrite seqs_rot_seqs. auto.
Qed.
(** l successive calls of rot_sequence *)
Definition rot_sequence_each (colmajor : bool) side dir (C S A : view) : M unit :=
  for_ j in 0 upto (nc C) do (rot_sequence colmajor side dir (vcol C 0 (nr C) j) (vcol S 0 (nr S) j) A;; ret tt).
Lemma rot_sequence_each_run cm side dir C S A s0 k l : vinj A -> disj C A -> disj S A ->
  nr (sv side A) = (k + 1)%nat -> nr C = k -> nr S = k -> nc C = l -> nc S = l ->
  runs (rot_sequence_each cm side dir C S A) s0
    (fun _ s' => eff (sv side A) (fun r q => seqs side (val C s0) (val S s0) (rorder dir k) l (fun r => val (sv side A) s0 r q) r) s0 s').
Proof.
  intros HI DC DS HB HC HS HC' HS'. unfold runs, rot_sequence_each. rewrite HC', HC, HS.
  apply (wp_forup (fun j s => eff (sv side A) (fun r q => seqs side (val C s0) (val S s0) (rorder dir k) j (fun r => val (sv side A) s0 r q) r) s0 s)); [lia|apply eff_refl| |auto].
  intros j s Hj He. apply wp_bind.
  eapply wp_use; [apply (rot_sequence_run cm side dir (vcol C 0 k j) (vcol S 0 k j) A s k); auto; cbn [nr nc vcol]; try lia|].
  { intros a b a' b' H1 H2 H3 H4; cbn [nr nc vcol ad] in *; apply DC; lia. }
  { intros a b a' b' H1 H2 H3 H4; cbn [nr nc vcol ad] in *; apply DS; lia. }
  intros z s' [_ HL]; cbv beta in HL; apply wp_ret; apply (eff_ext _ _ _ _ _ (eff_trans _ _ _ _ _ _ He HL)); intros r q Hr Hq; cbn [seqs].
  apply (rsteps_ext2 _ _ _ _ _ (k + 1)); [|intros r' Hr'; apply (eff_val _ _ _ _ _ _ He); lia|lia].
  intros i Hi; apply in_rorder in Hi; (split; [lia|]); unfold vval, val; cbn [vcol ad]; destruct He as (_ & Hfr & _).
  split; apply Hfr; intros (a & b & Ha & Hbb & e); [apply (disj_sv side C A DC (0 + i)%nat j a b)|apply (disj_sv side S A DS (0 + i)%nat j a b)]; auto; lia.
Qed.
(** so it leaves the memory as l calls of rot_sequence do, bit for bit, in the same or in the other layout *)
Theorem rot_sequence3_is_rot_sequences_partial cm cm' side dir C S A s k l : shape C k l -> shape S k l -> vinj A -> disj C A -> disj S A ->
  (match side with Left => nr A | Right => nc A end = (k + 1)%nat) ->
  (side = Left -> dir = Forward -> (nc A <= 256 \/ l <= 1 \/ k < l)%nat) ->
  exists s1 s2, rot_sequence3 cm side dir C S A s = Ok tt s1 /\ rot_sequence_each cm' side dir C S A s = Ok tt s2 /\ forall a, mem s1 a = mem s2 a.
Proof.
  intros [C1 C2] [S1 S2] HI Dc Ds HA Hb.
  assert (HB : nr (sv side A) = (k + 1)%nat) by (destruct side; exact HA).
  destruct (runs_inv _ _ _ _ (rot_sequence3_run 256 cm side dir C S A s k l HI Dc Ds ltac:(lia) HB C1 S1 C2 S2 ltac:(intros ->; auto))) as ([] & s1 & K1 & E1).
  destruct (runs_inv _ _ _ _ (rot_sequence_each_run cm' side dir C S A s k l HI Dc Ds HB C1 S1 C2 S2)) as ([] & s2 & K2 & E2).
  exists s1, s2. split; [exact K1|]. split; [exact K2|]. intros a.
  destruct (inview_dec (sv side A) a) as [(i & j & Hi & Hj & ->)|N].
  - transitivity (val (sv side A) s1 i j); [reflexivity|]. destruct E1 as [E1 _], E2 as [E2 _]. rewrite E1 by auto. symmetry. apply E2; auto.
  - destruct E1 as (_ & E1 & _), E2 as (_ & E2 & _). rewrite E1, E2; auto.
Qed.
(** operands whose sizes do not match are rejected, and so is a matrix A that is empty on the side of the rotations *)
Theorem rot_sequence3_rejects colmajor side dir C S A s : check_input = true ->
  let dim := match side with Left => nr A | Right => nc A end in
  nc S <> nc C \/ dim = 0%nat \/ nr C <> (dim - 1)%nat \/ nr S <> (dim - 1)%nat -> rejects (rot_sequence3 colmajor side dir C S A) s.
Proof.
  intros Hc dim Hn. unfold rejects, rot_sequence3, rot_sequence3_nb. change (match side with Left => nr A | Right => nc A end) with dim. cbv zeta. unfold check. rewrite Hc. cbn [andb].
  destruct (Nat.eqb_spec (nc S) (nc C)); [|reflexivity]. destruct (Nat.eqb_spec dim 0); [reflexivity|].
  destruct (Nat.eqb_spec (nr C) (dim - 1)); [|reflexivity]. destruct (Nat.eqb_spec (nr S) (dim - 1)); [|reflexivity]. lia.
Qed.
End S.

Section SM.
Context {E : Env} {FL : FieldLaws E} {CL : ConjLaws E}.
Add Field Tf3 : fth.
Implicit Types (A C : view) (s : state).
(** In exact arithmetic (cosines real): A := P A (Left) or A := A P^H (Right) with P = P_(l-1) ... P_1 P_0, P_j the product of
    the rotations of sequence j *)
Theorem rot_sequence3_correct_partial colmajor side dir C S A s k l : shape C k l -> shape S k l -> vinj A -> disj C A -> disj S A ->
  (match side with Left => nr A | Right => nc A end = (k + 1)%nat) ->
  (side = Left -> dir = Forward -> (nc A <= 256 \/ l <= 1 \/ k < l)%nat) ->
  (forall i j, (i < k)%nat -> (j < l)%nat -> conj (val C s i j) = val C s i j) ->
  returns (rot_sequence3 colmajor side dir C S A) s (fun _ s' =>
    let Pj := fun j => let c := fun i => val C s i j in let sn := fun i => val S s i j in
       match dir with Forward => pasc (k + 1) c sn k | Backward => pdesc (k + 1) c sn k end in
    let P := stack_prod (k + 1) Pj l in
    eff A (match side with Left => mmul (k + 1) P (val A s) | Right => mmul (k + 1) (val A s) (ctr P) end) s s').
Proof.
  intros HC HS HI Dc Ds HA Hb Hr. destruct (rot_sequence3_applies_partial colmajor side dir C S A s k l) as ([] & s' & K & He); auto.
  exists tt, s'. split; [auto|]. intros Pj P. cbv zeta in He.
  assert (G : forall n x, (n <= l)%nat -> forall r, (r < k + 1)%nat ->
    rot_seqs side (val C s) (val S s) (match dir with Forward => rev (seq 0 k) | Backward => seq 0 k end) n x r = sum (k + 1) (fun q => sidem side (stack_prod (k + 1) Pj n) r q * x q)).
  { induction n as [|n IH]; intros x Hn r Hr'.
    - cbn. symmetry. rewrite (sum_single (k + 1) r); auto.
      + destruct side; cbn [sidem]; unfold idm; rewrite Nat.eqb_refl, ?conj_1; ring.
      + intros q Hq N. destruct side; cbn [sidem]; unfold idm; destruct (Nat.eqb_spec r q); try lia; rewrite ?conj_0; ring.
    - unfold rot_seqs. rewrite seq_S, fold_left_app. cbn [fold_left Nat.add].
      change (fold_left (fun x j => rot_lines side (fun i => val C s i j) (fun i => val S s i j) (match dir with Forward => rev (seq 0 k) | Backward => seq 0 k end) x) (seq 0 n) x)
        with (rot_seqs side (val C s) (val S s) (match dir with Forward => rev (seq 0 k) | Backward => seq 0 k end) n x).
      set (L := match dir with Forward => seq 0 k | Backward => rev (seq 0 k) end).
      assert (El : match dir with Forward => rev (seq 0 k) | Backward => seq 0 k end = rev L) by (destruct dir; unfold L; [auto|rewrite rev_involutive; auto]).
      assert (HL : forall q, In q L -> (q < k)%nat) by (intros q Hq; unfold L in Hq; destruct dir; [|apply in_rev in Hq]; apply in_seq in Hq; lia).
      assert (EP : Pj n = pseq (k + 1) (fun i => val C s i n) (fun i => val S s i n) L) by (unfold Pj, L; destruct dir; auto).
      cbn [stack_prod]. rewrite EP. rewrite <- rsteps_lines. rewrite El at 1.
      rewrite (rsteps_pseq side _ _ (k + 1)); [|intros q Hq; apply Hr; auto; lia|intros q Hq; specialize (HL q Hq); lia|lia].
      rewrite (sum_ext _ _ (fun q => sum (k + 1) (fun p => sidem side (pseq (k + 1) (fun i => val C s i n) (fun i => val S s i n) L) r q * sidem side (stack_prod (k + 1) Pj n) q p * x p))).
      2:{ intros q Hq. rewrite IH by lia. rewrite <- sum_scal_l. apply sum_ext. intros; ring. }
      rewrite sum_swap. apply sum_ext. intros p Hp. rewrite sidem_mmul. unfold mmul. rewrite <- sum_scal_r. apply sum_ext. intros; ring. }
  apply (eff_ext _ _ _ _ _ He). intros i j Hi Hj. destruct side.
  - rewrite G by lia. reflexivity.
  - rewrite G by lia. unfold mmul, ctr, sidem. apply sum_ext. intros q Hq. unfold P. ring.
Qed.
End SM.

(** ** More than 256 columns *)
(** For side = Left, direction = Forward the first rotations are applied to all columns once per block of 256 columns, so
    that they are applied several times.  With two sequences of two rotations (all c = 0, s = 1, so that every operation
    is exact) on a 3-by-257 matrix the result is not the one of two calls of rot_sequence: the documented
    equivalence does not hold. *)
Definition ex3_C : view := lview (mklmat 2 2 0 2 ColMajor).
Definition ex3_S : view := lview (mklmat 2 2 10 2 ColMajor).
Definition ex3_A : view := lview (mklmat 3 257 100 3 ColMajor).
Definition ex3_st : @state FE := mkst FE (fun l => if (l <? 10)%Z then 0%float else if (l <? 100)%Z then 1%float else if (l mod 3 =? 1)%Z then 1%float else if (l mod 3 =? 2)%Z then 2%float else 3%float) (fun _ => 0%Z).
#[local] Hint Unfold ex3_C ex3_S ex3_A : exv.
Theorem rot_sequence3_many_columns_refuted : 
  shape ex3_C 2 2 /\ shape ex3_S 2 2 /\ vinj ex3_A /\ disj ex3_C ex3_A /\ disj ex3_S ex3_A /\ nr ex3_A = 3%nat /\ nc ex3_A = 257%nat /\
  forall colmajor, exists s1 s2,
    rot_sequence3 (E:=FE) colmajor Left Forward ex3_C ex3_S ex3_A ex3_st = Ok tt s1 /\
    rot_sequence_each (E:=FE) colmajor Left Forward ex3_C ex3_S ex3_A ex3_st = Ok tt s2 /\
    exists i j, (i < 3)%nat /\ (j < 257)%nat /\ PrimFloat.eqb (val ex3_A s1 i j) (val ex3_A s2 i j) = false.
Proof.
  split; [split; auto|]. split; [split; auto|]. split; [exv|]. split; [exv|]. split; [exv|]. split; [auto|]. split; [auto|].
  assert (G : forall cm, match rot_sequence3 (E:=FE) cm Left Forward ex3_C ex3_S ex3_A ex3_st, rot_sequence_each (E:=FE) cm Left Forward ex3_C ex3_S ex3_A ex3_st with
    | Ok _ s1, Ok _ s2 => negb (PrimFloat.eqb (val ex3_A s1 1 0) (val ex3_A s2 1 0)) | _, _ => false end = true).
  { intros [|]; vm_compute; reflexivity. }
  intros cm. specialize (G cm).
  destruct (rot_sequence3 (E:=FE) cm Left Forward ex3_C ex3_S ex3_A ex3_st) as [[] s1| | |]; try discriminate G.
  destruct (rot_sequence_each (E:=FE) cm Left Forward ex3_C ex3_S ex3_A ex3_st) as [[] s2| | |]; try discriminate G.
  exists s1, s2. split; [auto|]. split; [auto|]. exists 1%nat, 0%nat. split; [lia|]. split; [lia|].
  destruct (PrimFloat.eqb (val ex3_A s1 1 0) (val ex3_A s2 1 0)); [discriminate G|reflexivity].
Qed.

(** ** The hypotheses are met *)
Definition ex4_A : view := lview (mklmat 300 3 100 300 ColMajor).
#[local] Hint Unfold ex4_A : exv.
Example rot_sequence3_example (s : @state FE) : exists s1 s2,
  rot_sequence3 (E:=FE) true Right Forward ex3_C ex3_S ex4_A s = Ok tt s1 /\ rot_sequence_each (E:=FE) false Right Forward ex3_C ex3_S ex4_A s = Ok tt s2 /\ forall a, mem s1 a = mem s2 a.
Proof. apply (rot_sequence3_is_rot_sequences_partial (E:=FE) true false Right Forward ex3_C ex3_S ex4_A s 2 2); [split; auto|split; auto|exv|exv|exv|auto|discriminate]. Qed.
