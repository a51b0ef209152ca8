(** * C31, C32: Householder reflectors and the QR factorization *)
From Coq Require Import Bool Arith ZArith Lia Reals Lra Psatz Ring Field.
From Verif.Core Require Import Scalar Prog View Slice Loops WorkEff Instances Quiet RealLaws.
From Verif.Spec Require Import LinAlg Outcome Norms Householder.
From Verif.Model Require Import Gemm Blas1 Blas2 Blas3 Legacy LaAux Norms Work Householder.
From Verif.Proof Require Import SumLemmas SliceTac LegacyProof BlockAlg LarfProof LarfgProof QRProof WorkProof.
From Verif.Properties Require Import ExTac.
From Verif.Properties Require Norms.
Local Open Scope T_scope.

Section S.
Context {E : Env} {FL : FieldLaws E} {CL : ConjLaws E}.
Add Field Tf : fth.

(** larf with a workspace: C := H C (Left) or C := C H (Right), H = I - tau u u^H where u is the stored vector
    (conjugated when Rowwise) with its first (Forward) or last (Backward) element taken to be 1; nothing but C
    and the workspace changes *)
Theorem larf_work_correct side dir sm v tau C work s m n : shape C m n -> isvec v (sel side m n) -> vinj C -> disj v C ->
  lok work -> contiguous work = true -> (sel side n m <= lm work * ln work)%nat -> disj (lview work) v -> disj (lview work) C ->
  let u := hvec dir (sel side m n) (hst sm (vval v s)) in
  returns (larf_work side dir sm v tau C work) s (fun _ s' =>
    effw C (match side with Left => mmul m (refl tau u) (val C s) | Right => mmul n (val C s) (refl tau u) end) (inview (lview work)) s s').
Proof.
  intros [Hm Hn] [Hv Hv1] HI HD W1 W2 W3 W4 W5 u. apply runs_inv. eapply wp_conseq; [apply (larf_work_run side dir sm v tau C work s)| |auto].
  - rewrite Hm, Hn. split; auto.
  - auto.
  - auto.
  - rewrite Hm, Hn. right. right. split; auto. apply wk_ok_contig; auto.
  - intros r s' HL. cbv beta in HL. rewrite Hm, Hn, Hv in HL. destruct side; exact HL.
Qed.
(** larf allocating its own workspace (at address [p]) *)
Theorem larf_correct p l side dir sm v tau C s m n : shape C m n -> isvec v (sel side m n) -> vinj C -> disj v C ->
  let k := wsize (larf_worksize side m n) in fresh p k C -> fresh p k v ->
  let u := hvec dir (sel side m n) (hst sm (vval v s)) in
  returns (larf p l side dir sm v tau C) s (fun _ s' =>
    effw C (match side with Left => mmul m (refl tau u) (val C s) | Right => mmul n (val C s) (refl tau u) end) (block p k) s s').
Proof.
  intros [Hm Hn] [Hv Hv1] HI HD k FC Fv u. apply runs_inv. unfold runs, larf. cbv zeta. rewrite Hm, Hn. apply wp_bind, wp_check; [apply Nat.eqb_eq; auto|].
  destruct (Nat.eqb_spec m 0) as [->|Hm0]; [|destruct (Nat.eqb_spec n 0) as [->|Hn0]]; cbn [orb].
  { apply wp_ret. repeat split; auto. intros i j Hi. lia. }
  { apply wp_ret. repeat split; auto. intros i j Hi Hj. lia. }
  apply wp_bind. apply wp_new_work. intros s1 K1 K2. set (work := new_lmat0 _ _ p l).
  assert (Hs : (lm work * ln work)%nat = k) by reflexivity.
  assert (Ev : forall i, (i < nr v)%nat -> vval v s1 i = vval v s i) by (intros; unfold vval; eapply fresh_val; eauto; lia).
  assert (EC : forall i j, (i < nr C)%nat -> (j < nc C)%nat -> val C s1 i j = val C s i j) by (intros; eapply fresh_val; eauto).
  eapply wp_conseq; [apply (larf_work_run side dir sm v tau C work s1)| |auto].
  - rewrite Hm, Hn. split; auto.
  - auto.
  - auto.
  - rewrite Hm, Hn. destruct (Nat.le_gt_cases (sel side m n) 1) as [|Hs1]; [left; auto|right; right]. split.
    + apply wk_ok_contig; [apply lok_new0|apply contig_new0|]. rewrite Hs. unfold k, larf_worksize. destruct side; cbn [sel] in *.
      * destruct (Nat.ltb_spec 0 m); [|lia]. unfold larf_worksize1. destruct (Nat.ltb_spec 0 (m - 1)); [|lia]. destruct (Nat.ltb_spec 0 n); [|lia]. cbn. lia.
      * destruct (Nat.ltb_spec 0 n); [|lia]. unfold larf_worksize1. destruct (Nat.ltb_spec 0 m); [|lia]. destruct (Nat.ltb_spec 0 (n - 1)); [|lia]. cbn. lia.
    + split; apply fresh_disj; auto.
  - intros r s' HL. cbv beta in HL. rewrite Hm, Hn, Hv in HL. destruct HL as (L1 & L2 & L3).
    assert (Eu : forall i, (i < sel side m n)%nat -> hvec dir (sel side m n) (hst sm (vval v s1)) i = u i).
    { intros i Hi. unfold u, hvec. destruct (_ =? _)%nat; auto. destruct sm; cbn [hst]; rewrite Ev by lia; auto. }
    split; [|split].
    + intros i j Hi Hj. rewrite L1 by auto. destruct side; cbn [reflm sel] in *; apply sum_ext; intros a Ha; rewrite EC by lia; f_equal; unfold refl; rewrite !Eu by lia; auto.
    + intros a Ha Hb. rewrite L2; auto. intros K. apply Hb. apply new_inview in K. exact K.
    + congruence.
Qed.
End S.

Section R.
Context {E : Env} {FL : FieldLaws E} {CL : ConjLaws E} {OL : ROrdLaws E} {QL : EqbLaws E} {XL : CplxLaws E} {RL : RLaws E} {NL : FinLaws E}.
Add Field Tf2 : fth.

(** larfg: the generated (tau, v) reflects the given vector onto a multiple of a unit vector; only v changes *)
Theorem larfg_correct h st bt sm dir md v s n : hconst_ok h st bt sm -> isvec v n -> (0 < n)%nat -> vinj v -> norm_exact st bt n (vval v s) ->
  returns (larfg h dir md v) s (fun tau s' => only_changes (inview v) s s' /\ reflects md dir n (vval v s) tau (vval v s')).
Proof.
  intros Hh [Hn Hc] Hp HI Hex. subst n. apply runs_inv. eapply wp_conseq; [apply (larfg_reflects h st bt sm dir md v s); auto| |auto].
  intros tau s' ((H1 & H2 & H3) & HR). split; [split; auto|exact HR].
Qed.

(** geqr2 with a workspace: A = Q R with Q = H_0 ... H_(k-1) unitary and R upper triangular with real diagonal *)
Theorem geqr2_work_correct h st bt sm A tau work s m n : hconst_ok h st bt sm -> shape A m n -> nc tau = 1%nat -> (Nat.min m n <= nr tau)%nat ->
  vinj A -> vinj tau -> disj A tau -> lok work -> contiguous work = true -> (n - 1 <= lm work * ln work)%nat -> disj (lview work) A -> disj (lview work) tau ->
  (forall c, (c < n)%nat -> (vsq m (fun r => val A s r c) <= bt * bt)%R) ->
  returns (geqr2_work h A tau work) s (fun r s' => r = 0%Z /\
    let Q := qmat m (val A s') (vval tau s') (Nat.min m n) in
    unitary m Q /\ (forall i j, (i < m)%nat -> (j < n)%nat -> val A s i j = mmul m Q (rtri (val A s')) i j) /\
    (forall j, (j < Nat.min m n)%nat -> conj (val A s' j j) = val A s' j j) /\
    only_changes (fun l => inview A l \/ inview tau l \/ inview (lview work) l) s s').
Proof.
  intros Hh [Hm Hn] Ht Hl HI HIt HD W1 W2 W3 W4 W5 HN. subst m n. apply runs_inv.
  eapply wp_conseq; [apply (geqr2_work_run h st bt sm A tau work s); auto| |auto]. intros r s' [-> (K1 & K2 & K3 & K4 & K5)]. split; auto. cbv zeta.
  split; [exact K1|]. split; [|split; [exact K3|split; auto]].
  - intros i j Hi Hj. rewrite K2 by auto. apply sum_ext. intros l Hl'. f_equal. unfold bmat, rtri.
    destruct (Nat.leb_spec l j) as [H|H]; [destruct (Nat.ltb_spec j l); [lia|rewrite andb_false_r; auto]|].
    destruct (Nat.ltb_spec j (Nat.min (nr A) (nc A))); [|lia]. destruct (Nat.ltb_spec j l); [auto|lia].
  - intros l Hl'. apply K4; tauto.
Qed.
Theorem geqr2_correct p l h st bt sm A tau s m n : hconst_ok h st bt sm -> shape A m n -> nc tau = 1%nat -> (Nat.min m n <= nr tau)%nat ->
  vinj A -> vinj tau -> disj A tau -> let k := wsize (geqr2_worksize m n) in fresh p k A -> fresh p k tau ->
  (forall c, (c < n)%nat -> (vsq m (fun r => val A s r c) <= bt * bt)%R) ->
  returns (geqr2 p l h A tau) s (fun r s' => r = 0%Z /\
    let Q := qmat m (val A s') (vval tau s') (Nat.min m n) in
    unitary m Q /\ (forall i j, (i < m)%nat -> (j < n)%nat -> val A s i j = mmul m Q (rtri (val A s')) i j) /\
    (forall j, (j < Nat.min m n)%nat -> conj (val A s' j j) = val A s' j j) /\
    only_changes (fun l => inview A l \/ inview tau l \/ block p k l) s s').
Proof.
  intros Hh [Hm Hn] Ht Hl HI HIt HD k FA Ft HN. subst m n. apply runs_inv. unfold runs, geqr2. cbv zeta.
  destruct (Nat.leb_spec (nc A) 0) as [Hn|Hn]; [|destruct (Nat.leb_spec (nr A) 0) as [Hm|Hm]]; cbn [orb].
  1,2: apply wp_ret; split; auto; replace (Nat.min (nr A) (nc A)) with 0%nat by lia; split; [apply unitary_id|split; [intros; lia|split; [intros; lia|split; auto]]].
  apply wp_bind. eapply wp_conseq with (Q := fun _ s1 => s1 = s) (X := fun _ _ => False); [destruct (Nat.ltb_spec 1 (nc A)); [apply wp_bind, wp_rd; [lia|lia|]|]; apply wp_ret; auto|intros _ s0 ->|contradiction].
  apply wp_bind. apply wp_new_work. intros s1 K1 K2. set (work := new_lmat0 _ _ p l).
  assert (EA : forall i j, (i < nr A)%nat -> (j < nc A)%nat -> val A s1 i j = val A s i j) by (intros; eapply fresh_val; eauto).
  eapply wp_conseq; [apply (geqr2_work_run h st bt sm A tau work s1); auto| |auto].
  - apply fresh_disj; auto.
  - apply fresh_disj; auto.
  - intros c Hc. rewrite (vsq_ext _ _ (fun r => val A s r c)) by (intros; apply EA; auto). auto.
  - destruct (Nat.le_gt_cases (nr A) 1); [auto|]. destruct (Nat.le_gt_cases (nc A) 1); [auto|]. right. right.
    split; [apply lok_new0|]. split; [apply contig_new0|]. change (lm work * ln work)%nat with k. unfold k, geqr2_worksize, larf_worksize, larf_worksize1.
    destruct (Nat.ltb_spec 1 (nc A)); [|lia]. destruct (Nat.ltb_spec 0 (nr A)); [|lia]. destruct (Nat.ltb_spec 0 (nr A - 1)); [|lia]. destruct (Nat.ltb_spec 0 (nc A - 1)); [|lia]. cbn. lia.
  - intros r s' [-> (J1 & J2 & J3 & J4 & J5)]. split; auto. split; [exact J1|]. split; [|split; [exact J3|split]].
    + intros i j Hi Hj. rewrite <- EA by auto. rewrite J2 by auto. apply sum_ext. intros a Ha. f_equal. unfold bmat, rtri.
      destruct (Nat.leb_spec a j) as [H|H]; [destruct (Nat.ltb_spec j a); [lia|rewrite andb_false_r; auto]|].
      destruct (Nat.ltb_spec j (Nat.min (nr A) (nc A))); [|lia]. destruct (Nat.ltb_spec j a); [auto|lia].
    + intros a Ha. rewrite J4; auto; [apply K1; tauto|]. intros K. apply new_inview in K. apply Ha. auto.
    + congruence.
Qed.
End R.

(** the size check of the (x, C0, C1) overload of larf misplaces a parenthesis: conforming arguments with an empty
    C1 are rejected ... *)
Theorem larf1_rejects_conforming_refuted {E : Env} sm x tau C0 C1 work s m : check_input = true -> isvec x m -> isvec C0 0 -> shape C1 m 0 -> m <> 1%nat ->
  rejects (larf_work1 Left sm x tau C0 C1 work) s /\ forall p l, rejects (larf1 p l Left sm x tau C0 C1) s.
Proof.
  intros Hci [Hx _] [H0 _] [Hm Hn] H1. split; [|intros p l]; unfold rejects, larf_work1, larf1, check; rewrite Hci; cbv zeta; rewrite Hx, Hm, Hn; cbn [sel];
    (destruct (Nat.eqb_spec m 1) as [->|_]; [lia|]); reflexivity.
Qed.
Example larf1_rejects_conforming_example (s : @state RE) : exists x C0 C1 work,
  rejects (larf_work1 (E:=RE) Left Columnwise x 1%R C0 C1 work) s.
Proof.
  exists (vview (mklvec 2 0 1 Forward)), (vview (mklvec 0 2 1 Forward)), (lview (mklmat 2 0 4 2 ColMajor)), (mklmat 1 1 8 1 ColMajor).
  apply (larf1_rejects_conforming_refuted (E:=RE) Columnwise _ 1%R _ _ _ s 2); try split; try reflexivity. auto.
Qed.
(** ... and a vector [x] that is too short is not rejected: it is read out of bounds *)
Theorem larf1_accepts_short_vector_refuted (s : @state RE) : exists x C0 C1 work, isvec x 0 /\ isvec C0 2 /\ shape C1 2 1 /\
  larf_work1 (E:=RE) Right Rowwise x 1%R C0 C1 work s = UB.
Proof.
  exists (vview (mklvec 0 0 1 Forward)), (vview (mklvec 2 0 1 Forward)), (lview (mklmat 2 1 4 2 ColMajor)), (mklmat 2 1 8 2 ColMajor).
  repeat split; reflexivity.
Qed.

(** concrete instances *)
Definition ex_h (E : Env) {L : RLaws E} : hconst := mkhconst (Norms.ex_blue E) (ofR (1/1000)) (ofR (1/1000)) (ofR 1000).
Lemma ex_h_ok (E : Env) {FL : FieldLaws E} {CL : ConjLaws E} {OL : ROrdLaws E} {L : RLaws E} : hconst_ok (ex_h E) (1/8) 1000 (1/1000).
Proof.
  split; [|split; [|split; [|split; [|split; [|split; [|split]]]]]]; try lra; try reflexivity; try apply ofR_real.
  - exists 8%R, (1/1000)%R. apply Norms.ex_blue_ok.
  - cbn. rewrite <- ofR_mul, <- ofR_1. f_equal. lra.
Qed.
Definition exH : view := lview (mklmat 2 2 0 3 ColMajor).
Definition exHt : view := vview (mklvec 2 20 1 Forward).
#[global] Hint Unfold exH exHt : exv.
(** the matrix with columns (3,4) and (1,2) *)
Definition exH_s : @state RE := mkst RE (fun l => if (l =? 0)%Z then 3%R else if (l =? 1)%Z then 4%R else if (l =? 3)%Z then 1%R else 2%R) (fun _ => 0%Z).
Lemma exH_fresh : fresh 100 1 exH /\ fresh 100 1 exHt.
Proof.
  split; intros l (i & j & Hi & Hj & ->); unfold exH, exHt in *; cbn in Hi, Hj; (destruct i as [|[|]]; [| |lia]); (destruct j as [|[|]]; [| |lia]); try (exfalso; lia); cbn; lia.
Qed.
(** geqr2 runs on it and the first diagonal element of R is 5 in absolute value *)
Example geqr2_example : returns (geqr2 (E:=RE) 100 ColMajor (ex_h RE) exH exHt) exH_s (fun r s' => r = 0%Z /\ Rabs (val exH s' 0 0) = 5%R).
Proof.
  destruct (geqr2_correct (E:=RE) 100 ColMajor (ex_h RE) (1/8) 1000 (1/1000) exH exHt exH_s 2 2) as (r & s' & K & -> & HU & HA & _).
  - apply (ex_h_ok RE).
  - exv.
  - reflexivity.
  - cbn. lia.
  - exv.
  - exv.
  - exv.
  - apply exH_fresh.
  - apply exH_fresh.
  - intros c Hc. unfold vsq. cbn [rsum]. unfold modulus. cbn. destruct c as [|[|]]; [| |lia]; cbn; unfold Rabs; repeat destruct Rcase_abs; lra.
  - do 2 eexists. split; [exact K|]. split; auto.
    set (Q := qmat 2 (val exH s') (vval exHt s') (Nat.min 2 2)) in *. clearbody Q.
    assert (H0 := HA 0%nat 0%nat ltac:(lia) ltac:(lia)). assert (H1 := HA 1%nat 0%nat ltac:(lia) ltac:(lia)).
    destruct (HU 0%nat 0%nat ltac:(lia) ltac:(lia)) as [U _].
    unfold mmul in H0, H1, U. cbn [sum rtri Nat.leb] in H0, H1, U. unfold ctr in U. cbn in H0, H1, U. unfold rtri in H0, H1. cbn [Nat.leb] in H0, H1. change (val exH exH_s 0 0) with 3%R in H0. change (val exH exH_s 1 0) with 4%R in H1.
    set (r := val exH s' 0 0) in *. assert (E5 : (r * r = 25)%R). { assert (Q 0%nat 0%nat * r = 3)%R by lra. assert (Q 1%nat 0%nat * r = 4)%R by lra. nra. }
    unfold Rabs. destruct (Rcase_abs r); nra.
Qed.
