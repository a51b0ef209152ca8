(** * C15, C16, C03, C02: level-1 kernels, the exception in gemv, and concrete cases *)
From Coq Require Import Bool Arith ZArith Lia List PrimFloat.
From Verif.Core Require Import Scalar Prog View Rel Instances.
From Verif.Spec Require Import LinAlg Outcome.
From Verif.Model Require Import Gemm Blas1 Blas2 Blas3 Legacy.
From Verif.Proof Require Import RelTac BlasRel TwoRuns.
From Verif.Properties Require Import ExTac Blas2 TwoRunsBlas Safety NoBeta.
Import ListNotations.

Section S.
Context {E : Env}.
Implicit Types (x y : view) (s : state).
Ltac t := unfold isvec, agree in *; repeat match goal with H : _ /\ _ |- _ => destruct H end.

Theorem axpy_two_runs alpha x1 x2 y1 y2 s1 s2 n : isvec x1 n -> isvec y1 n ->
  vinj y1 -> vinj y2 -> disj x1 y1 -> disj x2 y2 -> agree anywhere x1 s1 x2 s2 -> agree anywhere y1 s1 y2 s2 ->
  both_return (axpy alpha x1 y1) (axpy alpha x2 y2) s1 s2 (fun _ s1' s2' =>
    agree anywhere y1 s1' y2 s2' /\ only_changes (inview y1) s1 s1' /\ only_changes (inview y2) s2 s2').
Proof.
  intros. eapply (two_runs _ [(x1, x2, anywhere)]); auto.
  - apply agrees_cons; auto using agrees_nil.
  - apply apart_cons; auto using apart_nil.
  - intros R HR RC WC. assert (reads R x1 x2 everywhere) by (apply HR; cbn; auto). t. apply axpy_rr; auto; lia.
Qed.
(** copy: y is overwritten without being read *)
Theorem copy_two_runs x1 x2 y1 y2 s1 s2 n : isvec x1 n -> isvec y1 n ->
  vinj y1 -> vinj y2 -> disj x1 y1 -> disj x2 y2 -> agree anywhere x1 s1 x2 s2 -> agree anywhere y1 s1 y2 s2 ->
  both_return (copy x1 y1) (copy x2 y2) s1 s2 (fun _ s1' s2' =>
    agree anywhere y1 s1' y2 s2' /\ only_changes (inview y1) s1 s1' /\ only_changes (inview y2) s2 s2').
Proof.
  intros. eapply (two_runs _ [(x1, x2, anywhere)]); auto.
  - apply agrees_cons; auto using agrees_nil.
  - apply apart_cons; auto using apart_nil.
  - intros R HR RC WC. assert (reads R x1 x2 everywhere) by (apply HR; cbn; auto). t. apply copy_rr; auto; lia.
Qed.
(** C02, level 1: operands of unequal length (too short, for axpy and copy) are rejected *)
Theorem axpy_rejects alpha x y s : check_input = true -> (nr y < nr x)%nat -> rejects (axpy alpha x y) s.
Proof. intros Hc H. unfold axpy. cbv zeta. apply rej_check; auto. intros e. apply negb_true_iff, Nat.ltb_ge in e. lia. Qed.
Theorem copy_rejects x y s : check_input = true -> (nr y < nr x)%nat -> rejects (copy x y) s.
Proof. intros Hc H. unfold copy. cbv zeta. apply rej_check; auto. intros e. apply negb_true_iff, Nat.ltb_ge in e. lia. Qed.
Theorem dot_rejects x y s : check_input = true -> nr y <> nr x -> rejects (dot x y) s.
Proof. intros Hc H. unfold dot. cbv zeta. apply rej_check; auto. intros e. apply Nat.eqb_eq in e. lia. Qed.
Theorem dotu_rejects x y s : check_input = true -> nr y <> nr x -> rejects (dotu x y) s.
Proof. intros Hc H. unfold dotu. cbv zeta. apply rej_check; auto. intros e. apply Nat.eqb_eq in e. lia. Qed.
Theorem swap_rejects x y s : check_input = true -> nr y <> nr x -> rejects (swap x y) s.
Proof. intros Hc H. unfold swap. cbv zeta. apply rej_check; auto. intros e. apply Nat.eqb_eq in e. lia. Qed.
Theorem rot_rejects x y c sn s : check_input = true -> nr y <> nr x -> rejects (rot x y c sn) s.
Proof. intros Hc H. unfold rot. cbv zeta. apply rej_check; auto. intros e. apply Nat.eqb_eq in e. lia. Qed.
Theorem rotm_rejects flag x y h0 h1 h2 h3 s : check_input = true -> nr y <> nr x -> rejects (rotm flag x y h0 h1 h2 h3) s.
Proof. intros Hc H. unfold rotm. cbv zeta. apply rej_check; auto. intros e. apply Nat.eqb_eq in e. lia. Qed.
Theorem scal_two_runs alpha x1 x2 s1 s2 n : isvec x1 n -> vinj x1 -> vinj x2 -> agree anywhere x1 s1 x2 s2 ->
  both_return (scal alpha x1) (scal alpha x2) s1 s2 (fun _ s1' s2' =>
    agree anywhere x1 s1' x2 s2' /\ only_changes (inview x1) s1 s1' /\ only_changes (inview x2) s2 s2').
Proof.
  intros. eapply (two_runs _ []); auto using agrees_nil, apart_nil.
  intros R HR RC WC. t. apply scal_rr; auto.
Qed.
Theorem swap_two_runs x1 x2 y1 y2 s1 s2 n : isvec x1 n -> isvec y1 n -> disj x1 y1 -> disj x2 y2 ->
  vinj x1 -> vinj x2 -> vinj y1 -> vinj y2 -> agree anywhere x1 s1 x2 s2 -> agree anywhere y1 s1 y2 s2 ->
  both_return (swap x1 y1) (swap x2 y2) s1 s2 (fun _ s1' s2' =>
    agree anywhere x1 s1' x2 s2' /\ agree anywhere y1 s1' y2 s2' /\
    only_changes (fun l => inview x1 l \/ inview y1 l) s1 s1' /\ only_changes (fun l => inview x2 l \/ inview y2 l) s2 s2').
Proof. intros. apply two_runs2; auto. intros. t. apply swap_rr; auto; lia. Qed.
Theorem rot_two_runs x1 x2 y1 y2 c sn s1 s2 n : isvec x1 n -> isvec y1 n -> disj x1 y1 -> disj x2 y2 ->
  vinj x1 -> vinj x2 -> vinj y1 -> vinj y2 -> agree anywhere x1 s1 x2 s2 -> agree anywhere y1 s1 y2 s2 ->
  both_return (rot x1 y1 c sn) (rot x2 y2 c sn) s1 s2 (fun _ s1' s2' =>
    agree anywhere x1 s1' x2 s2' /\ agree anywhere y1 s1' y2 s2' /\
    only_changes (fun l => inview x1 l \/ inview y1 l) s1 s1' /\ only_changes (fun l => inview x2 l \/ inview y2 l) s2 s2').
Proof. intros. apply two_runs2; auto. intros. t. apply rot_rr; auto; lia. Qed.
Theorem rotm_two_runs flag h0 h1 h2 h3 x1 x2 y1 y2 s1 s2 n : isvec x1 n -> isvec y1 n -> disj x1 y1 -> disj x2 y2 ->
  vinj x1 -> vinj x2 -> vinj y1 -> vinj y2 -> agree anywhere x1 s1 x2 s2 -> agree anywhere y1 s1 y2 s2 ->
  both_return (rotm flag x1 y1 h0 h1 h2 h3) (rotm flag x2 y2 h0 h1 h2 h3) s1 s2 (fun _ s1' s2' =>
    agree anywhere x1 s1' x2 s2' /\ agree anywhere y1 s1' y2 s2' /\
    only_changes (fun l => inview x1 l \/ inview y1 l) s1 s1' /\ only_changes (fun l => inview x2 l \/ inview y2 l) s2 s2').
Proof. intros. apply two_runs2; auto. intros. t. apply rotm_rr; auto; lia. Qed.
Theorem dot_two_runs x1 x2 y1 y2 s1 s2 n : isvec x1 n -> isvec y1 n -> agree anywhere x1 s1 x2 s2 -> agree anywhere y1 s1 y2 s2 ->
  both_return (dot x1 y1) (dot x2 y2) s1 s2 (fun _ s1' s2' => s1' = s1 /\ s2' = s2).
Proof.
  intros. apply (two_runs0 _ [(x1, x2, anywhere); (y1, y2, anywhere)]).
  - apply agrees_cons; auto. apply agrees_cons; auto using agrees_nil.
  - intros R HR. assert (reads R x1 x2 everywhere) by (apply HR; cbn; auto). assert (reads R y1 y2 everywhere) by (apply HR; cbn; auto).
    t. apply dot_rr; auto; lia.
Qed.
Theorem dotu_two_runs x1 x2 y1 y2 s1 s2 n : isvec x1 n -> isvec y1 n -> agree anywhere x1 s1 x2 s2 -> agree anywhere y1 s1 y2 s2 ->
  both_return (dotu x1 y1) (dotu x2 y2) s1 s2 (fun _ s1' s2' => s1' = s1 /\ s2' = s2).
Proof.
  intros. apply (two_runs0 _ [(x1, x2, anywhere); (y1, y2, anywhere)]).
  - apply agrees_cons; auto. apply agrees_cons; auto using agrees_nil.
  - intros R HR. assert (reads R x1 x2 everywhere) by (apply HR; cbn; auto). assert (reads R y1 y2 everywhere) by (apply HR; cbn; auto).
    t. apply dotu_rr; auto; lia.
Qed.
Theorem asum_two_runs x1 x2 s1 s2 n : isvec x1 n -> agree anywhere x1 s1 x2 s2 ->
  both_return (asum x1) (asum x2) s1 s2 (fun _ s1' s2' => s1' = s1 /\ s2' = s2).
Proof.
  intros. apply (two_runs0 _ [(x1, x2, anywhere)]).
  - apply agrees_cons; auto using agrees_nil.
  - intros R HR. assert (reads R x1 x2 everywhere) by (apply HR; cbn; auto). t. apply asum_rr; auto; lia.
Qed.
Theorem iamax_two_runs q b f x1 x2 s1 s2 n : isvec x1 n -> agree anywhere x1 s1 x2 s2 ->
  both_return (iamax q b f x1) (iamax q b f x2) s1 s2 (fun _ s1' s2' => s1' = s1 /\ s2' = s2).
Proof.
  intros. apply (two_runs0 _ [(x1, x2, anywhere)]).
  - apply agrees_cons; auto using agrees_nil.
  - intros R HR. assert (reads R x1 x2 everywhere) by (apply HR; cbn; auto). t. apply iamax_rr; auto; lia.
Qed.
(** C03 fails for gemv when the inner dimension is 0: the old contents of y survive *)
Theorem gemv_nobeta_empty_sum_refuted o alpha A x y s m : opshape o A m 0 -> isvec x 0 -> isvec y m ->
  returns (gemv_nobeta o alpha A x y) s (fun _ s' => s' = s).
Proof.
  intros HA [Hx1 Hx2] [Hy1 Hy2]. exists tt, s. split; auto. unfold gemv_nobeta, gemv.
  assert (Hm : (if notransb o then nr A else nc A) = m /\ (if notransb o then nc A else nr A) = 0)
    by (destruct o; cbn in *; destruct HA; auto).
  destruct Hm as [-> ->]. cbv zeta. rewrite Hx1, Hy1, !Nat.eqb_refl. unfold check. cbn [negb]. rewrite andb_false_r.
  cbn [bind ret]. rewrite orb_true_r. reflexivity.
Qed.
End S.

(** ** Concrete cases, in IEEE double precision with NaNs around the data *)
Definition exA2 : view := lview (mklmat 2 2 100 3 ColMajor).
Definition exA2r : view := lview (mklmat 2 2 200 5 RowMajor).
Definition exB2 : view := lview (mklmat 2 2 300 2 ColMajor).
Definition exB2r : view := lview (mklmat 2 2 400 2 RowMajor).
#[global] Hint Unfold exA2 exA2r exB2 exB2r : exv.
(** column-major A = [3 5; 7 2] with NaN nowhere referenced *)
Definition fs1 : @state FE := mkst FE (fun l => match l with
  | 100 => 3 | 101 => 7 | 103 => 5 | 104 => 2 | 300 => 1 | 301 => 2 | 302 => 4 | 303 => 6 | _ => nan end%float)%Z (fun _ => 0%Z).
(** row-major A = [NaN NaN; 7 NaN]: only the strictly lower part is referenced with Lower, Unit *)
Definition fs2 : @state FE := mkst FE (fun l => match l with
  | 205 => 7 | 400 => 1 | 401 => 4 | 402 => 2 | 403 => 6 | _ => nan end%float)%Z (fun _ => 0%Z).
Ltac two := intros i j Hi Hj; cbn in Hi, Hj; destruct i as [|[|i]]; [| |lia]; destruct j as [|[|j]]; [| |lia| | |lia].
Example trsm_two_runs_example :
  both_return (trsm (E:=FE) Left Lower NoTrans Unit 2%float exA2 exB2) (trsm (E:=FE) Left Lower NoTrans Unit 2%float exA2r exB2r) fs1 fs2
    (fun _ s1' s2' => agree anywhere exB2 s1' exB2r s2' /\ only_changes (inview exB2) fs1 s1' /\ only_changes (inview exB2r) fs2 s2').
Proof.
  apply (trsm_two_runs (E:=FE) Left Lower NoTrans Unit 2%float exA2 exA2r exB2 exB2r fs1 fs2 2 2); try exv.
  - split; [auto|discriminate].
  - split; [reflexivity|split; [reflexivity|]].
    intros i j Hi Hj [H1 H2]; cbn in Hi, Hj, H1. specialize (H2 eq_refl).
    destruct i as [|[|i]]; [lia| |lia]; destruct j as [|[|j]]; [reflexivity|lia|lia].
  - split; [reflexivity|split; [reflexivity|]]. two; reflexivity.
Qed.
(** the old contents of the output of gemm without beta are NaN in one run and numbers in the other *)
Definition exC2 : view := lview (mklmat 2 2 500 2 ColMajor).
Definition exC2r : view := lview (mklmat 2 2 300 2 RowMajor).
#[global] Hint Unfold exC2 exC2r : exv.
Example gemm_nobeta_example :
  both_return (gemm_nobeta (E:=FE) Trans NoTrans 2%float exB2 exB2 exC2) (gemm_nobeta (E:=FE) Trans NoTrans 2%float exB2r exB2r exC2r) fs1 fs2
    (fun _ s1' s2' => agree anywhere exC2 s1' exC2r s2' /\ only_changes (inview exC2) fs1 s1' /\ only_changes (inview exC2r) fs2 s2').
Proof.
  apply (gemm_nobeta_two_runs (E:=FE) Trans NoTrans 2%float exB2 exB2r exB2 exB2r exC2 exC2r fs1 fs2 2 2 2); try exv.
  - split; discriminate.
  - split; [reflexivity|split; [reflexivity|]]. two; reflexivity.
  - split; [reflexivity|split; [reflexivity|]]. two; reflexivity.
Qed.
(** shapes that do not fit are rejected *)
Example gemm_rejects_example {E : Env} (s : state) : check_input = true ->
  rejects (gemm Trans NoTrans one exA2 (lview (mklmat 3 2 300 3 ColMajor)) SZ exC2) s.
Proof.
  intros H. apply gemm_rejects; auto. intros (_ & m & n & k & H1 & H2 & H3). revert H1 H2 H3. cbn [opshape]. exv.
Qed.
Example trmm_safe_example {E : Env} (s : state) :
  returns (trmm Right Upper ConjTrans Unit one exA2 exB2) s (fun _ s' => only_changes (cells exB2 anywhere) s s').
Proof. apply (trmm_safe Right Upper ConjTrans Unit one exA2 exB2 s 2 2); try exv. split; [auto|discriminate]. Qed.
