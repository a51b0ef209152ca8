(** Relational facts for the Cholesky models: any arithmetic *)
From Coq Require Import Bool Arith ZArith Lia.
From Verif.Core Require Import Scalar Prog View Rel Slice Loops.
From Verif.Model Require Import Gemm Blas1 Blas2 Blas3 Cholesky.
From Verif.Proof Require Import RelTac BlasRel TwoRunsX.

Section CholRel.
Context {E : Env} (R : state -> state -> Prop).
Notation "p ~ q" := (rr R isrt p q) (at level 70).
Notation rds := (reads R). Notation wrs := (writes R).
Notation ew := everywhere.
Lemma conj_vec_rr x1 x2 : rds x1 x2 ew -> wrs x1 x2 ew -> nc x1 = 1 -> conj_vec x1 ~ conj_vec x2.
Proof. intros. unfold conj_vec. rdims. rauto. Qed.
Ltac rblas :=
  lazymatch goal with
  | |- rr _ _ (dot _ _) _ => eapply dot_rr
  | |- rr _ _ (conj_vec _) _ => eapply conj_vec_rr
  | |- rr _ _ (gemv _ _ _ _ _ _) _ => eapply gemv_rr
  | |- rr _ _ (scal _ _) _ => eapply scal_rr
  | |- rr _ _ (gemm _ _ _ _ _ _ _) _ => eapply gemm_rr
  | |- rr _ _ (herk _ _ _ _ _ _) _ => eapply herk_rr
  | |- rr _ _ (trsm _ _ _ _ _ _ _) _ => eapply trsm_rr
  | |- rr _ _ (trmm _ _ _ _ _ _ _) _ => eapply trmm_rr
  end; try rpart; cbn [nr nc subv vcol vrow vsub sel]; auto; try reflexivity; try lia; cbn [notransb is_nt op_eqb nr nc subv]; try (split; [try reflexivity; lia|try reflexivity; lia]).
Ltac rgo := repeat first [ rsl | progress rstep | solve [rblas] | (apply rr_error; exact I) | (apply rr_error_if; exact I)
  | match goal with H : (_ <? _) = true |- _ => apply Nat.ltb_lt in H | H : (_ <? _) = false |- _ => apply Nat.ltb_ge in H
      | H : (_ <=? _) = false |- _ => apply Nat.leb_gt in H | H : (_ <=? _) = true |- _ => apply Nat.leb_le in H
      | H : (_ =? _) = false |- _ => apply Nat.eqb_neq in H | H : (_ =? _) = true |- _ => apply Nat.eqb_eq in H end ].
Lemma potf2_step_rr u A1 A2 j : uplo2 u = true -> nc A1 = nr A1 -> rds A1 A2 (vtri u) -> wrs A1 A2 (vtri u) -> j < nr A1 ->
  potf2_step u A1 j ~ potf2_step u A2 j.
Proof. intros Hu HC RA WA Hj. unfold potf2_step. rdims. destruct u; try discriminate; rgo. Qed.
Lemma potf2_rr u A1 A2 : uplo2 u = true -> nc A1 = nr A1 -> rds A1 A2 (vtri u) -> wrs A1 A2 (vtri u) -> potf2 u A1 ~ potf2 u A2.
Proof.
  intros Hu HC RA WA. unfold potf2. rdims. rstep; [rstep|]. rstep; [rstep|]. rstep; [|apply rr_ret].
  apply rr_forret. intros. apply potf2_step_rr; auto; lia.
Qed.
Lemma potrf2_f_rr u fuel ec A1 A2 : uplo2 u = true -> nc A1 = nr A1 -> rds A1 A2 (vtri u) -> wrs A1 A2 (vtri u) -> nr A1 < fuel ->
  potrf2_f fuel ec u A1 ~ potrf2_f fuel ec u A2.
Proof.
  intros Hu. revert ec A1 A2. destruct u; try discriminate.
  all: induction fuel as [|fu IH]; intros ec A1 A2 HC RA WA Hf; [lia|]; cbn [potrf2_f]; rdims.
  all: (rstep; [rstep|]); (rstep; [rstep|]); cbv zeta.
  all: destruct (Nat.eqb_spec (nr A1) 0) as [H3|H3]; [apply rr_ret|].
  all: destruct (Nat.eqb_spec (nr A1) 1) as [H4|H4]; [rgo|].
  all: set (n1 := Nat.div2 (nr A1)).
  all: assert (Hn1 : 0 < n1 < nr A1) by
    (unfold n1; clear - H3 H4; split; [destruct (nr A1) as [|[|]]; cbn; lia|apply Nat.lt_div2; lia]).
  all: rsl; rsl.
  all: rstep; [apply IH; try rpart; cbn [nr nc subv]; lia|].
  all: rstep; [rgo|]; rstep.
  1,3: rgo.
  all: rstep; [apply IH; try rpart; cbn [nr nc subv]; lia|]; rgo.
Qed.
Lemma potrf2_rr u ec A1 A2 : uplo2 u = true -> nc A1 = nr A1 -> rds A1 A2 (vtri u) -> wrs A1 A2 (vtri u) ->
  potrf2 ec u A1 ~ potrf2 ec u A2.
Proof. intros. unfold potrf2. replace (nr A2) with (nr A1) by (symmetry; apply H1). apply potrf2_f_rr; auto. Qed.

Lemma potrf_blocked_step_rr nb u A1 A2 j : uplo2 u = true -> nc A1 = nr A1 -> rds A1 A2 (vtri u) -> wrs A1 A2 (vtri u) -> j < nr A1 ->
  potrf_blocked_step nb u A1 j ~ potrf_blocked_step nb u A2 j.
Proof.
  intros Hu HC RA WA Hj. unfold potrf_blocked_step. rdims. cbv zeta. set (jb := Nat.min nb (nr A1 - j)).
  assert (j + jb <= nr A1) by (unfold jb; lia). destruct u; try discriminate.
  - rsl. rsl. rstep; [rblas|]. rstep; [apply potf2_rr; auto; try rpart; cbn [nr nc subv]; lia|]. rgo.
  - rsl. rsl. rstep; [rblas|]. rstep; [apply potf2_rr; auto; try rpart; cbn [nr nc subv]; lia|]. rgo.
Qed.
Lemma potrf_rl_step_rr nb u A1 A2 j : uplo2 u = true -> nc A1 = nr A1 -> rds A1 A2 (vtri u) -> wrs A1 A2 (vtri u) -> j < nr A1 ->
  potrf_rl_step nb u A1 j ~ potrf_rl_step nb u A2 j.
Proof.
  intros Hu HC RA WA Hj. unfold potrf_rl_step. rdims. cbv zeta. set (jb := Nat.min nb (nr A1 - j)).
  assert (j + jb <= nr A1) by (unfold jb; lia). destruct u; try discriminate.
  - rsl. rstep; [apply potf2_rr; auto; try rpart; cbn [nr nc subv]; lia|]. rgo.
  - rsl. rstep; [apply potf2_rr; auto; try rpart; cbn [nr nc subv]; lia|]. rgo.
Qed.
Lemma potrf_rr var nb ec u A1 A2 : uplo2 u = true -> nc A1 = nr A1 -> rds A1 A2 (vtri u) -> wrs A1 A2 (vtri u) -> 0 < nb ->
  potrf var nb ec u A1 ~ potrf var nb ec u A2.
Proof.
  intros Hu HC RA WA Hnb. unfold potrf. rdims. rstep; [rstep|]. rstep; [rstep|].
  destruct var.
  - unfold potrf_blocked, potrf_blocked_f. rdims. rstep; [rstep|]. rstep; [rstep|]. rstep; [rstep|]. rstep; [apply potf2_rr; auto|].
    rstep; [|apply rr_ret]. apply rr_blkret; auto; [lia|]. intros. apply potrf_blocked_step_rr; auto; lia.
  - apply potrf2_rr; auto.
  - apply potf2_rr; auto.
  - unfold potrf_rl, potrf_rl_f. rdims. rstep; [rstep|]. rstep; [rstep|]. rstep; [rstep|]. rstep; [apply potf2_rr; auto|].
    rstep; [|apply rr_ret]. apply rr_blkret; auto; [lia|]. intros. apply potrf_rl_step_rr; auto; lia.
Qed.
Lemma potrs_rr u A1 A2 B1 B2 : uplo2 u = true -> nc A1 = nr A1 -> nr B1 = nc A1 -> rds A1 A2 (vtri u) -> rds B1 B2 ew -> wrs B1 B2 ew ->
  potrs u A1 B1 ~ potrs u A2 B2.
Proof.
  intros Hu HC HB RA RB WB. unfold potrs. rdims. rstep; [rstep|]. rstep; [rstep|]. rstep; [rstep|]. rstep; [|apply rr_ret].
  destruct u; try discriminate; rstep; (eapply (trsm_rr _ _ _ _ _ _ _ _ _ _ _ (nr B1) (nc B1)); cbn [sel]; auto; try lia).
  all: eapply reads_vis; [exact RA|]; intros i j Hi Hj Hv; apply Hv.
Qed.
End CholRel.
