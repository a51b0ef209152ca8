(** Relational facts for triangular inversion, products of triangular factors, potri, getri_uili, pttrf: any arithmetic *)
From Coq Require Import Bool Arith ZArith Lia.
From Verif.Core Require Import Scalar Prog View Rel Slice Loops.
From Verif.Model Require Import Gemm Blas1 Blas2 Blas3 Cholesky Triangular.
From Verif.Proof Require Import RelTac BlasRel TwoRunsX CholRel.

Section TriRel.
Context {E : Env} (R : state -> state -> Prop).
Notation "p ~ q" := (rr R isrt p q) (at level 70).
Notation rds := (reads R). Notation wrs := (writes R).
Notation ew := everywhere.
Ltac rblas :=
  lazymatch goal with
  | |- rr _ _ (dot _ _) _ => eapply dot_rr
  | |- rr _ _ (conj_vec _) _ => eapply conj_vec_rr
  | |- rr _ _ (gemv _ _ _ _ _ _) _ => eapply gemv_rr
  | |- rr _ _ (scal _ _) _ => eapply scal_rr
  | |- rr _ _ (gemm _ _ _ _ _ _ _) _ => eapply gemm_rr
  | |- rr _ _ (herk _ _ _ _ _ _) _ => eapply herk_rr
  | |- rr _ _ (trsm _ _ _ _ _ _ _) _ => eapply trsm_rr
  | |- rr _ _ (trmm _ _ _ _ _ _ _) _ => eapply trmm_rr
  end; try rpart; cbn [nr nc subv vcol vrow vsub sel]; auto; try reflexivity; try lia; cbn [notransb is_nt op_eqb nr nc subv]; try (split; [try reflexivity; lia|try reflexivity; lia]).
Ltac rgo := repeat first [ rsl | progress rstep | solve [rblas] | (apply rr_error; exact I) | (apply rr_error_if; exact I)
  | match goal with H : (_ <? _) = true |- _ => apply Nat.ltb_lt in H | H : (_ <? _) = false |- _ => apply Nat.ltb_ge in H
      | H : (_ <=? _) = false |- _ => apply Nat.leb_gt in H | H : (_ <=? _) = true |- _ => apply Nat.leb_le in H
      | H : (_ =? _) = false |- _ => apply Nat.eqb_neq in H | H : (_ =? _) = true |- _ => apply Nat.eqb_eq in H end ].
Ltac half A n1 := set (n1 := Nat.div2 (nr A)); assert (0 < n1 < nr A) by
    (unfold n1; match goal with H3 : nr A <> 0, H4 : nr A <> 1 |- _ => clear - H3 H4 end; split; [destruct (nr A) as [|[|]]; cbn; lia|apply Nat.lt_div2; lia]).
Lemma trtri_f_rr u d fuel ec A1 A2 : uplo2 u = true -> nc A1 = nr A1 -> rds A1 A2 (vtrid u d) -> wrs A1 A2 (vtrid u d) -> nr A1 < fuel ->
  trtri_f fuel ec u d A1 ~ trtri_f fuel ec u d A2.
Proof.
  intros Hu. revert ec A1 A2. destruct u; try discriminate.
  all: induction fuel as [|fu IH]; intros ec A1 A2 HC RA WA Hf; [lia|]; cbn [trtri_f]; rdims.
  all: (rstep; [rstep|]); (rstep; [rstep|]); cbv zeta.
  all: destruct (Nat.eqb_spec (nr A1) 0) as [H3|H3]; [apply rr_ret|].
  all: destruct (Nat.eqb_spec (nr A1) 1) as [H4|H4]; [destruct d; cbn [nonunit]; rgo|].
  all: half A1 n1; rsl; rsl; rsl.
  all: rstep; [rgo|]; rstep; [rgo|].
  all: rstep; [apply IH; try rpart; cbn [nr nc subv]; lia|]; rstep; [rgo|].
  all: rstep; [apply IH; try rpart; cbn [nr nc subv]; lia|]; rgo.
Qed.
Lemma lauum_f_rr u fuel A1 A2 : uplo2 u = true -> nc A1 = nr A1 -> rds A1 A2 (vtri u) -> wrs A1 A2 (vtri u) -> nr A1 < fuel ->
  lauum_f fuel u A1 ~ lauum_f fuel u A2.
Proof.
  intros Hu. revert A1 A2. destruct u; try discriminate.
  all: induction fuel as [|fu IH]; intros A1 A2 HC RA WA Hf; [lia|]; cbn [lauum_f]; rdims.
  all: (rstep; [rstep|]); (rstep; [rstep|]); cbv zeta.
  all: destruct (Nat.eqb_spec (nr A1) 0) as [H3|H3]; [apply rr_ret|].
  all: destruct (Nat.eqb_spec (nr A1) 1) as [H4|H4]; [rgo|].
  all: half A1 n1; rsl; rsl; rsl.
  all: rstep; [apply IH; try rpart; cbn [nr nc subv]; lia|]; rstep; [rgo|]; rstep; [rgo|].
  all: rstep; [apply IH; try rpart; cbn [nr nc subv]; lia|]; rgo.
Qed.
Lemma ul_mult_f_rr fuel A1 A2 : nc A1 = nr A1 -> rds A1 A2 ew -> wrs A1 A2 ew -> 0 < nr A1 -> nr A1 < fuel ->
  ul_mult_f fuel A1 ~ ul_mult_f fuel A2.
Proof.
  revert A1 A2.
  induction fuel as [|fu IH]; intros A1 A2 HC RA WA H0 Hf; [lia|]; cbn [ul_mult_f]; rdims. rewrite HC.
  rstep; [rstep|]. cbv zeta. assert (H3 : nr A1 <> 0) by lia.
  destruct (Nat.eqb_spec (nr A1) 1) as [H4|H4]; [rgo|].
  half A1 n1. rsl. rsl. rsl. rsl.
  rstep; [apply IH; try rpart; cbn [nr nc subv]; lia|]; rstep; [rgo|]; rstep; [rgo|]; rstep; [rgo|].
  rstep; [apply IH; try rpart; cbn [nr nc subv]; lia|]; rgo.
Qed.
Lemma lu_mult_f_rr nx fuel A1 A2 : nc A1 = nr A1 -> rds A1 A2 ew -> wrs A1 A2 ew -> 0 < nx -> nr A1 < fuel ->
  lu_mult_f fuel nx A1 ~ lu_mult_f fuel nx A2.
Proof.
  intros HC RA WA Hnx. revert A1 A2 HC RA WA.
  induction fuel as [|fu IH]; intros A1 A2 HC RA WA Hf; [lia|]; cbn [lu_mult_f]; rdims. rewrite HC.
  rstep; [rstep|]. rstep; [apply rr_check, Nat.leb_le; lia|]. 
  destruct (Nat.eqb_spec (nr A1) 0) as [H3|H3]; [apply rr_ret|].
  destruct (Nat.leb_spec (nr A1) nx) as [H5|H5]; [rgo|]. assert (H4 : nr A1 <> 1) by lia.
  half A1 n1. rsl. rsl. rsl. rsl.
  rstep; [apply IH; try rpart; cbn [nr nc subv]; lia|]; rstep; [rgo|]; rstep; [rgo|]; rstep; [rgo|].
  apply IH; try rpart; cbn [nr nc subv]; lia.
Qed.
Lemma mult_llh_f_rr nx fuel A1 A2 : nc A1 = nr A1 -> rds A1 A2 (vtri Lower) -> wrs A1 A2 (vtri Lower) -> 0 < nx -> nr A1 < fuel ->
  mult_llh_f fuel nx A1 ~ mult_llh_f fuel nx A2.
Proof.
  intros HC RA WA Hnx. revert A1 A2 HC RA WA.
  induction fuel as [|fu IH]; intros A1 A2 HC RA WA Hf; [lia|]; cbn [mult_llh_f]; rdims. rewrite HC.
  rstep; [rstep|]. rstep; [apply rr_check, Nat.leb_le; lia|]. 
  destruct (Nat.eqb_spec (nr A1) 0) as [H3|H3]; [apply rr_ret|].
  destruct (Nat.leb_spec (nr A1) nx) as [H5|H5]; [unfold mult_llh_base; rgo|]. assert (H4 : nr A1 <> 1) by lia.
  half A1 n1. rsl. rsl. rsl.
  rstep; [apply IH; try rpart; cbn [nr nc subv]; lia|]; rstep; [rgo|]; rstep; [rgo|].
  apply IH; try rpart; cbn [nr nc subv]; lia.
Qed.
Lemma mult_uhu_f_rr nx fuel A1 A2 : nc A1 = nr A1 -> rds A1 A2 (vtri Upper) -> wrs A1 A2 (vtri Upper) -> 0 < nx -> nr A1 < fuel ->
  mult_uhu_f fuel nx A1 ~ mult_uhu_f fuel nx A2.
Proof.
  intros HC RA WA Hnx. revert A1 A2 HC RA WA.
  induction fuel as [|fu IH]; intros A1 A2 HC RA WA Hf; [lia|]; cbn [mult_uhu_f]; rdims. rewrite HC.
  rstep; [rstep|]. rstep; [apply rr_check, Nat.leb_le; lia|]. 
  destruct (Nat.eqb_spec (nr A1) 0) as [H3|H3]; [apply rr_ret|].
  destruct (Nat.leb_spec (nr A1) nx) as [H5|H5]; [unfold mult_uhu_base; rgo|]. assert (H4 : nr A1 <> 1) by lia.
  half A1 n1. rsl. rsl. rsl.
  rstep; [apply IH; try rpart; cbn [nr nc subv]; lia|]; rstep; [rgo|]; rstep; [rgo|].
  apply IH; try rpart; cbn [nr nc subv]; lia.
Qed.
Lemma trtri_rr u d ec A1 A2 : uplo2 u = true -> nc A1 = nr A1 -> rds A1 A2 (vtrid u d) -> wrs A1 A2 (vtrid u d) ->
  trtri ec u d A1 ~ trtri ec u d A2.
Proof. intros. unfold trtri. rdims. apply trtri_f_rr; auto. Qed.
Lemma lauum_rr u A1 A2 : uplo2 u = true -> nc A1 = nr A1 -> rds A1 A2 (vtri u) -> wrs A1 A2 (vtri u) -> lauum u A1 ~ lauum u A2.
Proof. intros. unfold lauum. rdims. apply lauum_f_rr; auto. Qed.
Lemma ul_mult_rr A1 A2 : nc A1 = nr A1 -> rds A1 A2 ew -> wrs A1 A2 ew -> 0 < nr A1 -> ul_mult A1 ~ ul_mult A2.
Proof. intros. unfold ul_mult. rdims. apply ul_mult_f_rr; auto; lia. Qed.
Lemma potri_rr u A1 A2 : uplo2 u = true -> nc A1 = nr A1 -> rds A1 A2 (vtri u) -> wrs A1 A2 (vtri u) -> potri u A1 ~ potri u A2.
Proof.
  intros. unfold potri. rdims. rstep; [rstep|]. rstep; [rstep|]. rstep; [apply potrf2_rr; auto|]. rstep; [apply trtri_rr; auto|].
  - eapply reads_vis; [eassumption|]. intros i j _ _ [K _]. auto.
  - eapply writes_vis; [eassumption|]. intros i j _ _ [K _]. auto.
  - rstep; [apply lauum_rr; auto|]. rstep.
Qed.
Lemma getri_uili_rr A1 A2 : nc A1 = nr A1 -> rds A1 A2 ew -> wrs A1 A2 ew -> 0 < nr A1 -> getri_uili A1 ~ getri_uili A2.
Proof.
  intros HC RA WA H0. unfold getri_uili. rdims. rstep; [rstep|].
  assert (V : forall v, rds A1 A2 v) by (intros; eapply reads_vis; [eassumption|]; intros; exact I).
  assert (W : forall v, wrs A1 A2 v) by (intros; eapply writes_vis; [eassumption|]; intros; exact I).
  rstep; [apply trtri_rr; auto|]. rstep; [rstep|]. rstep; [apply trtri_rr; auto|]. rstep; [apply ul_mult_rr; auto|]. rstep.
Qed.
Lemma pttrf_rr ec D1 D2 e1 e2 : nr D1 = nr e1 + 1 -> nc D1 = 1 -> nc e1 = 1 -> rds D1 D2 ew -> wrs D1 D2 ew -> rds e1 e2 ew -> wrs e1 e2 ew -> pttrf ec D1 e1 ~ pttrf ec D2 e2.
Proof.
  intros HN H1 H2 RD WD RE WE. unfold pttrf. rdims. cbv zeta. rstep; [rstep|]. rstep; [rstep|]. apply Nat.eqb_neq in Heqb.
  rstep.
  - apply rr_forret. intros i Hi. unfold pttrf_step. rgo.
  - match goal with a : option Z |- _ => destruct a end; rgo.
Qed.
End TriRel.
