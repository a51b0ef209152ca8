(** Relational facts for getri: any arithmetic *)
From Coq Require Import Bool Arith ZArith Lia.
From Verif.Core Require Import Scalar Prog View Rel Slice Loops IVec.
From Verif.Model Require Import Gemm Blas1 Blas2 Blas3 Cholesky Triangular LU.
From Verif.Proof Require Import RelTac BlasRel TwoRunsX CholRel TriRel.

Section R.
Context {E : Env} (R : state -> state -> Prop).
Notation "p ~ q" := (rr R isrt p q) (at level 70).
Notation rds := (reads R). Notation wrs := (writes R).
Notation ew := everywhere.
Lemma getri_uxli_rr A1 A2 W1 W2 : nc A1 = nr A1 -> 0 < nr A1 -> nr W1 = nr A1 - 1 -> nc W1 = 1 -> rds A1 A2 ew -> wrs A1 A2 ew -> rds W1 W2 ew -> wrs W1 W2 ew ->
  getri_uxli A1 W1 ~ getri_uxli A2 W2.
Proof.
  intros HC H0 HW HW1 RA WA RW WW. unfold getri_uxli. rdims. cbv zeta. rewrite HC, HW. rstep; [rstep|].
  destruct (Nat.eqb_spec (nr A1) 0) as [?|Hnz]; [lia|]. rewrite Nat.eqb_refl. cbn [negb andb]. apply rr_bind; [unfold assert_; apply rr_ret|intros _].
  apply rr_bind; [|intros; apply rr_ret].
  apply rr_forret. intros i Hi. set (n := nr A1) in *. set (j := n - 1 - i). assert (Hj : j < n) by (unfold j; lia).
  assert (j = n - 1 \/ j + 1 < n) as Hc by lia.
  rstep; [rstep|]. rstep; [rstep|]. rstep; [repeat rstep|]. apply Nat.eqb_neq in Heqb0. assert (j + 1 < n) by lia. clear Hc.
  rsl. rsl. rsl. rsl. rstep; [rstep|].
  rstep; [eapply (gemv_rr R isrt _ _ _ _ _ _ _ _ _ (n - j - 1) (n - j - 1)); try rpart; cbn [notransb is_nt op_eqb nr nc subv vcol vrow vsub sel]; auto; try lia; split; lia|].
  rstep; [rstep|]. rstep; [eapply dotu_rr; try rpart; cbn [nr nc subv vcol vrow vsub]; auto; lia|]. rstep; [rstep|].
  rstep; [eapply copy_rr; try rpart; cbn [nr nc subv vcol vrow vsub]; auto; lia|].
  rstep; [eapply (gemv_rr R isrt _ _ _ _ _ _ _ _ _ (n - j - 1) (n - j - 1)); try rpart; cbn [notransb is_nt op_eqb nr nc subv vcol vrow vsub sel]; auto; try lia; split; lia|].
  rstep; [eapply copy_rr; try rpart; cbn [nr nc subv vcol vrow vsub]; auto; lia|]. rstep.
Qed.
Lemma rr_ird X piv1 piv2 j k : j < nr piv1 -> j < nr piv2 -> 0 < nc piv1 -> 0 < nc piv2 ->
  (forall u1 u2, R u1 u2 -> ival piv1 u1 j = Z.of_nat k /\ ival piv2 u2 j = Z.of_nat k) ->
  rrq R X (ird piv1 j) (ird piv2 j) (fun a => a = k).
Proof.
  intros H1 H2 H3 H4 HR u1 u2 Hu. destruct (HR _ _ Hu) as [e1 e2]. unfold ird. rewrite !inb_true by lia. rewrite e1, e2.
  destruct (Z.leb_spec 0 (Z.of_nat k)); [|lia]. cbn [andb]. rewrite Nat2Z.id. auto.
Qed.
Lemma getri_swaps_rr A1 A2 piv1 piv2 ip : nc A1 = nr A1 -> nr A1 <= nr piv1 -> nr A1 <= nr piv2 -> 0 < nc piv1 -> 0 < nc piv2 ->
  rds A1 A2 ew -> wrs A1 A2 ew -> (forall j, j < nr A1 -> ip j < nr A1) ->
  (forall u1 u2 j, R u1 u2 -> j < nr A1 -> ival piv1 u1 j = Z.of_nat (ip j) /\ ival piv2 u2 j = Z.of_nat (ip j)) ->
  forall v, match v with UILI => 0 < nr A1 | UXLI _ => True end ->
  (match v with UXLI W => nr W = nr A1 - 1 /\ nc W = 1 /\ rds W W ew /\ wrs W W ew /\ 0 < nr A1 | UILI => True end) -> A1 = A2 ->
  getri v A1 piv1 ~ getri v A2 piv2.
Proof.
  intros HC P1 P2 C1 C2 RA WA Hip HR v H0 Hv eA. unfold getri. rdims. rewrite HC. apply rr_bind.
  - destruct v as [|W]; [apply getri_uili_rr; auto|]. destruct Hv as (W1 & W2 & W3 & W4 & W5). apply getri_uxli_rr; auto.
  - intros info. rstep; [rstep|]. apply rr_bind; [|intros; apply rr_ret].
    apply rr_fordown. intros j [_ Hj].
    eapply rr_bindq; [apply (rr_ird isrt _ _ j (ip j)); try lia; intros; apply HR; auto|]. intros a ->. cbv beta.
    assert (Hp := Hip j Hj). rstep; [|rstep]. rsl.
    eapply rr_bindq; [apply (rr_ird isrt _ _ j (ip j)); try lia; intros; apply HR; auto|]. intros a ->. cbv beta.
    rsl. eapply swap_rr; try rpart; cbn [nr nc vcol subv]; auto.
Qed.
End R.
