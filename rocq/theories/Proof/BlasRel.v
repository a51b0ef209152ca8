(** Relational facts for the BLAS models: any arithmetic *)
From Coq Require Import Bool Arith ZArith Lia.
From Verif.Core Require Import Scalar Prog View Rel.
From Verif.Model Require Import Gemm Blas1 Blas2 Blas3.
From Verif.Proof Require Import RelTac.

Section BlasRel.
Context {E : Env} (R : state -> state -> Prop) (X : exn -> Prop).
Notation "p ~ q" := (rr R X p q) (at level 70).
Notation rds := (reads R). Notation wrs := (writes R).
Notation ew := everywhere.

Lemma axpy_rr alpha x1 x2 y1 y2 : rds x1 x2 ew -> rds y1 y2 ew -> wrs y1 y2 ew -> nc x1 = 1 -> nc y1 = 1 -> nr x1 <= nr y1 ->
  axpy alpha x1 y1 ~ axpy alpha x2 y2.
Proof. intros. unfold axpy. cbv zeta. rdims. rauto. Qed.
Lemma copy_rr x1 x2 y1 y2 : rds x1 x2 ew -> wrs y1 y2 ew -> nc x1 = 1 -> nc y1 = 1 -> nr x1 <= nr y1 ->
  copy x1 y1 ~ copy x2 y2.
Proof. intros. unfold copy. cbv zeta. rdims. rauto. Qed.
Lemma scal_rr alpha x1 x2 : rds x1 x2 ew -> wrs x1 x2 ew -> nc x1 = 1 -> scal alpha x1 ~ scal alpha x2.
Proof. intros. unfold scal. cbv zeta. rdims. rauto. Qed.
Lemma swap_rr x1 x2 y1 y2 : rds x1 x2 ew -> rds y1 y2 ew -> wrs x1 x2 ew -> wrs y1 y2 ew -> nc x1 = 1 -> nc y1 = 1 -> nr y1 = nr x1 ->
  swap x1 y1 ~ swap x2 y2.
Proof. intros. unfold swap. cbv zeta. rdims. rauto. Qed.
Lemma dot_rr x1 x2 y1 y2 : rds x1 x2 ew -> rds y1 y2 ew -> nc x1 = 1 -> nc y1 = 1 -> nr y1 = nr x1 -> dot x1 y1 ~ dot x2 y2.
Proof. intros. unfold dot. cbv zeta. rdims. rauto. Qed.
Lemma dotu_rr x1 x2 y1 y2 : rds x1 x2 ew -> rds y1 y2 ew -> nc x1 = 1 -> nc y1 = 1 -> nr y1 = nr x1 -> dotu x1 y1 ~ dotu x2 y2.
Proof. intros. unfold dotu. cbv zeta. rdims. rauto. Qed.
Lemma asum_rr x1 x2 : rds x1 x2 ew -> nc x1 = 1 -> asum x1 ~ asum x2.
Proof. intros. unfold asum. cbv zeta. rdims. rauto. Qed.
Lemma rot_rr x1 x2 y1 y2 c s : rds x1 x2 ew -> rds y1 y2 ew -> wrs x1 x2 ew -> wrs y1 y2 ew -> nc x1 = 1 -> nc y1 = 1 -> nr y1 = nr x1 ->
  rot x1 y1 c s ~ rot x2 y2 c s.
Proof. intros. unfold rot. cbv zeta. rdims. rauto. Qed.
Lemma rotm_rr flag x1 x2 y1 y2 h0 h1 h2 h3 : rds x1 x2 ew -> rds y1 y2 ew -> wrs x1 x2 ew -> wrs y1 y2 ew -> nc x1 = 1 -> nc y1 = 1 -> nr y1 = nr x1 ->
  rotm flag x1 y1 h0 h1 h2 h3 ~ rotm flag x2 y2 h0 h1 h2 h3.
Proof. intros. unfold rotm. cbv zeta. rdims. rauto. Qed.
Lemma first_nan_rr x1 x2 cnt k : rds x1 x2 ew -> nc x1 = 1 -> k + cnt <= nr x1 -> first_nan x1 cnt k ~ first_nan x2 cnt k.
Proof.
  intros H H'. revert k. induction cnt; intros k Hk; cbn [first_nan]; rauto. apply IHcnt; lia.
Qed.
Lemma iamax_rr q b f x1 x2 : rds x1 x2 ew -> nc x1 = 1 -> iamax q b f x1 ~ iamax q b f x2.
Proof.
  intros H H'.
  assert (H1 : forall cnt i st, i + cnt <= nr x1 -> iamax_ec_loop q f x1 cnt i st ~ iamax_ec_loop q f x2 cnt i st).
  { induction cnt; intros i st Hk; cbn [iamax_ec_loop]; rauto.
    - apply first_nan_rr; auto; lia.
    - destruct a0; rauto.
    - apply IHcnt; lia. }
  assert (H2 : forall cnt i st, i + cnt <= nr x1 -> iamax_nc_loop q f x1 cnt i st ~ iamax_nc_loop q f x2 cnt i st).
  { induction cnt; intros i st Hk; cbn [iamax_nc_loop]; rauto. apply IHcnt; lia. }
  unfold iamax, iamax_ec, iamax_nc. cbv zeta. rdims. rauto; [apply H1|apply H2]; lia.
Qed.

Lemma gemm_rr ta tb alpha A1 A2 B1 B2 beta C1 C2 m n k : op3 ta = true -> op3 tb = true ->
  (if is_nt ta then nr A1 = m /\ nc A1 = k else nr A1 = k /\ nc A1 = m) ->
  (if is_nt tb then nr B1 = k /\ nc B1 = n else nr B1 = n /\ nc B1 = k) ->
  nr C1 = m -> nc C1 = n ->
  rds A1 A2 ew -> rds B1 B2 ew -> rds C1 C2 ew -> wrs C1 C2 ew ->
  gemm ta tb alpha A1 B1 beta C1 ~ gemm ta tb alpha A2 B2 beta C2.
Proof.
  intros Hta Htb HA HB HC1 HC2 RA RB RC WC. unfold gemm. cbv zeta. rdims.
  destruct ta, tb; try discriminate; cbn [is_nt op_eqb] in *; destruct HA, HB; rauto.
Qed.

Lemma gemv_rr o alpha A1 A2 x1 x2 beta y1 y2 m n :
  (if notransb o then nr A1 = m /\ nc A1 = n else nr A1 = n /\ nc A1 = m) ->
  nc x1 = 1 -> nc y1 = 1 -> nr x1 = n -> nr y1 = m ->
  rds A1 A2 ew -> rds x1 x2 ew -> rds y1 y2 ew -> wrs y1 y2 ew ->
  gemv o alpha A1 x1 beta y1 ~ gemv o alpha A2 x2 beta y2.
Proof.
  intros HA Hx Hy Hxn Hyn RA RX RY WY. unfold gemv. cbv zeta. rdims.
  destruct o; cbn [notransb] in *; destruct HA; rauto.
Qed.
Lemma ger_rr alpha x1 x2 y1 y2 A1 A2 : nc x1 = 1 -> nc y1 = 1 -> nr x1 = nr A1 -> nr y1 = nc A1 ->
  rds A1 A2 ew -> rds x1 x2 ew -> rds y1 y2 ew -> wrs A1 A2 ew -> ger alpha x1 y1 A1 ~ ger alpha x2 y2 A2.
Proof. intros. unfold ger. cbv zeta. rdims. rauto. Qed.
Lemma geru_rr alpha x1 x2 y1 y2 A1 A2 : nc x1 = 1 -> nc y1 = 1 -> nr x1 = nr A1 -> nr y1 = nc A1 ->
  rds A1 A2 ew -> rds x1 x2 ew -> rds y1 y2 ew -> wrs A1 A2 ew -> geru alpha x1 y1 A1 ~ geru alpha x2 y2 A2.
Proof. intros. unfold geru. cbv zeta. rdims. rauto. Qed.
Lemma her_rr u alpha x1 x2 A1 A2 : uplo2 u = true -> nc x1 = 1 -> nr x1 = nr A1 -> nc A1 = nr A1 ->
  rds A1 A2 (vtri u) -> rds x1 x2 ew -> wrs A1 A2 (vtri u) -> her u alpha x1 A1 ~ her u alpha x2 A2.
Proof. intros. unfold her. cbv zeta. rdims. destruct u; try discriminate; rauto. Qed.
Lemma syr_rr u alpha x1 x2 A1 A2 : uplo2 u = true -> nc x1 = 1 -> nr x1 = nr A1 -> nc A1 = nr A1 ->
  rds A1 A2 (vtri u) -> rds x1 x2 ew -> wrs A1 A2 (vtri u) -> syr u alpha x1 A1 ~ syr u alpha x2 A2.
Proof. intros. unfold syr. cbv zeta. rdims. destruct u; try discriminate; rauto. Qed.
Lemma her2_rr u alpha x1 x2 y1 y2 A1 A2 : uplo2 u = true -> nc x1 = 1 -> nr x1 = nr A1 -> nc y1 = 1 -> nr y1 = nr A1 -> nc A1 = nr A1 ->
  rds A1 A2 (vtri u) -> rds x1 x2 ew -> rds y1 y2 ew -> wrs A1 A2 (vtri u) -> her2 u alpha x1 y1 A1 ~ her2 u alpha x2 y2 A2.
Proof. intros. unfold her2. cbv zeta. rdims. destruct u; try discriminate; rauto. Qed.
Lemma syr2_rr u alpha x1 x2 y1 y2 A1 A2 : uplo2 u = true -> nc x1 = 1 -> nr x1 = nr A1 -> nc y1 = 1 -> nr y1 = nr A1 -> nc A1 = nr A1 ->
  rds A1 A2 (vtri u) -> rds x1 x2 ew -> rds y1 y2 ew -> wrs A1 A2 (vtri u) -> syr2 u alpha x1 y1 A1 ~ syr2 u alpha x2 y2 A2.
Proof. intros. unfold syr2. cbv zeta. rdims. destruct u; try discriminate; rauto. Qed.
Lemma hemv_rr u alpha A1 A2 x1 x2 beta y1 y2 n : uplo2 u = true -> nr A1 = n -> nc A1 = n ->
  nc x1 = 1 -> nc y1 = 1 -> nr x1 = n -> nr y1 = n ->
  rds A1 A2 (vtri u) -> rds x1 x2 ew -> rds y1 y2 ew -> wrs y1 y2 ew ->
  hemv u alpha A1 x1 beta y1 ~ hemv u alpha A2 x2 beta y2.
Proof. intros. unfold hemv. cbv zeta. rdims. destruct u; try discriminate; rauto. Qed.
Lemma symv_rr u alpha A1 A2 x1 x2 beta y1 y2 n : uplo2 u = true -> nr A1 = n -> nc A1 = n ->
  nc x1 = 1 -> nc y1 = 1 -> nr x1 = n -> nr y1 = n ->
  rds A1 A2 (vtri u) -> rds x1 x2 ew -> rds y1 y2 ew -> wrs y1 y2 ew ->
  symv u alpha A1 x1 beta y1 ~ symv u alpha A2 x2 beta y2.
Proof. intros. unfold symv. cbv zeta. rdims. destruct u; try discriminate; rauto. Qed.
Lemma trmv_rr u o d A1 A2 x1 x2 n : uplo2 u = true -> nr A1 = n -> nc A1 = n -> nc x1 = 1 -> nr x1 = n ->
  rds A1 A2 (vtrid u d) -> rds x1 x2 ew -> wrs x1 x2 ew -> trmv u o d A1 x1 ~ trmv u o d A2 x2.
Proof. intros. unfold trmv. cbv zeta. rdims. destruct u; try discriminate; destruct o; destruct d; cbn [nonunit]; rauto. Qed.
Lemma trsv_rr u o d A1 A2 x1 x2 n : uplo2 u = true -> nr A1 = n -> nc A1 = n -> nc x1 = 1 -> nr x1 = n ->
  rds A1 A2 (vtrid u d) -> rds x1 x2 ew -> wrs x1 x2 ew -> trsv u o d A1 x1 ~ trsv u o d A2 x2.
Proof. intros. unfold trsv. cbv zeta. rdims. destruct u; try discriminate; destruct o; destruct d; cbn [nonunit]; rauto. Qed.

Lemma trsm_rr sd u o d alpha A1 A2 B1 B2 m n : uplo2 u = true -> op3 o = true -> nr B1 = m -> nc B1 = n ->
  nr A1 = sel sd m n -> nc A1 = sel sd m n ->
  rds A1 A2 (vtrid u d) -> rds B1 B2 ew -> wrs B1 B2 ew -> trsm sd u o d alpha A1 B1 ~ trsm sd u o d alpha A2 B2.
Proof.
  intros. unfold trsm. cbv zeta. rdims. 
  destruct sd, u; try discriminate; destruct o; try discriminate; destruct d; cbn [nonunit sel] in *; rauto.
Qed.
Lemma trmm_rr sd u o d alpha A1 A2 B1 B2 m n : uplo2 u = true -> op3 o = true -> nr B1 = m -> nc B1 = n ->
  nr A1 = sel sd m n -> nc A1 = sel sd m n ->
  rds A1 A2 (vtrid u d) -> rds B1 B2 ew -> wrs B1 B2 ew -> trmm sd u o d alpha A1 B1 ~ trmm sd u o d alpha A2 B2.
Proof.
  intros. unfold trmm. cbv zeta. rdims. 
  destruct sd, u; try discriminate; destruct o; try discriminate; destruct d; cbn [nonunit sel] in *; rauto.
Qed.
Lemma hemm_rr sd u alpha A1 A2 B1 B2 beta C1 C2 m n : uplo3 u = true -> nr B1 = m -> nc B1 = n -> nr C1 = m -> nc C1 = n ->
  nr A1 = sel sd m n -> nc A1 = sel sd m n ->
  rds A1 A2 (vtriU u) -> rds B1 B2 ew -> rds C1 C2 ew -> wrs C1 C2 ew ->
  hemm sd u alpha A1 B1 beta C1 ~ hemm sd u alpha A2 B2 beta C2.
Proof.
  intros. unfold hemm. cbv zeta. rdims. 
  destruct sd, u; try discriminate; cbn [sel] in *; rauto.
Qed.
Lemma symm_rr sd u alpha A1 A2 B1 B2 beta C1 C2 m n : uplo3 u = true -> nr B1 = m -> nc B1 = n -> nr C1 = m -> nc C1 = n ->
  nr A1 = sel sd m n -> nc A1 = sel sd m n ->
  rds A1 A2 (vtriU u) -> rds B1 B2 ew -> rds C1 C2 ew -> wrs C1 C2 ew ->
  symm sd u alpha A1 B1 beta C1 ~ symm sd u alpha A2 B2 beta C2.
Proof.
  intros. unfold symm. cbv zeta. rdims. 
  destruct sd, u; try discriminate; cbn [sel] in *; rauto.
Qed.
Lemma herk_rr u o alpha A1 A2 beta C1 C2 n k : uplo3 u = true -> (o = NoTrans \/ o = ConjTrans) ->
  nr A1 = (if is_nt o then n else k) -> nc A1 = (if is_nt o then k else n) -> nr C1 = n -> nc C1 = n ->
  rds A1 A2 ew -> rds C1 C2 (vtri u) -> wrs C1 C2 (vtri u) ->
  herk u o alpha A1 beta C1 ~ herk u o alpha A2 beta C2.
Proof.
  intros Hu [-> | ->] H1 H2 H3 H4 RA RC WC; unfold herk; cbv zeta; cbn [is_nt op_eqb] in *; rdims;
  destruct u; try discriminate; rauto.
Qed.
Lemma syrk_rr u o alpha A1 A2 beta C1 C2 n k : uplo3 u = true -> (o = NoTrans \/ o = Trans) ->
  nr A1 = (if is_nt o then n else k) -> nc A1 = (if is_nt o then k else n) -> nr C1 = n -> nc C1 = n ->
  rds A1 A2 ew -> rds C1 C2 (vtri u) -> wrs C1 C2 (vtri u) ->
  syrk u o alpha A1 beta C1 ~ syrk u o alpha A2 beta C2.
Proof.
  intros Hu [-> | ->] H1 H2 H3 H4 RA RC WC; unfold syrk; cbv zeta; cbn [is_nt op_eqb] in *; rdims;
  destruct u; try discriminate; rauto.
Qed.
Lemma her2k_rr u o alpha A1 A2 B1 B2 beta C1 C2 n k : uplo3 u = true -> (o = NoTrans \/ o = ConjTrans) ->
  nr A1 = (if is_nt o then n else k) -> nc A1 = (if is_nt o then k else n) -> nr B1 = nr A1 -> nc B1 = nc A1 -> nr C1 = n -> nc C1 = n ->
  rds A1 A2 ew -> rds B1 B2 ew -> rds C1 C2 (vtri u) -> wrs C1 C2 (vtri u) ->
  her2k u o alpha A1 B1 beta C1 ~ her2k u o alpha A2 B2 beta C2.
Proof.
  intros Hu [-> | ->] H1 H2 H3 H4 H5 H6 RA RB RC WC; unfold her2k; cbv zeta; cbn [is_nt op_eqb] in *; rdims;
  destruct u; try discriminate; rauto.
Qed.
Lemma syr2k_rr u o alpha A1 A2 B1 B2 beta C1 C2 n k : uplo3 u = true -> (o = NoTrans \/ o = Trans) ->
  nr A1 = (if is_nt o then n else k) -> nc A1 = (if is_nt o then k else n) -> nr B1 = nr A1 -> nc B1 = nc A1 -> nr C1 = n -> nc C1 = n ->
  rds A1 A2 ew -> rds B1 B2 ew -> rds C1 C2 (vtri u) -> wrs C1 C2 (vtri u) ->
  syr2k u o alpha A1 B1 beta C1 ~ syr2k u o alpha A2 B2 beta C2.
Proof.
  intros Hu [-> | ->] H1 H2 H3 H4 H5 H6 RA RB RC WC; unfold syr2k; cbv zeta; cbn [is_nt op_eqb] in *; rdims;
  destruct u; try discriminate; rauto.
Qed.
End BlasRel.
