(** * C22/C23: products of stored triangular factors (ul_mult, lu_mult) and the inverse from LU factors *)
From Coq Require Import Bool Arith ZArith Lia Reals Lra Ring Field.
From Verif.Core Require Import Scalar Prog View Slice Loops Instances Quiet.
From Verif.Spec Require Import LinAlg Outcome Inverse Parts.
From Verif.Model Require Import Gemm Blas1 Blas2 Blas3 Legacy Cholesky Triangular.
From Verif.Proof Require Import SumLemmas OrdLemmas PotrfProof LegacyProof LowOps BlockAlg LuMultProof.
From Verif.Properties Require Import ExTac Blas2 Cholesky Triangular.
Local Open Scope T_scope.

Section S.
Context {E : Env} {FL : FieldLaws E} {CL : ConjLaws E}.
Add Field Tf : fth.
Implicit Types (A B : view) (s : state).

Lemma eff_sets A F s s' n : shape A n n -> eff A F s s' -> sets A anywhere F s s'.
Proof.
  intros [H1 H2] (K1 & K2 & K3). split; [intros; apply K1; auto|]. split; auto. intros l Hl. apply K2. intros (i & j & Hi & Hj & e). apply Hl. exists i, j. repeat split; auto.
Qed.
(** A holds U (with its diagonal) and the strict lower triangle of the unit lower triangular L; it is
    overwritten by U L *)
Theorem ul_mult_correct A s n : shape A n n -> vinj A -> (0 < n)%nat ->
  returns (ul_mult A) s (fun info s' => info = 0%Z /\
    sets A anywhere (mmul n (trim Upper NonUnit (val A s)) (trim Lower Unit (val A s))) s s').
Proof.
  intros HA HI Hn. assert (HA' := HA). destruct HA' as [H1 H2]. apply runs_inv. unfold ul_mult. eapply wp_conseq; [apply (ul_mult_f_run (S (nc A)) A s); auto; lia| |auto].
  intros info s' [-> He]. split; auto. rewrite H2 in He. apply (eff_sets A _ s s' n HA He).
Qed.
(** ... and by L U *)
Theorem lu_mult_correct nx A s n : shape A n n -> vinj A -> (1 <= nx)%nat ->
  returns (lu_mult nx A) s (fun _ s' =>
    sets A anywhere (mmul n (trim Lower Unit (val A s)) (trim Upper NonUnit (val A s))) s s').
Proof.
  intros HA HI Hn. assert (HA' := HA). destruct HA' as [H1 H2]. apply runs_inv. unfold lu_mult. eapply wp_conseq; [apply (lu_mult_f_run nx Hn (S (nc A)) A s); auto; lia| |auto].
  intros r s' He. rewrite H2 in He. apply (eff_sets A _ s s' n HA He).
Qed.
(** on an empty matrix ul_mult recurses forever, whatever the recursion depth allowed *)
Theorem ul_mult_empty_diverges fuel A s : shape A 0 0 -> ul_mult_f fuel A s = OutOfFuel.
Proof.
  revert A s. induction fuel as [|fu IH]; intros A s [H1 H2]; [reflexivity|]. cbn [ul_mult_f]. unfold check. rewrite H1, H2. cbn [Nat.eqb negb andb].
  rewrite andb_false_r. cbv zeta. change (Nat.div2 0) with 0%nat. rewrite !slc_ret by lia. unfold bind at 1 2 3 4 5 6, ret at 1 2 3 4 5. cbv beta iota.
  rewrite IH; auto. split; reflexivity.
Qed.
End S.

Section G.
Context {E : Env} {FL : FieldLaws E} {CL : ConjLaws E} {QL : EqbLaws E}.
Add Field Tf2 : fth.
Implicit Types (A B : view) (s : state).
Lemma trim_keep u d u' d' A s s' n i j : (u = Upper /\ d = NonUnit /\ u' = Lower /\ d' = Unit) \/ (u' = Upper /\ d' = NonUnit /\ u = Lower /\ d = Unit) ->
  shape A n n -> vinj A -> only_changes (cells A (referenced u d)) s s' -> (i < n)%nat -> (j < n)%nat -> trim u' d' (val A s') i j = trim u' d' (val A s) i j.
Proof.
  intros Hc [H1 H2] HI [Ho _] Hi Hj.
  assert (K : ~ referenced u d i j -> val A s' i j = val A s i j).
  { intros Hn. unfold val. apply Ho. intros (a & b & Ha & Hb & Hr & e). apply HI in e; try lia. destruct e as [<- <-]. auto. }
  unfold trim, referenced in *. destruct Hc as [(-> & -> & -> & ->)|(-> & -> & -> & ->)]; cbn [in_triangle intri] in *.
  - destruct (Nat.eqb_spec i j); auto. destruct (Nat.leb_spec j i); auto. apply K. lia.
  - destruct (Nat.eqb_spec i j); [apply K; intros [_ Hx]; apply (Hx eq_refl); auto|]. destruct (Nat.leb_spec i j); auto. apply K. lia.
Qed.
(** getri_uili: the LU factors stored in A are replaced by the inverse of L U *)
Theorem getri_uili_correct A s n : shape A n n -> vinj A -> (0 < n)%nat -> (forall j, (j < n)%nat -> val A s j j <> 0) ->
  returns (getri_uili A) s (fun info s' => info = 0%Z /\
    inverse n (mmul n (trim Lower Unit (val A s)) (trim Upper NonUnit (val A s))) (val A s') /\ only_changes (cells A anywhere) s s').
Proof.
  intros HA HI Hn Hd.
  destruct (trtri_inverts true Upper NonUnit A s n (or_introl eq_refl) HA HI (fun _ => Hd)) as (i1 & s1 & K1 & -> & F1 & C1).
  destruct (trtri_inverts true Lower Unit A s1 n (or_intror eq_refl) HA HI) as (i2 & s2 & K2 & -> & F2 & C2); [discriminate|].
  destruct (ul_mult_correct A s2 n HA HI Hn) as (i3 & s3 & K3 & -> & F3 & C3).
  exists 0%Z, s3. split.
  { unfold getri_uili. unfold bind, check. destruct HA as [H1 H2]. rewrite H1, H2, Nat.eqb_refl, andb_false_r. unfold ret. rewrite K1. cbn [Z.eqb negb]. rewrite K2, K3. auto. }
  split; auto. split.
  - set (U := trim Upper NonUnit (val A s)) in *. set (L := trim Lower Unit (val A s)).
    set (X := trim Upper NonUnit (val A s1)) in *. set (Y := trim Lower Unit (val A s2)) in *.
    assert (HL : forall i j, (i < n)%nat -> (j < n)%nat -> trim Lower Unit (val A s1) i j = L i j) by (intros; eapply trim_keep; eauto 6).
    assert (HX : forall i j, (i < n)%nat -> (j < n)%nat -> trim Upper NonUnit (val A s2) i j = X i j) by (intros; eapply trim_keep; eauto 6).
    assert (F2' : inverse n L Y).
    { intros i j Hi Hj. destruct (F2 i j Hi Hj) as [e1 e2]. split; [rewrite <- e1|rewrite <- e2]; apply mmul_ext2; intros l Hl; rewrite ?HL by auto; auto. }
    assert (F3' : forall i j, (i < n)%nat -> (j < n)%nat -> val A s3 i j = mmul n X Y i j).
    { intros i j Hi Hj. destruct HA as [H1 H2]. rewrite F3; [|rewrite ?H1; auto|rewrite ?H2; auto|exact I]. apply mmul_ext2; intros l Hl; rewrite ?HX by auto; auto. }
    assert (Hmul : forall P Q Q' P' : mat, (forall a b, (a < n)%nat -> (b < n)%nat -> mmul n Q Q' a b = idm a b) -> (forall a b, (a < n)%nat -> (b < n)%nat -> mmul n P P' a b = idm a b) ->
       forall i j, (i < n)%nat -> (j < n)%nat -> mmul n (mmul n P Q) (mmul n Q' P') i j = idm i j).
    { intros P Q Q' P' HQ HPp i j Hi Hj. rewrite <- mmul_assoc.
      rewrite (mmul_ext n P _ P P'); auto. intros l Hl.
      rewrite mmul_assoc. rewrite (mmul_ext n _ P' idm P') by auto. apply mmul_id_l; auto. }
    intros i j Hi Hj. split.
    + rewrite (mmul_ext2 n _ (mmul n L U) _ (mmul n X Y)) by (intros; rewrite ?F3'; auto). apply Hmul; auto; intros; [apply F1|apply F2']; auto.
    + rewrite (mmul_ext2 n _ (mmul n X Y) _ (mmul n L U)) by (intros; rewrite ?F3'; auto). apply Hmul; auto; intros; [apply F2'|apply F1]; auto.
  - assert (Hs : forall P s s', only_changes (cells A P) s s' -> only_changes (cells A anywhere) s s').
    { intros P t t' [K K']. split; auto. intros l Hl. apply K. intros (a & b & Ha & Hb & Hr & e). apply Hl. exists a, b. repeat split; auto. }
    apply Hs in C1, C2. destruct C1 as [C1 C1'], C2 as [C2 C2'], C3 as [C3 C3']. split; [|congruence]. intros l Hl. rewrite C3, C2; auto.
Qed.
(** a zero on the diagonal of U is reported with its position, when errors are not thrown *)
Theorem getri_uili_detects_zero A s n k : shape A n n -> vinj A -> throw_errors = false -> first_zero_diagonal n k (val A s) ->
  returns (getri_uili A) s (fun info _ => info = Z.of_nat k).
Proof.
  intros HA HI Ht Hk. destruct (trtri_detects_zero true Upper A s n k (or_introl eq_refl) HA HI) as (i1 & s1 & K1 & -> & _); auto.
  { rewrite Ht. auto. }
  exists (Z.of_nat k), s1. split; auto. unfold getri_uili, bind, check. destruct HA as [H1 H2]. rewrite H1, H2, Nat.eqb_refl, andb_false_r. unfold ret. rewrite K1.
  destruct (Z.eqb_spec (Z.of_nat k) 0); auto. destruct Hk as [Hk _]. lia.
Qed.
(** on an empty matrix getri_uili never returns (it calls ul_mult) *)
Theorem getri_uili_empty_diverges A s : shape A 0 0 -> getri_uili A s = OutOfFuel.
Proof.
  intros HA. assert (HI : vinj A) by (intros a b p q Ha; destruct HA; lia).
  destruct (trtri_inverts true Upper NonUnit A s 0 (or_introl eq_refl) HA HI) as (i1 & s1 & K1 & -> & _); [intros; lia|].
  destruct (trtri_inverts true Lower Unit A s1 0 (or_intror eq_refl) HA HI) as (i2 & s2 & K2 & -> & _); [discriminate|].
  unfold getri_uili, bind, check. rewrite (proj1 HA), (proj2 HA), andb_false_r. unfold ret. rewrite K1. cbn [Z.eqb negb]. rewrite K2.
  unfold ul_mult. rewrite ul_mult_empty_diverges; auto.
Qed.
End G.

(** ** Examples *)
(** U = [2 1; 0 3], L = [1 0; 5 1] in row-major storage *)
Definition exLU : view := lview (mklmat 2 2 10 3 RowMajor).
Definition exLU_s : @state RE := mkst RE (fun l => if (l =? 10)%Z then 2%R else if (l =? 11)%Z then 1%R else if (l =? 13)%Z then 5%R else if (l =? 14)%Z then 3%R else 99%R) (fun _ => 0%Z).
#[global] Hint Unfold exLU : exv.
Example ul_mult_correct_example : returns (ul_mult (E:=RE) exLU) exLU_s (fun _ s' => val exLU s' 0 0 = 7%R /\ val exLU s' 1 0 = 15%R /\ val exLU s' 0 1 = 1%R).
Proof.
  destruct (ul_mult_correct (E:=RE) exLU exLU_s 2) as (info & s' & K & -> & H1 & _); try exv.
  exists 0%Z, s'. split; auto. rewrite !H1 by (auto; try (cbn; lia); exact I). cbn. repeat split; lra.
Qed.
Example lu_mult_correct_example nx : (1 <= nx)%nat -> returns (lu_mult (E:=RE) nx exLU) exLU_s (fun _ s' => val exLU s' 1 0 = 10%R /\ val exLU s' 1 1 = 8%R).
Proof.
  intros Hnx. destruct (lu_mult_correct (E:=RE) nx exLU exLU_s 2) as (info & s' & K & H1 & _); auto; try exv.
  exists info, s'. split; auto. rewrite !H1 by (auto; try (cbn; lia); exact I). cbn. repeat split; lra.
Qed.
Example getri_uili_correct_example : returns (getri_uili (E:=RE) exLU) exLU_s (fun info s' => info = 0%Z /\
    inverse (E:=RE) 2 (mmul 2 (trim Lower Unit (val exLU exLU_s)) (trim Upper NonUnit (val exLU exLU_s))) (val exLU s') /\ only_changes (cells exLU anywhere) exLU_s s').
Proof.
  apply (getri_uili_correct (E:=RE)); try exv. intros j Hj. destruct j as [|[|]]; [| |lia]; cbn; lra.
Qed.
