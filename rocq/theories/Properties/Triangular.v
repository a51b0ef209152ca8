(** * C21-C23: triangular inverses, products of triangular factors, inverse of a Hermitian matrix *)
From Coq Require Import Bool Arith ZArith Lia Reals Lra Ring Field.
From Verif.Core Require Import Scalar Prog View Slice Loops Instances Quiet.
From Verif.Spec Require Import LinAlg Outcome PosDef Cholesky Inverse Parts.
From Verif.Model Require Import Gemm Blas1 Blas2 Blas3 Legacy Cholesky Triangular.
From Verif.Proof Require Import SumLemmas OrdLemmas CholMath CholProof PotrfProof LegacyProof LowView LowOps BlockAlg TrtriProof LauumProof.
From Verif.Properties Require Import ExTac Blas2 Cholesky.
Local Open Scope T_scope.

Section S.
Context {E : Env} {FL : FieldLaws E} {CL : ConjLaws E} {QL : EqbLaws E}.
Add Field Tf : fth.
Implicit Types (A B : view) (s : state).

Lemma leff_val u A X s s' i j : u = Upper \/ u = Lower -> leff u A X s s' -> (i < nr A)%nat -> (j < nc A)%nat -> nc A = nr A ->
  lowf u (val A s') i j = X i j.
Proof.
  intros Hu (H & _) Hi Hj HC. destruct Hu; subst u; cbn [lowf]; rewrite H by lia; cbn [lowf]; auto. apply conj_conj.
Qed.
Lemma leff_changes u A X s s' (P : nat -> nat -> Prop) : u = Upper \/ u = Lower -> leff u A X s s' -> nc A = nr A ->
  (forall i j, (i < nr A)%nat -> (j < nr A)%nat -> P i j \/ X (match u with Upper => j | _ => i end) (match u with Upper => i | _ => j end)
     = lowf u (val A s) (match u with Upper => j | _ => i end) (match u with Upper => i | _ => j end)) ->
  only_changes (cells A P) s s'.
Proof.
  intros Hu (H1 & H2 & H3) HC HP. split; auto. intros l Hl.
  destruct (inview_dec A l) as [(i & j & Hi & Hj & e)|Hn]; [|apply H2; auto].
  subst l. change (val A s' i j = val A s i j). rewrite H1 by auto.
  destruct (HP i j) as [K|K]; try lia; [exfalso; apply Hl; exists i, j; auto|].
  destruct Hu; subst u; cbn [lowf] in *; auto. rewrite K. apply conj_conj.
Qed.
Lemma isinv_low u d n F G : u = Upper \/ u = Lower -> isinv n (trim Lower d (lowf u F)) (trim Lower d (lowf u G)) -> inverse n (trim u d F) (trim u d G).
Proof.
  intros [->| ->] H i j Hi Hj; [|apply H; auto]. cbn [lowf] in H.
  destruct (H j i Hj Hi) as [K1 K2].
  assert (Hid : conj (idm j i) = idm i j) by (unfold idm; rewrite (Nat.eqb_sym j i); destruct (i =? j)%nat; [apply conj_1|apply conj_0]).
  assert (Hc : forall F G : mat, conj (mmul n (trim Lower d (fun i l => conj (F l i))) (trim Lower d (fun i l => conj (G l i))) j i) = mmul n (trim Upper d G) (trim Upper d F) i j).
  { intros F0 G0. rewrite mmul_conj. apply mmul_ext2; intros l Hl; rewrite <- trim_ctr; apply conj_conj. }
  split; rewrite <- Hid; [rewrite <- K2|rewrite <- K1]; symmetry; apply Hc.
Qed.
Lemma first0_low u n A s k : u = Upper \/ u = Lower -> first0 n (lowf u (val A s)) k -> first_zero_diagonal n (S k) (val A s).
Proof.
  intros Hu (H1 & H2 & H3). split; [lia|]. replace (S k - 1)%nat with k by lia.
  assert (Hc : forall j, lowf u (val A s) j j = 0 <-> val A s j j = 0).
  { intros j. destruct Hu; subst u; cbn [lowf]; [|tauto]. split; intros e; [|rewrite e; apply conj_0]. rewrite <- (conj_conj (val A s j j)), e. apply conj_0. }
  split; [apply Hc; auto|]. intros j Hj. rewrite <- Hc. auto.
Qed.

(** the possible ends of a run of trtri *)
Lemma trtri_cases ec u d A s n : u = Upper \/ u = Lower -> shape A n n -> vinj A ->
  (exists s', trtri ec u d A s = Ok 0%Z s' /\ (d = NonUnit -> forall j, (j < n)%nat -> val A s j j <> 0) /\
      inverse n (trim u d (val A s)) (trim u d (val A s')) /\ only_changes (cells A (referenced u d)) s s') \/
  (exists k s', d = NonUnit /\ first_zero_diagonal n k (val A s) /\ only_changes (cells A (referenced u d)) s s' /\
     trtri ec u d A s = if throw_errors && ec then Exn (RuntimeError 1) s' else Ok (Z.of_nat k) s').
Proof.
  intros Hu [H1 H2] HI. assert (HC : nc A = nr A) by lia.
  assert (Hch : forall info s', trtri_out u d A s info s' -> only_changes (cells A (referenced u d)) s s').
  { intros info s' (X & HX & Hk & _). apply (leff_changes u A X); auto. intros i j Hi Hj. unfold tri_keep in Hk.
    assert (Hd : d = Unit \/ d <> Unit) by (destruct d; [right; discriminate|left; auto]).
    destruct Hu; subst u; unfold referenced; cbn [in_triangle].
    - destruct (Nat.lt_trichotomy i j) as [K|[K|K]]; [left; split; lia| |right; apply Hk; auto].
      destruct Hd; [right; apply Hk; auto|left; split; [lia|tauto]].
    - destruct (Nat.lt_trichotomy j i) as [K|[K|K]]; [left; split; lia| |right; apply Hk; auto].
      destruct Hd; [right; apply Hk; auto|left; split; [lia|tauto]]. }
  assert (K := trtri_f_run u d Hu (S (nr A)) ec A s HC HI ltac:(lia)). unfold trtri. unfold wp in K.
  destruct (trtri_f (S (nr A)) ec u d A s) as [info s'|e s'| |]; [| |tauto|tauto].
  - destruct K as (K1 & K2). assert (Hc := Hch _ _ K2). destruct K2 as (X & HX & Hk & [(-> & Hz & Hi)|(k & -> & Hd & Hf)]).
    + left. exists s'. split; auto. split; [|split; auto].
      * intros Hd j Hj e. apply (Hz Hd j ltac:(lia)). destruct Hu; subst u; cbn [lowf]; rewrite e; auto. apply conj_0.
      * apply isinv_low; auto. rewrite <- H1. eapply isinv_ext; [reflexivity| |exact Hi].
        intros i j Hi' Hj. apply (trim_low_ext d (nr A)); auto. intros a b Ha Hb Hab. symmetry. eapply leff_val; eauto; lia.
    + right. exists (S k), s'. split; auto. split; [rewrite <- H1; apply (first0_low u); auto|]. split; auto.
      destruct throw_errors, ec; cbn [andb]; try (f_equal; lia).
  - destruct K as (-> & Ht & -> & k & Ho). right. assert (Hc := Hch _ _ Ho). destruct Ho as (X & HX & Hk & [(K1 & _)|(k' & K1 & Hd & Hf)]); [lia|].
    exists (S k'), s'. split; auto. split; [rewrite <- H1; apply (first0_low u); auto|]. split; auto. rewrite Ht. auto.
Qed.

(** ** C21 *)
(** a triangular matrix with non-zero diagonal is replaced by its inverse *)
Theorem trtri_inverts ec u d A s n : u = Upper \/ u = Lower -> shape A n n -> vinj A ->
  (d = NonUnit -> forall j, (j < n)%nat -> val A s j j <> 0) ->
  returns (trtri ec u d A) s (fun info s' => info = 0%Z /\ inverse n (trim u d (val A s)) (trim u d (val A s')) /\
    only_changes (cells A (referenced u d)) s s').
Proof.
  intros Hu HA HI Hd. destruct (trtri_cases ec u d A s n Hu HA HI) as [(s' & K1 & _ & K3 & K4)|(k & s' & K1 & (K2 & K3 & _) & _)].
  - exists 0%Z, s'. auto.
  - exfalso. apply (Hd K1 (k - 1)%nat); auto. lia.
Qed.
(** a return value of 0 always means that the inverse was computed *)
Theorem trtri_zero_means_inverted ec u d A s n s' : u = Upper \/ u = Lower -> shape A n n -> vinj A ->
  trtri ec u d A s = Ok 0%Z s' -> inverse n (trim u d (val A s)) (trim u d (val A s')).
Proof.
  intros Hu HA HI K. destruct (trtri_cases ec u d A s n Hu HA HI) as [(s'' & K1 & _ & K3 & K4)|(k & s'' & K1 & (K2 & _) & _ & K5)].
  - assert (s'' = s') as -> by congruence. auto.
  - exfalso. destruct (throw_errors && ec); rewrite K in K5; [discriminate|]. injection K5. lia.
Qed.
(** a zero on the diagonal is reported with its position, when errors are not thrown *)
Theorem trtri_detects_zero ec u A s n k : u = Upper \/ u = Lower -> shape A n n -> vinj A -> throw_errors && ec = false ->
  first_zero_diagonal n k (val A s) ->
  returns (trtri ec u NonUnit A) s (fun info s' => info = Z.of_nat k /\ only_changes (cells A (in_triangle u)) s s').
Proof.
  intros Hu HA HI Ht Hk. destruct (trtri_cases ec u NonUnit A s n Hu HA HI) as [(s' & K1 & K2 & _)|(k' & s' & _ & Hk' & K3 & K4)].
  - exfalso. destruct Hk as (H1 & H2 & _). apply (K2 eq_refl (k - 1)%nat); auto. lia.
  - rewrite Ht in K4. exists (Z.of_nat k'), s'. split; auto. split.
    + f_equal. destruct Hk as (H1 & H2 & H3), Hk' as (H1' & H2' & H3').
      destruct (Nat.lt_trichotomy k k') as [|[|]]; auto; exfalso; [apply (H3' (k - 1)%nat)|apply (H3 (k' - 1)%nat)]; auto; lia.
    + destruct K3 as [K3 K3']. split; auto. intros l Hl. apply K3. intros (i & j & Hi & Hj & (Hr & _) & e). apply Hl. exists i, j. auto.
Qed.
(** ... and by an exception otherwise; but the exception always carries 1 *)
Theorem trtri_throws_on_zero u A s n k : u = Upper \/ u = Lower -> shape A n n -> vinj A -> throw_errors = true ->
  first_zero_diagonal n k (val A s) -> exists s', trtri true u NonUnit A s = Exn (RuntimeError 1) s' /\ only_changes (cells A (in_triangle u)) s s'.
Proof.
  intros Hu HA HI Ht Hk. destruct (trtri_cases true u NonUnit A s n Hu HA HI) as [(s' & K1 & K2 & _)|(k' & s' & _ & Hk' & K3 & K4)].
  - exfalso. destruct Hk as (H1 & H2 & _). apply (K2 eq_refl (k - 1)%nat); auto. lia.
  - rewrite Ht in K4. exists s'. split; auto.
    destruct K3 as [K3 K3']. split; auto. intros l Hl. apply K3. intros (i & j & Hi & Hj & (Hr & _) & e). apply Hl. exists i, j. auto.
Qed.
End S.

Section P.
Context {E : Env} {FL : FieldLaws E} {CL : ConjLaws E} {OL : ROrdLaws E} {QL : EqbLaws E}.
Add Field Tf2 : fth.
Implicit Types (A B : view) (s : state).

Lemma leff_sets u A n K s s' (G : nat -> nat -> T) : u = Upper \/ u = Lower -> shape A n n ->
  leff u A (repl K (lowf u (val A s))) s s' ->
  (forall i j, (i < n)%nat -> (j < n)%nat -> (j <= i)%nat -> K i j = match u with Upper => conj (G j i) | _ => G i j end) ->
  sets A (in_triangle u) G s s'.
Proof.
  intros Hu [H1 H2] HL HK. split.
  - intros i j Hi Hj Hp. destruct HL as (HL & _). rewrite HL by auto. unfold repl.
    destruct Hu; subst u; cbn [lowf in_triangle] in *.
    + destruct (Nat.leb_spec i j); [|lia]. rewrite HK by lia. apply conj_conj.
    + destruct (Nat.leb_spec j i); [|lia]. apply HK; lia.
  - apply (leff_changes u A _ s s' _ Hu HL ltac:(lia)). intros i j Hi Hj. unfold repl. destruct Hu; subst u; cbn [in_triangle].
    + destruct (Nat.leb_spec i j); auto.
    + destruct (Nat.leb_spec j i); auto.
Qed.
Lemma gram_up n (F : mat) i j : gram n (lowf Upper F) i j = conj (mmul n (trim Upper NonUnit F) (ctr (trim Upper NonUnit F)) j i).
Proof.
  rewrite mmul_conj. unfold gram, tl, lowf. apply mmul_ext2; intros l Hl; unfold ctr; rewrite <- trim_ctr, ?conj_conj; auto.
Qed.
Lemma outer_up n (F : mat) i j : outer n (lowf Upper F) i j = conj (mmul n (ctr (trim Upper NonUnit F)) (trim Upper NonUnit F) j i).
Proof.
  rewrite mmul_conj. unfold outer, tl, lowf. apply mmul_ext2; intros l Hl; unfold ctr; rewrite <- trim_ctr, ?conj_conj; auto.
Qed.

(** ** C22 *)
(** lauum: the triangle of U U^H (Upper) or L^H L (Lower) replaces the triangle of U or L *)
Theorem lauum_correct u A s n : u = Upper \/ u = Lower -> shape A n n -> vinj A ->
  returns (lauum u A) s (fun info s' => info = 0%Z /\ sets A (in_triangle u)
    match u with
    | Upper => mmul n (trim Upper NonUnit (val A s)) (ctr (trim Upper NonUnit (val A s)))
    | _ => mmul n (ctr (trim Lower NonUnit (val A s))) (trim Lower NonUnit (val A s))
    end s s').
Proof.
  intros Hu [H1 H2] HI. apply runs_inv. eapply wp_conseq; [apply (lauum_f_run u Hu (S (nr A)) A s); auto; lia| |auto].
  intros info s' [-> HL]. split; auto. eapply (leff_sets _ _ n); [auto|split; auto|exact HL|]. rewrite H1. intros i j Hi Hj Hij.
  destruct Hu; subst u; [apply gram_up|auto].
Qed.
(** mult_llh: the lower triangle of L L^H replaces L *)
Theorem mult_llh_correct nx A s n : shape A n n -> vinj A -> (1 <= nx)%nat ->
  returns (mult_llh nx A) s (fun _ s' => sets A (in_triangle Lower)
    (mmul n (trim Lower NonUnit (val A s)) (ctr (trim Lower NonUnit (val A s)))) s s').
Proof.
  intros [H1 H2] HI Hnx. apply runs_inv. eapply wp_conseq; [apply (mult_f_run Lower nx ltac:(auto) Hnx (S (nr A)) A s); auto; lia| |auto].
  intros r s' HL. eapply (leff_sets _ _ n); [auto|split; auto|exact HL|]. rewrite H1. auto.
Qed.
(** mult_uhu: the upper triangle of U^H U replaces U *)
Theorem mult_uhu_correct nx A s n : shape A n n -> vinj A -> (1 <= nx)%nat ->
  returns (mult_uhu nx A) s (fun _ s' => sets A (in_triangle Upper)
    (mmul n (ctr (trim Upper NonUnit (val A s))) (trim Upper NonUnit (val A s))) s s').
Proof.
  intros [H1 H2] HI Hnx. apply runs_inv. eapply wp_conseq; [apply (mult_f_run Upper nx ltac:(auto) Hnx (S (nr A)) A s); auto; lia| |auto].
  intros r s' HL. eapply (leff_sets _ _ n); [auto|split; auto|exact HL|]. rewrite H1. intros. apply outer_up.
Qed.

(** ** C23 *)
Lemma herm_of_tri u n (F G : mat) i j : u = Upper \/ u = Lower -> hermitian n G -> (i < n)%nat -> (j < n)%nat ->
  (forall a b, (a < n)%nat -> (b < n)%nat -> in_triangle u a b -> F a b = G a b) -> herm u F i j = G i j.
Proof.
  intros Hu HG Hi Hj HF. unfold herm. destruct (Nat.eqb_spec i j) as [->|Hn].
  - rewrite HF; auto; [|destruct Hu; subst u; cbn; lia]. apply re_idem. symmetry. apply HG; auto.
  - destruct Hu; subst u; cbn [intri in_triangle] in *.
    + destruct (Nat.leb_spec i j); [apply HF; auto|]. rewrite HF by lia. symmetry. apply HG; auto.
    + destruct (Nat.leb_spec j i); [apply HF; auto|]. rewrite HF by lia. symmetry. apply HG; auto.
Qed.
(** potri: a Hermitian positive definite matrix is replaced by its inverse *)
Theorem potri_correct u A s n : u = Upper \/ u = Lower -> shape A n n -> vinj A -> posdef n (herm u (val A s)) ->
  returns (potri u A) s (fun _ s' => inverse n (herm u (val A s)) (herm u (val A s')) /\ only_changes (cells A (in_triangle u)) s s').
Proof.
  intros Hu HA HI HP.
  destruct (potrf_factorizes PRecursive 1 true u A s n Hu HA HI ltac:(lia) HP) as (i1 & s1 & K1 & -> & [F0 F1] & C1).
  destruct (trtri_inverts true u NonUnit A s1 n Hu HA HI) as (i2 & s2 & K2 & -> & F2 & C2).
  { intros _ j Hj. apply pos_neq_0. apply F0; auto. }
  destruct (lauum_correct u A s2 n Hu HA HI) as (i3 & s3 & K3 & -> & F3 & C3).
  assert (Hr : potri u A s = Ok tt s3).
  { unfold potrf in K1. unfold potri. unfold bind in *. unfold check in *.
    replace (uplo2 u) with true in * by (destruct Hu; subst u; auto). destruct HA as [H1 H2]. rewrite H1, H2, Nat.eqb_refl, !andb_false_r in *.
    unfold ret in *. rewrite K1, K2, K3. auto. }
  exists tt, s3. split; auto. split.
  - destruct HA as [H1 H2]. set (X := trim u NonUnit (val A s2)) in *. set (F := trim u NonUnit (val A s1)) in *.
    set (G := match u with Upper => mmul n X (ctr X) | _ => mmul n (ctr X) X end).
    assert (HG : hermitian n G).
    { intros i j Hi Hj. unfold G. destruct u; rewrite mmul_conj; apply mmul_ext2; intros l Hl; unfold ctr; rewrite ?conj_conj; auto. }
    assert (HF3 : forall i j, (i < n)%nat -> (j < n)%nat -> herm u (val A s3) i j = G i j).
    { intros i j Hi Hj. apply (herm_of_tri u n); auto. intros a b Ha Hb Hab. rewrite F3 by (auto; lia). unfold G, X. destruct Hu; subst u; auto. }
    assert (HH : forall i j, (i < n)%nat -> (j < n)%nat -> herm u (val A s) i j = match u with Upper => mmul n (ctr F) F i j | _ => mmul n F (ctr F) i j end).
    { intros i j Hi Hj. symmetry. unfold F. destruct Hu; subst u; apply F1; auto. }
    assert (Hctr : forall i j, (i < n)%nat -> (j < n)%nat -> mmul n (ctr F) (ctr X) i j = idm i j /\ mmul n (ctr X) (ctr F) i j = idm i j).
    { intros i j Hi Hj. destruct (F2 j i Hj Hi) as [Ka Kb]. 
      assert (Hid : conj (idm j i) = idm i j) by (unfold idm; rewrite (Nat.eqb_sym j i); destruct (i =? j)%nat; [apply conj_1|apply conj_0]).
      split; rewrite <- Hid; [rewrite <- Kb|rewrite <- Ka]; rewrite mmul_conj; reflexivity. }
    (* (P Q) (Q' P') = I when Q Q' = I and P P' = I *)
    assert (Hmul : forall P Q Q' P' : mat, (forall a b, (a < n)%nat -> (b < n)%nat -> mmul n Q Q' a b = idm a b) -> (forall a b, (a < n)%nat -> (b < n)%nat -> mmul n P P' a b = idm a b) ->
       forall i j, (i < n)%nat -> (j < n)%nat -> mmul n (mmul n P Q) (mmul n Q' P') i j = idm i j).
    { intros P Q Q' P' HQ HPp i j Hi Hj. rewrite <- mmul_assoc.
      rewrite (mmul_ext n P _ P P'); auto. intros l Hl.
      rewrite mmul_assoc. rewrite (mmul_ext n _ P' idm P') by auto. apply mmul_id_l; auto. }
    intros i j Hi Hj. split.
    + rewrite (mmul_ext2 n _ (match u with Upper => mmul n (ctr F) F | _ => mmul n F (ctr F) end) _ G) by (intros; first [apply HF3; auto|rewrite HH by auto; destruct u; auto]). unfold G. destruct Hu; subst u.
      * apply Hmul; auto; intros; [apply F2|apply Hctr]; auto.
      * apply Hmul; auto; intros; [apply Hctr|apply F2]; auto.
    + rewrite (mmul_ext2 n _ G _ (match u with Upper => mmul n (ctr F) F | _ => mmul n F (ctr F) end)) by (intros; first [apply HF3; auto|rewrite HH by auto; destruct u; auto]).
      unfold G. destruct Hu; subst u.
      * apply Hmul; auto; intros; [apply Hctr|apply F2]; auto.
      * apply Hmul; auto; intros; [apply F2|apply Hctr]; auto.
  - destruct C1 as [C1 C1'], C2 as [C2 C2'], C3 as [C3 C3']. split; [|congruence]. intros l Hl. rewrite C3, C2; auto.
    intros (a & b & Ha & Hb & [Hr' _] & e). apply Hl. exists a, b. auto.
Qed.
End P.

Section Pn.
Context {E : Env} {FL : FieldLaws E} {CL : ConjLaws E} {OL : ROrdLaws E} {QL : EqbLaws E}.
Implicit Types (A B : view) (s : state).
(** when errors are thrown, a matrix that is not positive definite is reported with the order of the first
    leading principal submatrix that is not *)
Theorem potri_throws u A s n : u = Upper \/ u = Lower -> shape A n n -> vinj A -> throw_errors = true -> ~ posdef n (herm u (val A s)) ->
  exists k s', potri u A s = Exn (RuntimeError (Z.of_nat k)) s' /\ first_not_posdef n k (herm u (val A s)) /\ only_changes (cells A (in_triangle u)) s s'.
Proof.
  intros Hu HA HI Ht HN.
  destruct (potrf_throws_order PRecursive 1 true u A s n Hu HA HI ltac:(lia)) as (k & s' & K1 & Hk & Hc); auto.
  { rewrite Ht. reflexivity. }
  exists k, s'. split; auto.
  unfold potrf in K1. unfold potri. unfold bind in *. unfold check in *.
  replace (uplo2 u) with true in * by (destruct Hu; subst u; auto). destruct HA as [H1 H2]. rewrite H1, H2, Nat.eqb_refl, !andb_false_r in *.
  unfold ret in *. rewrite K1. auto.
Qed.
End Pn.

(** ** Examples and findings *)
(** upper triangular [2 i; . 4], junk elsewhere *)
Definition exT : view := lview (mklmat 2 2 100 3 ColMajor).
Definition exT_s : @state CE := mkst CE (fun l => if (l =? 100)%Z then c 2 0 else if (l =? 103)%Z then c 0 1 else if (l =? 104)%Z then c 4 0 else c 77 7) (fun _ => 0%Z).
#[global] Hint Unfold exT : exv.
Example trtri_inverts_example : returns (trtri (E:=CE) true Upper NonUnit exT) exT_s (fun info s' => info = 0%Z /\
   inverse (E:=CE) 2 (trim Upper NonUnit (val exT exT_s)) (trim Upper NonUnit (val exT s')) /\ only_changes (cells exT (referenced Upper NonUnit)) exT_s s').
Proof.
  apply (trtri_inverts (E:=CE)); auto; try exv. intros _ j Hj e. destruct j as [|[|]]; [| |lia]; cbn in e; injection e; lra.
Qed.
Example lauum_correct_example : returns (lauum (E:=CE) Upper exT) exT_s (fun info s' => val exT s' 0 0 = c 5 0 /\ val exT s' 0 1 = c 0 4 /\ val exT s' 1 0 = c 77 7).
Proof.
  destruct (lauum_correct (E:=CE) Upper exT exT_s 2) as (info & s' & K & -> & H1 & H2 & _); auto; try exv.
  exists 0%Z, s'. split; auto.
  assert (R1 := H1 0%nat 0%nat ltac:(cbn; lia) ltac:(cbn; lia) ltac:(cbn; lia)). assert (R2 := H1 0%nat 1%nat ltac:(cbn; lia) ltac:(cbn; lia) ltac:(cbn; lia)).
  split; [rewrite R1|split; [rewrite R2|]].
  - cbn. unfold c. f_equal; cbn; ring.
  - cbn. unfold c. f_equal; cbn; ring.
  - change (mem s' (ad exT 1 0) = c 77 7). rewrite H2; [reflexivity|]. intros (i & j & Hi & Hj & Hp & e). cbn [exT nr nc lview lm ln] in Hi, Hj. destruct i as [|[|]], j as [|[|]]; try lia; cbn in Hp, e; try lia.
Qed.
Example mult_uhu_correct_example nx : (1 <= nx)%nat -> returns (mult_uhu (E:=CE) nx exT) exT_s (fun _ s' => val exT s' 1 1 = c 17 0).
Proof.
  intros Hnx. destruct (mult_uhu_correct (E:=CE) nx exT exT_s 2) as (info & s' & K & H1 & _); auto; try exv.
  exists info, s'. split; auto. rewrite H1 by (cbn; lia). cbn. unfold c. f_equal; cbn; ring.
Qed.
Example mult_llh_correct_example nx : (1 <= nx)%nat -> returns (mult_llh (E:=CE) nx exT) exT_s (fun _ s' => val exT s' 0 0 = c 4 0 /\ val exT s' 1 0 = c 154 14).
Proof.
  intros Hnx. destruct (mult_llh_correct (E:=CE) nx exT exT_s 2) as (info & s' & K & H1 & _); auto; try exv.
  exists info, s'. split; auto. rewrite !H1 by (cbn; lia). cbn. unfold c. split; f_equal; cbn; ring.
Qed.
Example potri_correct_example : returns (potri (E:=CE) Upper exH) exH_s (fun _ s' => inverse (E:=CE) 2 (herm Upper (val exH exH_s)) (herm Upper (val exH s')) /\
   only_changes (cells exH (in_triangle Upper)) exH_s s').
Proof. apply (potri_correct (E:=CE)); auto; try exv. apply exH_posdef. Qed.
Example potri_throws_example : exists k s', potri (E:=RE) Lower exH (exN_s RE) = Exn (RuntimeError (Z.of_nat k)) s' /\
   first_not_posdef (E:=RE) 2 k (herm Lower (val exH (exN_s RE))) /\ only_changes (cells exH (in_triangle Lower)) (exN_s RE) s'.
Proof. apply (potri_throws (E:=RE)); auto; try exv. apply (exN_first Lower). auto. Qed.

(** diag(1,0) *)
Definition exZ_s (E : Env) : @state E := mkst E (fun l => if (l =? 100)%Z then one else zero) (fun _ => 0%Z).
Lemma exZ_zero : first_zero_diagonal (E:=RE) 2 2 (val exT (exZ_s RE)).
Proof. split; [lia|]. split; [reflexivity|]. intros j Hj. replace j with 0%nat by lia. cbn. lra. Qed.
Example trtri_detects_zero_example : returns (trtri (E:=quiet RE) true Lower NonUnit exT) (exZ_s (quiet RE)) (fun info s' => info = 2%Z /\ only_changes (cells exT (in_triangle Lower)) (exZ_s (quiet RE)) s').
Proof. apply (trtri_detects_zero (E:=quiet RE) true Lower exT (exZ_s (quiet RE)) 2 2); auto; try exv. exact exZ_zero. Qed.
(** the second diagonal element is the first zero, but the exception says 1 *)
Theorem trtri_exception_position_refuted :
  exists (A : view) (s s' : @state RE), shape A 2 2 /\ vinj A /\ first_zero_diagonal (E:=RE) 2 2 (val A s) /\
    trtri (E:=RE) true Lower NonUnit A s = Exn (RuntimeError 1) s'.
Proof.
  destruct (trtri_throws_on_zero (E:=RE) Lower exT (exZ_s RE) 2 2) as (s' & K & _); auto; try exv; [apply exZ_zero|].
  exists exT, (exZ_s RE), s'. split; [exv|]. split; [exv|]. split; [apply exZ_zero|exact K].
Qed.
(** when errors are not thrown, potri returns normally although the matrix (the 1-by-1 matrix -1) is not
    positive definite, and leaves a matrix that is not the inverse *)
Theorem potri_quiet_refuted :
  exists (A : view) (s s' : @state (quiet RE)), shape A 1 1 /\ vinj A /\ ~ posdef (E:=quiet RE) 1 (herm Lower (val A s)) /\
    potri (E:=quiet RE) Lower A s = Ok tt s' /\ val A s 0 0 = (-1)%R /\ val A s' 0 0 = 1%R.
Proof.
  set (A := lview (mklmat 1 1 0 1 ColMajor)). set (s := mkst (quiet RE) (fun _ => (-1)%R) (fun _ => 0%Z)).
  assert (H1 : Rltb 0 (-1) = false) by (unfold Rltb; destruct (Rlt_dec 0 (-1)); auto; lra).
  assert (H2 : Reqb (-1) 0 = false) by (unfold Reqb; destruct (Req_EM_T (-1) 0); auto; lra).
  eexists A, s, _. split; [split; reflexivity|]. split; [intros a b p q; cbn; lia|]. split; [|split; [|split]].
  - intros HP. specialize (HP (fun _ => 1%R)). assert (K : Rltb 0 (@qform (quiet RE) 1 (herm Lower (val A s)) (fun _ => 1%R)) = true).
    { apply HP. exists 0%nat. split; [lia|]. change (1 <> 0)%R. lra. }
    apply Rltb_t in K. cbn in K. lra.
  - cbn. unfold bind, check. cbn. unfold ret. cbn. rewrite H1. cbn. rewrite H2. cbn. reflexivity.
  - reflexivity.
  - cbn. field.
Qed.
