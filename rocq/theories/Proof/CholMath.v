(** The mathematics of Cholesky factorization *)
From Coq Require Import Bool Arith Lia Ring Field.
From Verif.Core Require Import Scalar.
From Verif.Spec Require Import LinAlg PosDef.
From Verif.Proof Require Import SumLemmas OrdLemmas Tactics.
Local Open Scope T_scope.

Section Chol.
Context {E : Env} {FL : FieldLaws E} {CL : ConjLaws E} {OL : ROrdLaws E} {QL : EqbLaws E}.
Add Field Tf : fth.
Implicit Types (H L S : mat).

(** the first k columns (rows < n) of L are Cholesky columns of H *)
Definition pchol (k n : nat) (L H : mat) : Prop := forall j, (j < k)%nat ->
  conj (L j j) = L j j /\ ltb 0 (L j j) = true /\
  forall i, (j <= i < n)%nat -> H i j = sum (S j) (fun l => L i l * conj (L j l)).
(** pivot k (0-based) of H is not positive *)
Definition chfail (k : nat) (H : mat) : Prop :=
  exists L, pchol k (S k) L H /\ ltb 0 (H k k - sum k (fun l => L k l * conj (L k l))) = false.

Lemma pchol_ext k n L L' H H' : pchol k n L H -> (k <= n)%nat ->
  (forall i l, (l <= i < n)%nat -> (l < k)%nat -> L i l = L' i l) ->
  (forall i l, (l <= i < n)%nat -> (l < k)%nat -> H i l = H' i l) -> pchol k n L' H'.
Proof.
  intros HP Hkn HL HH j Hj. destruct (HP j Hj) as (H1 & H2 & H3). rewrite <- !(HL j j) by lia.
  repeat split; auto. intros i Hi. rewrite <- HH by lia. rewrite H3 by auto.
  apply sum_ext. intros l Hl. rewrite !HL by lia. auto.
Qed.
Lemma pchol_le k n k' n' L H : pchol k n L H -> (k' <= k)%nat -> (n' <= n)%nat -> pchol k' n' L H.
Proof. intros HP Hk Hn j Hj. destruct (HP j ltac:(lia)) as (H1 & H2 & H3). repeat split; auto. intros; apply H3; lia. Qed.
Lemma chfail_ext k H H' : chfail k H -> (forall i l, (l <= i <= k)%nat -> H i l = H' i l) -> chfail k H'.
Proof.
  intros (L & HP & HF) He. exists L. split; [|rewrite <- He by lia; auto].
  eapply pchol_ext; [exact HP|lia|auto|]. intros; apply He; lia.
Qed.

(** ** blocks *)
Definition schur (n1 : nat) (L H : mat) : mat := fun i j =>
  H (n1 + i)%nat (n1 + j)%nat - sum n1 (fun l => L (n1 + i)%nat l * conj (L (n1 + j)%nat l)).
Definition glue (n1 : nat) (L1 L2 : mat) : mat := fun i l => if (l <? n1)%nat then L1 i l else L2 (i - n1)%nat (l - n1)%nat.
Lemma glue_lo n1 L1 L2 i l : (l < n1)%nat -> glue n1 L1 L2 i l = L1 i l.
Proof. intros Hl. unfold glue. rewrite (proj2 (Nat.ltb_lt _ _) Hl). auto. Qed.
Lemma glue_hi n1 L1 L2 i l : glue n1 L1 L2 (n1 + i)%nat (n1 + l)%nat = L2 i l.
Proof. unfold glue. rewrite (proj2 (Nat.ltb_ge _ _)) by lia. f_equal; lia. Qed.
Lemma pchol_app n1 n k m L1 L2 H : pchol n1 n L1 H -> pchol k m L2 (schur n1 L1 H) -> (n1 + m <= n)%nat ->
  pchol (n1 + k) (n1 + m) (glue n1 L1 L2) H.
Proof.
  intros HP1 HP2 Hn j Hj. destruct (Nat.lt_ge_cases j n1) as [Hl|Hl].
  - destruct (HP1 j Hl) as (K1 & K2 & K3). rewrite !glue_lo by auto. repeat split; auto.
    intros i Hi. rewrite K3 by lia. apply sum_ext. intros l Hl'. rewrite !glue_lo by lia. auto.
  - destruct (HP2 (j - n1)%nat ltac:(lia)) as (K1 & K2 & K3).
    replace j with (n1 + (j - n1))%nat by lia. rewrite !glue_hi. repeat split; auto.
    intros i Hi. replace i with (n1 + (i - n1))%nat by lia. set (i' := (i - n1)%nat) in *. set (j' := (j - n1)%nat) in *.
    specialize (K3 i' ltac:(lia)). unfold schur in K3.
    replace (S (n1 + j')) with (n1 + S j')%nat by lia. rewrite sum_split.
    rewrite (sum_ext n1 _ (fun l => L1 (n1 + i')%nat l * conj (L1 (n1 + j')%nat l))) by (intros; rewrite !glue_lo by lia; auto).
    rewrite (sum_ext (S j') _ (fun l => L2 i' l * conj (L2 j' l))) by (intros; rewrite !glue_hi; auto).
    rewrite <- K3. ring.
Qed.
Lemma chfail_app n1 n k L1 H : pchol n1 n L1 H -> chfail k (schur n1 L1 H) -> (n1 + k < n)%nat -> chfail (n1 + k) H.
Proof.
  intros HP1 (L2 & HP2 & HF) Hn. exists (glue n1 L1 L2). split.
  - replace (S (n1 + k)) with (n1 + S k)%nat by lia. apply pchol_app with n; auto; lia.
  - rewrite <- HF. f_equal. unfold schur. rewrite sum_split.
    rewrite (sum_ext n1 _ (fun l => L1 (n1 + k)%nat l * conj (L1 (n1 + k)%nat l))) by (intros; rewrite !glue_lo by lia; auto).
    rewrite (sum_ext k _ (fun l => L2 k l * conj (L2 k l))) by (intros; rewrite !glue_hi; auto). ring.
Qed.

(** ** the quadratic form *)
Definition lowz (L : mat) : mat := fun i l => if (l <=? i)%nat then L i l else 0.
(** with a remainder d on the last diagonal entry *)
Lemma qform_fact k n L H (d : T) x : hermitian (n + k) H -> pchol n (n + k) L H -> (k = 0 \/ k = 1)%nat ->
  (k = 1%nat -> H n n = sum n (fun l => L n l * conj (L n l)) + d) ->
  let y := fun l => sum (n + k) (fun i => conj (x i) * lowz L i l) in
  qform (n + k) H x = sum n (fun l => y l * conj (y l)) + (if (k =? 1)%nat then d * (x n * conj (x n)) else 0).
Proof.
  intros Hh HP Hk Hd y.
  assert (HH : forall i j, (i < n + k)%nat -> (j < n + k)%nat ->
     H i j = sum n (fun l => lowz L i l * conj (lowz L j l)) + (if (i =? n)%nat && (j =? n)%nat then d else 0)).
  { assert (Hlow : forall i j, (i < n + k)%nat -> (j <= i)%nat ->
      H i j = sum n (fun l => lowz L i l * conj (lowz L j l)) + (if (i =? n)%nat && (j =? n)%nat then d else 0)).
    { intros i j Hi Hj. destruct (Nat.lt_ge_cases j n) as [Hl|Hl].
      - rewrite (proj2 (Nat.eqb_neq j n)) by lia. rewrite andb_false_r.
        destruct (HP j Hl) as (_ & _ & K). rewrite K by lia.
        rewrite (sum_trunc (S j) n) by (try lia; intros l Hl'; unfold lowz; rewrite (proj2 (Nat.leb_gt l j)) by lia; rewrite conj_0; ring).
        transitivity (sum (S j) (fun l => lowz L i l * conj (lowz L j l))); [|ring].
        apply sum_ext. intros l Hl'. unfold lowz. rewrite !(proj2 (Nat.leb_le _ _)) by lia. auto.
      - assert (k = 1%nat /\ i = n /\ j = n) as (-> & -> & ->) by lia. rewrite Nat.eqb_refl. cbn [andb].
        rewrite Hd by auto. f_equal. apply sum_ext. intros l Hl'. unfold lowz. rewrite !(proj2 (Nat.leb_le _ _)) by lia. auto. }
    intros i j Hi Hj. destruct (Nat.le_ge_cases j i) as [Hl|Hl]; [apply Hlow; auto|].
    rewrite Hh by auto. rewrite Hlow by auto. rewrite conj_add, sum_conj. f_equal.
    - apply sum_ext. intros l Hl'. rewrite conj_mul, conj_conj. ring.
    - rewrite andb_comm. destruct (Nat.eqb_spec i n), (Nat.eqb_spec j n); cbn [andb]; auto using conj_0.
      assert (k = 1%nat) as K1 by lia. assert (e9 := Hh n n ltac:(lia) ltac:(lia)). rewrite Hd in e9 by auto.
      rewrite conj_add, (real_sum n) in e9 by (intros; apply real_norm).
      transitivity (sum n (fun l => L n l * conj (L n l)) + conj d - sum n (fun l => L n l * conj (L n l))); [ring|].
      rewrite <- e9. ring. }
  unfold qform.
  rewrite (sum_ext (n + k) _ (fun i => sum (n + k) (fun j => sum n (fun l => (conj (x i) * lowz L i l) * conj (conj (x j) * lowz L j l))
             + conj (x i) * (if (i =? n)%nat && (j =? n)%nat then d else 0) * x j))).
  2:{ intros i Hi. apply sum_ext. intros j Hj. rewrite HH by auto.
      rewrite (sum_ext n (fun l => (conj (x i) * lowz L i l) * conj (conj (x j) * lowz L j l)) (fun l => (conj (x i) * x j) * (lowz L i l * conj (lowz L j l)))) by (intros; rewrite conj_mul, conj_conj; ring).
      rewrite sum_scal_l. ring. }
  rewrite (sum_ext (n + k) _ (fun i => sum (n + k) (fun j => sum n (fun l => (conj (x i) * lowz L i l) * conj (conj (x j) * lowz L j l)))
       + sum (n + k) (fun j => conj (x i) * (if (i =? n)%nat && (j =? n)%nat then d else 0) * x j))) by (intros; apply sum_plus).
  rewrite sum_plus. f_equal.
  - rewrite (sum_ext (n + k) _ (fun i => sum n (fun l => sum (n + k) (fun j => (conj (x i) * lowz L i l) * conj (conj (x j) * lowz L j l))))) by (intros; apply sum_swap).
    rewrite sum_swap. apply sum_ext. intros l Hl.
    rewrite (sum_ext (n + k) _ (fun i => (conj (x i) * lowz L i l) * conj (y l))).
    + rewrite sum_scal_r. reflexivity.
    + intros i Hi. rewrite sum_scal_l. unfold y. rewrite sum_conj. reflexivity.
  - destruct Hk as [-> | ->]; cbn [Nat.eqb].
    + apply sum_0. intros i Hi. apply sum_0. intros j Hj. rewrite (proj2 (Nat.eqb_neq i n)) by lia. cbn [andb]. ring.
    + rewrite (sum_single _ n) by (try lia; intros i Hi Hin; apply sum_0; intros j Hj; rewrite (proj2 (Nat.eqb_neq i n)) by lia; cbn [andb]; ring).
      rewrite (sum_single _ n) by (try lia; intros j Hj Hjn; rewrite (proj2 (Nat.eqb_neq j n)) by lia; rewrite andb_false_r; ring).
      rewrite Nat.eqb_refl. cbn [andb]. ring.
Qed.

(** a factorization proves positive definiteness *)
Lemma pchol_posdef n L H : hermitian n H -> pchol n n L H -> posdef n H.
Proof.
  intros Hh HP x Hx.
  assert (Hq := qform_fact 0 n L H 0 x). rewrite Nat.add_0_r in Hq. cbn [Nat.eqb] in Hq.
  specialize (Hq Hh HP (or_introl eq_refl) ltac:(lia)). cbv zeta in Hq. rewrite Hq. clear Hq.
  set (y := fun l => sum n (fun i => conj (x i) * lowz L i l)).
  change (ltb 0 (sum n (fun l => y l * conj (y l)) + 0) = true).
  replace (sum n (fun l => y l * conj (y l)) + 0) with (sum n (fun l => y l * conj (y l))) by ring.
  assert (Hmax : exists l, (l < n)%nat /\ x l <> 0 /\ forall i, (l < i < n)%nat -> x i = 0).
  { clear -Hx QL. revert Hx. induction n as [|m IH]; intros (i & Hi & Hxi); [lia|].
    destruct (eq0_dec (x m)) as [e|ne].
    - destruct IH as (l & Hl & Hxl & Hz).
      + exists i. split; auto. assert (i <> m) by (intros ->; auto). lia.
      + exists l. repeat split; auto. intros i' Hi'. destruct (Nat.eq_dec i' m) as [->|]; auto. apply Hz; lia.
    - exists m. repeat split; auto. intros; lia. }
  destruct Hmax as (l & Hl & Hxl & Hz).
  apply (pos_sum n _ l Hl); [intros; apply nonneg_norm|].
  apply norm_pos. unfold y.
  rewrite (sum_single n l) by (auto; intros i Hi Hil; (destruct (Nat.lt_ge_cases l i);
    [rewrite Hz by lia; rewrite conj_0; ring|unfold lowz; rewrite (proj2 (Nat.leb_gt l i)) by lia; ring])).
  unfold lowz. rewrite (proj2 (Nat.leb_le l l)) by lia.
  apply mul_neq_0; [apply conj_neq_0; auto|]. apply pos_neq_0. apply (HP l Hl).
Qed.

(** triangular systems have solutions *)
Lemma tri_solve n (L : mat) (b : nat -> T) : (forall l, (l < n)%nat -> L l l <> 0) ->
  exists z, forall l, (l < n)%nat -> sum n (fun i => z i * lowz L i l) = b l.
Proof.
  revert b. induction n as [|n IH]; intros b Hd; [exists (fun _ => 0); intros; lia|].
  destruct (IH (fun l => b l - b n / L n n * L n l)) as (z & Hz); [intros; apply Hd; lia|].
  exists (fun i => if (i =? n)%nat then b n / L n n else z i). intros l Hl. cbn [sum]. rewrite Nat.eqb_refl.
  rewrite (sum_ext n _ (fun i => z i * lowz L i l)) by (intros; rewrite (proj2 (Nat.eqb_neq k n)) by lia; auto).
  destruct (Nat.eq_dec l n) as [->|Hne].
  - rewrite sum_0 by (intros; unfold lowz; rewrite (proj2 (Nat.leb_gt n k)) by lia; ring).
    unfold lowz. rewrite Nat.leb_refl. field. apply Hd; lia.
  - rewrite Hz by lia. unfold lowz. rewrite (proj2 (Nat.leb_le l n)) by lia. ring.
Qed.
(** a non-positive pivot disproves positive definiteness *)
Lemma chfail_not_posdef k H : hermitian (S k) H -> chfail k H -> ~ posdef (S k) H.
Proof.
  intros Hh (L & HP & HF) HD.
  set (d := H k k - sum k (fun l => L k l * conj (L k l))) in *.
  destruct (tri_solve k L (fun l => - L k l)) as (z & Hz).
  { intros l Hl. apply pos_neq_0. apply (HP l Hl). }
  set (x := fun i => if (i =? k)%nat then 1 else conj (z i)).
  assert (Hq := qform_fact 1 k L H d x). rewrite Nat.add_1_r in Hq. cbn [Nat.eqb] in Hq.
  specialize (Hq Hh HP (or_intror eq_refl) ltac:(intros _; unfold d; ring)). cbv zeta in Hq.
  rewrite sum_0 in Hq.
  - assert (ltb 0 (qform (S k) H x) = true) as Hp.
    { apply HD. exists k. split; [lia|]. unfold x. rewrite Nat.eqb_refl. apply one_neq_0. }
    rewrite Hq in Hp. unfold x in Hp. rewrite Nat.eqb_refl, conj_1 in Hp.
    replace (0 + d * (1 * 1)) with d in Hp by ring. congruence.
  - intros l Hl. replace (sum (S k) (fun i => conj (x i) * lowz L i l)) with (0 : T); [ring|]. cbn [sum].
    rewrite (sum_ext k _ (fun i => z i * lowz L i l)) by (intros; unfold x; rewrite (proj2 (Nat.eqb_neq k0 k)) by lia; rewrite conj_conj; auto).
    rewrite Hz by auto. unfold x, lowz. rewrite Nat.eqb_refl, (proj2 (Nat.leb_le l k)) by lia. rewrite conj_1. ring.
Qed.
Lemma posdef_le k n H : posdef n H -> (k <= n)%nat -> posdef k H.
Proof.
  intros HP Hk x (i & Hi & Hx).
  assert (K := HP (fun i => if (i <? k)%nat then x i else 0)).
  replace (qform k H x) with (qform n H (fun i => if (i <? k)%nat then x i else 0)).
  { apply K. exists i. split; [lia|]. rewrite (proj2 (Nat.ltb_lt i k)) by lia. auto. }
  unfold qform. rewrite (sum_trunc k n) by (auto; intros a Ha; apply sum_0; intros b Hb; rewrite (proj2 (Nat.ltb_ge a k)) by lia; rewrite conj_0; ring).
  apply sum_ext. intros a Ha. rewrite (sum_trunc k n) by (auto; intros b Hb; rewrite (proj2 (Nat.ltb_ge b k)) by lia; ring).
  apply sum_ext. intros b Hb. rewrite !(proj2 (Nat.ltb_lt _ _)) by lia. auto.
Qed.
Lemma chfail_posdef k H : hermitian (S k) H -> chfail k H -> posdef k H.
Proof.
  intros Hh (L & HP & _). apply (pchol_posdef k L); [intros i j Hi Hj; apply Hh; lia|].
  eapply pchol_le; [exact HP|lia|lia].
Qed.
(** uniqueness of the factor *)
Lemma pchol_unique k n L L' H : pchol k n L H -> pchol k n L' H -> (k <= n)%nat ->
  forall j i, (j < k)%nat -> (j <= i < n)%nat -> L i j = L' i j.
Proof.
  intros HP HP' Hkn. induction j as [j IH] using lt_wf_ind. intros i Hj Hi.
  destruct (HP j Hj) as (R1 & P1 & K1), (HP' j Hj) as (R2 & P2 & K2).
  assert (Hs : forall i, (j <= i < n)%nat -> sum j (fun l => L i l * conj (L j l)) = sum j (fun l => L' i l * conj (L' j l))).
  { intros a Ha. apply sum_ext. intros l Hl. rewrite !(IH l) by lia. auto. }
  assert (Hq : forall i, (j <= i < n)%nat -> L i j * conj (L j j) = L' i j * conj (L' j j)).
  { intros a Ha. assert (e1 := K1 a Ha). assert (e2 := K2 a Ha). cbn [sum] in e1, e2. rewrite Hs in e1 by auto.
    transitivity (H a j - sum j (fun l => L' a l * conj (L' j l))); [rewrite e1; ring|rewrite e2; ring]. }
  assert (Hjj : L j j = L' j j).
  { apply sq_inj; [apply nonneg_pos; auto..|]. specialize (Hq j ltac:(lia)). rewrite R1, R2 in Hq. auto. }
  specialize (Hq i Hi). rewrite R1, R2, Hjj in Hq. assert (N := pos_neq_0 _ P2).
  transitivity (L i j * L' j j / L' j j); [field; auto|]. rewrite Hq. field; auto.
Qed.

(** ** stored factors *)
Definition lowf (u : uplo_t) (F : mat) : mat := fun i j => match u with Upper => conj (F j i) | _ => F i j end.
Lemma herm_low u F i j : u = Upper \/ u = Lower -> (j < i)%nat -> herm u F i j = lowf u F i j.
Proof.
  intros Hu Hj. unfold herm. rewrite (proj2 (Nat.eqb_neq i j)) by lia.
  destruct Hu; subst u; cbn [intri lowf]; [rewrite (proj2 (Nat.leb_gt i j)) by lia|rewrite (proj2 (Nat.leb_le j i)) by lia]; auto.
Qed.
Lemma herm_diag u F i : herm u F i i = re (F i i).
Proof. unfold herm. rewrite Nat.eqb_refl. auto. Qed.
Lemma herm_hermitian u F n : u = Upper \/ u = Lower -> hermitian n (herm u F).
Proof.
  intros Hu i j Hi Hj. unfold herm. rewrite (Nat.eqb_sym j i). destruct (Nat.eqb_spec i j) as [->|]; [symmetry; apply re_real|].
  destruct Hu; subst u; cbn [intri].
  - destruct (Nat.leb_spec i j), (Nat.leb_spec j i); try lia; rewrite ?conj_conj; auto.
  - destruct (Nat.leb_spec i j), (Nat.leb_spec j i); try lia; rewrite ?conj_conj; auto.
Qed.
Lemma pchol_full u F n H : u = Upper \/ u = Lower -> hermitian n H -> pchol n n (lowf u F) H ->
  forall i j, (i < n)%nat -> (j < n)%nat ->
  match u with
  | Upper => mmul n (ctr (trim Upper NonUnit F)) (trim Upper NonUnit F) i j = H i j
  | _ => mmul n (trim Lower NonUnit F) (ctr (trim Lower NonUnit F)) i j = H i j
  end.
Proof.
  intros Hu Hh HP.
  assert (Hlow : forall i j, (i < n)%nat -> (j <= i)%nat -> sum n (fun l => lowz (lowf u F) i l * conj (lowz (lowf u F) j l)) = H i j).
  { intros i j Hi Hj. destruct (HP j ltac:(lia)) as (_ & _ & K). rewrite K by lia.
    rewrite (sum_trunc (S j) n) by (try lia; intros l Hl'; unfold lowz; rewrite (proj2 (Nat.leb_gt l j)) by lia; rewrite conj_0; ring).
    apply sum_ext. intros l Hl'. unfold lowz. rewrite !(proj2 (Nat.leb_le _ _)) by lia. auto. }
  assert (Hall : forall i j, (i < n)%nat -> (j < n)%nat -> sum n (fun l => lowz (lowf u F) i l * conj (lowz (lowf u F) j l)) = H i j).
  { intros i j Hi Hj. destruct (Nat.le_ge_cases j i); [apply Hlow; auto|]. rewrite Hh by auto. rewrite <- Hlow by auto.
    rewrite sum_conj. apply sum_ext. intros. rewrite conj_mul, conj_conj. ring. }
  intros i j Hi Hj. destruct Hu; subst u; rewrite <- Hall by auto; apply sum_ext; intros l Hl; unfold ctr, trim, lowz, lowf; cbn [intri].
  - cases; rewrite ?conj_conj, ?conj_0; auto; f_equal; rewrite ?conj_conj; auto.
  - cases; rewrite ?conj_conj, ?conj_0; auto; f_equal; rewrite ?conj_conj; auto.
Qed.
End Chol.
