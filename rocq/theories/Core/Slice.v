(** * Checked sub-views

    [slice], [row], [col] of the code, with the range assertions of
    include/tlapack/plugins/legacyArray.hpp:200-290 (violating one is [UB]). *)
From Coq Require Import Bool Arith ZArith Lia.
From Verif.Core Require Import Scalar Prog View Rel.

(** elements [i0,i1) of column [j], as a vector; elements [j0,j1) of row [i], as a vector *)
Definition vcol (A : view) (i0 i1 j : nat) : view := mkview (i1 - i0) 1 (fun i _ => ad A (i0 + i) j).
Definition vrow (A : view) (i j0 j1 : nat) : view := mkview (j1 - j0) 1 (fun k _ => ad A i (j0 + k)).
(** elements [a,b) of a vector *)
Definition vsub (x : view) (a b : nat) : view := mkview (b - a) 1 (fun k _ => ad x (a + k) 0).

(** membership in a view is decidable *)
Lemma inview_dec A l : {inview A l} + {~ inview A l}.
Proof.
  assert (Hrow : forall i n, {exists j, j < n /\ ad A i j = l} + {~ exists j, j < n /\ ad A i j = l}).
  { intros i n. induction n as [|n [H|H]].
    - right. intros (j & Hj & _). lia.
    - left. destruct H as (j & Hj & e). exists j. auto.
    - destruct (Z.eq_dec (ad A i n) l) as [e|e].
      + left. exists n. auto.
      + right. intros (j & Hj & e'). destruct (Nat.eq_dec j n) as [->|]; [auto|]. apply H. exists j. split; auto. lia. }
  assert (Hall : forall m, {exists i, i < m /\ exists j, j < nc A /\ ad A i j = l} + {~ exists i, i < m /\ exists j, j < nc A /\ ad A i j = l}).
  { intros m. induction m as [|m [H|H]].
    - right. intros (j & Hj & _). lia.
    - left. destruct H as (j & Hj & e). exists j. auto.
    - destruct (Hrow m (nc A)) as [e|e].
      + left. exists m. auto.
      + right. intros (j & Hj & e'). destruct (Nat.eq_dec j m) as [->|]; [auto|]. apply H. exists j. split; auto. lia. }
  destruct (Hall (nr A)) as [H|H].
  - left. destruct H as (i & Hi & j & Hj & e). exists i, j. auto.
  - right. intros (i & j & Hi & Hj & e). apply H. exists i. split; auto. exists j. auto.
Qed.
Section Slice.
Context {E : Env}.
Implicit Types (v w : nat -> nat -> Prop).
Implicit Types (R : state -> state -> Prop).
(** slice(A, range{i0,i1}, range{j0,j1}): legacyArray.hpp:210-227, 401-418 *)
Definition slc (A : view) (i0 i1 j0 j1 : nat) : M view :=
  assert_ ((i0 <=? i1) && (i1 <=? nr A) && (j0 <=? j1) && (j1 <=? nc A));; ret (subv A i0 i1 j0 j1).
(** slice(A, range{i0,i1}, j): legacyArray.hpp:251-265, 442-456 *)
Definition slcol (A : view) (i0 i1 j : nat) : M view :=
  assert_ ((i0 <=? i1) && (i1 <=? nr A) && (j <? nc A));; ret (vcol A i0 i1 j).
(** slice(A, i, range{j0,j1}): legacyArray.hpp:233-247, 424-438 *)
Definition slrow (A : view) (i j0 j1 : nat) : M view :=
  assert_ ((i <? nr A) && (j0 <=? j1) && (j1 <=? nc A));; ret (vrow A i j0 j1).
(** slice(x, range{a,b}) of a vector: legacyArray.hpp:376-385, 564-573 *)
Definition slvec (x : view) (a b : nat) : M view :=
  assert_ ((a <=? b) && (b <=? nr x));; ret (vsub x a b).

Lemma slc_ret A i0 i1 j0 j1 : i0 <= i1 -> i1 <= nr A -> j0 <= j1 -> j1 <= nc A -> slc A i0 i1 j0 j1 = ret (subv A i0 i1 j0 j1).
Proof.
  intros H1 H2 H3 H4. unfold slc.
  replace ((i0 <=? i1) && (i1 <=? nr A) && (j0 <=? j1) && (j1 <=? nc A)) with true; [reflexivity|].
  symmetry. rewrite !andb_true_iff, !Nat.leb_le. auto.
Qed.
Lemma wp_slc A i0 i1 j0 j1 (Q : view -> state -> Prop) X s :
  i0 <= i1 -> i1 <= nr A -> j0 <= j1 -> j1 <= nc A -> Q (subv A i0 i1 j0 j1) s -> wp (slc A i0 i1 j0 j1) Q X s.
Proof.
  intros H1 H2 H3 H4 H. apply wp_bind, wp_assert; [|exact H]. rewrite !andb_true_iff, !Nat.leb_le. auto.
Qed.
Lemma wp_slcol A i0 i1 j (Q : view -> state -> Prop) X s :
  i0 <= i1 -> i1 <= nr A -> j < nc A -> Q (vcol A i0 i1 j) s -> wp (slcol A i0 i1 j) Q X s.
Proof. intros H1 H2 H3 H. apply wp_bind, wp_assert; [|exact H]. rewrite !andb_true_iff, !Nat.leb_le, Nat.ltb_lt. auto. Qed.
Lemma wp_slrow A i j0 j1 (Q : view -> state -> Prop) X s :
  i < nr A -> j0 <= j1 -> j1 <= nc A -> Q (vrow A i j0 j1) s -> wp (slrow A i j0 j1) Q X s.
Proof. intros H1 H2 H3 H. apply wp_bind, wp_assert; [|exact H]. rewrite !andb_true_iff, !Nat.leb_le, Nat.ltb_lt. auto. Qed.
Lemma wp_slvec x a b (Q : view -> state -> Prop) X s :
  a <= b -> b <= nr x -> Q (vsub x a b) s -> wp (slvec x a b) Q X s.
Proof. intros H1 H2 H. apply wp_bind, wp_assert; [|exact H]. rewrite !andb_true_iff, !Nat.leb_le. auto. Qed.

(** relational rules: continue with the two slices *)
Lemma rr_slc R X B A1 A2 i0 i1 j0 j1 (f1 f2 : view -> M B) :
  nr A2 = nr A1 -> nc A2 = nc A1 -> i0 <= i1 -> i1 <= nr A1 -> j0 <= j1 -> j1 <= nc A1 ->
  rr R X (f1 (subv A1 i0 i1 j0 j1)) (f2 (subv A2 i0 i1 j0 j1)) -> rr R X (bind (slc A1 i0 i1 j0 j1) f1) (bind (slc A2 i0 i1 j0 j1) f2).
Proof.
  intros E1 E2 H1 H2 H3 H4 H. unfold slc.
  assert (Hb : forall A, nr A = nr A1 -> nc A = nc A1 -> (i0 <=? i1) && (i1 <=? nr A) && (j0 <=? j1) && (j1 <=? nc A) = true).
  { intros A e1 e2. rewrite !andb_true_iff, !Nat.leb_le. lia. }
  rewrite !Hb by auto. exact H.
Qed.
Lemma rr_slcol R X B A1 A2 i0 i1 j (f1 f2 : view -> M B) :
  nr A2 = nr A1 -> nc A2 = nc A1 -> i0 <= i1 -> i1 <= nr A1 -> j < nc A1 ->
  rr R X (f1 (vcol A1 i0 i1 j)) (f2 (vcol A2 i0 i1 j)) -> rr R X (bind (slcol A1 i0 i1 j) f1) (bind (slcol A2 i0 i1 j) f2).
Proof.
  intros E1 E2 H1 H2 H3 H. unfold slcol.
  assert (Hb : forall A, nr A = nr A1 -> nc A = nc A1 -> (i0 <=? i1) && (i1 <=? nr A) && (j <? nc A) = true).
  { intros A e1 e2. rewrite !andb_true_iff, !Nat.leb_le, Nat.ltb_lt. lia. }
  rewrite !Hb by auto. exact H.
Qed.
Lemma rr_slrow R X B A1 A2 i j0 j1 (f1 f2 : view -> M B) :
  nr A2 = nr A1 -> nc A2 = nc A1 -> i < nr A1 -> j0 <= j1 -> j1 <= nc A1 ->
  rr R X (f1 (vrow A1 i j0 j1)) (f2 (vrow A2 i j0 j1)) -> rr R X (bind (slrow A1 i j0 j1) f1) (bind (slrow A2 i j0 j1) f2).
Proof.
  intros E1 E2 H1 H2 H3 H. unfold slrow.
  assert (Hb : forall A, nr A = nr A1 -> nc A = nc A1 -> (i <? nr A) && (j0 <=? j1) && (j1 <=? nc A) = true).
  { intros A e1 e2. rewrite !andb_true_iff, !Nat.leb_le, Nat.ltb_lt. lia. }
  rewrite !Hb by auto. exact H.
Qed.
Lemma rr_slvec R X B A1 A2 a b (f1 f2 : view -> M B) :
  nr A2 = nr A1 -> a <= b -> b <= nr A1 ->
  rr R X (f1 (vsub A1 a b)) (f2 (vsub A2 a b)) -> rr R X (bind (slvec A1 a b) f1) (bind (slvec A2 a b) f2).
Proof.
  intros E1 H1 H2 H. unfold slvec.
  assert (Hb : forall A, nr A = nr A1 -> (a <=? b) && (b <=? nr A) = true).
  { intros A e1. rewrite !andb_true_iff, !Nat.leb_le. lia. }
  rewrite !Hb by auto. exact H.
Qed.
Lemma reads_vcol R A1 A2 v w i0 i1 j : reads R A1 A2 v -> i1 <= nr A1 -> j < nc A1 ->
  (forall i, i < i1 - i0 -> w i 0 -> v (i0 + i) j) -> reads R (vcol A1 i0 i1 j) (vcol A2 i0 i1 j) w.
Proof.
  intros (H1 & H2 & H) Hi Hj Hv. split; [reflexivity|]. split; [reflexivity|]. cbn.
  intros s1 s2 Hs i j' Hi' Hj' Hv'. unfold val; cbn. apply H; auto; try lia. replace j' with 0 in Hv' by lia. auto.
Qed.
Lemma writes_vcol R A1 A2 v w i0 i1 j : writes R A1 A2 v -> i1 <= nr A1 -> j < nc A1 ->
  (forall i, i < i1 - i0 -> w i 0 -> v (i0 + i) j) -> writes R (vcol A1 i0 i1 j) (vcol A2 i0 i1 j) w.
Proof.
  intros (H1 & H2 & H) Hi Hj Hv. split; [reflexivity|]. split; [reflexivity|]. cbn.
  intros s1 s2 Hs i j' x Hi' Hj' Hv'. apply H; auto; try lia. replace j' with 0 in Hv' by lia. auto.
Qed.
Lemma reads_vrow R A1 A2 v w i j0 j1 : reads R A1 A2 v -> i < nr A1 -> j1 <= nc A1 ->
  (forall k, k < j1 - j0 -> w k 0 -> v i (j0 + k)) -> reads R (vrow A1 i j0 j1) (vrow A2 i j0 j1) w.
Proof.
  intros (H1 & H2 & H) Hi Hj Hv. split; [reflexivity|]. split; [reflexivity|]. cbn.
  intros s1 s2 Hs k j' Hi' Hj' Hv'. unfold val; cbn. apply H; auto; try lia. replace j' with 0 in Hv' by lia. auto.
Qed.
Lemma writes_vrow R A1 A2 v w i j0 j1 : writes R A1 A2 v -> i < nr A1 -> j1 <= nc A1 ->
  (forall k, k < j1 - j0 -> w k 0 -> v i (j0 + k)) -> writes R (vrow A1 i j0 j1) (vrow A2 i j0 j1) w.
Proof.
  intros (H1 & H2 & H) Hi Hj Hv. split; [reflexivity|]. split; [reflexivity|]. cbn.
  intros s1 s2 Hs k j' x Hi' Hj' Hv'. apply H; auto; try lia. replace j' with 0 in Hv' by lia. auto.
Qed.
Lemma reads_vsub R A1 A2 v w a b : reads R A1 A2 v -> 0 < nc A1 -> b <= nr A1 ->
  (forall k, k < b - a -> w k 0 -> v (a + k) 0) -> reads R (vsub A1 a b) (vsub A2 a b) w.
Proof.
  intros (H1 & H2 & H) Hi Hj Hv. split; [reflexivity|]. split; [reflexivity|]. cbn.
  intros s1 s2 Hs k j' Hi' Hj' Hv'. unfold val; cbn. apply H; auto; try lia. replace j' with 0 in Hv' by lia. auto.
Qed.
Lemma writes_vsub R A1 A2 v w a b : writes R A1 A2 v -> 0 < nc A1 -> b <= nr A1 ->
  (forall k, k < b - a -> w k 0 -> v (a + k) 0) -> writes R (vsub A1 a b) (vsub A2 a b) w.
Proof.
  intros (H1 & H2 & H) Hi Hj Hv. split; [reflexivity|]. split; [reflexivity|]. cbn.
  intros s1 s2 Hs k j' x Hi' Hj' Hv'. apply H; auto; try lia. replace j' with 0 in Hv' by lia. auto.
Qed.

(** ** effects on a part seen as effects on the whole *)
Definition inbox (i0 i1 j0 j1 i j : nat) : bool := (i0 <=? i) && (i <? i1) && (j0 <=? j) && (j <? j1).
Lemma inbox_t i0 i1 j0 j1 i j : inbox i0 i1 j0 j1 i j = true <-> i0 <= i < i1 /\ j0 <= j < j1.
Proof. unfold inbox. rewrite !andb_true_iff, !Nat.leb_le, !Nat.ltb_lt. lia. Qed.
Lemma inbox_f i0 i1 j0 j1 i j : inbox i0 i1 j0 j1 i j = false <-> ~ (i0 <= i < i1 /\ j0 <= j < j1).
Proof. rewrite <- inbox_t. destruct (inbox i0 i1 j0 j1 i j); intuition congruence. Qed.
Lemma inbox_spec i0 i1 j0 j1 i j : BoolSpec (i0 <= i < i1 /\ j0 <= j < j1) (~ (i0 <= i < i1 /\ j0 <= j < j1)) (inbox i0 i1 j0 j1 i j).
Proof. destruct (inbox i0 i1 j0 j1 i j) eqn:e; constructor; [apply inbox_t|apply inbox_f]; auto. Qed.

(** generic: [B] consists of the elements of [A] in the box, element (i,j) of A being element
    (fi i j, fj i j) of B *)
Lemma eff_part A B (fi fj : nat -> nat -> nat) i0 i1 j0 j1 F G s0 s s' : vinj A -> i1 <= nr A -> j1 <= nc A ->
  (forall i j, i < nr B -> j < nc B -> exists a b, i0 <= a < i1 /\ j0 <= b < j1 /\ ad B i j = ad A a b) ->
  (forall i j, i0 <= i < i1 -> j0 <= j < j1 -> fi i j < nr B /\ fj i j < nc B /\ ad A i j = ad B (fi i j) (fj i j)) ->
  eff A F s0 s -> eff B G s s' ->
  eff A (fun i j => if inbox i0 i1 j0 j1 i j then G (fi i j) (fj i j) else F i j) s0 s'.
Proof.
  intros HI Hi1 Hj1 HB HA (E1 & E2 & E3) (K1 & K2 & K3). split; [|split].
  - intros i j Hi Hj. destruct (inbox_spec i0 i1 j0 j1 i j) as [[Ha Hb]|Hn].
    + destruct (HA i j Ha Hb) as (H1 & H2 & H3). unfold val. rewrite H3. apply K1; auto.
    + rewrite <- E1 by auto. apply K2. intros (i' & j' & Hi' & Hj' & e).
      destruct (HB i' j' Hi' Hj') as (a & b & Ha & Hb & e'). rewrite e' in e. apply HI in e; [|lia..]. apply Hn. lia.
  - intros l Hl. rewrite <- E2 by auto. apply K2. intros (i' & j' & Hi' & Hj' & e).
    destruct (HB i' j' Hi' Hj') as (a & b & Ha & Hb & e'). apply Hl. exists a, b. repeat split; try lia; congruence.
  - congruence.
Qed.
Lemma eff_sub A i0 i1 j0 j1 F G s0 s s' : vinj A -> i1 <= nr A -> j1 <= nc A ->
  eff A F s0 s -> eff (subv A i0 i1 j0 j1) G s s' ->
  eff A (fun i j => if inbox i0 i1 j0 j1 i j then G (i - i0) (j - j0) else F i j) s0 s'.
Proof.
  intros HI Hi Hj. apply (eff_part A (subv A i0 i1 j0 j1) (fun i _ => i - i0) (fun _ j => j - j0)); auto; cbn.
  - intros i j Hi' Hj'. exists (i0 + i), (j0 + j). repeat split; lia.
  - intros i j Hi' Hj'. repeat split; try lia. f_equal; lia.
Qed.
Lemma eff_vcol A i0 i1 j0 F G s0 s s' : vinj A -> i1 <= nr A -> j0 < nc A ->
  eff A F s0 s -> eff (vcol A i0 i1 j0) G s s' ->
  eff A (fun i j => if inbox i0 i1 j0 (S j0) i j then G (i - i0) 0 else F i j) s0 s'.
Proof.
  intros HI Hi Hj. apply (eff_part A (vcol A i0 i1 j0) (fun i _ => i - i0) (fun _ j => 0)); auto; cbn.
  - intros i j Hi' Hj'. exists (i0 + i), j0. repeat split; lia.
  - intros i j Hi' Hj'. repeat split; try lia. f_equal; lia.
Qed.
Lemma eff_vrow A i0 j0 j1 F G s0 s s' : vinj A -> i0 < nr A -> j1 <= nc A ->
  eff A F s0 s -> eff (vrow A i0 j0 j1) G s s' ->
  eff A (fun i j => if inbox i0 (S i0) j0 j1 i j then G (j - j0) 0 else F i j) s0 s'.
Proof.
  intros HI Hi Hj. apply (eff_part A (vrow A i0 j0 j1) (fun _ j => j - j0) (fun _ j => 0)); auto; cbn.
  - intros i j Hi' Hj'. exists i0, (j0 + i). repeat split; lia.
  - intros i j Hi' Hj'. repeat split; try lia. f_equal; lia.
Qed.
Lemma eff_vsub x a b F G s0 s s' : vinj x -> b <= nr x -> nc x = 1 ->
  eff x F s0 s -> eff (vsub x a b) G s s' ->
  eff x (fun i j => if inbox a b 0 1 i j then G (i - a) 0 else F i j) s0 s'.
Proof.
  intros HI Hi Hj. apply (eff_part x (vsub x a b) (fun i _ => i - a) (fun _ j => 0)); auto; cbn; try lia.
  - intros i j Hi' Hj'. exists (a + i), 0. repeat split; lia.
  - intros i j Hi' Hj'. repeat split; try lia. f_equal; lia.
Qed.
Lemma val_sub A F s0 s i0 i1 j0 j1 i j : eff A F s0 s -> i0 + i < nr A -> j0 + j < nc A ->
  val (subv A i0 i1 j0 j1) s i j = F (i0 + i) (j0 + j).
Proof. intros (H & _) Hi Hj. apply H; auto. Qed.
Lemma val_vcol A F s0 s i0 i1 j0 i j : eff A F s0 s -> i0 + i < nr A -> j0 < nc A ->
  val (vcol A i0 i1 j0) s i j = F (i0 + i) j0.
Proof. intros (H & _) Hi Hj. apply H; auto. Qed.
Lemma val_vrow A F s0 s i0 j0 j1 i j : eff A F s0 s -> i0 < nr A -> j0 + i < nc A ->
  val (vrow A i0 j0 j1) s i j = F i0 (j0 + i).
Proof. intros (H & _) Hi Hj. apply H; auto. Qed.
End Slice.

(** disjointness and injectivity of parts of an injective view *)
Ltac vdisj := unfold disj, vinj in *; cbn [nr nc ad subv vcol vrow vsub colv rowv trv] in *;
  match goal with
  | HI : forall i j i' j', _ -> _ -> _ -> _ -> ad ?A i j = ad ?A i' j' -> _ |- _ =>
      let e := fresh in intros ? ? ? ? ? ? ? ? e; apply HI in e; [|lia..]; lia
  end.
