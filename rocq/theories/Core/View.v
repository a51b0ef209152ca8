(** * Matrix views on flat memory

    A view is what tlapack calls a matrix (or vector) object: dimensions plus an address for every
    element.  [LegacyMatrix] in either layout with any leading dimension, strided [LegacyVector]s,
    rows, columns, slices, diagonals and transposed views are all instances.  Vectors are views with
    one column. *)
From Coq Require Import Bool Arith ZArith Lia List.
From Verif.Core Require Import Scalar Prog.

Record view := mkview { nr : nat; nc : nat; ad : nat -> nat -> Z }.

(** location [l] belongs to the view *)
Definition inview (A : view) (l : Z) : Prop := exists i j, i < nr A /\ j < nc A /\ l = ad A i j.
(** distinct elements have distinct addresses *)
Definition vinj (A : view) : Prop :=
  forall i j i' j', i < nr A -> j < nc A -> i' < nr A -> j' < nc A -> ad A i j = ad A i' j' -> i = i' /\ j = j'.
(** no common address *)
Definition disj (A B : view) : Prop :=
  forall i j i' j', i < nr A -> j < nc A -> i' < nr B -> j' < nc B -> ad A i j <> ad B i' j'.

Section View.
Context {E : Env}.

(** element (i,j) of [A] in state [s] *)
Definition val (A : view) (s : state) (i j : nat) : T := mem s (ad A i j).
(** element i of vector [x] *)
Definition vval (x : view) (s : state) (i : nat) : T := val x s i 0.

Definition setm (s : state) (l : Z) (v : T) : state :=
  mkst E (fun l' => if Z.eqb l' l then v else mem s l') (imem s).

Definition inb (A : view) (i j : nat) : bool := (i <? nr A) && (j <? nc A).

(** Element access [A(i,j)]: LegacyMatrix.hpp:63-85 asserts the indices are in range. *)
Definition rd (A : view) (i j : nat) : M T := fun s => if inb A i j then Ok (val A s i j) s else UB.
Definition wr (A : view) (i j : nat) (v : T) : M unit :=
  fun s => if inb A i j then Ok tt (setm s (ad A i j) v) else UB.
(** Vector element access [x[i]]: LegacyVector.hpp:52-75. *)
Definition rdv (x : view) (i : nat) : M T := rd x i 0.
Definition wrv (x : view) (i : nat) (v : T) : M unit := wr x i 0 v.

(** ** Effects *)

(** [eff C F s s']: going from [s] to [s'], every element (i,j) of [C] now holds [F i j], and no
    location outside [C] (and no integer memory) has changed. *)
Definition eff (C : view) (F : nat -> nat -> T) (s s' : state) : Prop :=
  (forall i j, i < nr C -> j < nc C -> val C s' i j = F i j) /\
  (forall l, ~ inview C l -> mem s' l = mem s l) /\
  imem s' = imem s.

(** Same for a vector *)
Definition veff (x : view) (f : nat -> T) (s s' : state) : Prop :=
  (forall i, i < nr x -> vval x s' i = f i) /\
  (forall l, ~ inview x l -> mem s' l = mem s l) /\
  imem s' = imem s.

Definition fupd (F : nat -> nat -> T) (i j : nat) (v : T) : nat -> nat -> T :=
  fun i' j' => if (i' =? i) && (j' =? j) then v else F i' j'.

Lemma inb_true A i j : i < nr A -> j < nc A -> inb A i j = true.
Proof. intros Hi Hj. unfold inb. apply andb_true_intro; split; apply Nat.ltb_lt; assumption. Qed.

Lemma wp_rd A i j (Q : T -> state -> Prop) X s :
  i < nr A -> j < nc A -> Q (val A s i j) s -> wp (rd A i j) Q X s.
Proof. intros Hi Hj H. unfold wp, rd. rewrite inb_true; auto. Qed.

Lemma wp_wr A i j v (Q : unit -> state -> Prop) X s :
  i < nr A -> j < nc A -> Q tt (setm s (ad A i j) v) -> wp (wr A i j v) Q X s.
Proof. intros Hi Hj H. unfold wp, wr. rewrite inb_true; auto. Qed.

Lemma eff_refl C s : eff C (val C s) s s.
Proof. repeat split; auto. Qed.

Lemma eff_ext C F G s s' :
  eff C F s s' -> (forall i j, i < nr C -> j < nc C -> F i j = G i j) -> eff C G s s'.
Proof. intros [H1 H2] HE. split; [intros i j Hi Hj; rewrite H1 by auto; auto | exact H2]. Qed.

Lemma eff_trans C F G s s1 s2 : eff C F s s1 -> eff C G s1 s2 -> eff C G s s2.
Proof.
  intros (H1 & H2 & H3) (K1 & K2 & K3). repeat split; auto.
  - intros l Hl. rewrite K2 by auto. auto.
  - congruence.
Qed.

Lemma eff_val C F s s' i j : eff C F s s' -> i < nr C -> j < nc C -> val C s' i j = F i j.
Proof. intros [H _]; auto. Qed.

Lemma eff_frame C F s s' A i j :
  eff C F s s' -> disj A C -> i < nr A -> j < nc A -> val A s' i j = val A s i j.
Proof.
  intros (_ & H & _) D Hi Hj. apply H. intros (i' & j' & Hi' & Hj' & Heq).
  exact (D i j i' j' Hi Hj Hi' Hj' Heq).
Qed.

Lemma eff_set C F s0 s i j v :
  eff C F s0 s -> vinj C -> i < nr C -> j < nc C ->
  eff C (fupd F i j v) s0 (setm s (ad C i j) v).
Proof.
  intros (H1 & H2 & H3) HI Hi Hj. repeat split; [| |exact H3].
  - intros i' j' Hi' Hj'. unfold val, setm, fupd; cbn [mem].
    destruct (Z.eqb_spec (ad C i' j') (ad C i j)) as [e|ne].
    + destruct (HI _ _ _ _ Hi' Hj' Hi Hj e) as [-> ->]. rewrite !Nat.eqb_refl. reflexivity.
    + destruct (Nat.eqb_spec i' i) as [->|]; destruct (Nat.eqb_spec j' j) as [->|]; cbn [andb];
        try (exfalso; apply ne; reflexivity); apply H1; auto.
  - intros l Hl. unfold setm; cbn [mem]. destruct (Z.eqb_spec l (ad C i j)) as [->|ne]; [|auto].
    exfalso; apply Hl; exists i, j; auto.
Qed.

Lemma wp_rd_eff C F s0 i j (Q : T -> state -> Prop) X s :
  eff C F s0 s -> i < nr C -> j < nc C -> Q (F i j) s -> wp (rd C i j) Q X s.
Proof. intros H Hi Hj HQ. apply wp_rd; auto. erewrite eff_val by eassumption. exact HQ. Qed.

Lemma wp_rd_frame C F s0 A i j (Q : T -> state -> Prop) X s :
  eff C F s0 s -> disj A C -> i < nr A -> j < nc A -> Q (val A s0 i j) s -> wp (rd A i j) Q X s.
Proof. intros H D Hi Hj HQ. apply wp_rd; auto. erewrite eff_frame by eassumption. exact HQ. Qed.

Lemma wp_wr_eff C F s0 i j v (Q : unit -> state -> Prop) X s :
  eff C F s0 s -> vinj C -> i < nr C -> j < nc C ->
  (forall s', eff C (fupd F i j v) s0 s' -> Q tt s') -> wp (wr C i j v) Q X s.
Proof. intros H HI Hi Hj HQ. apply wp_wr; auto. apply HQ. apply eff_set; auto. Qed.

(** Two outputs *)
Definition eff2 (C : view) (F : nat -> nat -> T) (D : view) (G : nat -> nat -> T) (s s' : state) : Prop :=
  (forall i j, i < nr C -> j < nc C -> val C s' i j = F i j) /\
  (forall i j, i < nr D -> j < nc D -> val D s' i j = G i j) /\
  (forall l, ~ inview C l -> ~ inview D l -> mem s' l = mem s l) /\
  imem s' = imem s.

Lemma eff2_refl C D s : eff2 C (val C s) D (val D s) s s.
Proof. repeat split; auto. Qed.
Lemma eff2_ext C F F' D G G' s s' :
  eff2 C F D G s s' -> (forall i j, i < nr C -> j < nc C -> F i j = F' i j) ->
  (forall i j, i < nr D -> j < nc D -> G i j = G' i j) -> eff2 C F' D G' s s'.
Proof.
  intros (H1 & H2 & H3) HE HE'. split; [|split; [|exact H3]].
  - intros i j Hi Hj; rewrite H1 by auto; auto.
  - intros i j Hi Hj; rewrite H2 by auto; auto.
Qed.
Lemma eff2_sym C F D G s s' : eff2 C F D G s s' <-> eff2 D G C F s s'.
Proof. unfold eff2; split; intros (H1 & H2 & H3 & H4); repeat split; auto. Qed.
Lemma disj_sym A B : disj A B -> disj B A.
Proof. intros H i j i' j' Hi Hj Hi' Hj' e. apply (H i' j' i j); auto. Qed.
Lemma eff2_set1 C F D G s0 s i j v :
  eff2 C F D G s0 s -> vinj C -> disj C D -> i < nr C -> j < nc C ->
  eff2 C (fupd F i j v) D G s0 (setm s (ad C i j) v).
Proof.
  intros (H1 & H2 & H3 & H4) HI HD Hi Hj.
  assert (He : eff C F s s) by (split; [exact H1|split; auto]).
  destruct (eff_set _ _ _ _ _ _ v He HI Hi Hj) as (K1 & K2 & K3).
  split; [exact K1|]. split; [|split; [|exact H4]].
  - intros i' j' Hi' Hj'. unfold val, setm; cbn [mem].
    destruct (Z.eqb_spec (ad D i' j') (ad C i j)) as [e|ne]; [|apply H2; auto].
    exfalso. apply (HD i j i' j'); auto.
  - intros l Hl Hl'. rewrite K2 by auto. auto.
Qed.
Lemma eff2_set2 C F D G s0 s i j v :
  eff2 C F D G s0 s -> vinj D -> disj C D -> i < nr D -> j < nc D ->
  eff2 C F D (fupd G i j v) s0 (setm s (ad D i j) v).
Proof. rewrite !(eff2_sym C). intros. apply eff2_set1; auto using disj_sym. Qed.
Lemma wp_rd_eff2_1 C F D G s0 i j (Q : T -> state -> Prop) X s :
  eff2 C F D G s0 s -> i < nr C -> j < nc C -> Q (F i j) s -> wp (rd C i j) Q X s.
Proof. intros H Hi Hj HQ. apply wp_rd; auto. rewrite (proj1 H) by auto. exact HQ. Qed.
Lemma wp_rd_eff2_2 C F D G s0 i j (Q : T -> state -> Prop) X s :
  eff2 C F D G s0 s -> i < nr D -> j < nc D -> Q (G i j) s -> wp (rd D i j) Q X s.
Proof. intros H Hi Hj HQ. apply wp_rd; auto. rewrite (proj1 (proj2 H)) by auto. exact HQ. Qed.
Lemma eff2_frame C F D G s0 s A i j :
  eff2 C F D G s0 s -> disj A C -> disj A D -> i < nr A -> j < nc A -> val A s i j = val A s0 i j.
Proof.
  intros (_ & _ & H & _) D1 D2 Hi Hj. apply H; intros (i' & j' & Hi' & Hj' & Heq).
  - exact (D1 i j i' j' Hi Hj Hi' Hj' Heq).
  - exact (D2 i j i' j' Hi Hj Hi' Hj' Heq).
Qed.
Lemma wp_rd_frame2 C F D G s0 A i j (Q : T -> state -> Prop) X s :
  eff2 C F D G s0 s -> disj A C -> disj A D -> i < nr A -> j < nc A -> Q (val A s0 i j) s -> wp (rd A i j) Q X s.
Proof. intros H D1 D2 Hi Hj HQ. apply wp_rd; auto. erewrite eff2_frame by eassumption. exact HQ. Qed.
Lemma wp_wr_eff2_1 C F D G s0 i j v (Q : unit -> state -> Prop) X s :
  eff2 C F D G s0 s -> vinj C -> disj C D -> i < nr C -> j < nc C ->
  (forall s', eff2 C (fupd F i j v) D G s0 s' -> Q tt s') -> wp (wr C i j v) Q X s.
Proof. intros H HI HD Hi Hj HQ. apply wp_wr; auto. apply HQ. apply eff2_set1; auto. Qed.
Lemma wp_wr_eff2_2 C F D G s0 i j v (Q : unit -> state -> Prop) X s :
  eff2 C F D G s0 s -> vinj D -> disj C D -> i < nr D -> j < nc D ->
  (forall s', eff2 C F D (fupd G i j v) s0 s' -> Q tt s') -> wp (wr D i j v) Q X s.
Proof. intros H HI HD Hi Hj HQ. apply wp_wr; auto. apply HQ. apply eff2_set2; auto. Qed.

Lemma veff_eff x f s s' : nc x = 1 -> (veff x f s s' <-> eff x (fun i _ => f i) s s').
Proof.
  intros Hc. unfold veff, eff, vval. split; intros (H1 & H2 & H3); repeat split; auto.
  - intros i j Hi Hj. replace j with 0 by lia. auto.
  - intros i Hi. apply H1; auto; lia.
Qed.

End View.

(** ** Sub-views *)

Definition subv (A : view) (i0 i1 j0 j1 : nat) : view :=
  mkview (i1 - i0) (j1 - j0) (fun i j => ad A (i0 + i) (j0 + j)).
Definition colv (A : view) (j : nat) : view := mkview (nr A) 1 (fun i _ => ad A i j).
Definition rowv (A : view) (i : nat) : view := mkview (nc A) 1 (fun j _ => ad A i j).
Definition trv (A : view) : view := mkview (nc A) (nr A) (fun i j => ad A j i).
