(** * Integer vectors (pivot and permutation vectors), stored in the index memory [imem]

    An integer vector object is a one-column [view] whose addresses refer to [imem]. *)
From Coq Require Import Bool Arith ZArith Lia.
From Verif.Core Require Import Scalar Prog View Slice.

Section IVec.
Context {E : Env}.

Definition ival (p : view) (s : state) (i : nat) : Z := imem s (ad p i 0).
Definition seti (s : state) (l : Z) (v : Z) : state := mkst E (mem s) (fun l' => if (l' =? l)%Z then v else imem s l').
(** [p[i]] used as an index.  A negative stored value has no meaning as an index: the code would index out
    of bounds with it, so reading one is [UB]. *)
Definition ird (p : view) (i : nat) : M nat := fun s =>
  if inb p i 0 && (0 <=? ival p s i)%Z then Ok (Z.to_nat (ival p s i)) s else UB.
(** [p[i] = v] *)
Definition iwr (p : view) (i : nat) (v : nat) : M unit := fun s =>
  if inb p i 0 then Ok tt (seti s (ad p i 0) (Z.of_nat v)) else UB.

(** [s'] differs from [s] exactly by: matrix [A] holds [F], integer vector [p] holds [g] *)
Definition peff (A : view) (F : nat -> nat -> T) (p : view) (g : nat -> Z) (s s' : state) : Prop :=
  (forall i j, i < nr A -> j < nc A -> val A s' i j = F i j) /\
  (forall l, ~ inview A l -> mem s' l = mem s l) /\
  (forall i, i < nr p -> ival p s' i = g i) /\
  (forall l, ~ inview p l -> imem s' l = imem s l).

Lemma peff_refl A p s : peff A (val A s) p (ival p s) s s.
Proof. repeat split; auto. Qed.
Lemma peff_ext A F F' p g g' s s' : peff A F p g s s' -> (forall i j, i < nr A -> j < nc A -> F i j = F' i j) -> (forall i, i < nr p -> g i = g' i) -> peff A F' p g' s s'.
Proof. intros (H1 & H2 & H3 & H4) HF Hg. repeat split; auto; intros; [rewrite <- HF by auto|rewrite <- Hg by auto]; auto. Qed.
Lemma peff_here A F p g s0 s : peff A F p g s0 s -> eff A F s s.
Proof. intros (H1 & H2 & H3 & H4). split; [|split]; auto. Qed.
Lemma peff_eff A F F' p g s0 s s' : peff A F p g s0 s -> eff A F' s s' -> peff A F' p g s0 s'.
Proof.
  intros (H1 & H2 & H3 & H4) (K1 & K2 & K3). repeat split; auto; intros.
  - rewrite K2, H2; auto.
  - unfold ival. rewrite K3. apply H3; auto.
  - rewrite K3. auto.
Qed.
Lemma wp_rd_p A F p g s0 i j (Q : T -> state -> Prop) X s : peff A F p g s0 s -> i < nr A -> j < nc A -> Q (F i j) s -> wp (rd A i j) Q X s.
Proof. intros (H1 & _) Hi Hj HQ. apply wp_rd; auto. rewrite H1; auto. Qed.
Lemma wp_wr_p A F p g s0 i j v (Q : unit -> state -> Prop) X s : vinj A -> peff A F p g s0 s -> i < nr A -> j < nc A ->
  (forall s', peff A (fupd F i j v) p g s0 s' -> Q tt s') -> wp (wr A i j v) Q X s.
Proof.
  intros HI He Hi Hj HQ. apply (wp_wr_eff A F s); auto; [eapply peff_here; eauto|].
  intros s' He'. apply HQ. eapply peff_eff; eauto.
Qed.
Lemma wp_ird_p A F p g s0 i v (Q : nat -> state -> Prop) X s : peff A F p g s0 s -> i < nr p -> 0 < nc p -> g i = Z.of_nat v -> Q v s -> wp (ird p i) Q X s.
Proof.
  intros (_ & _ & H3 & _) Hi Hc Hg HQ. unfold wp, ird. rewrite inb_true by auto. rewrite H3, Hg by auto.
  destruct (Z.leb_spec 0 (Z.of_nat v)); [|lia]. cbn [andb]. rewrite Nat2Z.id. auto.
Qed.
Lemma wp_iwr_p A F p g s0 i v (Q : unit -> state -> Prop) X s : vinj p -> nc p = 1 -> peff A F p g s0 s -> i < nr p ->
  (forall s', peff A F p (fun k => if k =? i then Z.of_nat v else g k) s0 s' -> Q tt s') -> wp (iwr p i v) Q X s.
Proof.
  intros HI Hc (H1 & H2 & H3 & H4) Hi HQ. unfold wp, iwr. rewrite inb_true by lia. apply HQ. repeat split; auto.
  - intros k Hk. unfold ival, seti; cbn [imem]. destruct (Nat.eqb_spec k i).
    + subst. rewrite Z.eqb_refl. auto.
    + destruct (Z.eqb_spec (ad p k 0) (ad p i 0)) as [e|]; [|apply H3; auto]. apply HI in e; try lia.
  - intros l Hl. cbn [imem seti]. destruct (Z.eqb_spec l (ad p i 0)); auto. subst. exfalso. apply Hl. exists i, 0. repeat split; auto; lia.
Qed.
(** an operation on a block of A and a part of p *)
Lemma peff_sub A i0 i1 j0 j1 p a b F G g h s0 s s' : vinj A -> i1 <= nr A -> j1 <= nc A -> vinj p -> nc p = 1 -> b <= nr p ->
  peff A F p g s0 s -> peff (subv A i0 i1 j0 j1) G (vsub p a b) h s s' ->
  peff A (fun i j => if inbox i0 i1 j0 j1 i j then G (i - i0) (j - j0) else F i j) p (fun k => if (a <=? k) && (k <? b) then h (k - a) else g k) s0 s'.
Proof.
  intros HI Hi1 Hj1 HP Hp Hb (H1 & H2 & H3 & H4) (K1 & K2 & K3 & K4). cbn [nr nc subv vsub] in *.
  assert (Hin : forall l, inview (subv A i0 i1 j0 j1) l -> inview A l).
  { intros l (i & j & Hi & Hj & e). cbn [nr nc subv ad] in *. exists (i0 + i), (j0 + j). repeat split; auto; lia. }
  assert (Hip : forall l, inview (vsub p a b) l -> inview p l).
  { intros l (i & j & Hi & Hj & e). cbn [nr nc vsub ad] in *. exists (a + i), 0. repeat split; auto; lia. }
  repeat split.
  - intros i j Hi Hj. destruct (inbox_spec i0 i1 j0 j1 i j) as [Hb'|Hb'].
    + rewrite <- (K1 (i - i0) (j - j0)) by lia. unfold val; cbn [ad subv]. f_equal. f_equal; lia.
    + rewrite <- H1 by auto. unfold val. apply K2. intros (i' & j' & Hi' & Hj' & e). cbn [nr nc subv ad] in *. apply HI in e; lia.
  - intros l Hl. rewrite K2, H2; auto.
  - intros k Hk. destruct (Nat.leb_spec a k), (Nat.ltb_spec k b); cbn [andb].
    + rewrite <- (K3 (k - a)) by lia. unfold ival; cbn [ad vsub]. f_equal. f_equal; lia.
    + rewrite <- H3 by auto. apply K4. intros (i' & j' & Hi' & Hj' & e). cbn [nr nc vsub ad] in *. apply HP in e; lia.
    + rewrite <- H3 by auto. apply K4. intros (i' & j' & Hi' & Hj' & e). cbn [nr nc vsub ad] in *. apply HP in e; lia.
    + rewrite <- H3 by auto. apply K4. intros (i' & j' & Hi' & Hj' & e). cbn [nr nc vsub ad] in *. apply HP in e; lia.
  - intros l Hl. rewrite K4, H4; auto.
Qed.
End IVec.
