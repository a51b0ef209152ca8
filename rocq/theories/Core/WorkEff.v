(** * Effects of a program that also uses scratch memory *)
From Coq Require Import Bool Arith ZArith Lia.
From Verif.Core Require Import Scalar Prog View Slice.

Section W.
Context {E : Env}.
(** [A] holds [F]; memory outside [A] and outside the scratch locations [P] is unchanged *)
Definition effw (A : view) (F : nat -> nat -> T) (P : Z -> Prop) (s s' : state) : Prop :=
  (forall i j, i < nr A -> j < nc A -> val A s' i j = F i j) /\
  (forall l, ~ inview A l -> ~ P l -> mem s' l = mem s l) /\
  imem s' = imem s.
Lemma effw_refl A P s : effw A (val A s) P s s.
Proof. repeat split; auto. Qed.
Lemma effw_ext A F G P s s' : effw A F P s s' -> (forall i j, i < nr A -> j < nc A -> F i j = G i j) -> effw A G P s s'.
Proof. intros (H1 & H2 & H3) H. repeat split; auto. intros. rewrite <- H; auto. Qed.
Lemma effw_here A F P s0 s : effw A F P s0 s -> eff A F s s.
Proof. intros (H1 & H2 & H3). repeat split; auto. Qed.
Lemma effw_eff A F G P s0 s s' : effw A F P s0 s -> eff A G s s' -> effw A G P s0 s'.
Proof. intros (H1 & H2 & H3) (K1 & K2 & K3). repeat split; auto; [|congruence]. intros l Hl Hp. rewrite K2 by auto. auto. Qed.
Lemma effw_work A F (P : Z -> Prop) s0 s s' : effw A F P s0 s -> (forall l, inview A l -> ~ P l) ->
  (forall l, ~ P l -> mem s' l = mem s l) -> imem s' = imem s -> effw A F P s0 s'.
Proof.
  intros (H1 & H2 & H3) HD HM HI. repeat split; [| |congruence].
  - intros i j Hi Hj. unfold val. rewrite HM; [apply H1; auto|]. apply HD. exists i, j. auto.
  - intros l Hl Hp. rewrite HM by auto. auto.
Qed.
Lemma wp_rd_w A F P s0 i j (Q : T -> state -> Prop) X s : effw A F P s0 s -> i < nr A -> j < nc A -> Q (F i j) s -> wp (rd A i j) Q X s.
Proof. intros (H1 & _) Hi Hj HQ. apply wp_rd; auto. rewrite H1; auto. Qed.
Lemma wp_wr_w A F P s0 i j v (Q : unit -> state -> Prop) X s : vinj A -> effw A F P s0 s -> i < nr A -> j < nc A ->
  (forall s', eff A (fupd F i j v) s s' -> effw A (fupd F i j v) P s0 s' -> Q tt s') -> wp (wr A i j v) Q X s.
Proof.
  intros HI He Hi Hj HQ. apply (wp_wr_eff A F s); auto; [eapply effw_here; eauto|].
  intros s' He'. apply HQ; auto. eapply effw_eff; eauto.
Qed.
(** the value of an object disjoint from what was written *)
Lemma val_frame A F B s s' : eff A F s s' -> (forall l, inview B l -> ~ inview A l) -> forall i j, i < nr B -> j < nc B -> val B s' i j = val B s i j.
Proof. intros (_ & H & _) HD i j Hi Hj. unfold val. apply H, HD. exists i, j. auto. Qed.
Lemma inview_subv A i0 i1 j0 j1 l : i1 <= nr A -> j1 <= nc A -> inview (subv A i0 i1 j0 j1) l -> inview A l.
Proof. intros Hi Hj (i & j & H1 & H2 & e). cbn [nr nc subv ad] in *. exists (i0 + i), (j0 + j). repeat split; auto; lia. Qed.
Lemma inview_vcol A i0 i1 j l : i1 <= nr A -> j < nc A -> inview (vcol A i0 i1 j) l -> inview A l.
Proof. intros Hi Hj (i & c & H1 & H2 & e). cbn [nr nc vcol ad] in *. exists (i0 + i), j. repeat split; auto; lia. Qed.
Lemma inview_vrow A i j0 j1 l : i < nr A -> j1 <= nc A -> inview (vrow A i j0 j1) l -> inview A l.
Proof. intros Hi Hj (c & z & H1 & H2 & e). cbn [nr nc vrow ad] in *. exists i, (j0 + c). repeat split; auto; lia. Qed.
Lemma inview_vsub A a b l : b <= nr A -> 0 < nc A -> inview (vsub A a b) l -> inview A l.
Proof. intros Hi Hc (i & c & H1 & H2 & e). cbn [nr nc vsub ad] in *. exists (a + i), 0. repeat split; auto; lia. Qed.
End W.
