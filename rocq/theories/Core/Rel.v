(** * Relational logic

    [rr R X p1 p2]: started in [R]-related memories, both programs return normally with the same
    value (or both throw the same exception, allowed by [X]), and end in [R]-related memories; neither has an
    out-of-bounds access.  One proof per routine, for arbitrary scalar operations, gives memory
    safety, framing, independence of the memory layout and independence of unreferenced entries. *)
From Coq Require Import Bool Arith ZArith Lia List.
From Verif.Core Require Import Scalar Prog View.

Section Rel.
Context {E : Env}.
Implicit Types (R : state -> state -> Prop) (X : exn -> Prop) (v w vis : nat -> nat -> Prop).

Definition rr R X {A} (p1 p2 : M A) : Prop := forall s1 s2, R s1 s2 ->
  match p1 s1, p2 s2 with
  | Ok a1 s1', Ok a2 s2' => a1 = a2 /\ R s1' s2'
  | Exn e1 s1', Exn e2 s2' => e1 = e2 /\ X e1 /\ R s1' s2'
  | _, _ => False
  end.
(** with a postcondition on the common value *)
Definition rrq R X {A} (p1 p2 : M A) (Q : A -> Prop) : Prop := forall s1 s2, R s1 s2 ->
  match p1 s1, p2 s2 with
  | Ok a1 s1', Ok a2 s2' => a1 = a2 /\ Q a1 /\ R s1' s2'
  | Exn e1 s1', Exn e2 s2' => e1 = e2 /\ X e1 /\ R s1' s2'
  | _, _ => False
  end.
Lemma rrq_rr R X A (p1 p2 : M A) Q : rrq R X p1 p2 Q -> rr R X p1 p2.
Proof. intros H s1 s2 Hs. specialize (H s1 s2 Hs). destruct (p1 s1), (p2 s2); tauto. Qed.
Lemma rr_rrq R X A (p1 p2 : M A) : rr R X p1 p2 -> rrq R X p1 p2 (fun _ => True).
Proof. intros H s1 s2 Hs. specialize (H s1 s2 Hs). destruct (p1 s1), (p2 s2); tauto. Qed.

Definition noExn : exn -> Prop := fun _ => False.

(** corresponding elements at visible positions agree in related memories *)
Definition reads R (A1 A2 : view) (vis : nat -> nat -> Prop) : Prop :=
  nr A2 = nr A1 /\ nc A2 = nc A1 /\
  forall s1 s2, R s1 s2 -> forall i j, i < nr A1 -> j < nc A1 -> vis i j -> val A1 s1 i j = val A2 s2 i j.
(** storing the same value at corresponding visible positions keeps memories related *)
Definition writes R (A1 A2 : view) (vis : nat -> nat -> Prop) : Prop :=
  nr A2 = nr A1 /\ nc A2 = nc A1 /\
  forall s1 s2, R s1 s2 -> forall i j (x : T), i < nr A1 -> j < nc A1 -> vis i j ->
    R (setm s1 (ad A1 i j) x) (setm s2 (ad A2 i j) x).
Definition everywhere : nat -> nat -> Prop := fun _ _ => True.

Lemma rr_ret R X A (a : A) : rr R X (ret a) (ret a).
Proof. intros s1 s2 H; cbn; auto. Qed.
Lemma rr_bind R X A B (p1 p2 : M A) (f1 f2 : A -> M B) :
  rr R X p1 p2 -> (forall a, rr R X (f1 a) (f2 a)) -> rr R X (bind p1 f1) (bind p2 f2).
Proof.
  intros Hp Hf s1 s2 H. specialize (Hp s1 s2 H). unfold bind.
  destruct (p1 s1), (p2 s2); try tauto. destruct Hp as [<- H']. apply Hf; auto.
Qed.
Lemma rr_bindq R X A B (p1 p2 : M A) Q (f1 f2 : A -> M B) :
  rrq R X p1 p2 Q -> (forall a, Q a -> rr R X (f1 a) (f2 a)) -> rr R X (bind p1 f1) (bind p2 f2).
Proof.
  intros Hp Hf s1 s2 H. specialize (Hp s1 s2 H). unfold bind.
  destruct (p1 s1), (p2 s2); try tauto. destruct Hp as (<- & HQ & H'). apply Hf; auto.
Qed.
Lemma rrq_ret R X A (a : A) (Q : A -> Prop) : Q a -> rrq R X (ret a) (ret a) Q.
Proof. intros HQ s1 s2 H; cbn; auto. Qed.
Lemma rrq_bind R X A B (p1 p2 : M A) Q (f1 f2 : A -> M B) Q' :
  rrq R X p1 p2 Q -> (forall a, Q a -> rrq R X (f1 a) (f2 a) Q') -> rrq R X (bind p1 f1) (bind p2 f2) Q'.
Proof.
  intros Hp Hf s1 s2 H. specialize (Hp s1 s2 H). unfold bind.
  destruct (p1 s1), (p2 s2); try tauto. destruct Hp as (<- & HQ & H'). apply Hf; auto.
Qed.
Lemma rr_check R X b : b = true -> rr R X (check b) (check b).
Proof. intros ->. unfold check. rewrite andb_false_r. apply rr_ret. Qed.
Lemma rr_throw R X A e : X e -> rr R X (@throw _ A e) (throw e).
Proof. intros HX s1 s2 H; cbn; auto. Qed.
Lemma rr_error R X k : X (RuntimeError k) -> rr R X (error k) (error k).
Proof. intros HX. unfold error. destruct throw_errors; [apply rr_throw; auto|apply rr_ret]. Qed.
Lemma rr_rd R X A1 A2 vis i j : reads R A1 A2 vis -> i < nr A1 -> j < nc A1 -> vis i j ->
  rr R X (rd A1 i j) (rd A2 i j).
Proof.
  intros (H1 & H2 & H) Hi Hj Hv s1 s2 Hs. unfold rd. rewrite !inb_true by lia. split; auto.
Qed.
Lemma rr_wr R X A1 A2 vis i j (x : T) : writes R A1 A2 vis -> i < nr A1 -> j < nc A1 -> vis i j ->
  rr R X (wr A1 i j x) (wr A2 i j x).
Proof.
  intros (H1 & H2 & H) Hi Hj Hv s1 s2 Hs. unfold wr. rewrite !inb_true by lia. split; auto.
Qed.
Lemma rr_forn R X A (I : nat -> A -> Prop) n lo a f1 f2 : I lo a ->
  (forall i a', lo <= i < lo + n -> I i a' -> rrq R X (f1 i a') (f2 i a') (I (S i))) ->
  rrq R X (forn n lo a f1) (forn n lo a f2) (I (lo + n)).
Proof.
  revert lo a. induction n as [|n IH]; intros lo a H0 Hs; cbn [forn].
  - apply rrq_ret. rewrite Nat.add_0_r; auto.
  - eapply rrq_bind; [apply Hs; [lia|exact H0]|]. intros a' Ha'.
    replace (lo + S n) with (S lo + n) by lia. apply IH; auto.
    intros i a'' Hi. apply Hs; lia.
Qed.
Lemma rr_foldup R X A lo hi (a : A) f1 f2 :
  (forall i a', lo <= i < hi -> rr R X (f1 i a') (f2 i a')) -> rr R X (foldup lo hi a f1) (foldup lo hi a f2).
Proof.
  intros H. apply (rrq_rr _ _ _ _ _ (fun _ => True)). unfold foldup. apply (rr_forn _ _ _ (fun _ _ => True)); auto.
  intros i a' Hi _. apply rr_rrq. apply H. lia.
Qed.
Lemma rrq_foldup R X A (I : nat -> A -> Prop) lo hi a f1 f2 : lo <= hi -> I lo a ->
  (forall i a', lo <= i < hi -> I i a' -> rrq R X (f1 i a') (f2 i a') (I (S i))) ->
  rrq R X (foldup lo hi a f1) (foldup lo hi a f2) (I hi).
Proof.
  intros Hl H0 H. unfold foldup. replace hi with (lo + (hi - lo)) at 3 by lia. apply rr_forn; auto.
  intros i a' Hi. apply H. lia.
Qed.
Lemma rr_forup R X lo hi f1 f2 :
  (forall i, lo <= i < hi -> rr R X (f1 i) (f2 i)) -> rr R X (forup lo hi f1) (forup lo hi f2).
Proof. intros H. apply rr_foldup. intros i a'. apply H. Qed.
Lemma rr_fornd R X A n lo (a : A) f1 f2 :
  (forall i a', lo <= i < lo + n -> rr R X (f1 i a') (f2 i a')) -> rr R X (fornd n lo a f1) (fornd n lo a f2).
Proof.
  revert a. induction n as [|n IH]; intros a Hs; cbn [fornd].
  - apply rr_ret.
  - eapply rr_bind; [apply Hs; lia|]. intros a'. apply IH. intros i a'' Hi. apply Hs; lia.
Qed.
Lemma rr_folddown R X A lo hi (a : A) f1 f2 :
  (forall i a', lo <= i < hi -> rr R X (f1 i a') (f2 i a')) -> rr R X (folddown lo hi a f1) (folddown lo hi a f2).
Proof. intros H. unfold folddown. apply rr_fornd. intros i a' Hi; apply H; lia. Qed.
Lemma rr_fordown R X lo hi f1 f2 :
  (forall i, lo <= i < hi -> rr R X (f1 i) (f2 i)) -> rr R X (fordown lo hi f1) (fordown lo hi f2).
Proof. intros H. apply rr_folddown. intros i a'. apply H. Qed.
Lemma rr_exn R X X' A (p1 p2 : M A) : rr R X p1 p2 -> (forall e, X e -> X' e) -> rr R X' p1 p2.
Proof. intros H HX s1 s2 Hs. specialize (H s1 s2 Hs). destruct (p1 s1), (p2 s2); intuition. Qed.

(** ** sub-views *)
Lemma reads_vis R A1 A2 v w : reads R A1 A2 v ->
  (forall i j, i < nr A1 -> j < nc A1 -> w i j -> v i j) -> reads R A1 A2 w.
Proof. intros (H1 & H2 & H) Hv. split; auto. Qed.
Lemma writes_vis R A1 A2 v w : writes R A1 A2 v ->
  (forall i j, i < nr A1 -> j < nc A1 -> w i j -> v i j) -> writes R A1 A2 w.
Proof. intros (H1 & H2 & H) Hv. split; auto. Qed.
Lemma reads_sub R A1 A2 v w i0 i1 j0 j1 : reads R A1 A2 v -> i1 <= nr A1 -> j1 <= nc A1 ->
  (forall i j, i < i1 - i0 -> j < j1 - j0 -> w i j -> v (i0 + i) (j0 + j)) ->
  reads R (subv A1 i0 i1 j0 j1) (subv A2 i0 i1 j0 j1) w.
Proof.
  intros (H1 & H2 & H) Hi Hj Hv. split; [reflexivity|]. split; [reflexivity|]. cbn.
  intros s1 s2 Hs i j Hi' Hj' Hv'. unfold val; cbn. apply H; auto; lia.
Qed.
Lemma writes_sub R A1 A2 v w i0 i1 j0 j1 : writes R A1 A2 v -> i1 <= nr A1 -> j1 <= nc A1 ->
  (forall i j, i < i1 - i0 -> j < j1 - j0 -> w i j -> v (i0 + i) (j0 + j)) ->
  writes R (subv A1 i0 i1 j0 j1) (subv A2 i0 i1 j0 j1) w.
Proof.
  intros (H1 & H2 & H) Hi Hj Hv. split; [reflexivity|]. split; [reflexivity|]. cbn.
  intros s1 s2 Hs i j x Hi' Hj' Hv'. apply H; auto; lia.
Qed.

(** ** the concrete relation between two memories *)
(** parameter list: (view in memory 1, view in memory 2, visible positions) *)
Definition params := list (view * view * (nat -> nat -> Prop)).
Definition in1 (P : params) (l : Z) : Prop := exists A1 A2 v, In (A1, A2, v) P /\ inview A1 l.
Definition in2 (P : params) (l : Z) : Prop := exists A1 A2 v, In (A1, A2, v) P /\ inview A2 l.
(** the two memories hold the same visible values of all parameters; locations outside the output
    parameters [outs] are as in the initial memories [t1], [t2] *)
Definition same_data (P : params) (s1 s2 : state) : Prop :=
  forall A1 A2 v, In (A1, A2, v) P -> forall i j, i < nr A1 -> j < nc A1 -> v i j -> val A1 s1 i j = val A2 s2 i j.
Definition frame1 (outs : params) (t1 s1 : state) : Prop := (forall l, ~ in1 outs l -> mem s1 l = mem t1 l) /\ imem s1 = imem t1.
Definition frame2 (outs : params) (t2 s2 : state) : Prop := (forall l, ~ in2 outs l -> mem s2 l = mem t2 l) /\ imem s2 = imem t2.
Definition lrel (ins outs : params) (t1 t2 s1 s2 : state) : Prop :=
  same_data (ins ++ outs) s1 s2 /\ frame1 outs t1 s1 /\ frame2 outs t2 s2.
(** parameters have equal shapes; outputs have distinct elements and overlap no other parameter *)
Definition same_shape (P : params) : Prop := forall A1 A2 v, In (A1, A2, v) P -> nr A2 = nr A1 /\ nc A2 = nc A1.
Definition separated (ins outs : params) : Prop :=
  (forall C1 C2 w, In (C1, C2, w) outs -> vinj C1 /\ vinj C2) /\
  (forall A1 A2 v C1 C2 w, In (A1, A2, v) (ins ++ outs) -> In (C1, C2, w) outs ->
     (A1 = C1 /\ A2 = C2) \/ (disj A1 C1 /\ disj A2 C2)).

Lemma lrel_reads ins outs t1 t2 A1 A2 v : same_shape (ins ++ outs) -> In (A1, A2, v) (ins ++ outs) ->
  reads (lrel ins outs t1 t2) A1 A2 v.
Proof.
  intros Hsh HIn. destruct (Hsh _ _ _ HIn). split; auto. split; auto.
  intros s1 s2 (Hd & _) i j Hi Hj Hv. apply (Hd A1 A2 v); auto.
Qed.
Lemma val_set_same A s i j (x : T) i' j' : vinj A -> i < nr A -> j < nc A -> i' < nr A -> j' < nc A ->
  val A (setm s (ad A i j) x) i' j' = if (i' =? i) && (j' =? j) then x else val A s i' j'.
Proof.
  intros HI Hi Hj Hi' Hj'. unfold val, setm; cbn [mem].
  destruct (Z.eqb_spec (ad A i' j') (ad A i j)) as [e|e].
  - apply HI in e; auto. destruct e as [-> ->]. rewrite !Nat.eqb_refl. reflexivity.
  - destruct (Nat.eqb_spec i' i) as [->|]; destruct (Nat.eqb_spec j' j) as [->|]; auto. congruence.
Qed.
Lemma val_set_other A C s i j (x : T) i' j' : disj A C -> i < nr C -> j < nc C -> i' < nr A -> j' < nc A ->
  val A (setm s (ad C i j) x) i' j' = val A s i' j'.
Proof.
  intros HD Hi Hj Hi' Hj'. unfold val, setm; cbn [mem].
  destruct (Z.eqb_spec (ad A i' j') (ad C i j)) as [e|e]; auto. exfalso. apply (HD i' j' i j); auto.
Qed.
Lemma lrel_writes ins outs t1 t2 C1 C2 w : same_shape (ins ++ outs) -> separated ins outs -> In (C1, C2, w) outs ->
  writes (lrel ins outs t1 t2) C1 C2 w.
Proof.
  intros Hsh [Hinj Hsep] HIn.
  assert (HIn' : In (C1, C2, w) (ins ++ outs)) by (apply in_or_app; auto).
  destruct (Hsh _ _ _ HIn') as [E1 E2]. destruct (Hinj _ _ _ HIn) as [I1 I2].
  split; auto. split; auto.
  intros s1 s2 (Hd & (F1 & F1') & (F2 & F2')) i j x Hi Hj Hw. split; [|split; split; auto].
  - intros A1 A2 v HA i' j' Hi' Hj' Hv. destruct (Hsh _ _ _ HA) as [E3 E4].
    destruct (Hsep _ _ _ _ _ _ HA HIn) as [[-> ->]|[D1 D2]].
    + rewrite !val_set_same by (auto; lia). destruct (_ && _); auto. apply (Hd C1 C2 v); auto.
    + rewrite !val_set_other by (auto; lia). apply (Hd A1 A2 v); auto.
  - intros l Hl. unfold setm; cbn [mem]. destruct (Z.eqb_spec l (ad C1 i j)) as [->|]; auto.
    exfalso. apply Hl. exists C1, C2, w. split; auto. exists i, j. auto.
  - intros l Hl. unfold setm; cbn [mem]. destruct (Z.eqb_spec l (ad C2 i j)) as [->|]; auto.
    exfalso. apply Hl. exists C1, C2, w. split; auto. exists i, j. repeat split; auto; lia.
Qed.
Lemma lrel_refl ins outs t1 t2 : same_data (ins ++ outs) t1 t2 -> lrel ins outs t1 t2 t1 t2.
Proof. intros H. split; auto. split; split; auto. Qed.

(** what a relational proof gives for two concrete runs: same outcome, same visible data in all parameters,
    nothing modified outside the outputs *)
Definition same_run {A} (ins outs : params) (X : exn -> Prop) (p1 p2 : M A) (t1 t2 : state) : Prop :=
  (exists a s1 s2, p1 t1 = Ok a s1 /\ p2 t2 = Ok a s2 /\
     same_data outs s1 s2 /\ frame1 outs t1 s1 /\ frame2 outs t2 s2) \/
  (exists e s1 s2, X e /\ p1 t1 = Exn e s1 /\ p2 t2 = Exn e s2 /\
     same_data outs s1 s2 /\ frame1 outs t1 s1 /\ frame2 outs t2 s2).
Lemma rr_same_run A ins outs X (p1 p2 : M A) t1 t2 :
  same_data (ins ++ outs) t1 t2 -> rr (lrel ins outs t1 t2) X p1 p2 -> same_run ins outs X p1 p2 t1 t2.
Proof.
  intros Hd H. specialize (H t1 t2 (lrel_refl _ _ _ _ Hd)). unfold same_run.
  assert (Hs : forall s1 s2, lrel ins outs t1 t2 s1 s2 -> same_data outs s1 s2).
  { intros s1 s2 (H1 & _) A1 A2 v HA. apply (H1 A1 A2 v). apply in_or_app; auto. }
  destruct (p1 t1) as [a1 s1|e1 s1| |], (p2 t2) as [a2 s2|e2 s2| |]; try contradiction.
  - left. destruct H as [<- H]. exists a1, s1, s2. repeat split; auto; apply H.
  - right. destruct H as (<- & HX & H). exists e1, s1, s2. repeat split; auto; apply H.
Qed.
End Rel.
