(** * Programs on memory, and their weakest preconditions *)
From Coq Require Import Bool Arith ZArith Lia.
From Verif.Core Require Import Scalar.

(** Flat memory: [mem] holds scalars, [imem] holds indices (pivot vectors, permutations). *)
Record state {E : Env} := mkst { mem : Z -> T; imem : Z -> Z }.

(** Exceptions, include/tlapack/base/exceptionHandling.hpp: [tlapack_check] throws
    std::domain_error, [tlapack_error] throws std::runtime_error carrying info. *)
Inductive exn := DomainError | RuntimeError (info : Z).

(** Outcomes. [UB]: out-of-bounds element access or violated [assert];
    [OutOfFuel]: the recursion did not end within the given number of steps. *)
Inductive res {E : Env} (A : Type) :=
| Ok (a : A) (s : state)
| Exn (e : exn) (s : state)
| UB
| OutOfFuel.
Arguments Ok {E A}. Arguments Exn {E A}. Arguments UB {E A}. Arguments OutOfFuel {E A}.

Definition M {E : Env} (A : Type) := state -> res A.

Section Prog.
Context {E : Env}.

Definition ret {A} (a : A) : M A := fun s => Ok a s.
Definition bind {A B} (p : M A) (f : A -> M B) : M B :=
  fun s => match p s with Ok a s' => f a s' | Exn e s' => Exn e s' | UB => UB | OutOfFuel => OutOfFuel end.
Definition throw {A} (e : exn) : M A := fun s => Exn e s.
Definition ub {A} : M A := fun _ => UB.
Definition nofuel {A} : M A := fun _ => OutOfFuel.
Definition assert_ (b : bool) : M unit := if b then ret tt else ub.

(** tlapack_check(cond), exceptionHandling.hpp:150-210: throws std::domain_error when enabled. *)
Definition check (b : bool) : M unit := if check_input && negb b then throw DomainError else ret tt.
(** tlapack_error(info, msg), exceptionHandling.hpp:212-250: throws when enabled, else no effect. *)
Definition error (info : Z) : M unit := if throw_errors then throw (RuntimeError info) else ret tt.

(** [for (i = lo; i < hi; ++i)] carrying an accumulator *)
Fixpoint forn {A} (n lo : nat) (a : A) (f : nat -> A -> M A) : M A :=
  match n with
  | O => ret a
  | S n' => bind (f lo a) (fun a' => forn n' (S lo) a' f)
  end.
Definition foldup {A} (lo hi : nat) (a : A) (f : nat -> A -> M A) : M A := forn (hi - lo) lo a f.
Definition forup (lo hi : nat) (f : nat -> M unit) : M unit := foldup lo hi tt (fun i _ => f i).

(** [for (i = hi-1; i >= lo; --i)] carrying an accumulator.  In the code this is written
    [for (idx_t i = hi - 1; i != idx_t(-1); --i)] or with signed counters. *)
Fixpoint fornd {A} (n lo : nat) (a : A) (f : nat -> A -> M A) : M A :=
  match n with
  | O => ret a
  | S n' => bind (f (lo + n') a) (fun a' => fornd n' lo a' f)
  end.
Definition folddown {A} (lo hi : nat) (a : A) (f : nat -> A -> M A) : M A := fornd (hi - lo) lo a f.
Definition fordown (lo hi : nat) (f : nat -> M unit) : M unit := folddown lo hi tt (fun i _ => f i).

(** ** Weakest precondition: normal post [Q], exceptional post [X]; UB and OutOfFuel are excluded *)
Definition wp {A} (p : M A) (Q : A -> state -> Prop) (X : exn -> state -> Prop) (s : state) : Prop :=
  match p s with Ok a s' => Q a s' | Exn e s' => X e s' | UB => False | OutOfFuel => False end.

(** No-exception version *)
Definition noX : exn -> state -> Prop := fun _ _ => False.
Definition runs {A} (p : M A) (s : state) (Q : A -> state -> Prop) : Prop := wp p Q noX s.

Lemma wp_ret A (a : A) (Q : A -> state -> Prop) X s : Q a s -> wp (ret a) Q X s.
Proof. intros H; exact H. Qed.

Lemma wp_bind A B (p : M A) (f : A -> M B) Q X s :
  wp p (fun a s' => wp (f a) Q X s') X s -> wp (bind p f) Q X s.
Proof. unfold wp, bind. destruct (p s); auto. Qed.

Lemma wp_throw A e (Q : A -> state -> Prop) (X : exn -> state -> Prop) s : X e s -> wp (throw e) Q X s.
Proof. intros H; exact H. Qed.

Lemma wp_assert b (Q : unit -> state -> Prop) X s : b = true -> Q tt s -> wp (assert_ b) Q X s.
Proof. intros -> H; exact H. Qed.

Lemma wp_check b (Q : unit -> state -> Prop) X s : b = true -> Q tt s -> wp (check b) Q X s.
Proof. intros -> H; unfold check. rewrite andb_false_r. exact H. Qed.

Lemma wp_conseq A (p : M A) (Q Q' : A -> state -> Prop) (X X' : exn -> state -> Prop) s :
  wp p Q X s -> (forall a s', Q a s' -> Q' a s') -> (forall e s', X e s' -> X' e s') -> wp p Q' X' s.
Proof. unfold wp; destruct (p s); auto. Qed.

Lemma wp_noX A (p : M A) (Q : A -> state -> Prop) X s : wp p Q noX s -> wp p Q X s.
Proof. intros H. eapply wp_conseq; [exact H| auto | intros e s' []]. Qed.

Lemma wp_use A (p : M A) (Q Q' : A -> state -> Prop) X s :
  runs p s Q -> (forall a s', Q a s' -> Q' a s') -> wp p Q' X s.
Proof. intros H H'. eapply wp_conseq; [exact H| exact H' | intros e s' []]. Qed.

Lemma runs_inv A (p : M A) Q s : runs p s Q -> exists a s', p s = Ok a s' /\ Q a s'.
Proof. unfold runs, wp, noX; destruct (p s) as [a s'| | |]; try tauto. intros H; exists a, s'; auto. Qed.

Lemma wp_forn A (I : nat -> A -> state -> Prop) n lo a f (Q : A -> state -> Prop) X s :
  I lo a s ->
  (forall i a' s', lo <= i < lo + n -> I i a' s' -> wp (f i a') (fun a'' s'' => I (S i) a'' s'') X s') ->
  (forall a' s', I (lo + n) a' s' -> Q a' s') ->
  wp (forn n lo a f) Q X s.
Proof.
  revert lo a s. induction n as [|n IH]; intros lo a s H0 Hs Hq; cbn [forn].
  - apply wp_ret, Hq. rewrite Nat.add_0_r; exact H0.
  - apply wp_bind. eapply wp_conseq; [apply Hs; [lia|exact H0] | | auto].
    intros a' s' H'. apply (IH (S lo)); [exact H'| |].
    + intros i a'' s'' Hi. apply Hs; lia.
    + intros a'' s''. replace (S lo + n) with (lo + S n) by lia. apply Hq.
Qed.

(** Loop rule: invariant [I i a s] holds before iteration [i]. *)
Lemma wp_foldup A (I : nat -> A -> state -> Prop) lo hi a f (Q : A -> state -> Prop) X s :
  lo <= hi ->
  I lo a s ->
  (forall i a' s', lo <= i < hi -> I i a' s' -> wp (f i a') (fun a'' s'' => I (S i) a'' s'') X s') ->
  (forall a' s', I hi a' s' -> Q a' s') ->
  wp (foldup lo hi a f) Q X s.
Proof.
  intros Hlh H0 Hs Hq. unfold foldup. apply (wp_forn _ I); auto.
  - intros i a' s' Hi. apply Hs; lia.
  - replace (lo + (hi - lo)) with hi by lia. exact Hq.
Qed.

Lemma foldup_empty A lo hi (a : A) f : hi <= lo -> foldup lo hi a f = ret a.
Proof. intros H. unfold foldup. replace (hi - lo) with 0 by lia. reflexivity. Qed.

Lemma wp_forup (I : nat -> state -> Prop) lo hi f (Q : unit -> state -> Prop) X s :
  lo <= hi ->
  I lo s ->
  (forall i s', lo <= i < hi -> I i s' -> wp (f i) (fun _ s'' => I (S i) s'') X s') ->
  (forall s', I hi s' -> Q tt s') ->
  wp (forup lo hi f) Q X s.
Proof.
  intros Hlh H0 Hs Hq. unfold forup. apply (wp_foldup _ (fun i _ s => I i s)); auto.
  intros [] s'; apply Hq.
Qed.

Lemma wp_fornd A (I : nat -> A -> state -> Prop) n lo a f (Q : A -> state -> Prop) X s :
  I (lo + n) a s ->
  (forall i a' s', lo <= i < lo + n -> I (S i) a' s' -> wp (f i a') (fun a'' s'' => I i a'' s'') X s') ->
  (forall a' s', I lo a' s' -> Q a' s') ->
  wp (fornd n lo a f) Q X s.
Proof.
  revert a s. induction n as [|n IH]; intros a s H0 Hs Hq; cbn [fornd].
  - apply wp_ret, Hq. rewrite Nat.add_0_r in H0; exact H0.
  - apply wp_bind. eapply wp_conseq; [apply Hs; [lia|] | | auto].
    + replace (S (lo + n)) with (lo + S n) by lia; exact H0.
    + intros a' s' H'. apply IH; [exact H'| |exact Hq].
      intros i a'' s'' Hi. apply Hs; lia.
Qed.

(** Descending loop rule: [I (S i)] before the iteration at [i], [I i] after. *)
Lemma wp_folddown A (I : nat -> A -> state -> Prop) lo hi a f (Q : A -> state -> Prop) X s :
  lo <= hi ->
  I hi a s ->
  (forall i a' s', lo <= i < hi -> I (S i) a' s' -> wp (f i a') (fun a'' s'' => I i a'' s'') X s') ->
  (forall a' s', I lo a' s' -> Q a' s') ->
  wp (folddown lo hi a f) Q X s.
Proof.
  intros Hlh H0 Hs Hq. unfold folddown. apply (wp_fornd _ I); auto.
  - replace (lo + (hi - lo)) with hi by lia. exact H0.
  - intros i a' s' Hi. apply Hs; lia.
Qed.

Lemma wp_fordown (I : nat -> state -> Prop) lo hi f (Q : unit -> state -> Prop) X s :
  lo <= hi ->
  I hi s ->
  (forall i s', lo <= i < hi -> I (S i) s' -> wp (f i) (fun _ s'' => I i s'') X s') ->
  (forall s', I lo s' -> Q tt s') ->
  wp (fordown lo hi f) Q X s.
Proof.
  intros Hlh H0 Hs Hq. unfold fordown. apply (wp_folddown _ (fun i _ s => I i s)); auto.
  intros [] s'; apply Hq.
Qed.

End Prog.

Declare Scope prog_scope.
Delimit Scope prog_scope with prog.
Notation "x <- p ;; q" := (bind p (fun x => q)) (at level 61, p at next level, right associativity) : prog_scope.
Notation "p ;; q" := (bind p (fun _ => q)) (at level 61, right associativity) : prog_scope.
Notation "'for_' i 'in' lo 'upto' hi 'do' p" := (forup lo hi (fun i => p%prog))
  (at level 60, i name, lo at level 40, hi at level 40, p at level 60, right associativity) : prog_scope.
Notation "'ford_' i 'in' lo 'upto' hi 'do' p" := (fordown lo hi (fun i => p%prog))
  (at level 60, i name, lo at level 40, hi at level 40, p at level 60, right associativity) : prog_scope.
Open Scope prog_scope.
