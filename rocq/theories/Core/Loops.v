(** * Loops with early return, block loops *)
From Coq Require Import Bool Arith ZArith Lia.
From Verif.Core Require Import Scalar Prog View Rel.

Section Loops.
Context {E : Env}.

(** tlapack_error_if(cond, info, msg): exceptionHandling.hpp:174-190 *)
Definition error_if (b : bool) (info : Z) : M unit := if b then error info else ret tt.

(** [for (i = lo; i < lo+n; ++i) body]: the body yields [Some a] when it executes [return a] *)
Fixpoint fornr {A} (n lo : nat) (f : nat -> M (option A)) : M (option A) :=
  match n with
  | O => ret None
  | S n' => r <- f lo;; match r with Some a => ret (Some a) | None => fornr n' (S lo) f end
  end.
Definition forret {A} (lo hi : nat) (f : nat -> M (option A)) : M (option A) := fornr (hi - lo) lo f.

(** [for (j = j0; j < n; j += nb) body] with early return; [fuel] bounds the number of iterations *)
Fixpoint blkret {A} (fuel j n nb : nat) (f : nat -> M (option A)) : M (option A) :=
  if j <? n then
    match fuel with
    | O => nofuel
    | S fu => r <- f j;; match r with Some a => ret (Some a) | None => blkret fu (j + nb) n nb f end
    end
  else ret None.

Lemma wp_fornr A (I : nat -> state -> Prop) n lo (f : nat -> M (option A)) (Q : option A -> state -> Prop) X s :
  I lo s ->
  (forall i s', lo <= i < lo + n -> I i s' ->
     wp (f i) (fun r s'' => match r with None => I (S i) s'' | Some a => Q (Some a) s'' end) X s') ->
  (forall s', I (lo + n) s' -> Q None s') ->
  wp (fornr n lo f) Q X s.
Proof.
  revert lo s. induction n as [|n IH]; intros lo s H0 Hs Hq; cbn [fornr].
  - apply wp_ret, Hq. rewrite Nat.add_0_r; exact H0.
  - apply wp_bind. eapply wp_conseq; [apply Hs; [lia|exact H0] | | auto].
    intros [a|] s' H'; [exact H'|]. apply (IH (S lo)); [exact H'| |].
    + intros i s'' Hi. apply Hs; lia.
    + intros s''. replace (S lo + n) with (lo + S n) by lia. apply Hq.
Qed.
Lemma wp_forret A (I : nat -> state -> Prop) lo hi (f : nat -> M (option A)) (Q : option A -> state -> Prop) X s :
  lo <= hi -> I lo s ->
  (forall i s', lo <= i < hi -> I i s' ->
     wp (f i) (fun r s'' => match r with None => I (S i) s'' | Some a => Q (Some a) s'' end) X s') ->
  (forall s', I hi s' -> Q None s') ->
  wp (forret lo hi f) Q X s.
Proof.
  intros Hl H0 Hs Hq. apply (wp_fornr _ I); auto.
  - intros i s' Hi. apply Hs; lia.
  - replace (lo + (hi - lo)) with hi by lia. exact Hq.
Qed.
(** block loop: the invariant is indexed by the number of columns done, [min j n] *)
Lemma wp_blkret A (I : nat -> state -> Prop) fuel j n nb (f : nat -> M (option A)) (Q : option A -> state -> Prop) X s :
  0 < nb -> n - j <= fuel -> I (Nat.min j n) s ->
  (forall i s', i < n -> I i s' ->
     wp (f i) (fun r s'' => match r with None => I (Nat.min (i + nb) n) s'' | Some a => Q (Some a) s'' end) X s') ->
  (forall s', I n s' -> Q None s') ->
  wp (blkret fuel j n nb f) Q X s.
Proof.
  intros Hnb. revert j s. induction fuel as [|fu IH]; intros j s Hf H0 Hs Hq; cbn [blkret].
  - destruct (Nat.ltb_spec j n); [lia|]. apply wp_ret, Hq. replace n with (Nat.min j n) by lia. exact H0.
  - destruct (Nat.ltb_spec j n).
    + apply wp_bind. eapply wp_conseq; [apply Hs; [lia|replace j with (Nat.min j n) by lia; exact H0]| |auto].
      intros [a|] s' H'; [exact H'|]. apply IH; auto; lia.
    + apply wp_ret, Hq. replace n with (Nat.min j n) by lia. exact H0.
Qed.
Lemma blkret_0 A fuel j n (f : nat -> M (option A)) s : j < n ->
  (forall s', exists s'', f j s' = Ok None s'') -> blkret fuel j n 0 f s = OutOfFuel.
Proof.
  intros Hj Hf. revert s. induction fuel as [|fu IH]; intros s; cbn [blkret]; rewrite (proj2 (Nat.ltb_lt _ _) Hj); auto.
  unfold bind. destruct (Hf s) as [s'' ->]. rewrite Nat.add_0_r. apply IH.
Qed.

Implicit Types (R : state -> state -> Prop).
Lemma rr_error_if R (X : exn -> Prop) b k : X (RuntimeError k) -> rr R X (error_if b k) (error_if b k).
Proof. intros HX. unfold error_if. destruct b; [apply rr_error; auto|apply rr_ret]. Qed.
Lemma rr_fornr R X A n lo (f1 f2 : nat -> M (option A)) :
  (forall i, lo <= i < lo + n -> rr R X (f1 i) (f2 i)) -> rr R X (fornr n lo f1) (fornr n lo f2).
Proof.
  revert lo. induction n as [|n IH]; intros lo H; cbn [fornr]; [apply rr_ret|].
  apply rr_bind; [apply H; lia|]. intros [a|]; [apply rr_ret|]. apply IH. intros; apply H; lia.
Qed.
Lemma rr_forret R X A lo hi (f1 f2 : nat -> M (option A)) :
  (forall i, lo <= i < hi -> rr R X (f1 i) (f2 i)) -> rr R X (forret lo hi f1) (forret lo hi f2).
Proof. intros H. apply rr_fornr. intros i Hi. apply H. lia. Qed.
Lemma rr_blkret R X A fuel j n nb (f1 f2 : nat -> M (option A)) : 0 < nb -> n - j <= fuel ->
  (forall i, j <= i < n -> rr R X (f1 i) (f2 i)) -> rr R X (blkret fuel j n nb f1) (blkret fuel j n nb f2).
Proof.
  intros Hnb. revert j. induction fuel as [|fu IH]; intros j Hf H; cbn [blkret].
  - destruct (Nat.ltb_spec j n); [lia|]. apply rr_ret.
  - destruct (Nat.ltb_spec j n); [|apply rr_ret]. apply rr_bind; [apply H; lia|].
    intros [a|]; [apply rr_ret|]. apply IH; [lia|]. intros; apply H; lia.
Qed.
End Loops.
