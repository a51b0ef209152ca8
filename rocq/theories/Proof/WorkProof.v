(** * Workspaces allocated by the routines themselves *)
From Coq Require Import Bool Arith ZArith Lia.
From Verif.Core Require Import Scalar Prog View Slice.
From Verif.Model Require Import Legacy Work.
From Verif.Proof Require Import LegacyProof.

(** the [k] locations from [p] on do not belong to [A] *)
Definition fresh (p : Z) (k : nat) (A : view) : Prop := forall l, inview A l -> (l < p \/ p + Z.of_nat k <= l)%Z.
Definition block (p : Z) (k : nat) (l : Z) : Prop := (p <= l < p + Z.of_nat k)%Z.

Lemma new_inview m n p l a : inview (lview (new_lmat0 m n p l)) a <-> block p (m * n) a.
Proof. rewrite contig_inview; [|apply lok_new0|apply contig_new0]. reflexivity. Qed.
Lemma fresh_disj m n p l A : fresh p (m * n) A -> disj (lview (new_lmat0 m n p l)) A.
Proof.
  intros H i j i' j' Hi Hj Hi' Hj' e. assert (K : inview (lview (new_lmat0 m n p l)) (ad A i' j')) by (exists i, j; auto).
  apply new_inview in K. destruct (H (ad A i' j')); [exists i', j'; auto| |]; unfold block in K; lia.
Qed.
Lemma fresh_le p k k' A : k' <= k -> fresh p k A -> fresh p k' A.
Proof. intros Hk H l Hl. destruct (H l Hl); lia. Qed.

Section P.
Context {E : Env}.
Lemma wp_new_work p l w (Q : lmat -> state -> Prop) X s :
  (forall s', (forall a, ~ block p (wsize w) a -> mem s' a = mem s a) -> imem s' = imem s -> Q (new_lmat0 (wm w) (wn w) p l) s') -> wp (new_work p l w) Q X s.
Proof.
  intros H. unfold wp, new_work. apply H; auto. intros a Ha. cbn [mem]. unfold block in Ha.
  destruct (Z.leb_spec p a); cbn [andb]; auto. destruct (Z.ltb_spec a (p + Z.of_nat (wsize w))); auto. exfalso; lia.
Qed.
Lemma fresh_val p k A (s s' : state) i j : fresh p k A -> (forall a, ~ block p k a -> mem s' a = mem s a) -> i < nr A -> j < nc A -> val A s' i j = val A s i j.
Proof. intros HF H Hi Hj. apply H. intros K. unfold block in K. destruct (HF (ad A i j)); [exists i, j; auto| |]; lia. Qed.
End P.
