(** Automation for relational proofs *)
From Coq Require Import Bool Arith ZArith Lia.
From Verif.Core Require Import Scalar Prog View Rel.

(** positions of a matrix argument that a routine with the given uplo / diag may touch *)
Definition vtri (u : uplo_t) : nat -> nat -> Prop := fun i j =>
  match u with Upper => i <= j | Lower => j <= i | _ => True end.
Definition vtrid (u : uplo_t) (d : diag_t) : nat -> nat -> Prop := fun i j =>
  vtri u i j /\ (d = Unit -> i <> j).
(** closed upper triangle when uplo is General (hemm, symm, herk, ...) *)
Definition vtriU (u : uplo_t) : nat -> nat -> Prop := fun i j =>
  match u with Lower => j <= i | _ => i <= j end.

Ltac rdims :=
  repeat match goal with
  | H : reads _ ?A ?B _ |- _ =>
      lazymatch goal with _ : nr B = nr A |- _ => fail | _ => idtac end;
      pose proof (proj1 H); pose proof (proj1 (proj2 H))
  | H : writes _ ?A ?B _ |- _ =>
      lazymatch goal with _ : nr B = nr A |- _ => fail | _ => idtac end;
      pose proof (proj1 H); pose proof (proj1 (proj2 H))
  end;
  repeat match goal with
  | H : nr ?B = nr ?A |- context [nr ?B] => rewrite H
  | H : nc ?B = nc ?A |- context [nc ?B] => rewrite H
  end.
Ltac rbnd := cbn [nr nc ad subv colv rowv trv]; lia.
Ltac rvis0 := fail.
Ltac rvis := cbv beta; try rvis0; unfold everywhere, vtrid, vtri, vtriU;
  first [exact I | lia | intuition (try lia; try discriminate; try congruence)].
Ltac rcheck := first [assumption | reflexivity | apply Nat.eqb_eq; congruence | apply Nat.eqb_eq; lia
   | apply negb_true_iff, Nat.ltb_ge; lia | apply andb_true_intro; split; apply Nat.eqb_eq; congruence ].
Ltac rstep :=
  lazymatch goal with
  | |- rr _ _ (bind _ _) (bind _ _) => apply rr_bind; [|intros ?; cbv beta]
  | |- rr _ _ (ret _) (ret _) => apply rr_ret
  | |- rr _ _ (check _) (check _) => apply rr_check; [solve [rcheck]]
  | |- rr _ _ (rdv _ _) _ => unfold rdv
  | |- rr _ _ (wrv _ _ _) _ => unfold wrv
  | |- rr ?R _ (rd ?A _ _) (rd ?B _ _) =>
      match goal with H : reads R A B ?v |- _ => apply (rr_rd _ _ _ _ v _ _ H); [solve [rbnd]|solve [rbnd]|solve [rvis]] end
  | |- rr ?R _ (wr ?A _ _ _) (wr ?B _ _ _) =>
      match goal with H : writes R A B ?v |- _ => apply (rr_wr _ _ _ _ v _ _ _ H); [solve [rbnd]|solve [rbnd]|solve [rvis]] end
  | |- rr _ _ (forup _ _ _) (forup _ _ _) => apply rr_forup; let i := fresh "i" in intros i ?; cbv beta
  | |- rr _ _ (fordown _ _ _) (fordown _ _ _) => apply rr_fordown; let i := fresh "i" in intros i ?; cbv beta
  | |- rr _ _ (foldup _ _ _ _) (foldup _ _ _ _) => apply rr_foldup; let i := fresh "i" in let a := fresh "a" in intros i a ?; cbv beta
  | |- rr _ _ (folddown _ _ _ _) (folddown _ _ _ _) => apply rr_folddown; let i := fresh "i" in let a := fresh "a" in intros i a ?; cbv beta
  | |- rr _ _ (let _ := _ in _) _ => cbv zeta
  | |- rr _ _ (if ?b then _ else _) (if ?b then _ else _) => destruct b eqn:?
  end.
Ltac rauto := repeat rstep.
