(** * Proof automation for the wp calculus *)
From Coq Require Import Bool Arith ZArith Lia.
From Verif.Core Require Import Scalar Prog View.
From Verif.Spec Require Import LinAlg.
From Verif.Proof Require Import SumLemmas.

(** case analysis on boolean comparisons in the goal *)
Ltac ifs1 :=
  match goal with
  | |- context [Nat.ltb ?a ?b] => destruct (Nat.ltb_spec a b)
  | |- context [Nat.eqb ?a ?b] => destruct (Nat.eqb_spec a b)
  | |- context [Nat.leb ?a ?b] => destruct (Nat.leb_spec a b)
  end; cbn [andb orb negb]; try (exfalso; lia).
Ltac ifs := cbn [andb orb negb]; repeat ifs1.
(** same, then substitute equalities between variables *)
Ltac substn :=
  repeat match goal with
  | H : @eq nat ?x ?y |- _ => is_var x; is_var y; subst x
  end.
Ltac cases := unfold fupd; ifs; substn; try reflexivity; try (exfalso; lia).

Ltac bnd := cbn [nr nc ad subv colv rowv trv]; lia.

Ltac rd1 :=
  lazymatch goal with
  | |- wp (rd ?A ?i ?j) _ _ ?s =>
      first
      [ match goal with H : eff A _ _ s |- _ => apply (wp_rd_eff _ _ _ _ _ _ _ _ H); [try bnd|try bnd|] end
      | match goal with H : eff ?C _ _ s, D : disj A ?C |- _ =>
          apply (wp_rd_frame _ _ _ _ _ _ _ _ _ H D); [try bnd|try bnd|] end
      | match goal with H : eff2 A _ _ _ _ s |- _ => apply (wp_rd_eff2_1 _ _ _ _ _ _ _ _ _ _ H); [try bnd|try bnd|] end
      | match goal with H : eff2 _ _ A _ _ s |- _ => apply (wp_rd_eff2_2 _ _ _ _ _ _ _ _ _ _ H); [try bnd|try bnd|] end
      | match goal with H : eff2 ?C _ ?D _ _ s, D1 : disj A ?C, D2 : disj A ?D |- _ =>
          apply (wp_rd_frame2 _ _ _ _ _ _ _ _ _ _ _ H D1 D2); [try bnd|try bnd|] end
      | apply wp_rd; [try bnd|try bnd|] ]
  end.
Ltac wr1 :=
  lazymatch goal with
  | |- wp (wr ?A ?i ?j _) _ _ ?s =>
      first
      [ match goal with H : eff A _ _ s, D : vinj A |- _ =>
        apply (wp_wr_eff _ _ _ _ _ _ _ _ _ H D); [try bnd|try bnd|];
        let s' := fresh "s" in let H' := fresh "He" in intros s' H' end
      | match goal with H : eff2 A _ ?B _ _ s, D : vinj A, D2 : disj A ?B |- _ =>
        apply (wp_wr_eff2_1 _ _ _ _ _ _ _ _ _ _ _ H D D2); [try bnd|try bnd|];
        let s' := fresh "s" in let H' := fresh "He" in intros s' H' end
      | match goal with H : eff2 ?B _ A _ _ s, D : vinj A, D2 : disj ?B A |- _ =>
        apply (wp_wr_eff2_2 _ _ _ _ _ _ _ _ _ _ _ H D D2); [try bnd|try bnd|];
        let s' := fresh "s" in let H' := fresh "He" in intros s' H' end ]
  end.
(** one symbolic-execution step *)
Ltac step1 :=
  lazymatch goal with
  | |- wp (bind _ _) _ _ _ => apply wp_bind
  | |- wp (ret _) _ _ _ => apply wp_ret
  | |- wp (rd _ _ _) _ _ _ => rd1
  | |- wp (rdv _ _) _ _ _ => unfold rdv at 1
  | |- wp (wr _ _ _ _) _ _ _ => wr1
  | |- wp (wrv _ _ _) _ _ _ => unfold wrv at 1
  | |- wp (let _ := _ in _) _ _ _ => cbv zeta
  end.
Ltac steps := repeat step1.
(** finish an effect goal from an effect hypothesis by pointwise case analysis *)
Ltac effext :=
  match goal with
  | H : eff ?C _ ?s0 ?s |- eff ?C _ ?s0 ?s =>
      apply (eff_ext _ _ _ _ _ H); let i := fresh "i'" in let j := fresh "j'" in intros i j ? ?; unfold fupd; ifs; try subst i; try subst j; substn; try reflexivity; try (exfalso; lia)
  end.
Ltac effext2 :=
  match goal with
  | H : eff2 ?C _ ?D _ ?s0 ?s |- eff2 ?C _ ?D _ ?s0 ?s =>
      apply (eff2_ext _ _ _ _ _ _ _ _ H); let i := fresh "i'" in let j := fresh "j'" in intros i j ? ?; unfold fupd; ifs; try subst i; try subst j; substn; try reflexivity; try (exfalso; lia)
  end.
(** discharge the argument checks *)
Ltac checks :=
  repeat (apply wp_bind; apply wp_check;
    [solve [assumption | reflexivity | apply Nat.eqb_eq; congruence
           | apply Nat.eqb_eq; lia | apply negb_true_iff, Nat.ltb_ge; lia]|]).
(** loop with an explicit invariant; names the counter and the state *)
Tactic Notation "loop" uconstr(I) "as" ident(i) ident(s) :=
  apply (wp_forup I);
  [ try lia | 
  | let Hi := fresh "H" i in let He := fresh "He" in intros i s Hi He; cbv beta in He
  | let He := fresh "He" in intros s He; cbv beta in He ].
Tactic Notation "loopd" uconstr(I) "as" ident(i) ident(s) :=
  apply (wp_fordown I);
  [ try lia | 
  | let Hi := fresh "H" i in let He := fresh "He" in intros i s Hi He; cbv beta in He
  | let He := fresh "He" in intros s He; cbv beta in He ].
Tactic Notation "fold" uconstr(I) "as" ident(i) ident(a) ident(s) :=
  apply (wp_foldup _ I);
  [ try lia | 
  | let Hi := fresh "H" i in let He := fresh "He" in intros i a s Hi He; cbv beta in He
  | let He := fresh "He" in intros a s He; cbv beta in He ].

(** dot-product loop: an accumulation loop that only reads; the expected value is taken from a
    hypothesis [Q (sum k f) s] *)
Ltac dotloop :=
  intros; cbv beta;
  match goal with
  | H : ?Q (sum ?k ?f) ?s |- wp _ ?Q _ ?s =>
    apply (wp_foldup _ (fun l a s' => a = facc l f zero /\ s' = s));
    [ lia | split; reflexivity
    | let l := fresh "l" in let a := fresh "a" in let s' := fresh "s'" in
      intros l a s' ? [-> ->]; steps; split; reflexivity
    | let a := fresh "a" in let s' := fresh "s'" in intros a s' [-> ->]; rewrite facc_zero; assumption ]
  end.
