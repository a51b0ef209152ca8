(** Independence of the old output contents (beta = StrongZero), any arithmetic *)
From Coq Require Import Bool Arith ZArith Lia List.
From Verif.Core Require Import Scalar Prog View Rel.
From Verif.Model Require Import Gemm Blas2 Blas3.
From Verif.Proof Require Import RelTac HRel.
Import ListNotations.
Local Open Scope nat_scope.

(** vis sets *)
Definition vnone : nat -> nat -> Prop := fun _ _ => False.
Definition vall : nat -> nat -> Prop := fun _ _ => True.

Definition vcols (j : nat) : nat -> nat -> Prop := fun i' j' => j' < j.
Definition vcr (j i : nat) : nat -> nat -> Prop := fun i' j' => j' < j \/ j' = j /\ i' < i.
Definition vcd (j i : nat) : nat -> nat -> Prop := fun i' j' => j' < j \/ j' = j /\ i <= i'.
Definition vct (u : uplo_t) (j : nat) : nat -> nat -> Prop := fun i' j' => j' < j /\ vtriU u i' j'.
Definition vctr (u : uplo_t) (j i : nat) : nat -> nat -> Prop := fun i' j' => (j' < j \/ j' = j /\ i' < i) /\ vtriU u i' j'.
(** copying the upper triangle to the lower one *)
Definition vcp (j : nat) : nat -> nat -> Prop := fun i' j' => i' <= j' \/ j' < j.
Definition vcpr (j i : nat) : nat -> nat -> Prop := fun i' j' => i' <= j' \/ j' < j \/ j' = j /\ i' < i.
(** column j below the diagonal, up to row i *)
Definition vctl (j i : nat) : nat -> nat -> Prop := fun i' j' => (j' < j \/ j' = j /\ j < i' < i) /\ j' <= i'.
Definition vrows (i : nat) : nat -> nat -> Prop := fun i' _ => i' < i.
(** restricted to the triangle *)
Definition vand (p q : nat -> nat -> Prop) : nat -> nat -> Prop := fun i j => p i j /\ q i j.
Definition vor (p q : nat -> nat -> Prop) : nat -> nat -> Prop := fun i j => p i j \/ q i j.

Ltac rvis0 ::= unfold vctl, vcp, vcpr, vct, vctr, vcols, vcr, vcd, vand, vor, vall, vnone in *.
Ltac hv := cbv beta; unfold everywhere, vctl, vcp, vcpr, vct, vctr, vrows, vcols, vcr, vcd, vand, vor, vnone, vall, vtri, vtriU, vtrid in *; intros; try tauto; lia.
(** same-set part by rr *)
Ltac hsame v := apply (hr_rr _ _ _ _ _ v); solve [rauto].
Ltac hweak := eapply hr_weak; [|hv].
Ltac hspec := match goal with |- rr ?R _ _ _ =>
  repeat match goal with
  | H : forall v, reads (@?f v) ?A ?B ?w |- _ =>
      let H' := fresh "R" in assert (H' : reads R A B w) by (apply H); clear H
  end; 
  repeat match goal with
  | H : forall v, reads (@?f v) ?A ?B v |- _ =>
      let H' := fresh "R" in pose proof (H _ : reads R A B _) as H'; clear H
  | H : forall v, writes (@?f v) ?A ?B v |- _ =>
      let H' := fresh "R" in pose proof (H _ : writes R A B _) as H'; clear H
  end end.
Ltac hrr := apply hr_rr; hspec; solve [rauto].
Ltac hchk := eapply hr_bind; [apply hr_rr; apply rr_check; solve [rcheck]|intros _].
Ltac hread x := eapply hr_bind; [hrr|intros x; cbv beta; try cbv zeta].
Ltac hfor I := eapply (hr_forup _ _ _ _ _ I); [lia|solve [hv]| |solve [hv]]; let i := fresh "i" in intros i ?; cbv beta.
Ltac hford I := eapply (hr_fordown _ _ _ _ _ I); [lia|solve [hv]| |solve [hv]]; let i := fresh "i" in intros i ?; cbv beta.
Ltac hmid v := eapply (hr_bind _ _ _ _ _ _ v); [|intros ?; cbv beta; try cbv zeta].
(** write the position without looking at its old contents *)
Ltac hwr := apply hr_wr; [assumption|assumption|assumption|assumption|assumption|rbnd|rbnd|solve [hv]].
Ltac hinit_ := cbn [mulc addc cadd cmul]; apply hr_skip; [assumption|rbnd|rbnd|].
Ltac hinit := hinit_; hwr.

Ltac hrdwr := eapply hr_bind; [hrr|intros ?; cbv beta]; hwr.

Section NB.
Context {E : Env}.
Variables (ins : params) (C1 C2 : view) (t1 t2 : state).
Hypothesis (Hsh : same_shape ins) (Hin : forall A1 A2 v, In (A1, A2, v) ins -> disj A1 C1 /\ disj A2 C2).
Hypothesis (HC1 : nr C2 = nr C1) (HC2 : nc C2 = nc C1) (HI1 : vinj C1) (HI2 : vinj C2).
Notation HR := (hr ins C1 C2 t1 t2).
Notation "'rds' A B w" := (forall v, reads (hl ins C1 C2 t1 t2 v) A B w) (at level 10, A at next level, B at next level, w at next level).
Let HC : nr C2 = nr C1 /\ nc C2 = nc C1 := Logic.conj HC1 HC2.
Let RC := hreads_C ins C1 C2 t1 t2 HC.
Let WC := hwrites_C ins C1 C2 t1 t2 Hsh Hin HC HI1 HI2.

Lemma gemm_nb ta tb alpha A1 A2 B1 B2 m n k : op3 ta = true -> op3 tb = true ->
  (if is_nt ta then nr A1 = m /\ nc A1 = k else nr A1 = k /\ nc A1 = m) ->
  (if is_nt tb then nr B1 = k /\ nc B1 = n else nr B1 = n /\ nc B1 = k) ->
  nr A2 = nr A1 -> nc A2 = nc A1 -> nr B2 = nr B1 -> nc B2 = nc B1 ->
  nr C1 = m -> nc C1 = n ->
  rds A1 A2 everywhere -> rds B1 B2 everywhere ->
  HR vnone vall (gemm_nobeta ta tb alpha A1 B1 C1) (gemm_nobeta ta tb alpha A2 B2 C2).
Proof.
  intros Hta Htb HA HB EA1 EA2 EB1 EB2 HCm HCn RA RB. pose proof RC as RC'. pose proof WC as WC'.
  unfold gemm_nobeta, gemm. cbv zeta. rewrite EA1, EA2, EB1, EB2, HC1, HC2.
  destruct ta, tb; try discriminate; cbn [is_nt op_eqb] in *; destruct HA, HB; do 5 hchk;
  hfor vcols.
  1-3: (hmid (vcols (S i)); [hfor (vcr i); hinit|hrr]).
  all: hfor (vcr i); hread x; hinit.
Qed.


Lemma gemv_nb o alpha A1 A2 x1 x2 m n : (n = 0 -> m = 0) ->
  (if notransb o then nr A1 = m /\ nc A1 = n else nr A1 = n /\ nc A1 = m) ->
  nr A2 = nr A1 -> nc A2 = nc A1 -> nr x2 = nr x1 -> nc x1 = 1 -> nc C1 = 1 -> nr x1 = n -> nr C1 = m ->
  rds A1 A2 everywhere -> rds x1 x2 everywhere ->
  HR vnone vall (gemv_nobeta o alpha A1 x1 C1) (gemv_nobeta o alpha A2 x2 C2).
Proof.
  intros Hn HA EA1 EA2 EX HX HY HXn HYn RA RX. pose proof RC as RC'. pose proof WC as WC'.
  unfold gemv_nobeta, gemv, rdv, wrv. cbv zeta. rewrite EA1, EA2, EX, HC1.
  destruct o; cbn [notransb] in *; destruct HA; do 2 hchk;
  match goal with |- HR _ _ (if ?b then _ else _) _ => destruct b eqn:Hb end;
  try (eapply hr_weak; [apply hr_ret|]; apply orb_prop in Hb; rewrite !Nat.eqb_eq in Hb; intros; lia);
  (hmid vall; [hfor vrows; hinit|hrr]).
Qed.
Lemma hemv_nb u alpha A1 A2 x1 x2 n : uplo2 u = true -> nr A1 = n -> nc A1 = n ->
  nr A2 = nr A1 -> nc A2 = nc A1 -> nr x2 = nr x1 -> nc x1 = 1 -> nc C1 = 1 -> nr x1 = n -> nr C1 = n ->
  rds A1 A2 (vtri u) -> rds x1 x2 everywhere ->
  HR vnone vall (hemv_nobeta u alpha A1 x1 C1) (hemv_nobeta u alpha A2 x2 C2).
Proof.
  intros Hu HA1 HA2 EA1 EA2 EX HX HY HXn HYn RA RX. pose proof RC as RC'. pose proof WC as WC'.
  unfold hemv_nobeta, hemv, rdv, wrv. cbv zeta. rewrite EA1, EA2, EX, HC1. do 4 hchk.
  hmid vall; [hfor vrows; hinit|]. destruct u; try discriminate; hrr.
Qed.
Lemma symv_nb u alpha A1 A2 x1 x2 n : uplo2 u = true -> nr A1 = n -> nc A1 = n ->
  nr A2 = nr A1 -> nc A2 = nc A1 -> nr x2 = nr x1 -> nc x1 = 1 -> nc C1 = 1 -> nr x1 = n -> nr C1 = n ->
  rds A1 A2 (vtri u) -> rds x1 x2 everywhere ->
  HR vnone vall (symv_nobeta u alpha A1 x1 C1) (symv_nobeta u alpha A2 x2 C2).
Proof.
  intros Hu HA1 HA2 EA1 EA2 EX HX HY HXn HYn RA RX. pose proof RC as RC'. pose proof WC as WC'.
  unfold symv_nobeta, symv, rdv, wrv. cbv zeta. rewrite EA1, EA2, EX, HC1. do 4 hchk.
  hmid vall; [hfor vrows; hinit|]. destruct u; try discriminate; hrr.
Qed.
Lemma hemm_nb sd u alpha A1 A2 B1 B2 m n : uplo3 u = true -> nr B1 = m -> nc B1 = n -> nr C1 = m -> nc C1 = n ->
  nr A1 = sel sd m n -> nc A1 = sel sd m n ->
  nr A2 = nr A1 -> nc A2 = nc A1 -> nr B2 = nr B1 -> nc B2 = nc B1 ->
  rds A1 A2 (vtriU u) -> rds B1 B2 everywhere ->
  HR vnone vall (hemm_nobeta sd u alpha A1 B1 C1) (hemm_nobeta sd u alpha A2 B2 C2).
Proof.
  intros Hu HB1 HB2 HCm HCn HA1 HA2 EA1 EA2 EB1 EB2 RA RB. pose proof RC as RC'. pose proof WC as WC'.
  unfold hemm_nobeta, hemm. cbv zeta. rewrite EA1, EA2, EB1, EB2, HC1, HC2. do 5 hchk.
  destruct sd, u; try discriminate; cbn [sel] in *; hfor vcols.
  1, 3: hfor (vcr i); hread b; hread sm; hinit_; hread a; hwr.
  1: hford (vcd i); hread b; hread sm; hinit_; hread a; hwr.
  all: hread a; hmid (vcols (S i)); [hfor (vcr i); hinit_; hread b; hwr|hrr].
Qed.
Lemma symm_nb sd u alpha A1 A2 B1 B2 m n : uplo3 u = true -> nr B1 = m -> nc B1 = n -> nr C1 = m -> nc C1 = n ->
  nr A1 = sel sd m n -> nc A1 = sel sd m n ->
  nr A2 = nr A1 -> nc A2 = nc A1 -> nr B2 = nr B1 -> nc B2 = nc B1 ->
  rds A1 A2 (vtriU u) -> rds B1 B2 everywhere ->
  HR vnone vall (symm_nobeta sd u alpha A1 B1 C1) (symm_nobeta sd u alpha A2 B2 C2).
Proof.
  intros Hu HB1 HB2 HCm HCn HA1 HA2 EA1 EA2 EB1 EB2 RA RB. pose proof RC as RC'. pose proof WC as WC'.
  unfold symm_nobeta, symm. cbv zeta. rewrite EA1, EA2, EB1, EB2, HC1, HC2. do 5 hchk.
  destruct sd, u; try discriminate; cbn [sel] in *; hfor vcols.
  1, 3: hfor (vcr i); hread b; hread sm; hinit_; hread a; hwr.
  1: hford (vcd i); hread b; hread sm; hinit_; hread a; hwr.
  all: hread a; hmid (vcols (S i)); [hfor (vcr i); hinit_; hread b; hwr|hrr].
Qed.
Lemma herk_nb u o alpha A1 A2 n k : uplo3 u = true -> (o = NoTrans \/ o = ConjTrans) -> nr C1 = n -> nc C1 = n ->
  nr A1 = (if is_nt o then n else k) -> nc A1 = (if is_nt o then k else n) ->
  nr A2 = nr A1 -> nc A2 = nc A1 -> 
  rds A1 A2 everywhere -> 
  HR vnone (vtri u) (herk_nobeta u o alpha A1 C1) (herk_nobeta u o alpha A2 C2).
Proof.
  intros Hu [-> | ->] HCm HCn HA1 HA2 EA1 EA2 RA; pose proof RC as RC'; pose proof WC as WC';
  unfold herk_nobeta, herk; cbv zeta; cbn [is_nt op_eqb] in *; rewrite EA1, EA2, HC1, HC2; do 4 hchk;
  (hmid (vtriU u); [|destruct u; try discriminate; try (hweak; apply hr_ret); hfor vcp; hfor (vcpr i); hrdwr]).
  - destruct u; try discriminate; [hfor (vct Upper)|hfor (vct Lower)|hfor (vct Upper)].
    1, 3: hmid (vctr Upper i i); [hfor (vctr Upper i); hinit|]; hmid (vct Upper (S i)); [hinit|hrr].
    hmid (vctr Lower i (S i)); [hinit|]; hmid (vct Lower (S i)); [hfor (vctr Lower i); hinit|hrr].
  - destruct u; try discriminate; [hfor (vct Upper)|hfor (vct Lower)|hfor (vct Upper)].
    1, 3: hmid (vctr Upper i i); [hfor (vctr Upper i); hread sm; hinit|hread sm; hinit].
    hmid (vctl i n); [hfor (vctl i); hread sm; hinit|hread sm; hinit].
Qed.
Lemma syrk_nb u o alpha A1 A2 n k : uplo3 u = true -> (o = NoTrans \/ o = Trans) -> nr C1 = n -> nc C1 = n ->
  nr A1 = (if is_nt o then n else k) -> nc A1 = (if is_nt o then k else n) ->
  nr A2 = nr A1 -> nc A2 = nc A1 -> 
  rds A1 A2 everywhere -> 
  HR vnone (vtri u) (syrk_nobeta u o alpha A1 C1) (syrk_nobeta u o alpha A2 C2).
Proof.
  intros Hu [-> | ->] HCm HCn HA1 HA2 EA1 EA2 RA; pose proof RC as RC'; pose proof WC as WC';
  unfold syrk_nobeta, syrk; cbv zeta; cbn [is_nt op_eqb] in *; rewrite EA1, EA2, HC1, HC2; do 4 hchk;
  (hmid (vtriU u); [|destruct u; try discriminate; try (hweak; apply hr_ret); hfor vcp; hfor (vcpr i); hrdwr]).
  - destruct u; try discriminate; [hfor (vct Upper)|hfor (vct Lower)|hfor (vct Upper)].
    1, 3: hmid (vct Upper (S i)); [hfor (vctr Upper i); hinit|hrr].
    hmid (vct Lower (S i)); [hfor (vctr Lower i); hinit|hrr].
  - destruct u; try discriminate; [hfor (vct Upper); hfor (vctr Upper i)|hfor (vct Lower); hfor (vctr Lower i)|hfor (vct Upper); hfor (vctr Upper i)];
    hread sm; hinit.
Qed.
Lemma her2k_nb u o alpha A1 A2 B1 B2 n k : uplo3 u = true -> (o = NoTrans \/ o = ConjTrans) -> nr C1 = n -> nc C1 = n ->
  nr A1 = (if is_nt o then n else k) -> nc A1 = (if is_nt o then k else n) ->
  nr A2 = nr A1 -> nc A2 = nc A1 -> nr B1 = nr A1 -> nc B1 = nc A1 -> nr B2 = nr B1 -> nc B2 = nc B1 -> 
  rds A1 A2 everywhere -> rds B1 B2 everywhere ->
  HR vnone (vtri u) (her2k_nobeta u o alpha A1 B1 C1) (her2k_nobeta u o alpha A2 B2 C2).
Proof.
  intros Hu [-> | ->] HCm HCn HA1 HA2 EA1 EA2 HB1 HB2 EB1 EB2 RA RB; pose proof RC as RC'; pose proof WC as WC';
  unfold her2k_nobeta, her2k; cbv zeta; cbn [is_nt op_eqb] in *; rewrite EA1, EA2, EB1, EB2, HC1, HC2; do 5 hchk;
  (hmid (vtriU u); [|destruct u; try discriminate; try (hweak; apply hr_ret); hfor vcp; hfor (vcpr i); hrdwr]).
  - destruct u; try discriminate; [hfor (vct Upper)|hfor (vct Lower)|hfor (vct Upper)].
    1, 3: hmid (vctr Upper i i); [hfor (vctr Upper i); hinit|]; hmid (vct Upper (S i)); [hinit|hrr].
    hmid (vctr Lower i (S i)); [hinit|]; hmid (vct Lower (S i)); [hfor (vctr Lower i); hinit|hrr].
  - destruct u; try discriminate; [hfor (vct Upper); hfor (vctr Upper i)|hfor (vct Lower); hfor (vctr Lower i)|hfor (vct Upper); hfor (vctr Upper i)];
    hread sm; hinit.
Qed.
Lemma syr2k_nb u o alpha A1 A2 B1 B2 n k : uplo3 u = true -> (o = NoTrans \/ o = Trans) -> nr C1 = n -> nc C1 = n ->
  nr A1 = (if is_nt o then n else k) -> nc A1 = (if is_nt o then k else n) ->
  nr A2 = nr A1 -> nc A2 = nc A1 -> nr B1 = nr A1 -> nc B1 = nc A1 -> nr B2 = nr B1 -> nc B2 = nc B1 -> 
  rds A1 A2 everywhere -> rds B1 B2 everywhere ->
  HR vnone (vtri u) (syr2k_nobeta u o alpha A1 B1 C1) (syr2k_nobeta u o alpha A2 B2 C2).
Proof.
  intros Hu [-> | ->] HCm HCn HA1 HA2 EA1 EA2 HB1 HB2 EB1 EB2 RA RB; pose proof RC as RC'; pose proof WC as WC';
  unfold syr2k_nobeta, syr2k; cbv zeta; cbn [is_nt op_eqb] in *; rewrite EA1, EA2, EB1, EB2, HC1, HC2; do 5 hchk;
  (hmid (vtriU u); [|destruct u; try discriminate; try (hweak; apply hr_ret); hfor vcp; hfor (vcpr i); hrdwr]).
  - destruct u; try discriminate; [hfor (vct Upper)|hfor (vct Lower)|hfor (vct Upper)].
    1, 3: hmid (vct Upper (S i)); [hfor (vctr Upper i); hinit|hrr].
    hmid (vct Lower (S i)); [hfor (vctr Lower i); hinit|hrr].
  - destruct u; try discriminate; [hfor (vct Upper); hfor (vctr Upper i)|hfor (vct Lower); hfor (vctr Lower i)|hfor (vct Upper); hfor (vctr Upper i)];
    hread sm; hinit.
Qed.
End NB.
