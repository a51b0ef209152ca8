(** * The small kernels that work on views: lahqr_shiftcolumn and inv_house3; lahqr_eig22 *)
From Coq Require Import Bool Arith ZArith Lia Reals Lra Psatz.
From Verif.Core Require Import Scalar Instances Prog View.
From Verif.Spec Require Import Outcome LinAlg Norms Householder Small.
From Verif.Model Require Import Householder Sort Rot Steqr Norms Small.
From Verif.Proof Require Import LarfgProof SmallProof.

Lemma abs_eq0 (x : R) : Rabs x = 0%R -> x = 0%R.
Proof. intros H. destruct (Req_dec x 0); auto. apply Rabs_no_R0 in H0. contradiction. Qed.
Lemma eqb_yes {E : Env} {EL : EqbLaws E} (a b : T) : eqb a b = true -> a = b.
Proof. apply Scalar.eqb_spec. Qed.
Lemma eqb_no {E : Env} {EL : EqbLaws E} (a b : T) : eqb a b = false -> a <> b.
Proof. intros H K. apply Scalar.eqb_spec in K. congruence. Qed.
(** ** lahqr_eig22, complex scalars *)
Section Eig.
Local Open Scope T_scope.
Add Field CEf : (fth (E:=CE)).
Lemma CEs_0 (a b c d : @T CE) : abs1 a + abs1 b + abs1 c + abs1 d = 0 -> a = 0 /\ b = 0 /\ c = 0 /\ d = 0.
Proof.
  destruct a as [a1 a2], b as [b1 b2], c as [c1 c2], d as [d1 d2]. cbn. intros H. injection H. intros H0.
  pose proof (Rabs_pos a1). pose proof (Rabs_pos a2). pose proof (Rabs_pos b1). pose proof (Rabs_pos b2). pose proof (Rabs_pos c1). pose proof (Rabs_pos c2). pose proof (Rabs_pos d1). pose proof (Rabs_pos d2).
  repeat split; f_equal; apply abs_eq0; lra.
Qed.
Lemma eig22_run (csqrt : @T CE -> @T CE) (a00 a01 a10 a11 : @T CE) : (forall z, csqrt z * csqrt z = z) ->
  let '(s1, s2) := lahqr_eig22 csqrt a00 a01 a10 a11 in s1 + s2 = a00 + a11 /\ s1 * s2 = a00 * a11 - a01 * a10.
Proof.
  intros Hq. unfold lahqr_eig22. cbv zeta. set (s := abs1 a00 + abs1 a01 + abs1 a10 + abs1 a11).
  destruct (eqb s 0) eqn:Es; [apply eqb_yes in Es|apply eqb_no in Es].
  - destruct (CEs_0 _ _ _ _ Es) as (-> & -> & -> & ->). split; ring.
  - assert (H2 : (two (E:=CE)) <> 0). { unfold two. cbn. intros K. injection K. lra. }
    set (x := a00 / s). set (y := a01 / s). set (z := a10 / s). set (w := a11 / s). set (tr := (x + w) / two). set (det := (x - tr) * (x - tr) + y * z).
    specialize (Hq det). set (q := csqrt det) in *. clearbody q. unfold two in *. split.
    + transitivity (s * ((1 + 1) * tr)); [ring|]. unfold tr, x, w, two. field. auto.
    + transitivity (s * s * (tr * tr - q * q)); [ring|]. rewrite Hq. unfold det, tr, x, y, z, w, two. field. auto.
Qed.
(** the complex square root *)
Definition csqrtC (z : @T CE) : @T CE := let r := sqrt (Cnorm2 z) in (sqrt ((r + fst z) / 2), (if Rltb (snd z) 0 then -1 else 1)%R * sqrt ((r - fst z) / 2))%R.
Lemma csqrtC_sq z : csqrtC z * csqrtC z = z.
Proof.
  destruct z as [a b]. unfold csqrtC. cbn. unfold Cmul, Cnorm2. cbn. set (r := sqrt (a * a + b * b)). assert (R0 : (0 <= r)%R) by apply sqrt_pos. assert (Hr : (r * r = a * a + b * b)%R) by (apply sqrt_sqrt; nra).
  assert (H1 : (0 <= (r + a) / 2)%R) by nra. assert (H2 : (0 <= (r - a) / 2)%R) by nra.
  set (g := if Rltb b 0 then (-1)%R else 1%R). assert (G : (g * g = 1)%R) by (unfold g; destruct (Rltb b 0); ring).
  set (x := sqrt ((r + a) / 2)). set (y := sqrt ((r - a) / 2)). assert (X : (x * x = (r + a) / 2)%R) by (apply sqrt_sqrt; auto). assert (Y : (y * y = (r - a) / 2)%R) by (apply sqrt_sqrt; auto).
  assert (XY : (x * y = Rabs b / 2)%R). { unfold x, y. rewrite <- sqrt_mult by auto. replace ((r + a) / 2 * ((r - a) / 2))%R with ((Rabs b / 2) * (Rabs b / 2))%R. - apply sqrt_square. pose proof (Rabs_pos b). lra. - transitivity ((r * r - a * a) / 4)%R; [|field]. rewrite Hr. transitivity ((Rabs b * Rabs b) / 4)%R; [field|]. rewrite abs_sq. field. }
  f_equal.
  - transitivity (x * x - (g * g) * (y * y))%R; [ring|]. rewrite G, X, Y. field.
  - transitivity (2 * g * (x * y))%R; [ring|]. rewrite XY. unfold g. destruct (Rltb_spec b 0); [rewrite Rabs_left by lra|rewrite Rabs_right by lra]; field.
Qed.
End Eig.

(** ** Writing short vectors *)
Section V.
Context {E : Env}.
Local Open Scope T_scope.
Definition v2f (x y : T) : nat -> T := fun i => match i with O => x | _ => y end.
Definition v3f (x y z : T) : nat -> T := fun i => match i with O => x | S O => y | _ => z end.
Lemma wp_v2 v x y (Q : unit -> state -> Prop) X s : nr v = 2%nat -> nc v = 1%nat -> vinj v -> (forall s', veff v (v2f x y) s s' -> Q tt s') -> wp (wrv v 0 x;; wrv v 1 y) Q X s.
Proof.
  intros Hr Hc HI H. unfold wrv. apply wp_bind. eapply (wp_wr_eff v (val v s) s); [apply eff_refl|auto|lia|lia|]. intros s1 H1. eapply wp_wr_eff; [exact H1|auto|lia|lia|]. intros s2 (A1 & A2 & A3). apply H.
  split; [|auto]. intros i Hi. unfold vval. rewrite A1 by lia. unfold fupd. destruct i as [|[|i]]; cbn; auto. lia.
Qed.
Lemma wp_v3 v x y z (Q : unit -> state -> Prop) X s : nr v = 3%nat -> nc v = 1%nat -> vinj v -> (forall s', veff v (v3f x y z) s s' -> Q tt s') -> wp (wrv v 0 x;; wrv v 1 y;; wrv v 2 z) Q X s.
Proof.
  intros Hr Hc HI H. unfold wrv. apply wp_bind. eapply (wp_wr_eff v (val v s) s); [apply eff_refl|auto|lia|lia|]. intros s1 H1.
  apply wp_bind. eapply wp_wr_eff; [exact H1|auto|lia|lia|]. intros s2 H2. eapply wp_wr_eff; [exact H2|auto|lia|lia|]. intros s3 (A1 & A2 & A3). apply H.
  split; [|auto]. intros i Hi. unfold vval. rewrite A1 by lia. unfold fupd. destruct i as [|[|[|i]]]; cbn; auto. lia.
Qed.
Lemma wp_bind3 v x y z A (p : M A) (Q : A -> state -> Prop) X s : nr v = 3%nat -> nc v = 1%nat -> vinj v -> (forall s', veff v (v3f x y z) s s' -> wp p Q X s') -> wp (wrv v 0 x;; wrv v 1 y;; wrv v 2 z;; p) Q X s.
Proof.
  intros Hr Hc HI H. unfold wrv. apply wp_bind. eapply (wp_wr_eff v (val v s) s); [apply eff_refl|auto|lia|lia|]. intros s1 H1.
  apply wp_bind. eapply wp_wr_eff; [exact H1|auto|lia|lia|]. intros s2 H2. apply wp_bind. eapply wp_wr_eff; [exact H2|auto|lia|lia|]. intros s3 (A1 & A2 & A3). apply H.
  split; [|auto]. intros i Hi. unfold vval. rewrite A1 by lia. unfold fupd. destruct i as [|[|[|i]]]; cbn; auto. lia.
Qed.
Lemma veff_comp v f g s s1 s2 : veff v f s s1 -> veff v g s1 s2 -> veff v g s s2.
Proof. intros (A1 & A2 & A3) (B1 & B2 & B3). split; [auto|]. split; [intros l Hl; rewrite B2, A2 by auto; auto|congruence]. Qed.
End V.

(** ** lahqr_shiftcolumn *)
Section ShiftE.
Context {E : Env} {FL : FieldLaws E} {EL : EqbLaws E}.
Local Open Scope T_scope.
Add Field Tf : fth.
Ltac rds := repeat first [apply wp_bind; apply wp_rd; [lia|lia|]].
Ltac chk := repeat first [apply wp_bind; apply wp_check; [reflexivity|]].
Lemma shiftcolumn_cplx_run (H v : view) (s1 s2 : T) s : (forall x y, abs1 x + abs1 y = 0 -> x = 0 /\ y = 0) -> (forall x y z, abs1 x + abs1 y + abs1 z = 0 -> x = 0 /\ y = 0 /\ z = 0) ->
  (nc H = 2 \/ nc H = 3)%nat -> nr H = nc H -> nr v = nc H -> nc v = 1%nat -> vinj v ->
  runs (shiftcolumn_cplx H v s1 s2) s (fun r s' => r = 0%Z /\ veff v (vval v s') s s' /\ exists c, c <> 0 /\ forall i, (i < nc H)%nat -> c * vval v s' i = shcol (nc H) (val H s) s1 s2 0 i).
Proof.
  intros A2 A3 Hn Hnr Hv Hvc HI. unfold shiftcolumn_cplx. cbv zeta. rewrite Hnr, Hv.
  destruct Hn as [Hn|Hn]; rewrite Hn; cbn [Nat.eqb negb andb]; chk; rds.
  - set (c := abs1 (val H s 0 0 - s2) + abs1 (val H s 1 0)). apply wp_bind. destruct (eqb c 0) eqn:Ec; [apply eqb_yes in Ec|apply eqb_no in Ec].
    + apply wp_v2; [lia|auto|auto|]. intros s' V. apply wp_ret. split; auto. split. { destruct V as (V1 & V2 & V3). repeat split; auto. }
      exists 1. split; [apply (F_1_neq_0 fth)|]. intros i Hi. destruct V as (V1 & _). rewrite V1 by lia. destruct (A2 _ _ Ec) as [B1 B2]. unfold shcol. cbn [sum]. 
      assert (Ei : i = 0%nat \/ i = 1%nat) by lia. destruct Ei as [->| ->]; cbn [Nat.eqb v2f]; rewrite B2, B1; ring.
    + rds. apply wp_v2; [lia|auto|auto|]. intros s' V. apply wp_ret. split; auto. split. { destruct V as (V1 & V2 & V3). repeat split; auto. }
      exists c. split; [auto|]. intros i Hi. destruct V as (V1 & _). rewrite V1 by lia. unfold shcol. cbn [sum].
      assert (Ei : i = 0%nat \/ i = 1%nat) by lia. destruct Ei as [->| ->]; cbn [Nat.eqb v2f]; field; auto.
  - set (c := abs1 (val H s 0 0 - s2) + abs1 (val H s 1 0) + abs1 (val H s 2 0)). apply wp_bind. destruct (eqb c 0) eqn:Ec; [apply eqb_yes in Ec|apply eqb_no in Ec].
    + apply wp_v3; [lia|auto|auto|]. intros s' V. apply wp_ret. split; auto. split. { destruct V as (V1 & V2 & V3). repeat split; auto. }
      exists 1. split; [apply (F_1_neq_0 fth)|]. intros i Hi. destruct V as (V1 & _). rewrite V1 by lia. destruct (A3 _ _ _ Ec) as (B1 & B2 & B3). unfold shcol. cbn [sum]. 
      assert (Ei : i = 0%nat \/ i = 1%nat \/ i = 2%nat) by lia. destruct Ei as [->|[->| ->]]; cbn [Nat.eqb v3f]; rewrite B3, B2, B1; ring.
    + rds. apply wp_v3; [lia|auto|auto|]. intros s' V. apply wp_ret. split; auto. split. { destruct V as (V1 & V2 & V3). repeat split; auto. }
      exists c. split; [auto|]. intros i Hi. destruct V as (V1 & _). rewrite V1 by lia. unfold shcol. cbn [sum].
      assert (Ei : i = 0%nat \/ i = 1%nat \/ i = 2%nat) by lia. destruct Ei as [->|[->| ->]]; cbn [Nat.eqb v3f]; field; auto.
Qed.
Lemma shiftcolumn_real_run (H v : view) (r1 i1 r2 i2 : T) s : (forall x i y, absv x + absv i + absv y = 0 -> x = 0 /\ i = 0 /\ y = 0) -> (forall x i y z, absv x + absv i + absv y + absv z = 0 -> x = 0 /\ i = 0 /\ y = 0 /\ z = 0) ->
  (nc H = 2 \/ nc H = 3)%nat -> nr H = nc H -> nr v = nc H -> nc v = 1%nat -> vinj v ->
  runs (shiftcolumn_real H v (r1, i1) (r2, i2)) s (fun r s' => r = 0%Z /\ veff v (vval v s') s s' /\ exists c, c <> 0 /\ forall i, (i < nc H)%nat -> c * vval v s' i = shcol (nc H) (val H s) r1 r2 (i1 * i2) i).
Proof.
  intros A2 A3 Hn Hnr Hv Hvc HI. unfold shiftcolumn_real. cbv zeta iota beta. rewrite Hnr, Hv.
  destruct Hn as [Hn|Hn]; rewrite Hn; cbn [Nat.eqb negb andb]; chk; rds.
  - set (c := absv (val H s 0 0 - r2) + absv i2 + absv (val H s 1 0)). apply wp_bind. destruct (eqb c 0) eqn:Ec; [apply eqb_yes in Ec|apply eqb_no in Ec].
    + apply wp_v2; [lia|auto|auto|]. intros s' V. apply wp_ret. split; auto. split. { destruct V as (V1 & V2 & V3). repeat split; auto. }
      exists 1. split; [apply (F_1_neq_0 fth)|]. intros i Hi. destruct V as (V1 & _). rewrite V1 by lia. destruct (A2 _ _ _ Ec) as (B1 & B0 & B2). unfold shcol. cbn [sum]. 
      assert (Ei : i = 0%nat \/ i = 1%nat) by lia. destruct Ei as [->| ->]; cbn [Nat.eqb v2f]; rewrite B2, B1, ?B0; ring.
    + rds. apply wp_v2; [lia|auto|auto|]. intros s' V. apply wp_ret. split; auto. split. { destruct V as (V1 & V2 & V3). repeat split; auto. }
      exists c. split; [auto|]. intros i Hi. destruct V as (V1 & _). rewrite V1 by lia. unfold shcol. cbn [sum].
      assert (Ei : i = 0%nat \/ i = 1%nat) by lia. destruct Ei as [->| ->]; cbn [Nat.eqb v2f]; field; auto.
  - set (c := absv (val H s 0 0 - r2) + absv i2 + absv (val H s 1 0) + absv (val H s 2 0)). apply wp_bind. destruct (eqb c 0) eqn:Ec; [apply eqb_yes in Ec|apply eqb_no in Ec].
    + apply wp_v3; [lia|auto|auto|]. intros s' V. apply wp_ret. split; auto. split. { destruct V as (V1 & V2 & V3). repeat split; auto. }
      exists 1. split; [apply (F_1_neq_0 fth)|]. intros i Hi. destruct V as (V1 & _). rewrite V1 by lia. destruct (A3 _ _ _ _ Ec) as (B1 & B0 & B2 & B3). unfold shcol. cbn [sum]. 
      assert (Ei : i = 0%nat \/ i = 1%nat \/ i = 2%nat) by lia. destruct Ei as [->|[->| ->]]; cbn [Nat.eqb v3f]; rewrite B3, B2, B1, ?B0; ring.
    + rds. apply wp_v3; [lia|auto|auto|]. intros s' V. apply wp_ret. split; auto. split. { destruct V as (V1 & V2 & V3). repeat split; auto. }
      exists c. split; [auto|]. intros i Hi. destruct V as (V1 & _). rewrite V1 by lia. unfold shcol. cbn [sum].
      assert (Ei : i = 0%nat \/ i = 1%nat \/ i = 2%nat) by lia. destruct Ei as [->|[->| ->]]; cbn [Nat.eqb v3f]; field; auto.
Qed.
End ShiftE.
