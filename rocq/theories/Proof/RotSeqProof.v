(** * rot_sequence *)
From Coq Require Import Bool Arith ZArith Lia List Ring Field.
From Verif.Core Require Import Scalar Prog View.
From Verif.Spec Require Import LinAlg Outcome Rot Householder.
From Verif.Model Require Import Rot.
From Verif.Proof Require Import SumLemmas Tactics.
Import ListNotations.
Local Open Scope T_scope.

Section P.
Context {E : Env}.
Implicit Types (A : view) (s : state).

(** the rows (Left) or columns (Right) of [A] as the rows of a view *)
Definition sv (side : side_t) (A : view) : view := match side with Left => A | Right => trv A end.
Lemma rds_sv side A i j : rds side A i j = rd (sv side A) i j.
Proof. destruct side; auto. unfold rds, rd, sv, inb, val, trv. cbn [nr nc ad]. rewrite andb_comm. auto. Qed.
Lemma wrs_sv side A i j v : wrs side A i j v = wr (sv side A) i j v.
Proof. destruct side; auto. unfold wrs, wr, sv, inb, trv. cbn [nr nc ad]. rewrite andb_comm. auto. Qed.
Lemma vinj_sv side A : vinj A -> vinj (sv side A).
Proof. destruct side; auto. intros H i j i' j' Hi Hj Hi' Hj' e. cbn in *. destruct (H j i j' i'); auto. Qed.
Lemma disj_sv side x A : disj x A -> disj x (sv side A).
Proof. destruct side; auto. intros H i j i' j' Hi Hj Hi' Hj'. cbn in *. apply H; auto. Qed.

(** one rotation on a line *)
Definition rstep (side : side_t) (c sn : nat -> T) (x : nat -> T) (i : nat) : nat -> T := fun r =>
  if (r =? i)%nat then c i * x i + upf side (sn i) * x (i + 1)%nat
  else if (r =? i + 1)%nat then dnf side (sn i) * x i + c i * x (i + 1)%nat
  else x r.
Definition rsteps (side : side_t) (c sn : nat -> T) (l : list nat) (x : nat -> T) : nat -> T := fold_left (rstep side c sn) l x.
Lemma rsteps_snoc side c sn l i x : rsteps side c sn (l ++ [i]) x = rstep side c sn (rsteps side c sn l x) i.
Proof. unfold rsteps. rewrite fold_left_app. auto. Qed.
(** the first rotations of the two orders *)
Definition dlist (k t : nat) : list nat := rev (seq (k - t) t).
Lemma dlist_S k t : (t < k)%nat -> dlist k (S t) = dlist k t ++ [(k - S t)%nat].
Proof. intros H. unfold dlist. cbn [seq]. replace (S (k - S t)) with (k - t)%nat by lia. cbn [rev]. auto. Qed.
Lemma alist_S t : seq 0 (S t) = seq 0 t ++ [t].
Proof. rewrite seq_S. auto. Qed.

Lemma rstep_ext side c sn x y i : (forall r, x r = y r) -> forall r, rstep side c sn x i r = rstep side c sn y i r.
Proof. intros H r. unfold rstep. rewrite !H. auto. Qed.
Lemma rsteps_ext side c sn l : forall x y, (forall r, x r = y r) -> forall r, rsteps side c sn l x r = rsteps side c sn l y r.
Proof. induction l as [|i l IH]; intros x y H r; cbn; auto. apply IH. apply rstep_ext. auto. Qed.
Lemma rsteps_app side c sn l l' x : rsteps side c sn (l ++ l') x = rsteps side c sn l' (rsteps side c sn l x).
Proof. unfold rsteps. apply fold_left_app. Qed.

Section L.
Variables (side : side_t) (c sn A : view).
Hypotheses (Hc1 : nc c = 1%nat) (Hs1 : nc sn = 1%nat) (HI : vinj A) (Dc : disj c A) (Ds : disj sn A).
Variable s0 : state.
Notation B := (sv side A).
Notation cv := (vval c s0).
Notation snv := (vval sn s0).
Let HIB : vinj B := vinj_sv side A HI.
Let DcB : disj c B := disj_sv side c A Dc.
Let DsB : disj sn B := disj_sv side sn A Ds.

Lemma rot_one_run i j s F : (i < nr c)%nat -> (i < nr sn)%nat -> (i + 1 < nr B)%nat -> (j < nc B)%nat -> eff B F s0 s ->
  wp (rot_one side c sn A i j) (fun _ s' => eff B (fun r q => if (q =? j)%nat then rstep side cv snv (fun r => F r q) i r else F r q) s0 s') noX s.
Proof.
  intros H1 H2 H3 H4 He. unfold rot_one. rewrite ?rds_sv. unfold rdv.
  apply wp_bind. apply (wp_rd_frame _ _ _ _ _ _ _ _ _ He DcB); [lia|lia|].
  apply wp_bind. apply (wp_rd_frame _ _ _ _ _ _ _ _ _ He DsB); [lia|lia|].
  apply wp_bind. apply (wp_rd_eff _ _ _ _ _ _ _ _ He); [lia|lia|].
  apply wp_bind. apply (wp_rd_eff _ _ _ _ _ _ _ _ He); [lia|lia|].
  cbv zeta. rewrite ?wrs_sv.
  apply wp_bind. apply (wp_wr_eff _ _ _ _ _ _ _ _ _ He HIB); [lia|lia|]. intros s1 He1.
  apply (wp_wr_eff _ _ _ _ _ _ _ _ _ He1 HIB); [lia|lia|]. intros s2 He2.
  apply (eff_ext _ _ _ _ _ He2). intros r q Hr Hq. unfold fupd, rstep. unfold vval. cases.
Qed.
Lemma rot3_fwd_run i j s F : (2 <= i)%nat -> (i < nr c)%nat -> (i < nr sn)%nat -> (i + 1 < nr B)%nat -> (j < nc B)%nat -> eff B F s0 s ->
  wp (rot3_fwd side c sn A i j) (fun _ s' => eff B (fun r q => if (q =? j)%nat then rsteps side cv snv [i; (i-1)%nat; (i-2)%nat] (fun r => F r q) r else F r q) s0 s') noX s.
Proof.
  intros H0 H1 H2 H3 H4 He. unfold rot3_fwd. rewrite ?rds_sv. unfold rdv.
  apply wp_bind. apply (wp_rd_eff _ _ _ _ _ _ _ _ He); [lia|lia|].
  apply wp_bind. apply (wp_rd_eff _ _ _ _ _ _ _ _ He); [lia|lia|].
  apply wp_bind. apply (wp_rd_eff _ _ _ _ _ _ _ _ He); [lia|lia|].
  apply wp_bind. apply (wp_rd_frame _ _ _ _ _ _ _ _ _ He DcB); [lia|lia|].
  apply wp_bind. apply (wp_rd_frame _ _ _ _ _ _ _ _ _ He DsB); [lia|lia|].
  rewrite ?wrs_sv. apply wp_bind. apply (wp_wr_eff _ _ _ _ _ _ _ _ _ He HIB); [lia|lia|]. clear s He. intros s He. cbv zeta.
  apply wp_bind. apply (wp_rd_frame _ _ _ _ _ _ _ _ _ He DcB); [lia|lia|].
  apply wp_bind. apply (wp_rd_frame _ _ _ _ _ _ _ _ _ He DsB); [lia|lia|].
  rewrite ?wrs_sv. apply wp_bind. apply (wp_wr_eff _ _ _ _ _ _ _ _ _ He HIB); [lia|lia|]. clear s He. intros s He. cbv zeta.
  apply wp_bind. apply (wp_rd_frame _ _ _ _ _ _ _ _ _ He DcB); [lia|lia|].
  apply wp_bind. apply (wp_rd_frame _ _ _ _ _ _ _ _ _ He DsB); [lia|lia|].
  rewrite ?rds_sv. apply wp_bind. apply (wp_rd_eff _ _ _ _ _ _ _ _ He); [lia|lia|].
  rewrite ?wrs_sv. apply wp_bind. apply (wp_wr_eff _ _ _ _ _ _ _ _ _ He HIB); [lia|lia|]. clear s He. intros s He.
  rewrite ?rds_sv. apply wp_bind. apply (wp_rd_eff _ _ _ _ _ _ _ _ He); [lia|lia|].
  rewrite ?wrs_sv. apply (wp_wr_eff _ _ _ _ _ _ _ _ _ He HIB); [lia|lia|]. clear s He. intros s He.
  destruct i as [|[|i]]; [lia|lia|]. replace (S (S i) - 1)%nat with (S i) in * by lia. replace (S (S i) - 2)%nat with i in * by lia.
  apply (eff_ext _ _ _ _ _ He). clear He. intros r q Hr Hq. cbn [rsteps fold_left]. unfold fupd, rstep, vval.
  rewrite ?Nat.eqb_refl. 
  cases.
Qed.
Lemma rot3_bwd_run i j s F : (i + 2 < nr c)%nat -> (i + 2 < nr sn)%nat -> (i + 3 < nr B)%nat -> (j < nc B)%nat -> eff B F s0 s ->
  wp (rot3_bwd side c sn A i j) (fun _ s' => eff B (fun r q => if (q =? j)%nat then rsteps side cv snv [i; (i+1)%nat; (i+2)%nat] (fun r => F r q) r else F r q) s0 s') noX s.
Proof.
  intros H1 H2 H3 H4 He. unfold rot3_bwd. rewrite ?rds_sv. unfold rdv.
  apply wp_bind. apply (wp_rd_eff _ _ _ _ _ _ _ _ He); [lia|lia|].
  apply wp_bind. apply (wp_rd_eff _ _ _ _ _ _ _ _ He); [lia|lia|].
  apply wp_bind. apply (wp_rd_eff _ _ _ _ _ _ _ _ He); [lia|lia|].
  apply wp_bind. apply (wp_rd_frame _ _ _ _ _ _ _ _ _ He DcB); [lia|lia|].
  apply wp_bind. apply (wp_rd_frame _ _ _ _ _ _ _ _ _ He DsB); [lia|lia|].
  rewrite ?wrs_sv. apply wp_bind. apply (wp_wr_eff _ _ _ _ _ _ _ _ _ He HIB); [lia|lia|]. clear s He. intros s He. cbv zeta.
  apply wp_bind. apply (wp_rd_frame _ _ _ _ _ _ _ _ _ He DcB); [lia|lia|].
  apply wp_bind. apply (wp_rd_frame _ _ _ _ _ _ _ _ _ He DsB); [lia|lia|].
  rewrite ?wrs_sv. apply wp_bind. apply (wp_wr_eff _ _ _ _ _ _ _ _ _ He HIB); [lia|lia|]. clear s He. intros s He. cbv zeta.
  apply wp_bind. apply (wp_rd_frame _ _ _ _ _ _ _ _ _ He DcB); [lia|lia|].
  apply wp_bind. apply (wp_rd_frame _ _ _ _ _ _ _ _ _ He DsB); [lia|lia|].
  rewrite ?rds_sv. apply wp_bind. apply (wp_rd_eff _ _ _ _ _ _ _ _ He); [lia|lia|].
  rewrite ?wrs_sv. apply wp_bind. apply (wp_wr_eff _ _ _ _ _ _ _ _ _ He HIB); [lia|lia|]. clear s He. intros s He.
  rewrite ?rds_sv. apply wp_bind. apply (wp_rd_eff _ _ _ _ _ _ _ _ He); [lia|lia|].
  rewrite ?wrs_sv. apply (wp_wr_eff _ _ _ _ _ _ _ _ _ He HIB); [lia|lia|]. clear s He. intros s He.
  replace (i + 1)%nat with (S i) in * by lia. replace (i + 2)%nat with (S (S i)) in * by lia. replace (i + 3)%nat with (S (S (S i))) in * by lia.
  apply (eff_ext _ _ _ _ _ He). clear He. intros r q Hr Hq. cbn [rsteps fold_left]. unfold fupd, rstep, vval.
  rewrite ?Nat.eqb_refl. replace (S i + 1)%nat with (S (S i)) by lia. replace (S (S i) + 1)%nat with (S (S (S i))) by lia. replace (i + 1)%nat with (S i) by lia.
  cases.
Qed.
Variable k : nat.
Hypotheses (Hk : nr B = S k) (Hck : nr c = k) (Hsk : nr sn = k).
Notation RS l q r := (rsteps side cv snv l (fun r => val B s0 r q) r).

Lemma plain_fwd_run : runs (plain_fwd side k (nc B) c sn A) s0 (fun _ s' => eff B (fun r q => RS (dlist k k) q r) s0 s').
Proof.
  unfold runs, plain_fwd.
  loop (fun j s => eff B (fun r q => if (q <? j)%nat then RS (dlist k k) q r else val B s0 r q) s0 s) as j s.
  { apply eff_refl. }
  { loopd (fun i s => eff B (fun r q => if (q <? j)%nat then RS (dlist k k) q r else if (q =? j)%nat then RS (dlist k (k - i)) q r else val B s0 r q) s0 s) as i s1.
    { apply (eff_ext _ _ _ _ _ He). intros r q Hr Hq. cases. rewrite Nat.sub_diag. auto. }
    { eapply wp_conseq; [eapply rot_one_run; [lia|lia|lia|lia|exact He0]| |intros ? ? []]. intros ? s2 He2. cbv beta in He2.
      apply (eff_ext _ _ _ _ _ He2). intros r q Hr Hq. destruct (Nat.eqb_spec q j) as [->|N]; [|cases]. rewrite Nat.ltb_irrefl.
      replace (k - i)%nat with (S (k - S i)) by lia. rewrite dlist_S, rsteps_snoc by lia. replace (k - S (k - S i))%nat with i by lia. auto. }
    { apply (eff_ext _ _ _ _ _ He0). intros r q Hr Hq. cases. rewrite Nat.sub_0_r. auto. } }
  { apply (eff_ext _ _ _ _ _ He). intros r q Hr Hq. cases. }
Qed.
Lemma plain_bwd_run : runs (plain_bwd side k (nc B) c sn A) s0 (fun _ s' => eff B (fun r q => RS (seq 0 k) q r) s0 s').
Proof.
  unfold runs, plain_bwd.
  loop (fun j s => eff B (fun r q => if (q <? j)%nat then RS (seq 0 k) q r else val B s0 r q) s0 s) as j s.
  { apply eff_refl. }
  { loop (fun i s => eff B (fun r q => if (q <? j)%nat then RS (seq 0 k) q r else if (q =? j)%nat then RS (seq 0 i) q r else val B s0 r q) s0 s) as i s1.
    { apply (eff_ext _ _ _ _ _ He). intros r q Hr Hq. cases. }
    { eapply wp_conseq; [eapply rot_one_run; [lia|lia|lia|lia|exact He0]| |intros ? ? []]. intros ? s2 He2. cbv beta in He2.
      apply (eff_ext _ _ _ _ _ He2). intros r q Hr Hq. destruct (Nat.eqb_spec q j) as [->|N]; [|cases]. rewrite Nat.ltb_irrefl.
      rewrite alist_S, rsteps_snoc. auto. }
    { apply (eff_ext _ _ _ _ _ He0). intros r q Hr Hq. cases. } }
  { apply (eff_ext _ _ _ _ _ He). intros r q Hr Hq. cases. }
Qed.
(** a loop over the lines *)
Lemma line_loop (body : nat -> M unit) l l' s :
  (forall j s F, (j < nc B)%nat -> eff B F s0 s ->
     wp (body j) (fun _ s' => eff B (fun r q => if (q =? j)%nat then rsteps side cv snv l' (fun r => F r q) r else F r q) s0 s') noX s) ->
  eff B (fun r q => RS l q r) s0 s ->
  wp (forup 0 (nc B) body) (fun _ s' => eff B (fun r q => RS (l ++ l') q r) s0 s') noX s.
Proof.
  intros Hb He.
  apply (wp_forup (fun j s => eff B (fun r q => if (q <? j)%nat then RS (l ++ l') q r else RS l q r) s0 s)); [lia|exact He| |].
  - intros j s1 Hj He1. eapply wp_conseq; [apply Hb; [lia|exact He1]| |intros ? ? []]. intros ? s2 He2. cbv beta in He2.
    apply (eff_ext _ _ _ _ _ He2). intros r q Hr Hq. destruct (Nat.eqb_spec q j) as [->|N]; [|cases]. rewrite Nat.ltb_irrefl. cases. rewrite rsteps_app. auto.
  - intros s1 He1. apply (eff_ext _ _ _ _ _ He1). intros r q Hr Hq. cases.
Qed.
Lemma unr_fwd_run : runs (unr_fwd side k (nc B) c sn A) s0 (fun _ s' => eff B (fun r q => RS (dlist k k) q r) s0 s').
Proof.
  assert (K := Nat.div_mod_eq k 3). assert (K' := Nat.mod_upper_bound k 3 ltac:(lia)). set (d := (k / 3)%nat) in *. set (m := (k mod 3)%nat) in *.
  unfold runs, unr_fwd. apply wp_bind. change (k / 3)%nat with d. change (k mod 3)%nat with m.
  loop (fun t s => eff B (fun r q => RS (dlist k (3 * t)) q r) s0 s) as t s.
  { apply eff_refl. }
  { eapply wp_conseq; [apply (line_loop _ (dlist k (3 * t)) [(k - 3 * t - 1)%nat; (k - 3 * t - 1 - 1)%nat; (k - 3 * t - 1 - 2)%nat]); [|exact He]| |intros ? ? []].
    - intros j s1 F Hj He1. apply rot3_fwd_run; auto; lia.
    - intros ? s1 He1. cbv beta in He1. apply (eff_ext _ _ _ _ _ He1). intros r q Hr Hq. f_equal.
      replace (3 * S t)%nat with (S (S (S (3 * t)))) by lia. rewrite !dlist_S by lia. rewrite <- !app_assoc. cbn [app]. replace (k - 3 * t - 1 - 2)%nat with (k - S (S (S (3 * t))))%nat by lia. replace (k - 3 * t - 1 - 1)%nat with (k - S (S (3 * t)))%nat by lia. replace (k - 3 * t - 1)%nat with (k - S (3 * t))%nat by lia. auto. }
  { loopd (fun i s => eff B (fun r q => RS (dlist k (k - i)) q r) s0 s) as i s1.
    { apply (eff_ext _ _ _ _ _ He). intros r q Hr Hq. f_equal. f_equal. lia. }
    { eapply wp_conseq; [apply (line_loop _ (dlist k (k - S i)) [i]); [|exact He0]| |intros ? ? []].
      - intros j s2 F Hj He2. apply rot_one_run; auto; lia.
      - intros ? s2 He2. cbv beta in He2. apply (eff_ext _ _ _ _ _ He2). intros r q Hr Hq. f_equal.
        replace (k - i)%nat with (S (k - S i)) by lia. rewrite dlist_S by lia. replace (k - S (k - S i))%nat with i by lia. auto. }
    { apply (eff_ext _ _ _ _ _ He0). intros r q Hr Hq. rewrite Nat.sub_0_r. auto. } }
Qed.
Lemma unr_bwd_run : runs (unr_bwd side k (nc B) c sn A) s0 (fun _ s' => eff B (fun r q => RS (seq 0 k) q r) s0 s').
Proof.
  assert (K := Nat.div_mod_eq k 3). assert (K' := Nat.mod_upper_bound k 3 ltac:(lia)). set (d := (k / 3)%nat) in *. set (m := (k mod 3)%nat) in *.
  unfold runs, unr_bwd. apply wp_bind. change (k / 3)%nat with d. change (k mod 3)%nat with m.
  loop (fun t s => eff B (fun r q => RS (seq 0 (3 * t)) q r) s0 s) as t s.
  { apply eff_refl. }
  { eapply wp_conseq; [apply (line_loop _ (seq 0 (3 * t)) [(3 * t)%nat; (3 * t + 1)%nat; (3 * t + 2)%nat]); [|exact He]| |intros ? ? []].
    - intros j s1 F Hj He1. apply rot3_bwd_run; auto; lia.
    - intros ? s1 He1. cbv beta in He1. apply (eff_ext _ _ _ _ _ He1). intros r q Hr Hq. f_equal.
      replace (3 * S t)%nat with (S (S (S (3 * t)))) by lia. rewrite !alist_S by lia. rewrite <- !app_assoc. cbn [app]. replace (3 * t + 1)%nat with (S (3 * t)) by lia. replace (3 * t + 2)%nat with (S (S (3 * t))) by lia. auto. }
  { loop (fun i s => eff B (fun r q => RS (seq 0 i) q r) s0 s) as i s1.
    { apply (eff_ext _ _ _ _ _ He). intros r q Hr Hq. f_equal. f_equal. lia. }
    { eapply wp_conseq; [apply (line_loop _ (seq 0 i) [i]); [|exact He0]| |intros ? ? []].
      - intros j s2 F Hj He2. apply rot_one_run; auto; lia.
      - intros ? s2 He2. cbv beta in He2. apply (eff_ext _ _ _ _ _ He2). intros r q Hr Hq. rewrite alist_S. auto. }
    { exact He0. } }
Qed.
End L.

(** the order in which the code applies the rotations *)
Definition rorder (dir : direction_t) (k : nat) : list nat := match dir with Forward => rev (seq 0 k) | Backward => seq 0 k end.
Lemma rot_sequence_run cm side dir c sn A s0 k : nc c = 1%nat -> nc sn = 1%nat -> vinj A -> disj c A -> disj sn A ->
  nr (sv side A) = S k -> nr c = k -> nr sn = k ->
  runs (rot_sequence cm side dir c sn A) s0 (fun z s' => z = 0%Z /\ eff (sv side A) (fun r q => rsteps side (vval c s0) (vval sn s0) (rorder dir k) (fun r => val (sv side A) s0 r q) r) s0 s').
Proof.
  intros H1 H2 HI Dc Ds Hk Hc Hs. unfold runs, rot_sequence. cbv zeta.
  assert (Ed : match side with Left => nr A | Right => nc A end = S k) by (destruct side; exact Hk).
  assert (Eo : match side with Left => nc A | Right => nr A end = nc (sv side A)) by (destruct side; auto).
  rewrite Ed, Eo. cbn [Nat.eqb]. replace (S k - 1)%nat with k by lia. checks.
  destruct (Nat.ltb_spec k 1) as [Z|NZ].
  { apply wp_ret. split; auto. assert (k = 0%nat) as -> by lia. apply (eff_ext _ _ _ _ _ (eff_refl _ _)). intros r q Hr Hq. destruct dir; reflexivity. }
  assert (L0 : dlist k k = rorder Forward k) by (unfold dlist, rorder; rewrite Nat.sub_diag; auto).
  apply wp_bind.
  assert (P1 := plain_fwd_run side c sn A H1 H2 HI Dc Ds s0 k Hk Hc Hs). assert (P2 := plain_bwd_run side c sn A H1 H2 HI Dc Ds s0 k Hk Hc Hs).
  assert (P3 := unr_fwd_run side c sn A H1 H2 HI Dc Ds s0 k Hk Hc Hs). assert (P4 := unr_bwd_run side c sn A H1 H2 HI Dc Ds s0 k Hk Hc Hs).
  rewrite L0 in P1, P3.
  destruct dir, side, cm; (eapply wp_use; [first [exact P1|exact P2|exact P3|exact P4]|intros ? s' He; apply wp_ret; split; [auto|exact He]]).
Qed.
End P.

(** ** The same as products of plane rotations *)
Section M.
Context {E : Env} {FL : FieldLaws E}.
Add Field Tf : fth.
Lemma sum_two n i (f : nat -> T) : (i + 1 < n)%nat -> (forall q, (q < n)%nat -> q <> i -> q <> (i + 1)%nat -> f q = 0) -> sum n f = f i + f (i + 1)%nat.
Proof.
  induction n as [|n IH]; intros Hi Hf; [lia|]. cbn [sum]. destruct (Nat.eq_dec (i + 1) n) as [e|N].
  - subst n. replace (i + 1)%nat with (S i) at 1 by lia. cbn [sum]. rewrite sum_0; [ring|]. intros q Hq. apply Hf; lia.
  - rewrite IH by (try lia; intros; apply Hf; lia). rewrite (Hf n) by lia. ring.
Qed.
(** the coefficients with which [side] multiplies *)
Definition sidem (side : side_t) (P : mat) : mat := match side with Left => P | Right => fun r q => conj (P r q) end.
Lemma rstep_prot {CL : ConjLaws E} side c sn m x i r : conj (c i) = c i -> (i + 1 < m)%nat -> (r < m)%nat ->
  rstep side c sn x i r = sum m (fun q => sidem side (prot c sn i) r q * x q).
Proof.
  intros Hc Hi Hr. unfold rstep.
  assert (C0 : conj 0 = 0) by apply conj_0. assert (C1 : conj 1 = 1) by apply conj_1.
  destruct (Nat.eqb_spec r i) as [->|N1]; [|destruct (Nat.eqb_spec r (i + 1)) as [->|N2]].
  - rewrite (sum_two m i); auto.
    + destruct side; unfold sidem, prot; ifs; cbn [upf]; rewrite ?Hc; ring.
    + intros q Hq Q1 Q2. destruct side; unfold sidem, prot; ifs; rewrite ?C0; ring.
  - rewrite (sum_two m i); auto.
    + destruct side; unfold sidem, prot; ifs; cbn [dnf]; rewrite ?conj_opp, ?conj_conj, ?Hc; ring.
    + intros q Hq Q1 Q2. destruct side; unfold sidem, prot; ifs; rewrite ?C0; ring.
  - rewrite (sum_single m r); auto.
    + destruct side; unfold sidem, prot, idm; ifs; rewrite ?C1; ring.
    + intros q Hq Q1. destruct side; unfold sidem, prot, idm; ifs; rewrite ?C0; ring.
Qed.
Lemma sidem_mmul {CL : ConjLaws E} side m P Q r q : sidem side (mmul m P Q) r q = mmul m (sidem side P) (sidem side Q) r q.
Proof.
  destruct side; cbn [sidem]; auto. unfold mmul. rewrite sum_conj. apply sum_ext. intros l Hl. apply conj_mul.
Qed.
Lemma rsteps_pseq {CL : ConjLaws E} side c sn m x : forall l, (forall i, In i l -> conj (c i) = c i) -> (forall i, In i l -> (i + 1 < m)%nat) -> forall r, (r < m)%nat ->
  rsteps side c sn (rev l) x r = sum m (fun q => sidem side (pseq m c sn l) r q * x q).
Proof.
  induction l as [|i l IH]; intros Hc Hl r Hr.
  - cbn. symmetry. rewrite (sum_single m r); auto.
    + destruct side; cbn [sidem]; unfold idm; ifs; rewrite ?conj_1; ring.
    + intros q Hq N. destruct side; cbn [sidem]; unfold idm; ifs; rewrite ?conj_0; ring.
  - cbn [rev]. rewrite rsteps_snoc. rewrite (rstep_prot side c sn m) by (first [assumption | apply Hc; cbn; auto | apply Hl; cbn; auto]).
    rewrite (sum_ext _ _ (fun q => sum m (fun p => sidem side (prot c sn i) r q * sidem side (pseq m c sn l) q p * x p))).
    2: { intros q Hq. rewrite IH by (first [assumption | intros; apply Hc; cbn; auto; fail | intros; apply Hl; cbn; auto]). rewrite <- sum_scal_l. apply sum_ext. intros p Hp. ring. }
    rewrite sum_swap. apply sum_ext. intros p Hp. unfold pseq. cbn [fold_right]. change (fold_right (fun i Q => mmul m (prot c sn i) Q) idm l) with (pseq m c sn l). rewrite sidem_mmul. unfold mmul.
    rewrite <- sum_scal_r. apply sum_ext. intros q Hq. ring.
Qed.
End M.
