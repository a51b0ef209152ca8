(** * steqr in every arithmetic: it stays inside its arguments *)
From Coq Require Import Bool Arith ZArith Lia Ascii.
From Verif.Core Require Import Scalar Prog View Slice.
From Verif.Model Require Import Blas1 Householder Sort Rot Steqr.
From Verif.Spec Require Import Outcome Sort.
From Verif.Proof Require Import Tactics SliceTac.
From Verif.Properties Require Import Sort.
Local Open Scope T_scope.

Section P.
Context {E : Env}.
Section St.
Context (wz : bool) (d e Z : view) (n : nat).
Context (Hd : nr d = n) (Hd1 : nc d = 1%nat) (He : (n <= nr e + 1)%nat) (He1 : nc e = 1%nat) (HZ : wz = true -> nc Z = n).

Definition area (l : BinNums.Z) : Prop := inview d l \/ inview e l \/ (wz = true /\ inview Z l).
Definition fr (s0 s : state) : Prop := only_changes area s0 s.
Lemma fr_wr s0 s v i j x (Q : unit -> state -> Prop) X : fr s0 s -> (i < nr v)%nat -> (j < nc v)%nat -> area (ad v i j) ->
  (forall s', fr s0 s' -> Q tt s') -> wp (wr v i j x) Q X s.
Proof.
  intros [H1 H2] Hi Hj HA HQ. apply wp_wr; auto. apply HQ. split; auto. intros l Hl. cbn.
  destruct (BinInt.Z.eqb_spec l (ad v i j)) as [->|]; [contradiction|auto].
Qed.
Lemma in_d i : (i < n)%nat -> area (ad d i 0).
Proof. intros. left. exists i, 0%nat. repeat split; lia. Qed.
Lemma in_e i : (i + 1 < n)%nat -> area (ad e i 0).
Proof. intros. right. left. exists i, 0%nat. repeat split; lia. Qed.
Lemma in_z i j : wz = true -> (i < nr Z)%nat -> (j < n)%nat -> area (ad Z i j).
Proof. intros Hw Hi Hj. right. right. split; auto. exists i, j. rewrite (HZ Hw). repeat split; lia. Qed.
Ltac rdd := apply wp_bind; apply wp_rd; [lia|lia|].
Ltac wrd := apply wp_bind; eapply fr_wr; [eassumption|lia|lia|first [apply in_d; lia|apply in_e; lia]|intros ? ?].

Lemma rot_fr s0 s j1 j2 c sn X : wz = true -> fr s0 s -> (j1 < n)%nat -> (j2 < n)%nat ->
  wp (rot_cols Z j1 j2 c sn) (fun _ s' => fr s0 s') X s.
Proof.
  intros Hw HF H1 H2. assert (HN := HZ Hw). unfold rot_cols. apply wp_bind, wp_slcol; try lia. apply wp_bind, wp_slcol; try lia.
  unfold rot. cbv zeta. apply wp_bind, wp_check; [apply Nat.eqb_refl|].
  destruct (_ || _); [apply wp_ret; auto|]. apply (wp_forup (fun _ s' => fr s0 s')); auto; [lia|].
  intros i s1 Hi HF1. cbn in Hi. do 4 (apply wp_bind, wp_rd; [cbn; lia|cbn; lia|]).
  apply wp_bind. eapply fr_wr; eauto; cbn; try lia. { apply in_z; auto; lia. } intros s2 HF2.
  eapply fr_wr; eauto; cbn; try lia. apply in_z; auto; lia.
Qed.
Lemma swap_fr s0 s j1 j2 X : wz = true -> fr s0 s -> (j1 < n)%nat -> (j2 < n)%nat ->
  wp (z1 <- slcol Z 0 (nr Z) j1;; z2 <- slcol Z 0 (nr Z) j2;; swap z1 z2) (fun _ s' => fr s0 s') X s.
Proof.
  intros Hw HF H1 H2. assert (HN := HZ Hw). apply wp_bind, wp_slcol; try lia. apply wp_bind, wp_slcol; try lia.
  unfold swap. cbv zeta. apply wp_bind, wp_check; [apply Nat.eqb_refl|]. apply (wp_forup (fun _ s' => fr s0 s')); auto; [lia|].
  intros i s1 Hi HF1. cbn in Hi. do 2 (apply wp_bind, wp_rd; [cbn; lia|cbn; lia|]).
  apply wp_bind. eapply fr_wr; eauto; cbn; try lia. { apply in_z; auto; lia. } intros s2 HF2.
  eapply fr_wr; eauto; cbn; try lia. apply in_z; auto; lia.
Qed.
Lemma find_fr eps2 smin s0 X : forall c lo s, fr s0 s -> (lo + c < n)%nat ->
  wp (st_find eps2 smin d e lo c) (fun r s' => fr s0 s' /\ (lo <= r <= lo + c)%nat) X s.
Proof.
  induction c as [|c IH]; intros lo s HF Hc; cbn [st_find]; [apply wp_ret; split; auto; lia|]. cbv zeta. do 3 rdd.
  destruct (leb _ _).
  - wrd. apply wp_ret. split; auto. lia.
  - eapply wp_conseq; [apply (IH lo s); auto; lia| |auto]. cbv beta. intros r s' [H1 H2]. split; auto. lia.
Qed.
Lemma qr_fr smin smax s0 s lo hi X : fr s0 s -> (lo + 1 < hi)%nat -> (hi <= n)%nat ->
  wp (st_qr smin smax wz d e Z lo hi) (fun _ s' => fr s0 s') X s.
Proof.
  intros HF H1 H2. unfold st_qr. do 3 rdd. cbv zeta. do 2 rdd. apply wp_bind.
  apply (wp_foldup _ (fun _ _ s' => fr s0 s')); auto; [lia| |].
  - intros i [[[a1 a2] a3] a4] s1 Hi HF1. do 2 rdd. destruct (lartg _ _ _ _) as [[c sn] r].
    apply wp_bind. apply wp_conseq with (Q := fun _ s' => fr s0 s') (X := X); [| |auto].
    + destruct (negb _) eqn:Hn; [|apply wp_ret; auto]. destruct (Nat.eqb_spec i lo); [discriminate|]. eapply fr_wr; eauto; [lia|lia|apply in_e; lia].
    + intros u s2 HF2. do 2 rdd. wrd. apply wp_bind. apply wp_conseq with (Q := fun _ s' => fr s0 s') (X := X); [| |auto].
      * case_eq wz; intros Hw; [apply rot_fr; auto; lia|apply wp_ret; auto].
      * intros u1 s4 HF4. apply wp_ret; auto.
  - intros [[[a1 a2] a3] a4] s1 HF1. rdd. wrd. eapply fr_wr; eauto; [lia|lia|apply in_e; lia].
Qed.
Lemma ql_fr smin smax s0 s lo hi X : fr s0 s -> (lo + 1 < hi)%nat -> (hi <= n)%nat ->
  wp (st_ql smin smax wz d e Z lo hi) (fun _ s' => fr s0 s') X s.
Proof.
  intros HF H1 H2. unfold st_ql. do 3 rdd. cbv zeta. do 2 rdd. apply wp_bind.
  apply (wp_folddown _ (fun _ _ s' => fr s0 s')); auto; [lia| |].
  - intros i [[[a1 a2] a3] a4] s1 Hi HF1. do 2 rdd. destruct (lartg _ _ _ _) as [[c sn] r].
    apply wp_bind. apply wp_conseq with (Q := fun _ s' => fr s0 s') (X := X); [| |auto].
    + destruct (negb _) eqn:Hn; [|apply wp_ret; auto]. destruct (Nat.eqb_spec i (hi - 1)); [discriminate|]. eapply fr_wr; eauto; [lia|lia|apply in_e; lia].
    + intros u s2 HF2. do 2 rdd. wrd. apply wp_bind. apply wp_conseq with (Q := fun _ s' => fr s0 s') (X := X); [| |auto].
      * case_eq wz; intros Hw; [apply rot_fr; auto; lia|apply wp_ret; auto].
      * intros u1 s4 HF4. apply wp_ret; auto.
  - intros [[[a1 a2] a3] a4] s1 HF1. rdd. wrd. eapply fr_wr; eauto; [lia|lia|apply in_e; lia].
Qed.
Lemma b22_fr s0 s lo X : fr s0 s -> (lo + 1 < n)%nat -> wp (st_22 wz d e Z lo) (fun _ s' => fr s0 s') X s.
Proof.
  intros HF H1. unfold st_22. do 3 rdd. apply wp_bind. apply wp_conseq with (Q := fun _ s' => fr s0 s') (X := X); [| |auto].
  - case_eq wz; intros Hw; [|apply wp_ret; auto]. destruct (laev2 _ _ _) as [[[s1 s2] cs] sn]. apply wp_bind.
    eapply wp_conseq; [apply rot_fr; eauto; lia| |intros ? ? HH; exact HH]. intros u s3 HF3. apply wp_ret. auto.
  - intros [x y] s1 HF1. wrd. wrd. eapply fr_wr; eauto; [lia|lia|apply in_e; lia].
Qed.
Lemma loop_fr eps2 smin smax s0 X : forall iters lo hi old fwd s, fr s0 s -> (hi <= n)%nat -> ((1 < hi)%nat -> (lo < hi)%nat) ->
  wp (st_loop iters eps2 smin smax wz d e Z lo hi old fwd) (fun _ s' => fr s0 s') X s.
Proof.
  induction iters as [|k IH]; intros lo hi old fwd s HF Hh Hl; cbn [st_loop]; [apply wp_ret; auto|].
  destruct (Nat.leb_spec hi 1); [apply wp_ret; auto|]. specialize (Hl ltac:(lia)).
  apply wp_bind. eapply wp_conseq; [apply (find_fr eps2 smin s0 X); eauto; lia| |auto]. cbv beta. intros r s1 [HF1 Hr].
  destruct (Nat.eqb_spec r (hi - 1)); [apply IH; auto; lia|]. destruct (Nat.eqb_spec (r + 1) (hi - 1)).
  - apply wp_bind. eapply wp_conseq; [apply (b22_fr s0 s1 r X); auto; lia| |auto]. intros u s2 HF2. apply IH; auto; lia.
  - apply wp_bind. apply wp_conseq with (Q := fun _ s' => fr s0 s') (X := X); [| |auto].
    + match goal with |- wp (if ?b then _ else _) _ _ _ => destruct b end; [do 2 rdd|]; apply wp_ret; auto.
    + intros f s2 HF2. apply wp_bind. apply wp_conseq with (Q := fun _ s' => fr s0 s') (X := X); [| |auto].
      * destruct f; [apply qr_fr|apply ql_fr]; auto; lia.
      * intros u s3 HF3. apply IH; auto; lia.
Qed.
Lemma sort_fr s0 s X : wz = true -> (0 < n)%nat -> fr s0 s -> wp (st_sort n d Z) (fun _ s' => fr s0 s') X s.
Proof.
  intros Hw Hn HF. unfold st_sort. apply (wp_forup (fun _ s' => fr s0 s')); auto; [lia|].
  intros i s1 Hi HF1. rdd. apply wp_bind. apply (wp_foldup _ (fun j kp s' => fr s0 s' /\ (i <= fst kp < n)%nat)); [lia|split; auto; cbn; lia| |].
  - intros j [kk pp] s2 Hj (HF2 & K). rdd. destruct (ltb _ _); [rdd|]; apply wp_ret; split; auto; cbn in *; lia.
  - intros [kk pp] s2 (HF2 & K). cbn in K. destruct (negb _); [|apply wp_ret; auto]. rdd. wrd. wrd. apply swap_fr; auto; lia.
Qed.
End St.
Lemma steqr_fr fuel wz d e Z s eps smin smax : (2 * nr d <= fuel)%nat -> nc d = 1%nat -> nc e = 1%nat -> (nr d <= nr e + 1)%nat -> (wz = true -> nc Z = nr d) ->
  (wz = false -> vinj d /\ forall a b, ltb a b = true -> ltb b a = false) ->
  runs (steqr fuel eps smin smax wz d e Z) s (fun info s' => info = 0%Z /\ only_changes (area wz d e Z) s s').
Proof.
  intros Hf Hd1 He1 He HZ HS. unfold runs, steqr. set (n := nr d).
  assert (F0 : fr wz d e Z s s) by (split; auto).
  destruct (Nat.eqb_spec n 0); [apply wp_ret; auto|]. destruct (Nat.eqb_spec n 1); [apply wp_ret; auto|].
  apply wp_bind. eapply wp_conseq; [apply (loop_fr wz d e Z n eq_refl Hd1 He He1 HZ _ _ _ s noX); auto; lia| |auto].
  intros u s1 F1. cbv beta in F1. apply wp_bind. apply wp_conseq with (Q := fun _ s' => fr wz d e Z s s') (X := noX); [| |auto].
  - destruct wz; cbn [negb].
    + apply (sort_fr true d e Z n); auto; lia.
    + destruct (HS eq_refl) as [ID AS]. destruct (lasrt_core fuel "I"%char n d s1 Hf Hd1 (le_n _) ID ltac:(intros; auto) ltac:(left; right; auto)) as (r & s2 & K & _ & [K1 K2] & _).
      apply wp_bind. unfold wp. rewrite K. cbn. destruct F1 as [F1 F2]. split; [|congruence]. intros l Hl. rewrite K1; auto. intros Hn. apply Hl. left. auto.
  - intros u1 s2 F2. apply wp_ret. auto.
Qed.
End P.
