(** * Proofs for lamrg *)
From Coq Require Import Bool Arith ZArith Lia List Permutation.
From Verif.Core Require Import Scalar Prog View Slice IVec.
From Verif.Spec Require Import Sort.
From Verif.Model Require Import Sort.
Import ListNotations.

Section P.
Context {E : Env}.
Variables (n1 n2 : nat) (a index : view) (dtrd1 dtrd2 : Z) (s0 : state).
Hypothesis Hd1 : dtrd1 = 1%Z \/ dtrd1 = (-1)%Z.
Hypothesis Hd2 : dtrd2 = 1%Z \/ dtrd2 = (-1)%Z.
Hypothesis Ha : nc a = 1.
Hypothesis Hna : n1 + n2 <= nr a.
Hypothesis Hx : nc index = 1.
Hypothesis Hnx : n1 + n2 <= nr index.
Hypothesis HI : vinj index.
Notation v := (vval a s0).
Definition idx1 (k : nat) : nat := if (0 <? dtrd1)%Z then k else n1 - 1 - k.
Definition idx2 (k : nat) : nat := if (0 <? dtrd2)%Z then n1 + k else n1 + n2 - 1 - k.
(** the hypotheses of sortedness *)
Definition W : Prop := weak_order_on (among (n1 + n2) v) /\
  (forall x y, among (n1 + n2) v x -> among (n1 + n2) v y -> eqb x y = true -> ltb y x = false) /\
  (forall k l, k < l < n1 -> ltb (v (idx1 l)) (v (idx1 k)) = false) /\
  (forall k l, k < l < n2 -> ltb (v (idx2 l)) (v (idx2 k)) = false).
Definition ist (k1 k2 : nat) (s : state) : Prop := mem s = mem s0 /\ (forall l, ~ inview index l -> imem s l = imem s0 l) /\
  exists g : nat -> nat, (forall p, p < k1 + k2 -> ival index s p = Z.of_nat (g p)) /\
    Permutation (map g (seq 0 (k1 + k2))) (map idx1 (seq 0 k1) ++ map idx2 (seq 0 k2)) /\
    (W -> (forall p q, p < q < k1 + k2 -> ltb (v (g q)) (v (g p)) = false) /\
          (forall p k, p < k1 + k2 -> k1 <= k < n1 -> ltb (v (idx1 k)) (v (g p)) = false) /\
          (forall p k, p < k1 + k2 -> k2 <= k < n2 -> ltb (v (idx2 k)) (v (g p)) = false)).

Lemma idx1_in k : k < n1 -> idx1 k < n1.
Proof. intros. unfold idx1. destruct (_ <? _)%Z; lia. Qed.
Lemma idx2_in k : k < n2 -> n1 <= idx2 k < n1 + n2.
Proof. intros. unfold idx2. destruct (_ <? _)%Z; lia. Qed.
Lemma W_neg x y z : W -> among (n1 + n2) v x -> among (n1 + n2) v y -> among (n1 + n2) v z -> ltb x y = false -> ltb y z = false -> ltb x z = false.
Proof. intros ((H1 & H2 & H3) & _) X Y Z A B. destruct (ltb x z) eqn:K; auto. destruct (H3 x z y) as [K'|K']; auto; congruence. Qed.
Lemma W_asym x y : W -> among (n1 + n2) v x -> among (n1 + n2) v y -> ltb x y = true -> ltb y x = false.
Proof. intros ((H1 & H2 & H3) & _) X Y A. destruct (ltb y x) eqn:K; auto. rewrite <- (H1 x X). symmetry. apply (H2 x y x); auto. Qed.
Lemma among_i i : i < n1 + n2 -> among (n1 + n2) v (v i).
Proof. intros. exists i. auto. Qed.

Lemma iwr_run p w s (Q : unit -> state -> Prop) X : p < nr index ->
  (forall s', mem s' = mem s -> (forall l, ~ inview index l -> imem s' l = imem s l) -> (forall k, k < nr index -> ival index s' k = if k =? p then Z.of_nat w else ival index s k) -> Q tt s') ->
  wp (iwr index p w) Q X s.
Proof.
  intros Hp HQ. unfold wp, iwr. rewrite inb_true by lia. apply HQ; auto.
  - intros l Hl. cbn [imem seti]. destruct (Z.eqb_spec l (ad index p 0)); auto. subst. exfalso. apply Hl. exists p, 0. repeat split; auto; lia.
  - intros k Hk. unfold ival, seti; cbn [imem]. destruct (Nat.eqb_spec k p).
    + subst. rewrite Z.eqb_refl. auto.
    + destruct (Z.eqb_spec (ad index k 0) (ad index p 0)) as [e|]; auto. apply HI in e; lia.
Qed.

Lemma take1 k1 k2 s (Q : unit -> state -> Prop) X : ist k1 k2 s -> k1 < n1 -> k2 <= n2 -> (W -> forall k, k2 <= k < n2 -> ltb (v (idx2 k)) (v (idx1 k1)) = false) ->
  (forall s', ist (S k1) k2 s' -> Q tt s') -> wp (iwr index (k1 + k2) (idx1 k1)) Q X s.
Proof.
  intros (M1 & M2 & g & G1 & G2 & G3) Hk1 Hk2 HM HQ. apply iwr_run; [lia|]. intros s' K1 K2 K3. apply HQ. split; [congruence|]. split; [intros; rewrite K2; auto|].
  exists (fun p => if p =? k1 + k2 then idx1 k1 else g p). split; [|split].
  - intros p Hp. rewrite K3 by lia. destruct (Nat.eqb_spec p (k1 + k2)); auto. apply G1. lia.
  - replace (S k1 + k2) with (S (k1 + k2)) by lia. rewrite !seq_S, !map_app. cbn [map plus]. rewrite Nat.eqb_refl.
    rewrite (map_ext_in _ g) by (intros x Hx'; apply in_seq in Hx'; destruct (Nat.eqb_spec x (k1 + k2)); auto; lia).
    rewrite G2. rewrite <- !app_assoc. apply Permutation_app_head. apply Permutation_app_comm.
  - intros HW. destruct (G3 HW) as (S1 & S2 & S3). assert (HW' := HW). destruct HW' as (_ & _ & W1 & W2). split; [|split].
    + intros p q Hpq. destruct (Nat.eqb_spec p (k1 + k2)); [lia|]. destruct (Nat.eqb_spec q (k1 + k2)); [apply S2; lia|apply S1; lia].
    + intros p k Hp Hk. destruct (Nat.eqb_spec p (k1 + k2)); [apply W1; lia|apply S2; lia].
    + intros p k Hp Hk. destruct (Nat.eqb_spec p (k1 + k2)); [apply HM; auto|apply S3; lia].
Qed.
Lemma take2 k1 k2 s (Q : unit -> state -> Prop) X : ist k1 k2 s -> k1 <= n1 -> k2 < n2 -> (W -> forall k, k1 <= k < n1 -> ltb (v (idx1 k)) (v (idx2 k2)) = false) ->
  (forall s', ist k1 (S k2) s' -> Q tt s') -> wp (iwr index (k1 + k2) (idx2 k2)) Q X s.
Proof.
  intros (M1 & M2 & g & G1 & G2 & G3) Hk1 Hk2 HM HQ. apply iwr_run; [lia|]. intros s' K1 K2 K3. apply HQ. split; [congruence|]. split; [intros; rewrite K2; auto|].
  exists (fun p => if p =? k1 + k2 then idx2 k2 else g p). split; [|split].
  - intros p Hp. rewrite K3 by lia. destruct (Nat.eqb_spec p (k1 + k2)); auto. apply G1. lia.
  - replace (k1 + S k2) with (S (k1 + k2)) by lia. rewrite !seq_S, !map_app. cbn [map plus]. rewrite Nat.eqb_refl.
    rewrite (map_ext_in _ g) by (intros x Hx'; apply in_seq in Hx'; destruct (Nat.eqb_spec x (k1 + k2)); auto; lia).
    rewrite G2. rewrite <- !app_assoc. apply Permutation_refl.
  - intros HW. destruct (G3 HW) as (S1 & S2 & S3). assert (HW' := HW). destruct HW' as (_ & _ & W1 & W2). split; [|split].
    + intros p q Hpq. destruct (Nat.eqb_spec p (k1 + k2)); [lia|]. destruct (Nat.eqb_spec q (k1 + k2)); [apply S3; lia|apply S1; lia].
    + intros p k Hp Hk. destruct (Nat.eqb_spec p (k1 + k2)); [apply HM; auto|apply S2; lia].
    + intros p k Hp Hk. destruct (Nat.eqb_spec p (k1 + k2)); [apply W2; lia|apply S3; lia].
Qed.

(** the running positions *)
Definition pos1 (k : nat) : Z := if (0 <? dtrd1)%Z then Z.of_nat k else (Z.of_nat n1 - 1 - Z.of_nat k)%Z.
Definition pos2 (k : nat) : Z := if (0 <? dtrd2)%Z then (Z.of_nat n1 + Z.of_nat k)%Z else (Z.of_nat n1 + Z.of_nat n2 - 1 - Z.of_nat k)%Z.
Lemma pos1_idx k : k < n1 -> (0 <=? pos1 k)%Z = true /\ Z.to_nat (pos1 k) = idx1 k.
Proof. intros. unfold pos1, idx1. rewrite Z.leb_le. destruct (_ <? _)%Z; lia. Qed.
Lemma pos2_idx k : k < n2 -> (0 <=? pos2 k)%Z = true /\ Z.to_nat (pos2 k) = idx2 k.
Proof. intros. unfold pos2, idx2. rewrite Z.leb_le. destruct (_ <? _)%Z; lia. Qed.
Lemma pos1_S k : (pos1 k + dtrd1)%Z = pos1 (S k).
Proof. unfold pos1. destruct Hd1 as [H|H]; rewrite H; destruct (Z.ltb_spec 0 1), (Z.ltb_spec 0 (-1)); lia. Qed.
Lemma pos2_S k : (pos2 k + dtrd2)%Z = pos2 (S k).
Proof. unfold pos2. destruct Hd2 as [H|H]; rewrite H; destruct (Z.ltb_spec 0 1), (Z.ltb_spec 0 (-1)); lia. Qed.

Lemma rdz_run i z s (Q : T -> state -> Prop) X : mem s = mem s0 -> (0 <=? z)%Z = true -> Z.to_nat z = i -> i < nr a -> Q (v i) s -> wp (rdz a z) Q X s.
Proof. intros Hm Hz Hi Hb HQ. unfold rdz. rewrite Hz, Hi. apply wp_rd; [auto|lia|]. unfold val. rewrite Hm. exact HQ. Qed.

Lemma merge_run c : forall k1 k2 s, ist k1 k2 s -> k1 <= n1 -> k2 <= n2 -> (n1 - k1) + (n2 - k2) <= c ->
  runs (merge_loop c a dtrd1 dtrd2 index (k1 + k2) (n1 - k1) (n2 - k2) (pos1 k1) (pos2 k2)) s (fun r s' => exists j1 j2,
    r = (j1 + j2, n1 - j1, n2 - j2, pos1 j1, pos2 j2) /\ ist j1 j2 s' /\ j1 <= n1 /\ j2 <= n2 /\ (j1 = n1 \/ j2 = n2)).
Proof.
  induction c as [|c IH]; intros k1 k2 s HS H1 H2 Hc; cbn [merge_loop].
  { apply wp_ret. exists k1, k2. split; auto. split; auto. lia. }
  destruct (Nat.ltb_spec 0 (n1 - k1)) as [L1|L1]; [destruct (Nat.ltb_spec 0 (n2 - k2)) as [L2|L2]|]; cbn [andb].
  2,3: apply wp_ret; exists k1, k2; split; auto; split; auto; lia.
  destruct (pos1_idx k1) as [P1 P1']; [lia|]. destruct (pos2_idx k2) as [P2 P2']; [lia|].
  assert (B1 := idx1_in k1 ltac:(lia)). assert (B2 := idx2_in k2 ltac:(lia)). assert (HM := proj1 HS).
  apply wp_bind. eapply rdz_run; [exact HM|exact P1|exact P1'|lia|]. apply wp_bind. eapply rdz_run; [exact HM|exact P2|exact P2'|lia|].
  destruct (leb (v (idx1 k1)) (v (idx2 k2))) eqn:K.
  - apply wp_bind. unfold iwrz. rewrite P1, P1'. apply (take1 k1 k2 s); auto; try lia.
    + intros HW k Hk. assert (B3 := idx2_in k ltac:(lia)). assert (N : ltb (v (idx2 k2)) (v (idx1 k1)) = false).
      { unfold leb in K. apply orb_prop in K. destruct K as [K|K]; [apply W_asym; auto; apply among_i; lia|]. apply (proj1 (proj2 HW)); auto; apply among_i; lia. }
      destruct (Nat.eq_dec k k2) as [->|]; auto. apply (W_neg _ (v (idx2 k2))); auto; try (apply among_i; lia). apply (proj2 (proj2 (proj2 HW))). lia.
    + intros s' HS'. replace (k1 + k2 + 1) with (S k1 + k2) by lia. replace (n1 - k1 - 1) with (n1 - S k1) by lia. rewrite pos1_S. apply IH; auto; lia.
  - apply wp_bind. unfold iwrz. rewrite P2, P2'. apply (take2 k1 k2 s); auto; try lia.
    + intros HW k Hk. assert (B3 := idx1_in k ltac:(lia)). assert (N : ltb (v (idx1 k1)) (v (idx2 k2)) = false) by (unfold leb in K; apply orb_false_elim in K; apply K).
      destruct (Nat.eq_dec k k1) as [->|]; auto. apply (W_neg _ (v (idx1 k1))); auto; try (apply among_i; lia). apply (proj1 (proj2 (proj2 HW))). lia.
    + intros s' HS'. replace (k1 + k2 + 1) with (k1 + S k2) by lia. replace (n2 - k2 - 1) with (n2 - S k2) by lia. rewrite pos2_S. apply IH; auto; lia.
Qed.
Lemma copy1_run c : forall k1 s, ist k1 n2 s -> k1 + c = n1 -> runs (copy_loop c dtrd1 index (k1 + n2) (pos1 k1)) s (fun _ s' => ist n1 n2 s').
Proof.
  induction c as [|c IH]; intros k1 s HS Hc; cbn [copy_loop]; [apply wp_ret; replace n1 with k1 at 1 by lia; auto|].
  destruct (pos1_idx k1) as [P1 P1']; [lia|]. apply wp_bind. unfold iwrz. rewrite P1, P1'. apply (take1 k1 n2 s); auto; try lia.
  intros s' HS'. replace (k1 + n2 + 1) with (S k1 + n2) by lia. rewrite pos1_S. apply IH; auto; lia.
Qed.
Lemma copy2_run c : forall k2 s, ist n1 k2 s -> k2 + c = n2 -> runs (copy_loop c dtrd2 index (n1 + k2) (pos2 k2)) s (fun _ s' => ist n1 n2 s').
Proof.
  induction c as [|c IH]; intros k2 s HS Hc; cbn [copy_loop]; [apply wp_ret; replace n2 with k2 at 1 by lia; auto|].
  destruct (pos2_idx k2) as [P1 P1']; [lia|]. apply wp_bind. unfold iwrz. rewrite P1, P1'. apply (take2 n1 k2 s); auto; try lia.
  intros s' HS'. replace (n1 + k2 + 1) with (n1 + S k2) by lia. rewrite pos2_S. apply IH; auto; lia.
Qed.
Lemma ist_start : ist 0 0 s0.
Proof. split; auto. split; auto. exists (fun _ => 0). split; [intros; lia|]. split; [constructor|]. intros _. repeat split; intros; lia. Qed.
Lemma lamrg_run : runs (lamrg n1 n2 a dtrd1 dtrd2 index) s0 (fun _ s' => ist n1 n2 s').
Proof.
  unfold runs, lamrg. cbv zeta. apply wp_bind. eapply wp_conseq with (X := noX); [|intros r s' H; exact H|auto].
  replace (if (0 <? dtrd1)%Z then 0%Z else (Z.of_nat n1 - 1)%Z) with (pos1 0) by (unfold pos1; destruct (_ <? _)%Z; lia).
  replace (if (0 <? dtrd2)%Z then Z.of_nat n1 else (Z.of_nat n1 + Z.of_nat n2 - 1)%Z) with (pos2 0) by (unfold pos2; destruct (_ <? _)%Z; lia).
  assert (K := merge_run (n1 + n2) 0 0 s0 ist_start ltac:(lia) ltac:(lia) ltac:(lia)). cbn [plus] in K. rewrite !Nat.sub_0_r in K.
  eapply wp_conseq; [exact K| |auto]. intros r s' (j1 & j2 & -> & HS & H1 & H2 & H3).
  destruct (Nat.eqb_spec (n1 - j1) 0).
  - replace j1 with n1 in * by lia. apply copy2_run; auto. lia.
  - replace j2 with n2 in * by lia. apply copy1_run; auto. lia.
Qed.
Lemma all_perm : Permutation (map idx1 (seq 0 n1) ++ map idx2 (seq 0 n2)) (seq 0 (n1 + n2)).
Proof.
  rewrite seq_app, plus_O_n. apply Permutation_app.
  - unfold idx1. destruct (_ <? _)%Z; [rewrite map_id; auto|]. symmetry. apply NoDup_Permutation_bis.
    + apply seq_NoDup.
    + rewrite map_length. auto.
    + intros x Hxx. apply in_seq in Hxx. apply in_map_iff. exists (n1 - 1 - x). split; [lia|apply in_seq; lia].
  - unfold idx2. destruct (_ <? _)%Z.
    + symmetry. apply NoDup_Permutation_bis; [apply seq_NoDup|rewrite map_length, !seq_length; auto|]. intros x Hxx. apply in_seq in Hxx. apply in_map_iff. exists (x - n1). split; [lia|apply in_seq; lia].
    + symmetry. apply NoDup_Permutation_bis; [apply seq_NoDup|rewrite map_length, !seq_length; auto|]. intros x Hxx. apply in_seq in Hxx. apply in_map_iff. exists (n1 + n2 - 1 - x). split; [lia|apply in_seq; lia].
Qed.
End P.
