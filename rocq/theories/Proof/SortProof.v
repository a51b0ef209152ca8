(** * Proofs for lasrt *)
From Coq Require Import Bool Arith ZArith Lia List Permutation Ascii.
From Verif.Core Require Import Scalar Prog View Slice IVec.
From Verif.Spec Require Import Sort.
From Verif.Model Require Import Sort.
Import ListNotations.

Section Shuf.
Context {A : Type}.
(** [g] is [f] with the elements of [a, b) permuted *)
Definition shuf (a b : nat) (f g : nat -> A) : Prop := exists p : nat -> nat,
  (forall i, a <= i < b -> a <= p i < b) /\ (forall i j, p i = p j -> i = j) /\ (forall i, ~ a <= i < b -> p i = i) /\ forall i, g i = f (p i).
Lemma shuf_refl a b f : shuf a b f f.
Proof. exists (fun i => i). repeat split; auto; lia. Qed.
Lemma shuf_trans a b f g h : shuf a b f g -> shuf a b g h -> shuf a b f h.
Proof.
  intros (p & P1 & P2 & P3 & P4) (q & Q1 & Q2 & Q3 & Q4). exists (fun i => p (q i)). repeat split.
  - apply P1, Q1; auto.
  - apply P1, Q1; auto.
  - intros i j H. auto.
  - intros i Hi. rewrite Q3 by auto. auto.
  - intros i. rewrite Q4, P4. auto.
Qed.
Lemma shuf_wide a b a' b' f g : a' <= a -> b <= b' -> shuf a b f g -> shuf a' b' f g.
Proof.
  intros Ha Hb (p & P1 & P2 & P3 & P4). exists p. repeat split; auto.
  - destruct (Nat.le_gt_cases a i); [destruct (Nat.lt_ge_cases i b)|]; [specialize (P1 i); lia| |]; rewrite P3; lia.
  - destruct (Nat.le_gt_cases a i); [destruct (Nat.lt_ge_cases i b)|]; [specialize (P1 i); lia| |]; rewrite P3; lia.
  - intros i Hi. apply P3. lia.
Qed.
Definition swapf (f : nat -> A) (i j : nat) : nat -> A := fun k => if k =? i then f j else if k =? j then f i else f k.
Lemma shuf_swap a b f i j : a <= i < b -> a <= j < b -> shuf a b f (swapf f i j).
Proof.
  intros Hi Hj. exists (fun k => if k =? i then j else if k =? j then i else k). repeat split.
  - destruct (Nat.eqb_spec i0 i), (Nat.eqb_spec i0 j); lia.
  - destruct (Nat.eqb_spec i0 i), (Nat.eqb_spec i0 j); lia.
  - intros x y. destruct (Nat.eqb_spec x i), (Nat.eqb_spec x j), (Nat.eqb_spec y i), (Nat.eqb_spec y j); lia.
  - intros x Hx. destruct (Nat.eqb_spec x i), (Nat.eqb_spec x j); lia.
  - intros x. unfold swapf. destruct (Nat.eqb_spec x i), (Nat.eqb_spec x j); auto.
Qed.
Lemma shuf_ext a b f g g' : shuf a b f g -> (forall i, g i = g' i) -> shuf a b f g'.
Proof. intros (p & P1 & P2 & P3 & P4) H. exists p. repeat split; auto; try apply P1; auto. intros i. rewrite <- H. auto. Qed.
Lemma shuf_in a b f g i : shuf a b f g -> a <= i < b -> exists k, a <= k < b /\ g i = f k.
Proof. intros (p & P1 & P2 & P3 & P4) Hi. exists (p i). split; auto. Qed.
Lemma shuf_out a b f g i : shuf a b f g -> ~ a <= i < b -> g i = f i.
Proof. intros (p & P1 & P2 & P3 & P4) Hi. rewrite P4, P3 by auto. auto. Qed.
Lemma shuf_perm n f g : shuf 0 n f g -> Permutation (map f (seq 0 n)) (map g (seq 0 n)).
Proof.
  intros (p & P1 & P2 & P3 & P4). rewrite (map_ext g (fun i => f (p i))) by auto. rewrite <- (map_map p f). apply Permutation_map.
  apply NoDup_Permutation_bis.
  - apply seq_NoDup.
  - rewrite map_length. auto.
  - assert (HN : NoDup (map p (seq 0 n))) by (apply FinFun.Injective_map_NoDup; [intros x y; apply P2|apply seq_NoDup]).
    assert (HI : incl (map p (seq 0 n)) (seq 0 n)).
    { intros x Hx. apply in_map_iff in Hx. destruct Hx as (y & <- & Hy). apply in_seq in Hy. apply in_seq. specialize (P1 y). lia. }
    intros x Hx. apply (NoDup_length_incl (l' := seq 0 n) HN); auto. rewrite map_length. auto.
Qed.
End Shuf.

Section P.
Context {E : Env}.
Variables (asc : bool) (d : view) (n : nat) (s0 : state).
Hypothesis Hd : nc d = 1.
Hypothesis HI : vinj d.
Hypothesis Hn : n <= nr d.

(** memory at [s] is that of [s0] except that [d] holds [f] *)
Definition dst (f : nat -> T) (s : state) : Prop := veff d f s0 s.
Lemma dst_rd f s i (Q : T -> state -> Prop) X : dst f s -> i < n -> Q (f i) s -> wp (rdv d i) Q X s.
Proof. intros (H1 & _) Hi HQ. apply wp_rd; [lia|lia|]. unfold vval in H1. rewrite H1 by lia. auto. Qed.
Lemma dst_wr f s i v (Q : unit -> state -> Prop) X : dst f s -> i < n ->
  (forall s', dst (fun k => if k =? i then v else f k) s' -> Q tt s') -> wp (wrv d i v) Q X s.
Proof.
  intros (H1 & H2 & H3) Hi HQ. apply wp_wr; [lia|lia|]. apply HQ. split; [|split; auto].
  - intros k Hk. unfold vval, val, setm; cbn [mem]. destruct (Nat.eqb_spec k i) as [->|Hne].
    + rewrite Z.eqb_refl. auto.
    + destruct (Z.eqb_spec (ad d k 0) (ad d i 0)) as [e|]; [apply HI in e; lia|apply H1; auto].
  - intros l Hl. cbn [mem setm]. destruct (Z.eqb_spec l (ad d i 0)) as [->|]; auto. exfalso. apply Hl. exists i, 0. repeat split; lia.
Qed.
Lemma dst_swap f s i j (Q : unit -> state -> Prop) X : dst f s -> i < n -> j < n ->
  (forall s', dst (swapf f i j) s' -> Q tt s') -> wp (temp <- rdv d i;; x <- rdv d j;; wrv d i x;; wrv d j temp)%prog Q X s.
Proof.
  intros H Hi Hj HQ. apply wp_bind, (dst_rd f); auto. apply wp_bind, (dst_rd f); auto.
  apply wp_bind. eapply dst_wr; eauto. intros s1 H1. eapply dst_wr; eauto. intros s2 (K1 & K2 & K3). apply HQ. split; [|split; auto].
  intros k Hk. rewrite K1 by auto. unfold swapf. destruct (Nat.eqb_spec k j), (Nat.eqb_spec k i); subst; auto.
Qed.

Notation prec := (prec asc).
(** strict weak order for [prec] on the values of f *)
Definition pwo (P : T -> Prop) : Prop := (forall a, P a -> prec a a = false) /\
  (forall a b c, P a -> P b -> P c -> prec a b = true -> prec b c = true -> prec a c = true) /\
  (forall a b c, P a -> P b -> P c -> prec a b = true -> prec a c = true \/ prec c b = true).
Lemma pwo_of P : weak_order_on P -> pwo P.
Proof.
  intros (H1 & H2 & H3). unfold pwo, Sort.prec. destruct asc; split; auto; split; auto.
  - intros a b c Pa Pb Pc A B. apply (H2 c b a); auto.
  - intros a b c Pa Pb Pc A. destruct (H3 b a c); auto.
Qed.
Variable P : T -> Prop.
Lemma pwo_neg a b c : pwo P -> P a -> P b -> P c -> prec a b = false -> prec b c = false -> prec a c = false.
Proof. intros (H1 & H2 & H3) Pa Pb Pc A B. destruct (prec a c) eqn:K; auto. destruct (H3 a c b) as [K'|K']; auto; congruence. Qed.
Lemma pwo_asym a b : pwo P -> P a -> P b -> prec a b = true -> prec b a = false.
Proof. intros (H1 & H2 & H3) Pa Pb A. destruct (prec b a) eqn:K; auto. rewrite <- (H1 a Pa). symmetry. apply (H2 a b a); auto. Qed.

(** insertion sort *)
Lemma ins_down_run start c f s : (forall k, k < n -> P (f k)) -> start + c < n -> dst f s ->
  (pwo P -> (forall p q, start <= p -> p < q -> q <= start + c -> q <> start + c -> prec (f q) (f p) = false)) ->
  forall top, start + c <= top -> top < n ->
  (pwo P -> forall p q, start <= p -> p < q -> q <= top -> p <> start + c -> q <> start + c -> prec (f q) (f p) = false) ->
  (pwo P -> forall q, start + c < q -> q <= top -> prec (f q) (f (start + c)) = false) ->
  runs (ins_down asc d start c) s (fun _ s' => exists g, dst g s' /\ shuf start (S top) f g /\
    (pwo P -> forall p q, start <= p -> p < q -> q <= top -> prec (g q) (g p) = false)).
Proof.
  revert f s. induction c as [|c IH]; intros f s HP Hc HS H0 top Ht Htn H1 H2; cbn [ins_down].
  { apply wp_ret. exists f. split; auto. split; [apply shuf_refl|]. intros W p q Hp Hpq Hq.
    destruct (Nat.eq_dec p start) as [->|]; [replace (f start) with (f (start + 0)) by (f_equal; lia); apply H2; auto; lia|apply H1; auto; lia]. }
  cbv zeta. apply wp_bind, (dst_rd f); auto. apply wp_bind, (dst_rd f); auto; [lia|].
  replace (start + S c - 1) with (start + c) by lia.
  destruct (prec (f (start + S c)) (f (start + c))) eqn:K.
  - assert (SW : forall s1, dst (swapf f (start + S c) (start + c)) s1 -> runs (ins_down asc d start c) s1 (fun _ s' => exists g, dst g s' /\ shuf start (S top) f g /\
      (pwo P -> forall p q, start <= p -> p < q -> q <= top -> prec (g q) (g p) = false))).
    { intros s1 HS1. eapply wp_conseq; [apply (IH (swapf f (start + S c) (start + c)) s1) with (top := top)| |auto]; auto; try lia.
      - intros k Hk. unfold swapf. destruct (_ =? _); [apply HP; lia|]. destruct (_ =? _); apply HP; lia.
      - intros W p q Hp Hpq Hq Hne. unfold swapf. destruct (Nat.eqb_spec q (start + S c)); [lia|]. destruct (Nat.eqb_spec q (start + c)); [lia|].
        destruct (Nat.eqb_spec p (start + S c)); [lia|]. destruct (Nat.eqb_spec p (start + c)); [lia|]. apply H1; auto; lia.
      - intros W p q Hp Hpq Hq Hnp Hnq. unfold swapf. destruct (Nat.eqb_spec q (start + S c)).
        + subst q. destruct (Nat.eqb_spec p (start + S c)); [lia|]. destruct (Nat.eqb_spec p (start + c)); [lia|]. apply H1; auto; lia.
        + destruct (Nat.eqb_spec q (start + c)); [lia|]. destruct (Nat.eqb_spec p (start + S c)).
          * subst p. apply H1; auto; lia.
          * destruct (Nat.eqb_spec p (start + c)); [lia|]. apply H1; auto; lia.
      - intros W q Hq Hqt. unfold swapf. rewrite (Nat.eqb_refl (start + c)). destruct (Nat.eqb_spec (start + c) (start + S c)); [lia|]. destruct (Nat.eqb_spec q (start + S c)).
        + apply pwo_asym; auto; apply HP; lia.
        + destruct (Nat.eqb_spec q (start + c)); [lia|]. apply H2; auto; lia.
      - intros _ s' (g & G1 & G2 & G3). exists g. split; auto. split; auto. eapply shuf_trans; [apply shuf_swap|exact G2]; lia. }
    apply wp_bind, (dst_rd f); auto. apply wp_bind, (dst_rd f); auto; [lia|].
    apply wp_bind. eapply dst_wr; eauto. intros s1 HS1. apply wp_bind. eapply dst_wr; eauto; [lia|]. intros s2 (K1 & K2 & K3). apply SW. split; [|split; auto].
    intros k Hk. rewrite K1 by auto. unfold swapf. destruct (Nat.eqb_spec k (start + c)), (Nat.eqb_spec k (start + S c)); subst; auto; try lia.
  - apply wp_ret. exists f. split; auto. split; [apply shuf_refl|]. intros W.
    assert (L : forall p, start <= p -> p < start + S c -> prec (f (start + S c)) (f p) = false).
    { intros p Hp Hpc. destruct (Nat.eq_dec p (start + c)) as [->|]; auto. apply (pwo_neg _ (f (start + c))); auto; try (apply HP; lia). apply H0; auto; lia. }
    intros p q Hp Hpq Hq. destruct (Nat.eq_dec q (start + S c)) as [->|]; [apply L; lia|].
    destruct (Nat.eq_dec p (start + S c)) as [->|]; [apply H2; auto; lia|apply H1; auto].
Qed.
Lemma ins_sort_run start end_ f s : (forall k, k < n -> P (f k)) -> start <= end_ -> end_ < n -> dst f s ->
  runs (ins_sort asc d start end_) s (fun _ s' => exists g, dst g s' /\ shuf start (S end_) f g /\
    (pwo P -> forall p q, start <= p -> p < q -> q <= end_ -> prec (g q) (g p) = false)).
Proof.
  intros HP Hse He HS. unfold ins_sort.
  apply wp_forup with (I := fun i s' => exists g, dst g s' /\ shuf start (S end_) f g /\ (pwo P -> forall p q, start <= p -> p < q -> q < i -> prec (g q) (g p) = false)).
  - lia.
  - exists f. split; auto. split; [apply shuf_refl|]. intros; lia.
  - intros i s' Hi (g & G1 & G2 & G3). eapply wp_use; [apply (ins_down_run start (i - start) g s') with (top := i)|].
    + intros k Hk. destruct (Nat.le_gt_cases start k); [destruct (Nat.lt_ge_cases k (S end_))|].
      * destruct (shuf_in _ _ _ _ k G2) as (k' & Hk' & ->); [lia|]. apply HP. lia.
      * rewrite (shuf_out _ _ _ _ _ G2) by lia. apply HP; lia.
      * rewrite (shuf_out _ _ _ _ _ G2) by lia. apply HP; lia.
    + lia.
    + auto.
    + intros W p q Hp Hpq Hq Hne. apply G3; auto; lia.
    + lia.
    + lia.
    + intros W p q Hp Hpq Hq Hnp Hnq. apply G3; auto; lia.
    + intros W q Hq Hq'. lia.
    + intros _ s'' (h & K1 & K2 & K3). exists h. split; auto. split.
      * eapply shuf_trans; [exact G2|]. eapply shuf_wide; [| |exact K2]; lia.
      * intros W p q Hp Hpq Hq. apply K3; auto; lia.
  - intros s' (g & G1 & G2 & G3). exists g. split; auto. split; auto. intros W p q Hp Hpq Hq. apply G3; auto; lia.
Qed.

(** partition *)
Lemma scan_up_run pivot f s : dst f s -> forall c i, i + c <= n ->
  runs (scan_up asc d pivot c i) s (fun i' s' => s' = s /\ i <= i' <= i + c /\ (forall k, i <= k < i' -> prec (f k) pivot = true) /\ (i' < i + c -> prec (f i') pivot = false)).
Proof.
  intros HS. induction c as [|c IH]; intros i Hi; cbn [scan_up].
  { apply wp_ret. repeat split; auto; try lia; intros k Hk; lia. }
  apply wp_bind, (dst_rd f); auto; [lia|]. destruct (prec (f i) pivot) eqn:K.
  - eapply wp_conseq; [apply IH; lia| |auto]. intros i' s' (-> & H1 & H2 & H3). repeat split; auto; try lia.
    + intros k Hk. destruct (Nat.eq_dec k i) as [->|]; auto. apply H2. lia.
    + intros. apply H3. lia.
  - apply wp_ret. repeat split; auto; try lia; intros k Hk; lia.
Qed.
Lemma scan_down_run pivot f s start : dst f s -> forall j, j < n -> (exists k, start <= k <= j /\ prec pivot (f k) = false) ->
  runs (scan_down asc d pivot start j) s (fun j' s' => s' = s /\ start <= j' <= j /\ (forall k, j' < k <= j -> prec pivot (f k) = true) /\ prec pivot (f j') = false).
Proof.
  intros HS. induction j as [|j IH]; intros Hj (k & Hk & Kp); cbn [scan_down]; match goal with |- context[start <=? ?x] => destruct (Nat.leb_spec start x); [|lia] end; apply wp_bind, (dst_rd f); auto.
  - assert (k = 0) by lia. subst k. rewrite Kp. apply wp_ret. repeat split; auto; try lia; intros; lia.
  - destruct (prec pivot (f (S j))) eqn:K.
    + assert (k <> S j) by congruence. eapply wp_conseq; [apply IH; [lia|exists k; split; auto; lia]| |auto].
      intros j' s' (-> & H1 & H2 & H3). repeat split; auto; try lia. intros x Hx. destruct (Nat.eq_dec x (S j)) as [->|]; auto. apply H2. lia.
    + apply wp_ret. repeat split; auto; try lia; intros x Hx; lia.
Qed.
(** invariant of the partition: [first] tells whether no exchange has happened yet *)
Lemma partition_run pivot start end_ f0 : (forall k, k < n -> P (f0 k)) -> P pivot -> start < end_ -> end_ < n ->
  ~ (forall k, start <= k < end_ -> prec (f0 k) pivot = true) ->
  forall fuel i j f s, dst f s -> shuf start (S end_) f0 f -> start <= i -> i <= S j -> j <= end_ -> j + 1 - i < fuel ->
  (exists k, start <= k <= j /\ prec pivot (f k) = false) ->
  (j < end_ \/ f = f0 /\ i = start) ->
  (pwo P -> forall k, start <= k < i -> prec pivot (f k) = false) ->
  (pwo P -> forall k, j < k <= end_ -> prec (f k) pivot = false) ->
  runs (partition fuel asc d pivot start end_ i j) s (fun r s' => start <= r < end_ /\ exists g, dst g s' /\ shuf start (S end_) f0 g /\
    (pwo P -> forall p q, start <= p -> p <= r -> r < q -> q <= end_ -> prec (g q) (g p) = false)).
Proof.
  intros HP Pp Hse He Hmed. induction fuel as [|fuel IH]; intros i j f s HS HF Hi Hij Hj Hfu Hsen Hfirst HL HR; [lia|].
  cbn [partition]. apply wp_bind. eapply wp_conseq; [apply (scan_up_run pivot f s HS); lia| |auto]. intros i1 s1 (-> & I1 & I2 & I3).
  apply wp_bind. eapply wp_conseq; [apply (scan_down_run pivot f s start HS); auto; lia| |auto]. intros j1 s1 (-> & J1 & J2 & J3).
  assert (HPf : forall k, k < n -> P (f k)).
  { intros k Hk. destruct (Nat.le_gt_cases start k); [destruct (Nat.lt_ge_cases k (S end_))|].
    - destruct (shuf_in _ _ _ _ k HF) as (k' & Hk' & ->); [lia|]. apply HP. lia.
    - rewrite (shuf_out _ _ _ _ _ HF) by lia. apply HP; lia.
    - rewrite (shuf_out _ _ _ _ _ HF) by lia. apply HP; lia. }
  assert (HL1 : pwo P -> forall k, start <= k < i1 -> prec pivot (f k) = false).
  { intros W k Hk. destruct (Nat.lt_ge_cases k i); [apply HL; auto; lia|]. apply pwo_asym; auto; [apply HPf; lia|apply I2; lia]. }
  assert (HR1 : pwo P -> forall k, j1 < k <= end_ -> prec (f k) pivot = false).
  { intros W k Hk. destruct (Nat.le_gt_cases k j); [|apply HR; auto; lia]. apply pwo_asym; auto; [apply HPf; lia|apply J2; lia]. }
  destruct (Nat.ltb_spec i1 j1) as [Hlt|Hge].
  - apply wp_bind, (dst_rd f); auto; [lia|]. apply wp_bind, (dst_rd f); auto; [lia|].
    apply wp_bind. eapply dst_wr; eauto; [lia|]. intros s1 HS1. apply wp_bind. eapply dst_wr; eauto; [lia|]. intros s2 (K1 & K2 & K3).
    assert (Hi1 : prec (f i1) pivot = false) by (apply I3; lia).
    assert (HS2 : dst (swapf f i1 j1) s2).
    { split; [|split; auto]. intros k Hk. rewrite K1 by auto. unfold swapf. destruct (Nat.eqb_spec k j1), (Nat.eqb_spec k i1); subst; auto; try lia. }
    apply (IH (i1 + 1) (j1 - 1) (swapf f i1 j1) s2); auto; try lia.
    + eapply shuf_trans; [exact HF|]. apply shuf_swap; lia.
    + exists i1. split; [lia|]. unfold swapf. rewrite Nat.eqb_refl. auto.
    + intros W k Hk. unfold swapf. destruct (Nat.eqb_spec k i1); [auto|]. destruct (Nat.eqb_spec k j1); [lia|]. apply HL1; auto; lia.
    + intros W k Hk. unfold swapf. destruct (Nat.eqb_spec k i1); [lia|]. destruct (Nat.eqb_spec k j1); [auto|]. apply HR1; auto; lia.
  - apply wp_ret. assert (Hje : j1 < end_).
    { destruct Hfirst as [Hjl|[-> ->]]; [lia|]. destruct (Nat.eq_dec j1 end_); [|lia]. exfalso. apply Hmed. intros k Hk. apply I2. lia. }
    split; [lia|]. exists f. split; auto. split; auto. intros W p q Hp Hpr Hrq Hq. apply (pwo_neg _ pivot); auto; try (apply HPf; lia).
    destruct (Nat.lt_ge_cases p i1); [apply HL1; auto; lia|]. replace p with j1 by lia. auto.
Qed.

(** the stack loop *)
Definition seg_ok (sg : nat * nat) : Prop := fst sg <= snd sg < n.
Definition apart (a b : nat * nat) : Prop := snd a < fst b \/ snd b < fst a.
Fixpoint weight (l : list (nat * nat)) : nat := match l with [] => 0 | (a, b) :: l => 2 * (b - a) + 1 + weight l end.

Lemma median_cases d1 d2 d3 : median3 d1 d2 d3 = d1 \/ median3 d1 d2 d3 = d2 \/ median3 d1 d2 d3 = d3.
Proof. unfold median3. destruct (ltb d1 d2), (ltb d3 d1), (ltb d3 d2); auto. Qed.
Lemma median_not_max d1 d2 d3 : (forall a b, P a -> P b -> ltb a b = true -> ltb b a = false) -> P d1 -> P d2 -> P d3 -> ~ (prec d1 (median3 d1 d2 d3) = true /\ prec d3 (median3 d1 d2 d3) = true).
Proof.
  intros As P1 P2 P3. assert (R1 := As d1 d1 P1 P1). assert (R3 := As d3 d3 P3 P3). assert (R12 := As d1 d2 P1 P2). assert (R32 := As d3 d2 P3 P2).
  unfold Sort.prec, median3. destruct asc; destruct (ltb d1 d2) eqn:A, (ltb d3 d1) eqn:B, (ltb d3 d2) eqn:C; intros [K1 K2];
    try rewrite (R12 eq_refl) in *; try rewrite (R32 eq_refl) in *; try (rewrite K1 in R1; specialize (R1 eq_refl)); try (rewrite K2 in R3; specialize (R3 eq_refl)); congruence.
Qed.

Lemma sort_loop_run f0 : (forall k, k < n -> P (f0 k)) -> (forall a b, P a -> P b -> ltb a b = true -> ltb b a = false) -> forall fuel stack f s,
  dst f s -> shuf 0 n f0 f -> weight stack < fuel -> Forall seg_ok stack -> ForallOrdPairs apart stack ->
  (pwo P -> forall p q, p < q -> q < n -> prec (f q) (f p) = false \/ exists a b, In (a, b) stack /\ a <= p /\ q <= b) ->
  runs (sort_loop fuel asc d stack) s (fun _ s' => exists g, dst g s' /\ shuf 0 n f0 g /\ (pwo P -> forall p q, p < q -> q < n -> prec (g q) (g p) = false)).
Proof.
  intros HP Has. assert (Hirr : forall a, P a -> ltb a a = false) by (intros a Pa; destruct (ltb a a) eqn:K; auto; rewrite <- K; apply Has; auto).
  induction fuel as [|fuel IH]; intros stack f s HS HF Hw Hok Hap HV; [lia|]. cbn [sort_loop].
  destruct stack as [|[a b] stack].
  { apply wp_ret. exists f. split; auto. split; auto. intros W p q Hpq Hq. destruct (HV W p q) as [|(x & y & [] & _)]; auto. }
  cbn [weight] in Hw. inversion Hok as [|? ? Hab Hok']; subst. inversion Hap as [|? ? Hap1 Hap']; subst. unfold seg_ok in Hab; cbn [fst snd] in Hab.
  rewrite Forall_forall in Hap1.
  assert (HPf : forall k, k < n -> P (f k)).
  { intros k Hk. destruct (shuf_in _ _ _ _ k HF) as (k' & Hk' & ->); [lia|]. apply HP. lia. }
  (* effect of permuting [a, b] on the pairs not both inside *)
  assert (KEY : forall g, shuf a (S b) f g -> pwo P -> forall p q, p < q -> q < n -> ~ (a <= p /\ q <= b) -> prec (g q) (g p) = false \/ exists x y, In (x, y) stack /\ x <= p /\ q <= y).
  { intros g Hg W p q Hpq Hq Hout.
    destruct (Nat.le_gt_cases a p) as [Hap0|Hap0].
    - destruct (Nat.le_gt_cases p b) as [Hpb|Hpb].
      + (* p inside, q outside above *) destruct (shuf_in _ _ _ _ p Hg) as (p' & Hp' & ->); [lia|]. rewrite (shuf_out _ _ _ _ q Hg) by lia.
        destruct (HV W p' q) as [|(x & y & [e|Hin] & Hx & Hy)]; auto; try lia; [inversion e; subst; lia|].
        exfalso. specialize (Hap1 (x, y) Hin). unfold apart in Hap1; cbn [fst snd] in Hap1. lia.
      + rewrite !(shuf_out _ _ _ _ _ Hg) by lia. destruct (HV W p q) as [|(x & y & [e|Hin] & Hx & Hy)]; auto; [inversion e; subst; lia|]. right. exists x, y. auto.
    - destruct (Nat.le_gt_cases a q) as [Haq|Haq]; [destruct (Nat.le_gt_cases q b) as [Hqb|Hqb]|].
      + destruct (shuf_in _ _ _ _ q Hg) as (q' & Hq' & ->); [lia|]. rewrite (shuf_out _ _ _ _ p Hg) by lia.
        destruct (HV W p q') as [|(x & y & [e|Hin] & Hx & Hy)]; auto; try lia; [inversion e; subst; lia|].
        exfalso. specialize (Hap1 (x, y) Hin). unfold apart in Hap1; cbn [fst snd] in Hap1. lia.
      + rewrite !(shuf_out _ _ _ _ _ Hg) by lia. destruct (HV W p q) as [|(x & y & [e|Hin] & Hx & Hy)]; auto; [inversion e; subst; lia|]. right. exists x, y. auto.
      + rewrite !(shuf_out _ _ _ _ _ Hg) by lia. destruct (HV W p q) as [|(x & y & [e|Hin] & Hx & Hy)]; auto; [inversion e; subst; lia|]. right. exists x, y. auto. }
  destruct (Nat.leb_spec (b - a) 20) as [Hsm|Hbig]; [destruct (Nat.ltb_spec a b) as [Hlt|Hge]|]; cbn [andb].
  - apply wp_bind. eapply wp_conseq; [apply (ins_sort_run a b f s); auto; lia| |auto]. intros _ s1 (g & G1 & G2 & G3).
    apply (IH stack g s1); auto; try lia.
    + eapply shuf_trans; [exact HF|]. eapply shuf_wide; [| |exact G2]; lia.
    + intros W p q Hpq Hq. destruct (Nat.le_gt_cases a p), (Nat.le_gt_cases q b); try (apply KEY; auto; lia). left. apply G3; auto.
  - destruct (Nat.ltb_spec 20 (b - a)); [lia|]. apply (IH stack f s); auto; try lia.
    intros W p q Hpq Hq. apply (KEY f); auto; [apply shuf_refl|lia].
  - destruct (Nat.ltb_spec 20 (b - a)); [|lia]. assert (Hmid : a < (a + b) / 2 < b).
    { split; [apply Nat.lt_le_trans with ((a + b - 1) / 2 ); [|apply Nat.div_le_mono; lia]|apply Nat.div_lt_upper_bound; lia].
      apply Nat.lt_le_trans with (S a); [lia|]. apply Nat.div_le_lower_bound; lia. }
    apply wp_bind, (dst_rd f); auto; [lia|]. apply wp_bind, (dst_rd f); auto; [lia|]. apply wp_bind, (dst_rd f); auto; [lia|]. cbv zeta.
    set (mid := (a + b) / 2) in *. set (pivot := median3 _ _ _).
    assert (Pp : exists k, a <= k <= b /\ pivot = f k) by (unfold pivot; destruct (median_cases (f a) (f b) (f mid)) as [->|[->| ->]]; [exists a|exists b|exists mid]; split; auto; lia).
    destruct Pp as (k & Hk & Ek).
    apply wp_bind. eapply wp_conseq; [apply (partition_run pivot a b f) with (i := a) (j := b) (f := f); auto; try lia| |auto].
    + rewrite Ek. apply HPf. lia.
    + intros H'. apply (median_not_max (f a) (f b) (f mid)); try (apply HPf; lia); auto. split; apply H'; lia.
    + apply shuf_refl.
    + exists k. split; [lia|]. rewrite Ek. unfold Sort.prec. destruct asc; apply Hirr, HPf; lia.
    + intros j s1 (Hj & g & G1 & G2 & G3).
      assert (HG : shuf 0 n f0 g) by (eapply shuf_trans; [exact HF|]; eapply shuf_wide; [| |exact G2]; lia).
      apply wp_bind, wp_assert; [rewrite andb_true_iff, Nat.leb_le, Nat.ltb_lt; lia|].
      assert (HV' : pwo P -> forall p q, p < q -> q < n -> prec (g q) (g p) = false \/ exists x y, (In (x, y) stack \/ (x, y) = (a, j) \/ (x, y) = (j + 1, b)) /\ x <= p /\ q <= y).
      { intros W p q Hpq Hq. destruct (Nat.le_gt_cases a p); [destruct (Nat.le_gt_cases q b)|].
        - destruct (Nat.le_gt_cases q j); [right; exists a, j; auto|]. destruct (Nat.le_gt_cases p j); [left; apply G3; auto|]. right. exists (j + 1), b. repeat split; auto; lia.
        - destruct (KEY g G2 W p q) as [|(x & y & ? & ? & ?)]; auto; [lia|]. right. exists x, y. auto.
        - destruct (KEY g G2 W p q) as [|(x & y & ? & ? & ?)]; auto; [lia|]. right. exists x, y. auto. }
      assert (A1 : Forall (apart (a, j)) stack) by (apply Forall_forall; intros [x y] Hin; specialize (Hap1 (x, y) Hin); unfold apart in *; cbn [fst snd] in *; lia).
      assert (A2 : Forall (apart (j + 1, b)) stack) by (apply Forall_forall; intros [x y] Hin; specialize (Hap1 (x, y) Hin); unfold apart in *; cbn [fst snd] in *; lia).
      destruct (Nat.ltb_spec (b - j - 1) (j - a)).
      * apply (IH ((j + 1, b) :: (a, j) :: stack) g s1); auto.
        -- cbn [weight]. lia.
        -- repeat constructor; unfold seg_ok; cbn [fst snd]; auto; lia.
        -- constructor; [constructor; auto; unfold apart; cbn [fst snd]; lia|]. constructor; auto.
        -- intros W p q Hpq Hq. destruct (HV' W p q) as [|(x & y & [Hin|[e|e]] & Hx & Hy)]; auto; right; exists x, y; cbn [In]; rewrite ?e; auto.
      * apply (IH ((a, j) :: (j + 1, b) :: stack) g s1); auto.
        -- cbn [weight]. lia.
        -- repeat constructor; unfold seg_ok; cbn [fst snd]; auto; lia.
        -- constructor; [constructor; auto; unfold apart; cbn [fst snd]; lia|]. constructor; auto.
        -- intros W p q Hpq Hq. destruct (HV' W p q) as [|(x & y & [Hin|[e|e]] & Hx & Hy)]; auto; right; exists x, y; cbn [In]; rewrite ?e; auto.
Qed.
End P.
