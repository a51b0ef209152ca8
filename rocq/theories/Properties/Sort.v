(** * C33, C34: sorting and merging *)
From Coq Require Import Bool Arith ZArith Lia List Permutation Ascii Reals Lra Floats.
From Verif.Core Require Import Scalar Prog View Slice IVec Instances FloatOrd.
From Verif.Spec Require Import Outcome Sort.
From Verif.Model Require Import Legacy Sort.
From Verif.Proof Require Import SortProof MergeProof.
From Verif.Properties Require Import ExTac.
Import ListNotations.

(** the letters that ask for increasing and for decreasing order *)
Definition asks_increasing (id : ascii) : Prop := id = "i"%char \/ id = "I"%char.
Definition asks_decreasing (id : ascii) : Prop := id = "d"%char \/ id = "D"%char.

Section S.
Context {E : Env}.

Lemma lasrt_core fuel id n d s : 2 * n <= fuel -> nc d = 1 -> n <= nr d -> vinj d ->
  (forall a b, among n (vval d s) a -> among n (vval d s) b -> ltb a b = true -> ltb b a = false) ->
  asks_increasing id \/ asks_decreasing id ->
  returns (lasrt fuel id n d) s (fun r s' => r = 0%Z /\ only_changes (inview d) s s' /\
    (forall i, n <= i < nr d -> vval d s' i = vval d s i) /\
    Permutation (values n (vval d s)) (values n (vval d s')) /\
    (weak_order_on (among n (vval d s)) -> (asks_increasing id -> increasing n (vval d s')) /\ (asks_decreasing id -> decreasing n (vval d s')))).
Proof.
  intros Hf Hd Hn HI Has Hid. apply runs_inv. unfold runs, lasrt. set (P := among n (vval d s)).
  assert (HP : forall k, k < n -> P (vval d s k)) by (intros k Hk; exists k; auto).
  assert (K : exists asc, (if (Ascii.eqb id "d" || Ascii.eqb id "D")%char then Some false else if (Ascii.eqb id "i" || Ascii.eqb id "I")%char then Some true else None) = Some asc /\
     (asks_increasing id -> asc = true) /\ (asks_decreasing id -> asc = false)).
  { destruct Hid as [[->| ->]|[->| ->]]; cbn; eexists; (split; [reflexivity|]); split; auto; intros [H|H]; discriminate. }
  destruct K as (asc & -> & Ki & Kd).
  destruct (Nat.leb_spec n 1) as [Hn1|Hn1].
  { apply wp_ret. split; auto. split; [split; auto|]. split; auto. split; [apply Permutation_refl|]. intros _. split; intros _ i j Hij; lia. }
  apply wp_bind. eapply wp_conseq; [apply (sort_loop_run asc d n s Hd HI Hn P (vval d s)) with (f := vval d s)| |auto]; auto.
  - split; auto.
  - apply shuf_refl.
  - cbn [weight]. lia.
  - repeat constructor; unfold seg_ok; cbn; lia.
  - repeat constructor.
  - intros W p q Hpq Hq. right. exists 0, (n - 1). split; [left; auto|]. lia.
  - intros _ s' (g & (G1 & G2 & G3) & G4 & G5). apply wp_ret. split; auto. split; [split; auto|].
    split; [intros i Hi; rewrite G1 by lia; apply (shuf_out _ _ _ _ _ G4); lia|].
    assert (EV : values n (vval d s') = values n g) by (apply map_ext_in; intros k Hk; apply in_seq in Hk; apply G1; lia).
    split; [rewrite EV; apply shuf_perm; auto|]. intros W. apply (pwo_of asc) in W. specialize (G5 W).
    split; intros Hi i j Hij; rewrite !G1 by lia; specialize (G5 i j ltac:(lia) ltac:(lia)); [rewrite (Ki Hi) in G5|rewrite (Kd Hi) in G5]; exact G5.
Qed.

(** lasrt terminates within 2n steps of its main loop on every input whose comparison is asymmetric (NaNs
    included), without out-of-bounds access; it returns 0, permutes the first n elements and changes nothing
    else *)
Theorem lasrt_permutes fuel id n d s : 2 * n <= fuel -> nc d = 1 -> n <= nr d -> vinj d ->
  (forall a b, among n (vval d s) a -> among n (vval d s) b -> ltb a b = true -> ltb b a = false) ->
  asks_increasing id \/ asks_decreasing id ->
  returns (lasrt fuel id n d) s (fun r s' => r = 0%Z /\ only_changes (inview d) s s' /\
    (forall i, n <= i < nr d -> vval d s' i = vval d s i) /\
    Permutation (values n (vval d s)) (values n (vval d s'))).
Proof. intros. destruct (lasrt_core fuel id n d s) as (r & s' & K & H'); auto. exists r, s'. tauto. Qed.
(** without NaNs the result is sorted as asked *)
Theorem lasrt_sorts fuel id n d s : 2 * n <= fuel -> nc d = 1 -> n <= nr d -> vinj d -> weak_order_on (among n (vval d s)) ->
  asks_increasing id \/ asks_decreasing id ->
  returns (lasrt fuel id n d) s (fun r s' => r = 0%Z /\ only_changes (inview d) s s' /\
    (forall i, n <= i < nr d -> vval d s' i = vval d s i) /\
    Permutation (values n (vval d s)) (values n (vval d s')) /\
    (asks_increasing id -> increasing n (vval d s')) /\ (asks_decreasing id -> decreasing n (vval d s'))).
Proof.
  intros Hf Hd Hn HI W Hid. destruct (lasrt_core fuel id n d s) as (r & s' & K & K1 & K2 & K3 & K4 & K5); auto.
  - destruct W as (W1 & W2 & W3). intros a b Ha Hb H. destruct (ltb b a) eqn:K; auto. rewrite <- (W1 a Ha). symmetry. apply (W2 a b a); auto.
  - exists r, s'. auto 8.
Qed.
(** any other letter is rejected with code -1 and nothing changes *)
Theorem lasrt_rejects fuel id n d s : ~ asks_increasing id -> ~ asks_decreasing id -> lasrt fuel id n d s = Ok (-1)%Z s.
Proof.
  intros H1 H2. unfold lasrt. destruct (Ascii.eqb_spec id "d"); [exfalso; apply H2; left; auto|]. destruct (Ascii.eqb_spec id "D"); [exfalso; apply H2; right; auto|].
  destruct (Ascii.eqb_spec id "i"); [exfalso; apply H1; left; auto|]. destruct (Ascii.eqb_spec id "I"); [exfalso; apply H1; right; auto|]. reflexivity.
Qed.

(** lamrg writes a permutation of 0, ..., n1+n2-1 to [index], whatever the values (NaNs included), and changes
    nothing else; if both runs are sorted in the stated directions, the indexed sequence is increasing *)
Theorem lamrg_correct n1 n2 a dtrd1 dtrd2 index s : dtrd1 = 1%Z \/ dtrd1 = (-1)%Z -> dtrd2 = 1%Z \/ dtrd2 = (-1)%Z ->
  nc a = 1 -> n1 + n2 <= nr a -> nc index = 1 -> n1 + n2 <= nr index -> vinj index ->
  returns (lamrg n1 n2 a dtrd1 dtrd2 index) s (fun _ s' =>
    mem s' = mem s /\ (forall l, ~ inview index l -> imem s' l = imem s l) /\
    exists g : nat -> nat, (forall i, i < n1 + n2 -> ival index s' i = Z.of_nat (g i)) /\
      Permutation (map g (seq 0 (n1 + n2))) (seq 0 (n1 + n2)) /\
      (weak_order_on (among (n1 + n2) (vval a s)) ->
       (forall x y, among (n1 + n2) (vval a s) x -> among (n1 + n2) (vval a s) y -> eqb x y = true -> ltb y x = false) ->
       (if (dtrd1 =? 1)%Z then increasing n1 (vval a s) else decreasing n1 (vval a s)) ->
       (if (dtrd2 =? 1)%Z then increasing n2 (fun i => vval a s (n1 + i)) else decreasing n2 (fun i => vval a s (n1 + i))) ->
       increasing (n1 + n2) (fun i => vval a s (g i)))).
Proof.
  intros Hd1 Hd2 Ha Hna Hx Hnx HI. apply runs_inv. eapply wp_conseq; [apply (lamrg_run n1 n2 a index dtrd1 dtrd2 s); auto| |auto].
  intros _ s' (M1 & M2 & g & G1 & G2 & G3). split; auto. split; auto. exists g. split; auto. split.
  - rewrite G2. apply (all_perm n1 n2 a index); auto.
  - intros W1 W2 S1 S2. assert (HW : W n1 n2 a dtrd1 dtrd2 s).
    { split; auto. split; auto. unfold idx1, idx2. split; intros k l Hkl.
      - destruct Hd1; subst dtrd1; cbn in S1 |- *; [apply S1; lia|]. apply S1. lia.
      - destruct Hd2; subst dtrd2; cbn in S2 |- *; [apply S2; lia|]. replace (n1 + n2 - 1 - l) with (n1 + (n2 - 1 - l)) by lia. replace (n1 + n2 - 1 - k) with (n1 + (n2 - 1 - k)) by lia. apply S2. lia. }
    destruct (G3 HW) as (K & _). exact K.
Qed.
End S.

(** binary64: lasrt terminates and permutes on every vector, and sorts every vector without NaN *)
Theorem lasrt_binary64 fuel id n d (s : @state FE) : 2 * n <= fuel -> nc d = 1 -> n <= nr d -> vinj d -> asks_increasing id \/ asks_decreasing id ->
  returns (lasrt fuel id n d) s (fun r s' => r = 0%Z /\ only_changes (inview d) s s' /\ Permutation (values n (vval d s)) (values n (vval d s')) /\
    ((forall i, i < n -> isnan (vval d s i) = false) ->
     (asks_increasing id -> increasing n (vval d s')) /\ (asks_decreasing id -> decreasing n (vval d s')))).
Proof.
  intros Hf Hd Hn HI Hid. destruct (lasrt_core fuel id n d s) as (r & s' & K & K1 & K2 & K3 & K4 & K5); auto.
  - intros a b _ _. apply fltb_asym.
  - exists r, s'. split; auto. split; auto. split; auto. split; auto. intros HN. apply K5.
    assert (N : forall a, among n (vval d s) a -> isnan a = false) by (intros a (i & Hi & ->); auto).
    split; [|split].
    + intros a _. destruct (ltb a a) eqn:J; auto. rewrite <- J. apply fltb_asym; auto.
    + intros a b c Pa Pb Pc. apply f_weak_order; auto.
    + intros a b c Pa Pb Pc. apply f_weak_order; auto.
Qed.

(** concrete instances *)
Definition exsd : view := vview (mklvec 3 0 1 Forward).
#[global] Hint Unfold exsd : exv.
Definition exs_s : @state RE := mkst RE (fun l => if (l =? 0)%Z then 2%R else if (l =? 1)%Z then 3%R else 1%R) (fun _ => 0%Z).
Lemma R_weak_order P : weak_order_on (E:=RE) P.
Proof.
  split; [|split]; cbn.
  - intros a _. apply Rltb_f. lra.
  - intros a b c _ _ _. rewrite !Rltb_t. lra.
  - intros a b c _ _ _. rewrite !Rltb_t. lra.
Qed.
Example lasrt_example : returns (lasrt (E:=RE) 6 "D" 3 exsd) exs_s (fun r s' => r = 0%Z /\ (vval exsd s' 0%nat = 3 /\ vval exsd s' 1%nat = 2 /\ vval exsd s' 2%nat = 1)%R).
Proof.
  destruct (lasrt_sorts (E:=RE) 6 "D" 3 exsd exs_s) as (r & s' & K & -> & _ & _ & HP & _ & HS).
  - lia.
  - reflexivity.
  - cbn. lia.
  - exv.
  - apply R_weak_order.
  - right. right. auto.
  - specialize (HS (or_intror eq_refl)). exists 0%Z, s'. split; auto. split; auto. unfold values in HP. cbn [seq map] in HP.
    change (vval exsd exs_s 0) with 2%R in HP. change (vval exsd exs_s 1) with 3%R in HP. change (vval exsd exs_s 2) with 1%R in HP.
    assert (O : forall i j, i < j < 3 -> (vval exsd s' j <= vval exsd s' i)%R).
    { intros i j Hij. specialize (HS i j Hij). cbn in HS. apply Rltb_f in HS. lra. }
    set (x := vval exsd s' 0) in *. set (y := vval exsd s' 1) in *. set (z := vval exsd s' 2) in *.
    assert (O1 := O 0 1 ltac:(lia)). assert (O2 := O 1 2 ltac:(lia)). fold x y in O1. fold y z in O2.
    assert (I1 : In 2%R [x; y; z]) by (apply (Permutation_in _ HP); cbn; auto).
    assert (I2 : In 3%R [x; y; z]) by (apply (Permutation_in _ HP); cbn; auto).
    assert (I3 : In 1%R [x; y; z]) by (apply (Permutation_in _ HP); cbn; auto).
    cbn [In] in I1, I2, I3. lra.
Qed.
Example lamrg_example (s : @state RE) : (vval exsd s 1%nat <= vval exsd s 0%nat)%R -> returns (lamrg (E:=RE) 2 1 exsd (-1) 1 (vview (mklvec 3 0 1 Forward))) s (fun _ s' =>
  exists g : nat -> nat, Permutation [g 0; g 1; g 2] [0; 1; 2] /\ (vval exsd s (g 0%nat) <= vval exsd s (g 1%nat) <= vval exsd s (g 2%nat))%R).
Proof.
  intros H. destruct (lamrg_correct (E:=RE) 2 1 exsd (-1) 1 (vview (mklvec 3 0 1 Forward)) s) as (r & s' & K & _ & _ & g & _ & HP & HS); auto; try (cbn; lia); try reflexivity; try exv.
  exists r, s'. split; auto. exists g. split; [exact HP|].
  assert (I : increasing (E:=RE) 3 (fun i => vval exsd s (g i))).
  { apply HS.
    - apply R_weak_order.
    - cbn. intros x y _ _. rewrite Reqb_t, Rltb_f. lra.
    - intros i j Hij. assert (i = 0 /\ j = 1) as [-> ->] by lia. cbn. apply Rltb_f. lra.
    - intros i j Hij. lia. }
  assert (I1 := I 0 1 ltac:(lia)). assert (I2 := I 1 2 ltac:(lia)). cbn in I1, I2. apply Rltb_f in I1. apply Rltb_f in I2. lra.
Qed.
