(** * C58: small Sylvester equations (lasy2) *)
From Coq Require Import Bool Arith ZArith List Lia Reals Lra.
From Verif.Core Require Import Scalar Prog View Instances.
From Verif.Spec Require Import LinAlg Outcome.
From Verif.Model Require Import Legacy Householder Sylv.
From Verif.Proof Require Import SylvProof.
From Verif.Properties Require Import ExTac.
Import ListNotations.
Local Open Scope R_scope.

(** op(TL) X + sgn X op(TR) = scale B, all of order n *)
Definition sylvester (n : nat) (tl tr : op_t) (sgn scale : R) (TL TR B X : nat -> nat -> R) : Prop :=
  forall i j, (i < n)%nat -> (j < n)%nat ->
    mmul (E:=RE) n (opm (E:=RE) tl TL) X i j + sgn * mmul (E:=RE) n X (opm (E:=RE) tr TR) i j = scale * B i j.
(** the largest sum of the absolute values of a row *)
Definition rowmax (n : nat) (X : nat -> nat -> R) (x : R) : Prop :=
  (forall i, (i < n)%nat -> sum (E:=RE) n (fun j => Rabs (X i j)) <= x) /\ exists i, (i < n)%nat /\ x = sum (E:=RE) n (fun j => Rabs (X i j)).
(** some non-zero Z is mapped by the left-hand side to something small: op(TL) Z + sgn Z op(TR) is below theta times the
    sum of the absolute values of Z *)
Definition nearly_singular (n : nat) (tl tr : op_t) (sgn theta : R) (TL TR : nat -> nat -> R) : Prop :=
  exists Z : nat -> nat -> R, (exists i j, (i < n)%nat /\ (j < n)%nat /\ Z i j <> 0) /\ forall i j, (i < n)%nat -> (j < n)%nat ->
    Rabs (mmul (E:=RE) n (opm (E:=RE) tl TL) Z i j + sgn * mmul (E:=RE) n Z (opm (E:=RE) tr TR) i j) <= theta * sum (E:=RE) n (fun i => sum (E:=RE) n (fun j => Rabs (Z i j))).
(** the largest absolute value of an element of a 2-by-2 matrix *)
Definition big22 (A : nat -> nat -> R) : R := Rmax (Rmax (Rabs (A 0%nat 0%nat)) (Rabs (A 0%nat 1%nat))) (Rmax (Rabs (A 1%nat 0%nat)) (Rabs (A 1%nat 1%nat))).
(** the threshold below which a pivot is replaced *)
Definition small_pivot (n : nat) (eps small_num : R) (TL TR : nat -> nat -> R) : R :=
  match n with 1%nat => small_num | _ => Rmax (eps * Rmax (big22 TR) (big22 TL)) small_num end.
Definition plain (o : op_t) : Prop := o = NoTrans \/ o = Trans.

Lemma sylv_mat (tl tr : op_t) sgn (L R0 B : nat -> nat -> R) sc (x : nat -> R) (X : nat -> nat -> R) : plain tl -> plain tr ->
  (forall i j, (i < 2)%nat -> (j < 2)%nat -> X i j = x (i + 2 * j)%nat) ->
  Sol (sy_mat (E:=RE) tl tr sgn L R0) (fun k => nth k [B 0%nat 0%nat; B 1%nat 0%nat; B 0%nat 1%nat; B 1%nat 1%nat] 0) sc x -> sylvester 2 tl tr sgn sc L R0 B X.
Proof.
  intros Hl Hr HX H i j Hi Hj. specialize (H (i + 2 * j)%nat ltac:(lia)). unfold mmul. cbn [sum]. rewrite !HX by lia. revert H. unfold sy_mat. cbv zeta.
  destruct i as [|[|i]]; [| |lia]; (destruct j as [|[|j]]; [| |lia]); cbn [Nat.add Nat.mul nth];
  destruct Hl as [-> | ->], Hr as [-> | ->]; unfold opm; cbn [add mul zero RE]; intros <-; ring.
Qed.
Lemma maxT_R (a b : R) : maxT (E:=RE) a b = Rmax a b.
Proof. unfold maxT. cbn [ltb RE]. unfold Rmax. destruct (Rle_dec a b), (Rltb a b) eqn:e; [reflexivity|apply Rltb_f in e; lra|apply Rltb_t in e; lra|reflexivity]. Qed.
Lemma near_mat (tl tr : op_t) sgn (L R0 : nat -> nat -> R) theta : plain tl -> plain tr -> Near theta 0 (sy_mat (E:=RE) tl tr sgn L R0) -> nearly_singular 2 tl tr sgn theta L R0.
Proof.
  intros Hl Hr (z & b & (k & Hk & Hz) & HS & HB & _). exists (fun i j => z (i + 2 * j)%nat). split.
  - destruct k as [|[|[|[|k]]]]; [exists 0%nat, 0%nat|exists 1%nat, 0%nat|exists 0%nat, 1%nat|exists 1%nat, 1%nat|lia]; repeat split; auto.
  - intros i j Hi Hj. specialize (HB (i + 2 * j)%nat ltac:(lia)). specialize (HS (i + 2 * j)%nat ltac:(lia)).
    match goal with |- Rabs ?x <= theta * ?y => replace x with (b (i + 2 * j)%nat); [replace y with (Rabs (z 0%nat) + Rabs (z 1%nat) + Rabs (z 2%nat) + Rabs (z 3%nat)); [exact HB|]|] end.
    + cbn [sum Nat.add Nat.mul add zero RE]. ring.
    + clear HB. revert HS. unfold eff, mmul, sy_mat. cbv zeta. cbn [sum].
      destruct i as [|[|i]]; [| |lia]; (destruct j as [|[|j]]; [| |lia]); cbn [Nat.add Nat.mul nth Nat.ltb Nat.leb andb];
      destruct Hl as [-> | ->], Hr as [-> | ->]; unfold opm; cbn [add mul zero RE Nat.add Nat.mul]; intros e; lra.
Qed.
Theorem lasy2_correct (eps small_num : R) (tl tr : op_t) (isign : Z) (n : nat) (TL TR B X : view) (s : @state RE) :
  (n = 1 \/ n = 2)%nat -> shape TL n n -> shape TR n n -> shape B n n -> shape X n n -> vinj X -> plain tl -> plain tr -> (isign = 1 \/ isign = -1)%Z -> 0 < small_num ->
  returns (lasy2 (E:=RE) eps small_num tl tr isign TL TR B X) s (fun r s' => let '(info, scale, xnorm) := r in
    (info = 0%Z \/ info = 1%Z) /\ 0 < scale /\
    (info = 0%Z -> sylvester n tl tr (IZR isign) scale (val TL s) (val TR s) (val B s) (val X s')) /\
    (info = 1%Z -> nearly_singular n tl tr (IZR isign) (small_pivot n eps small_num (val TL s) (val TR s)) (val TL s) (val TR s)) /\
    (n = 1%nat -> (info = 1%Z <-> Rabs (val TL s 0 0 + IZR isign * val TR s 0 0) < small_num)) /\
    rowmax n (val X s') xnorm /\ only_changes (inview X) s s').
Proof.
  intros Hn [L1 L2] [R1 R2] [B1 B2] [X1 X2] HI Hl Hr Hs Hsn. apply runs_inv. unfold runs, lasy2. cbv zeta.
  apply wp_bind. apply wp_check; [destruct Hs as [-> | ->]; reflexivity|].
  assert (ES : (if (isign =? 1)%Z then one (Env:=RE) else opp (Env:=RE) (one (Env:=RE))) = IZR isign) by (destruct Hs as [-> | ->]; cbn; lra).
  rewrite ES. clear ES. rewrite L2, R2. pose proof (eff_refl X s) as H0. destruct Hn as [-> | ->]; cbn [Nat.eqb orb andb].
  - apply wp_bind, wp_rd; [lia..|]. apply wp_bind, wp_rd; [lia..|]. apply wp_bind, wp_rd; [lia..|].
    pose proof (sylv1_run small_num (IZR isign) (val TL s 0 0) (val TR s 0 0) (val B s 0 0) Hsn) as G. destruct (sylv1 _ _ _ _ _) as [[info sc] x].
    apply wp_bind. apply (wp_wr_eff X (val X s) s); auto; try lia. intros s1 H1. apply wp_ret. destruct H1 as (V & F1 & F2).
    assert (VX : val X s1 0 0 = x) by (rewrite V by lia; reflexivity). destruct G as (G1 & G2).
    split; [tauto|]. split; [exact G1|]. split; [|split; [|split; [|split]]].
    + intros Hi i j Hi' Hj'. destruct i; [|lia]. destruct j; [|lia]. destruct G2 as [(_ & _ & e)|(e & _)]; [|congruence]. unfold mmul. cbn [sum]. rewrite VX.
      destruct Hl as [-> | ->], Hr as [-> | ->]; unfold opm; cbn [add mul zero RE]; rewrite <- e; ring.
    + intros Hi. destruct G2 as [(e & _)|(_ & e)]; [congruence|]. exists (fun _ _ => 1). split; [exists 0%nat, 0%nat; repeat split; auto; lra|].
      intros i j Hi' Hj'. destruct i; [|lia]. destruct j; [|lia]. unfold small_pivot, mmul. cbn [sum]. cbn [add mul zero RE]. rewrite Rabs_R1.
      match goal with |- Rabs ?x <= _ => replace x with (val TL s 0 0 + IZR isign * val TR s 0 0); [lra|] end. destruct Hl as [-> | ->], Hr as [-> | ->]; unfold opm; ring.
    + intros _. destruct G2 as [(-> & e & _)|(-> & e)]; split; try tauto; [discriminate|]. intros K. exfalso. lra.
    + split.
      * intros i Hi. destruct i; [|lia]. cbn [sum]. rewrite VX. cbn [add zero RE absv]. lra.
      * exists 0%nat. split; [lia|]. cbn [sum]. rewrite VX. cbn [add zero RE absv]. lra.
    + split; auto.
  - unfold rd22. apply wp_bind. do 4 (apply wp_bind, wp_rd; [lia..|]). apply wp_ret. apply wp_bind. do 4 (apply wp_bind, wp_rd; [lia..|]). apply wp_ret. apply wp_bind. do 4 (apply wp_bind, wp_rd; [lia..|]). apply wp_ret.
    match goal with |- context[sylv2 _ _ _ _ _ ?l ?r ?b] => pose proof (sylv2_run eps small_num tl tr (IZR isign) l r b Hsn) as G end.
    destruct (sylv2 _ _ _ _ _ _ _ _) as [[info sc] x]. destruct G as (G1 & G2 & G3 & G4).
    apply wp_bind. apply (wp_wr_eff X (val X s) s); auto; try lia. intros s1 H1. apply wp_bind. eapply wp_wr_eff; eauto; try lia. intros s2 H2.
    apply wp_bind. eapply wp_wr_eff; eauto; try lia. intros s3 H3. apply wp_bind. eapply wp_wr_eff; eauto; try lia. intros s4 H4. apply wp_ret. destruct H4 as (V & F1 & F2).
    assert (VX : forall i j, (i < 2)%nat -> (j < 2)%nat -> val X s4 i j = x (i + 2 * j)%nat).
    { intros i j Hi Hj. rewrite V by lia. destruct i as [|[|i]]; [| |lia]; (destruct j as [|[|j]]; [| |lia]); reflexivity. }
    split; [exact G1|]. split; [exact G2|]. split; [|split; [|split; [|split]]].
    + intros Hi. apply (sylv_mat tl tr (IZR isign) (val TL s) (val TR s) (val B s) sc x (val X s4)); auto.
    + intros Hi. apply near_mat; auto. specialize (G4 Hi). revert G4. rewrite !maxT_R. unfold sy_max. rewrite !maxT_R. intros G4. exact G4.
    + intros K. discriminate.
    + unfold rowmax. cbn [sum]. split.
      * intros i Hi. rewrite !VX by lia. cbn [add zero RE absv]. pose proof (max_l (Rabs (x 0%nat) + Rabs (x 2%nat))%R (Rabs (x 1%nat) + Rabs (x 3%nat))%R). pose proof (max_r (Rabs (x 0%nat) + Rabs (x 2%nat))%R (Rabs (x 1%nat) + Rabs (x 3%nat))%R).
        destruct i as [|[|i]]; [| |lia]; cbn [Nat.add Nat.mul]; lra.
      * unfold maxT. cbn [ltb RE add absv]. destruct (Rltb _ _); [exists 1%nat|exists 0%nat]; (split; [lia|]); rewrite !VX by lia; cbn [Nat.add Nat.mul zero RE]; lra.
    + split; auto.
Qed.
Section A.
Context {E : Env}.
(** isign other than 1, -1 *)
Theorem lasy2_rejects (eps small_num : T) (tl tr : op_t) (isign : Z) (TL TR B X : view) (s : state) : check_input = true ->
  isign <> 1%Z -> isign <> (-1)%Z -> rejects (lasy2 eps small_num tl tr isign TL TR B X) s.
Proof. intros Hc H1 H2. unfold rejects, lasy2, bind, check. rewrite Hc. destruct (Z.eqb_spec isign (-1)); [tauto|]. destruct (Z.eqb_spec isign 1); [tauto|]. reflexivity. Qed.
(** blocks of different orders: an error, and X is not computed *)
Theorem lasy2_mixed_refuted (eps small_num : T) (tl tr : op_t) (isign : Z) (TL TR B X : view) (s : state) : throw_errors = true ->
  (isign = 1 \/ isign = -1)%Z -> (nc TL = 1 /\ nc TR = 2 \/ nc TL = 2 /\ nc TR = 1)%nat -> lasy2 eps small_num tl tr isign TL TR B X s = Exn (RuntimeError (-1)) s.
Proof.
  intros He Hs Hn. unfold lasy2, bind, check. cbv zeta. replace (check_input && negb ((isign =? -1) || (isign =? 1))%Z)%bool with false by (destruct Hs as [-> | ->]; cbn; rewrite andb_false_r; reflexivity).
  cbn [ret]. destruct Hn as [[-> ->] | [-> ->]]; cbn [Nat.eqb orb andb]; unfold error; rewrite He; reflexivity.
Qed.
(** a conjugate-transposed operand, which for a real matrix is the transposed one, is taken as if it were not transposed *)
Theorem lasy2_conjtrans_refuted (eps small_num : T) (tl tr : op_t) (isign : Z) (TL TR B X : view) :
  lasy2 eps small_num ConjTrans tr isign TL TR B X = lasy2 eps small_num NoTrans tr isign TL TR B X /\
  lasy2 eps small_num tl ConjTrans isign TL TR B X = lasy2 eps small_num tl NoTrans isign TL TR B X.
Proof. split; reflexivity. Qed.
End A.
(** 2-by-2 blocks in separate memory *)
Definition exY k : view := lview (mklmat 2 2 (4 * k) 2 ColMajor).
Definition exY1 k : view := lview (mklmat 1 1 (4 * k) 1 ColMajor).
#[local] Hint Unfold exY exY1 : exv.
Example lasy2_example (s : @state RE) : returns (lasy2 (E:=RE) (1 / 4)%R (1 / 1024)%R Trans NoTrans (-1) (exY 0) (exY 1) (exY 2) (exY 3)) s (fun r s' => 0 < snd (fst r)).
Proof.
  destruct (lasy2_correct (1 / 4)%R (1 / 1024)%R Trans NoTrans (-1) 2 (exY 0) (exY 1) (exY 2) (exY 3) s) as ([[i c] x] & s' & H & H1 & H2 & _);
    [auto|split; reflexivity|split; reflexivity|split; reflexivity|split; reflexivity|exv|right; reflexivity|left; reflexivity|auto|lra|].
  exists (i, c, x), s'. auto.
Qed.
(** 1 X + X 1 = 6 is solved *)
Example lasy2_example_1 : returns (lasy2 (E:=RE) (1 / 4)%R (1 / 1024)%R NoTrans NoTrans 1 (exY1 0) (exY1 1) (exY1 2) (exY1 3)) (mkst RE (fun l => if (l =? 8)%Z then 6%R else 1%R) (fun _ => 0%Z))
  (fun r s' => fst (fst r) = 0%Z /\ 2 * val (exY1 3) s' 0 0 = snd (fst r) * 6).
Proof.
  destruct (lasy2_correct (1 / 4)%R (1 / 1024)%R NoTrans NoTrans 1 1 (exY1 0) (exY1 1) (exY1 2) (exY1 3) (mkst RE (fun l => if (l =? 8)%Z then 6%R else 1%R) (fun _ => 0%Z))) as ([[i c] x] & s' & H & H1 & H2 & H3 & _ & H4 & _);
    [auto|split; reflexivity|split; reflexivity|split; reflexivity|split; reflexivity|exv|left; reflexivity|left; reflexivity|auto|lra|].
  exists (i, c, x), s'. split; [exact H|]. cbn [fst snd].
  assert (K : i = 0%Z). { destruct H1 as [|H1]; auto. apply H4 in H1; auto. cbn in H1. rewrite Rabs_right in H1; lra. }
  split; auto. assert (e := H3 K 0%nat 0%nat ltac:(lia) ltac:(lia)). unfold mmul, opm in e. cbn [sum] in e. cbn in e. cbn. lra.
Qed.
