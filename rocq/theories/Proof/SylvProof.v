(** * lasy2 *)
From Coq Require Import Bool Arith ZArith Lia Reals Lra List.
From Verif.Core Require Import Scalar Prog View Instances.
From Verif.Model Require Import Householder Sort Sylv.
Import ListNotations.
Local Open Scope R_scope.

Notation mR := (nat -> nat -> R).
(** x solves A x = s b *)
Definition Sol (A : mR) (b : nat -> R) (s : R) (x : nat -> R) : Prop := forall r, (r < 4)%nat -> A r 0%nat * x 0%nat + A r 1%nat * x 1%nat + A r 2%nat * x 2%nat + A r 3%nat * x 3%nat = s * b r.
(** after i steps, the elements below the diagonal of the first i columns hold multipliers *)
Definition eff (i : nat) (A : mR) : mR := fun r c => if ((c <? i) && (c <? r))%nat then 0 else A r c.
Lemma swapi_lt a b k n : (a < n)%nat -> (b < n)%nat -> (k < n)%nat -> (swapi a b k < n)%nat.
Proof. unfold swapi. destruct (k =? a)%nat, (k =? b)%nat; lia. Qed.
Lemma swapi_inv a b k : swapi a b (swapi a b k) = k.
Proof. unfold swapi. destruct (Nat.eqb_spec k a), (Nat.eqb_spec k b); subst; repeat match goal with |- context[(?x =? ?y)%nat] => destruct (Nat.eqb_spec x y) end; congruence. Qed.
Lemma eff_swap i ip jp A r c : (i <= ip)%nat -> (i <= jp)%nat -> eff i (fun r c => A (swapi ip i r) (swapi jp i c)) r c = eff i A (swapi ip i r) (swapi jp i c).
Proof.
  intros H1 H2. unfold eff. replace ((swapi jp i c <? i) && (swapi jp i c <? swapi ip i r))%nat with ((c <? i) && (c <? r))%nat; auto.
  unfold swapi. destruct (Nat.eqb_spec c jp), (Nat.eqb_spec c i), (Nat.eqb_spec r ip), (Nat.eqb_spec r i); subst;
  repeat match goal with |- context[(?x <? ?y)%nat] => destruct (Nat.ltb_spec x y) end; cbn [andb]; auto; lia.
Qed.
Lemma sol_swap i ip jp A b s y : (i <= ip < 4)%nat -> (i <= jp < 4)%nat ->
  Sol (eff i (fun r c => A (swapi ip i r) (swapi jp i c))) (fun r => b (swapi ip i r)) s y -> Sol (eff i A) b s (fun k => y (swapi jp i k)).
Proof.
  intros Hi Hj H r Hr. assert (e := H (swapi ip i r) ltac:(apply swapi_lt; lia)). cbv beta in e. rewrite !eff_swap in e by lia. rewrite !swapi_inv in e. rewrite <- e. clear e H.
  assert (i < 4)%nat by lia. set (F := eff i A r). clearbody F. destruct Hj as [_ Hj]. clear Hi.
  destruct i as [|[|[|[|i]]]]; [| | | |lia]; (destruct jp as [|[|[|[|jp]]]]; [| | | |lia]); cbn [swapi Nat.eqb]; ring.
Qed.
Lemma sol_elim i (A : mR) b s y : (i < 3)%nat -> A i i <> 0 ->
  Sol (eff (S i) (fun r c => if (i <? r)%nat then (if (c =? i)%nat then A r i / A i i else if (i <? c)%nat then A r c - A r i / A i i * A i c else A r c) else A r c))
    (fun r => if (i <? r)%nat then b r - A r i / A i i * b i else b r) s y -> Sol (eff i A) b s y.
Proof.
  intros Hi Hp H r Hr. pose proof (H i ltac:(lia)) as e0. pose proof (H r Hr) as e. clear H. unfold eff in *.
  destruct i as [|[|[|i]]]; [| | |lia]; (destruct r as [|[|[|[|r]]]]; [| | | |lia]); cbn [Nat.ltb Nat.leb Nat.eqb andb] in *; try (rewrite <- e0; ring); try (rewrite <- e; ring).
  all: match goal with Hp : ?p <> 0, e : _ = ?q * (_ - ?a / ?p * _) |- _ => assert (Hl : a = a / p * p) by (field; auto); set (l := a / p) in *; clearbody l; rewrite Hl; apply (f_equal (Rmult l)) in e0 end; lra.
Qed.
Lemma pivot_in A i : (i < 4)%nat -> (i <= fst (sy_pivot (E:=RE) A i) < 4)%nat /\ (i <= snd (sy_pivot (E:=RE) A i) < 4)%nat.
Proof.
  intros Hi. unfold sy_pivot.
  assert (G : forall f : (R * (nat * nat)) -> nat -> (R * (nat * nat)), (forall acc x, (i <= x < 4)%nat -> (i <= fst (snd acc) < 4 /\ i <= snd (snd acc) < 4)%nat -> (i <= fst (snd (f acc x)) < 4 /\ i <= snd (snd (f acc x)) < 4)%nat) ->
    forall l acc, (forall x, In x l -> (i <= x < 4)%nat) -> (i <= fst (snd acc) < 4 /\ i <= snd (snd acc) < 4)%nat -> (i <= fst (snd (fold_left f l acc)) < 4 /\ i <= snd (snd (fold_left f l acc)) < 4)%nat).
  { intros f Hf. induction l as [|x l IH]; intros acc Hl Ha; cbn [fold_left]; auto. apply IH; [intros; apply Hl; right; auto|]. apply Hf; auto. apply Hl. left. auto. }
  assert (GS : forall x, In x (seq i (4 - i)) -> (i <= x < 4)%nat) by (intros x Hx; apply in_seq in Hx; lia).
  apply G; [|exact GS|cbn; lia]. intros acc x Hx Ha. apply G; [|exact GS|exact Ha]. intros acc' x' Hx' Ha'. destruct (leb _ _); cbn; auto.
Qed.
Definition st_A (st : sy_state (E:=RE)) : mR := fst (fst (fst st)).
Definition st_b (st : sy_state (E:=RE)) : nat -> R := snd (fst (fst st)).
Definition st_p (st : sy_state (E:=RE)) : nat -> nat := snd (fst st).
Definition st_i (st : sy_state (E:=RE)) : Z := snd st.
Lemma step_run smin i st : 0 < smin -> (i < 3)%nat -> let st' := sy_step (E:=RE) smin i st in
  (st_i st' = 0%Z \/ st_i st' = 1%Z \/ st_i st' = st_i st) /\
  (st_i st' <> 1%Z -> st_i st' = st_i st /\ st_A st' i i <> 0 /\
   (forall s y, Sol (eff (S i) (st_A st')) (st_b st') s y -> Sol (eff i (st_A st)) (st_b st) s (fun k => y (swapi (st_p st' i) i k)))) /\
  (forall k, k <> i -> st_p st' k = st_p st k) /\ (forall k, (k < i)%nat -> st_A st' k k = st_A st k k).
Proof.
  intros Hs Hi. destruct st as [[[A b] piv] info]. unfold sy_step. pose proof (pivot_in A i ltac:(lia)) as [P1 P2]. destruct (sy_pivot A i) as [ip jp]. cbn [fst snd] in P1, P2.
  cbv zeta. unfold st_i, st_A, st_b, st_p. cbn [fst snd].
  set (A2 := fun r c => A (swapi ip i r) (swapi jp i c)). cbn [ltb absv RE]. change (A (swapi ip i i) (swapi jp i i)) with (A2 i i).
  split; [destruct (Rltb _ _); auto|]. split.
  2: { split; [intros k Hk; destruct (Nat.eqb_spec k i); congruence|]. intros k Hk. destruct (Nat.ltb_spec i k); [lia|]. destruct (Nat.eqb_spec k i); [lia|]. cbn [andb].
       unfold swapi. destruct (Nat.eqb_spec k ip), (Nat.eqb_spec k jp), (Nat.eqb_spec k i); try lia; auto. }
  destruct (Rltb (Rabs (A2 i i)) smin) eqn:Es; [intros K; exfalso; apply K; reflexivity|]. intros _. split; auto. apply Rltb_f in Es.
  assert (Hp : A2 i i <> 0). { intros e. rewrite e, Rabs_R0 in Es. lra. }
  assert (EA : forall r c, (if ((r =? i) && (c =? i))%nat then A2 i i else A (swapi ip i r) (swapi jp i c)) = A2 r c). { intros r c. destruct (Nat.eqb_spec r i), (Nat.eqb_spec c i); subst; auto. }
  assert (EA0 : (if ((i =? i) && (i =? i))%nat then A2 i i else A2 i i) = A2 i i) by (destruct (_ && _)%bool; auto).
  split; [rewrite Nat.ltb_irrefl, EA0; exact Hp|]. intros s y H. assert (EP : (if (i =? i)%nat then jp else piv i) = jp) by (rewrite Nat.eqb_refl; auto). rewrite EP. clear EP. apply (sol_swap i ip jp A b s y); auto. apply sol_elim; auto.
  intros r Hr. specialize (H r Hr). revert H. unfold eff. cbn [sub mul div RE]. rewrite !EA. auto.
Qed.

Lemma solve_run (A : mR) b piv info s0 b0 : (forall k, (k < 4)%nat -> A k k <> 0) -> (forall k, b k = s0 * b0 k) -> exists y, Sol (eff 3 A) b0 s0 y /\
  (forall k, sy_solve (E:=RE) (A, b, piv, info) k = y (swapi (piv 2%nat) 2 (swapi (piv 1%nat) 1 (swapi (piv 0%nat) 0 k)))).
Proof.
  intros HA Hb. exists (sy_back (E:=RE) A b). split; [|reflexivity].
  pose proof (HA 0%nat ltac:(lia)). pose proof (HA 1%nat ltac:(lia)). pose proof (HA 2%nat ltac:(lia)). pose proof (HA 3%nat ltac:(lia)).
  intros r Hr. unfold eff, sy_back. cbv zeta. cbn [nth add sub mul div one RE]. rewrite !Hb.
  destruct r as [|[|[|[|r]]]]; [| | | |lia]; cbn [Nat.ltb Nat.leb andb]; field; auto.
Qed.
Lemma max_l a b : a <= maxT (E:=RE) a b.
Proof. unfold maxT. cbn [ltb RE]. destruct (Rltb a b) eqn:e; [apply Rltb_t in e; lra|lra]. Qed.
Lemma max_r a b : b <= maxT (E:=RE) a b.
Proof. unfold maxT. cbn [ltb RE]. destruct (Rltb a b) eqn:e; [lra|apply Rltb_f in e; lra]. Qed.
Lemma leb_cases (a b : R) : (leb (E:=RE) a b = true /\ a <= b) \/ (leb (E:=RE) a b = false /\ b <= a).
Proof.
  unfold leb. cbn [ltb RE]. destruct (Rltb a b) eqn:e; [left; apply Rltb_t in e; split; [reflexivity|lra]|]. apply Rltb_f in e. destruct (eqb (Env:=RE) a b) eqn:e2; [|right; auto].
  left. split; [reflexivity|]. cbn [eqb RE] in e2. unfold Reqb in e2. destruct (Req_EM_T a b) in e2; [lra|discriminate].
Qed.
(** the search finds an element of largest absolute value *)
Lemma pivot_max A i r c : (i < 4)%nat -> (i <= r < 4)%nat -> (i <= c < 4)%nat -> Rabs (A r c) <= Rabs (A (fst (sy_pivot (E:=RE) A i)) (snd (sy_pivot (E:=RE) A i))).
Proof.
  intros Hi Hr Hc. unfold sy_pivot. set (f := fun (acc : R * (nat * nat)) (ip jp : nat) => if leb (E:=RE) (fst acc) (absv (Env:=RE) (A ip jp)) then (absv (Env:=RE) (A ip jp), (ip, jp)) else acc).
  assert (F1 : forall acc ip jp, fst acc <= fst (f acc ip jp) /\ Rabs (A ip jp) <= fst (f acc ip jp) /\ (fst acc <= Rabs (A (fst (snd acc)) (snd (snd acc))) -> fst (f acc ip jp) <= Rabs (A (fst (snd (f acc ip jp))) (snd (snd (f acc ip jp)))))).
  { intros acc ip jp. unfold f. destruct (leb_cases (fst acc) (Rabs (A ip jp))) as [[e1 e]|[e1 e]]; cbn [absv RE]; rewrite e1; cbn [fst snd]; (split; [|split; [|intros HH]]); try exact HH; try exact e; try apply Rle_refl. }
  assert (F2 : forall l ip acc, let a' := fold_left (fun a jp => f a ip jp) l acc in fst acc <= fst a' /\ (forall jp, In jp l -> Rabs (A ip jp) <= fst a') /\ (fst acc <= Rabs (A (fst (snd acc)) (snd (snd acc))) -> fst a' <= Rabs (A (fst (snd a')) (snd (snd a'))))).
  { induction l as [|x l IH]; intros ip acc; cbv zeta; cbn [fold_left]; [split; [apply Rle_refl|]; split; [intros ? []|intros J; exact J]|]. destruct (IH ip (f acc ip x)) as (a & b & d). destruct (F1 acc ip x) as (a1 & b1 & d1).
    split; [exact (Rle_trans _ _ _ a1 a)|]. split; [|intros J; exact (d (d1 J))]. intros jp [<-|J]; [exact (Rle_trans _ _ _ b1 a)|exact (b _ J)]. }
  assert (F3 : forall l acc, let a' := fold_left (fun a ip => fold_left (fun a jp => f a ip jp) (seq i (4 - i)) a) l acc in fst acc <= fst a' /\ (forall ip jp, In ip l -> In jp (seq i (4 - i)) -> Rabs (A ip jp) <= fst a') /\ (fst acc <= Rabs (A (fst (snd acc)) (snd (snd acc))) -> fst a' <= Rabs (A (fst (snd a')) (snd (snd a'))))).
  { induction l as [|x l IH]; intros acc; cbv zeta; cbn [fold_left]; [split; [apply Rle_refl|]; split; [intros ? ? []|intros J; exact J]|].
    destruct (F2 (seq i (4 - i)) x acc) as (a1 & b1 & d1). cbv zeta in a1, b1, d1. set (acc1 := fold_left _ (seq i (4 - i)) acc) in *. destruct (IH acc1) as (a & b & d).
    split; [exact (Rle_trans _ _ _ a1 a)|]. split; [|intros J; exact (d (d1 J))]. intros ip jp [<-|J] J2; [exact (Rle_trans _ _ _ (b1 jp J2) a)|exact (b _ _ J J2)]. }
  destruct (F3 (seq i (4 - i)) (0, (i, i))) as (_ & b & d). cbn [fst snd] in d. specialize (d (Rabs_pos _)). specialize (b r c ltac:(apply in_seq; lia) ltac:(apply in_seq; lia)). exact (Rle_trans _ _ _ b d).
Qed.
(** a vector that is nearly mapped to zero *)
Definition Near (smin : R) (i : nat) (A : mR) : Prop := exists z b : nat -> R, (exists k, (k < 4)%nat /\ z k <> 0) /\ Sol (eff i A) b 1 z /\
  (forall r, (r < 4)%nat -> Rabs (b r) <= smin * (Rabs (z 0%nat) + Rabs (z 1%nat) + Rabs (z 2%nat) + Rabs (z 3%nat))) /\ (forall r, (r < i)%nat -> b r = 0).
Lemma near_base smin i A : 0 < smin -> (i < 4)%nat -> (forall k, (k < i)%nat -> A k k <> 0) -> (forall r c, (i <= r < 4)%nat -> (i <= c < 4)%nat -> Rabs (A r c) < smin) -> Near smin i A.
Proof.
  intros Hs Hi Hd HA.
  set (z2 := - A 2%nat 3%nat / A 2%nat 2%nat).
  set (z := fun k => match i with
    | 0%nat => nth k [1; 0; 0; 0] 0
    | 1%nat => nth k [- A 0%nat 1%nat / A 0%nat 0%nat; 1; 0; 0] 0
    | 2%nat => let z1 := - A 1%nat 2%nat / A 1%nat 1%nat in nth k [- (A 0%nat 1%nat * z1 + A 0%nat 2%nat) / A 0%nat 0%nat; z1; 1; 0] 0
    | _ => let z1 := - (A 1%nat 2%nat * z2 + A 1%nat 3%nat) / A 1%nat 1%nat in nth k [- (A 0%nat 1%nat * z1 + A 0%nat 2%nat * z2 + A 0%nat 3%nat) / A 0%nat 0%nat; z1; z2; 1] 0 end).
  assert (Zi : z i = 1) by (unfold z; destruct i as [|[|[|[|i]]]]; [| | | |lia]; reflexivity).
  exists z, (fun r => if (r <? i)%nat then 0 else A r i). split; [exists i; split; [auto|rewrite Zi; lra]|]. split; [|split].
  - intros r Hr. unfold eff, z, z2. cbv zeta. destruct i as [|[|[|[|i]]]]; [| | | |lia]; (destruct r as [|[|[|[|r]]]]; [| | | |lia]); cbn [nth Nat.ltb Nat.leb andb];
    try (field; repeat split; apply Hd; lia); ring.
  - intros r Hr. assert (1 <= Rabs (z 0%nat) + Rabs (z 1%nat) + Rabs (z 2%nat) + Rabs (z 3%nat)).
    { pose proof (Rabs_pos (z 0%nat)). pose proof (Rabs_pos (z 1%nat)). pose proof (Rabs_pos (z 2%nat)). pose proof (Rabs_pos (z 3%nat)). assert (e : Rabs (z i) = 1) by (rewrite Zi; apply Rabs_R1). destruct i as [|[|[|[|i]]]]; [| | | |lia]; lra. }
    destruct (Nat.ltb_spec r i); [rewrite Rabs_R0; nra|]. specialize (HA r i ltac:(lia) ltac:(lia)). nra.
  - intros r Hr. destruct (Nat.ltb_spec r i); [auto|lia].
Qed.
Lemma near_step smin i st : 0 < smin -> (i < 3)%nat -> let st' := sy_step (E:=RE) smin i st in
  (st_i st' <> 1%Z -> Near smin (S i) (st_A st') -> Near smin i (st_A st)) /\
  (st_i st <> 1%Z -> st_i st' = 1%Z -> (forall k, (k < i)%nat -> st_A st k k <> 0) -> Near smin i (st_A st)).
Proof.
  intros Hs Hi. destruct st as [[[A b] piv] info]. unfold sy_step. pose proof (pivot_in A i ltac:(lia)) as [P1 P2]. pose proof (fun r c => pivot_max A i r c ltac:(lia)) as PM. destruct (sy_pivot A i) as [ip jp]. cbn [fst snd] in P1, P2, PM.
  cbv zeta. unfold st_i, st_A. cbn [fst snd]. set (A2 := fun r c => A (swapi ip i r) (swapi jp i c)). cbn [ltb absv RE]. change (A (swapi ip i i) (swapi jp i i)) with (A2 i i).
  assert (EP : A2 i i = A ip jp). { unfold A2, swapi. rewrite Nat.eqb_refl. destruct (Nat.eqb_spec i ip) as [<-|], (Nat.eqb_spec i jp) as [<-|]; auto. }
  split.
  - destruct (Rltb (Rabs (A2 i i)) smin) eqn:Es; [intros K; exfalso; apply K; reflexivity|]. intros _. apply Rltb_f in Es.
    assert (Hp : A2 i i <> 0). { intros e. rewrite e, Rabs_R0 in Es. lra. }
    assert (EA : forall r c, (if ((r =? i) && (c =? i))%nat then A2 i i else A (swapi ip i r) (swapi jp i c)) = A2 r c). { intros r c. destruct (Nat.eqb_spec r i), (Nat.eqb_spec c i); subst; auto. }
    intros (z & b' & (k & Hk & Hz) & HS & HB & H0). exists (fun k => z (swapi jp i k)), (fun r => b' (swapi ip i r)). split; [|split; [|split]].
    + exists (swapi jp i k). split; [apply swapi_lt; lia|]. rewrite swapi_inv. auto.
    + apply (sol_swap i ip jp A (fun r => b' (swapi ip i r)) 1 z); auto; try lia. intros r Hr.
      assert (G : Sol (eff i A2) b' 1 z).
      { apply sol_elim; auto. intros r' Hr'. specialize (HS r' Hr'). revert HS. unfold eff. cbn [sub mul div RE]. rewrite !EA. intros e. etransitivity; [exact e|]. f_equal. destruct (i <? r')%nat; auto. rewrite (H0 i) by lia. ring. }
      specialize (G r Hr). cbv beta. rewrite swapi_inv. exact G.
    + intros r Hr. eapply Rle_trans; [apply HB; apply swapi_lt; lia|]. apply Req_le. apply (f_equal (Rmult smin)). assert (Hj : (i <= jp < 4)%nat) by exact P2. clear - Hj Hi. unfold swapi. destruct i as [|[|[|i]]]; try lia; destruct jp as [|[|[|[|jp]]]]; try lia; cbn [Nat.eqb]; ring.
    + intros r Hr. replace (swapi ip i r) with r; [apply H0; lia|]. unfold swapi. destruct (Nat.eqb_spec r ip); [lia|]. destruct (Nat.eqb_spec r i); lia.
  - intros Hn Hi1 Hd. destruct (Rltb (Rabs (A2 i i)) smin) eqn:Es; [|congruence]. apply Rltb_t in Es. rewrite EP in Es. apply near_base; [exact Hs|lia|exact Hd|].
    intros r c Hr Hc. eapply Rle_lt_trans; [apply PM; auto|exact Es].
Qed.
Lemma sylv2_run (eps sn : R) tl tr (sgn : R) (L R0 B : mR) : 0 < sn -> let '(info, sc, x) := sylv2 (E:=RE) eps sn tl tr sgn L R0 B in
  (info = 0%Z \/ info = 1%Z) /\ 0 < sc /\ (info = 0%Z -> Sol (sy_mat (E:=RE) tl tr sgn L R0) (fun k => nth k [B 0%nat 0%nat; B 1%nat 0%nat; B 0%nat 1%nat; B 1%nat 1%nat] 0) sc x) /\
  (info = 1%Z -> Near (maxT (E:=RE) (eps * maxT (E:=RE) (sy_max (E:=RE) R0) (sy_max (E:=RE) L))%R sn) 0 (sy_mat (E:=RE) tl tr sgn L R0)).
Proof.
  intros Hsn. unfold sylv2. cbv zeta. change (mul (Env:=RE) eps (maxT (E:=RE) (sy_max (E:=RE) R0) (sy_max (E:=RE) L))) with (eps * maxT (E:=RE) (sy_max (E:=RE) R0) (sy_max (E:=RE) L)). set (smin := maxT (E:=RE) _ sn). assert (Hs : 0 < smin) by (unfold smin; eapply Rlt_le_trans; [exact Hsn|apply max_r]). clearbody smin.
  set (b := fun k => nth k [B 0%nat 0%nat; B 1%nat 0%nat; B 0%nat 1%nat; B 1%nat 1%nat] (zero (Env:=RE))). set (M := sy_mat (E:=RE) tl tr sgn L R0). set (st0 := (M, b, (fun k : nat => k), 0%Z) : sy_state (E:=RE)).
  pose proof (step_run smin 0 st0 Hs ltac:(lia)) as G0. pose proof (near_step smin 0 st0 Hs ltac:(lia)) as W0. set (st1 := sy_step (E:=RE) smin 0 st0) in *. cbv zeta in G0, W0.
  pose proof (step_run smin 1 st1 Hs ltac:(lia)) as G1. pose proof (near_step smin 1 st1 Hs ltac:(lia)) as W1. set (st2 := sy_step (E:=RE) smin 1 st1) in *. cbv zeta in G1, W1.
  pose proof (step_run smin 2 st2 Hs ltac:(lia)) as G2. pose proof (near_step smin 2 st2 Hs ltac:(lia)) as W2. set (st3 := sy_step (E:=RE) smin 2 st2) in *. cbv zeta in G2, W2.
  destruct G0 as (I0 & J0 & P0 & D0), G1 as (I1 & J1 & P1 & D1), G2 as (I2 & J2 & P2 & D2).
  change (st_i st0) with 0%Z in *. change (st_A st0) with M in *. change (st_b st0) with b in *.
  match goal with |- context[sy_scale ?a ?b ?c ?d] => change (sy_scale a b c d) with (sy_scale (E:=RE) smin sn (sy_eight (E:=RE)) st3) end.
  clearbody st1 st2 st3. destruct st3 as [[[A b3] piv] info]. change (st_A (A, b3, piv, info)) with A in *. change (st_b (A, b3, piv, info)) with b3 in *. change (st_p (A, b3, piv, info)) with piv in *. change (st_i (A, b3, piv, info)) with info in *.
  set (small := ltb (Env:=RE) (absv (Env:=RE) (A 3%nat 3%nat)) smin). set (A' := fun r c => if ((r =? 3) && (c =? 3))%nat && small then smin else A r c).
  set (big := fun k => ltb (Env:=RE) (absv (Env:=RE) (A' k k)) (mul (Env:=RE) (mul (Env:=RE) (sy_eight (E:=RE)) sn) (absv (Env:=RE) (b3 k)))). set (info' := if small then 1%Z else info).
  assert (HI : info' = 0%Z \/ info' = 1%Z) by (unfold info'; destruct small; auto; lia).
  assert (FIN : forall sc bb, (forall k, bb k = sc * b3 k) -> info' = 0%Z -> Sol M b sc (sy_solve (E:=RE) (A', bb, piv, info'))).
  { intros sc bb Hbb Hi. unfold info' in Hi. destruct small eqn:Es; [discriminate|]. subst info. destruct (J2 ltac:(lia)) as (K2 & N2 & S2). destruct (J1 ltac:(lia)) as (K1 & N1 & S1). destruct (J0 ltac:(lia)) as (K0 & N0 & S0).
    unfold small in Es. cbn [ltb absv RE] in Es. apply Rltb_f in Es.
    assert (EA : forall r c, A' r c = A r c) by (intros r c; unfold A'; rewrite andb_false_r; auto).
    assert (N3 : A 3%nat 3%nat <> 0) by (intros e; rewrite e, Rabs_R0 in Es; lra).
    assert (ND : forall k, (k < 4)%nat -> A' k k <> 0).
    { intros k Hk. rewrite EA. destruct k as [|[|[|[|k]]]]; [| | | |lia]; auto.
      - rewrite D2, D1 by lia. auto.
      - rewrite D2 by lia. auto. }
    destruct (solve_run A' bb piv info' sc b3 ND Hbb) as (y & Y1 & Y2).
    assert (Y1' : Sol (eff 3 A) b3 sc y). { intros r Hr. specialize (Y1 r Hr). unfold eff in *. rewrite !EA in Y1. exact Y1. }
    apply S2, S1, S0 in Y1'. intros r Hr. specialize (Y1' r Hr). cbv beta in Y1'. rewrite !Y2. rewrite (P2 1%nat) by lia. rewrite (P2 0%nat) by lia. rewrite (P1 0%nat) by lia. exact Y1'. }
  assert (NEAR : info' = 1%Z -> Near smin 0 M).
  { intros Hi. destruct W0 as [W0 V0], W1 as [W1 V1], W2 as [W2 V2].
    assert (Z0 : 0%Z <> 1%Z) by discriminate. assert (N0 : forall k, (k < 0)%nat -> M k k <> 0) by (intros; lia).
    destruct (Z.eq_dec (st_i st1) 1) as [e1|e1]; [apply V0; auto|]. apply W0; auto. destruct (J0 e1) as (_ & Q0 & _).
    assert (N1 : forall k, (k < 1)%nat -> st_A st1 k k <> 0) by (intros k Hk; replace k with 0%nat by lia; exact Q0).
    destruct (Z.eq_dec (st_i st2) 1) as [e2|e2]; [apply V1; auto|]. apply W1; auto. destruct (J1 e2) as (_ & Q1 & _).
    assert (N2 : forall k, (k < 2)%nat -> st_A st2 k k <> 0). { intros k Hk. destruct k as [|[|k]]; [rewrite D1 by lia; exact Q0|exact Q1|lia]. }
    destruct (Z.eq_dec info 1) as [e3|e3]; [apply V2; auto|]. apply W2; auto. destruct (J2 e3) as (_ & Q2 & _).
    unfold info' in Hi. destruct small eqn:Es; [|congruence]. unfold small in Es. cbn [ltb absv RE] in Es. apply Rltb_t in Es.
    apply near_base; auto.
    - intros k Hk. destruct k as [|[|[|k]]]; [rewrite D2 by lia; apply N2; lia|rewrite D2 by lia; apply N2; lia|exact Q2|lia].
    - intros r c Hr Hc. replace r with 3%nat by lia. replace c with 3%nat by lia. exact Es. }
  set (sc1 := ((1 / sy_eight (E:=RE)) / maxT (E:=RE) (maxT (E:=RE) (Rabs (b3 0%nat)) (Rabs (b3 1%nat))) (maxT (E:=RE) (Rabs (b3 2%nat)) (Rabs (b3 3%nat))))).
  assert (EQ : sy_scale (E:=RE) smin sn (sy_eight (E:=RE)) (A, b3, piv, info) = if (big 0%nat || big 1%nat || big 2%nat || big 3%nat)%bool then ((A', (fun k => b3 k * sc1), piv, info'), sc1) else ((A', b3, piv, info'), 1)) by reflexivity.
  rewrite EQ. clear EQ.
  destruct (big 0%nat || big 1%nat || big 2%nat || big 3%nat)%bool eqn:Eb.
  - cbn [snd fst]. split; [exact HI|]. split.
    + assert (GB : forall k, big k = true -> 0 < Rabs (b3 k)).
      { intros k Hk. unfold big in Hk. cbn [ltb absv RE mul] in Hk. apply Rltb_t in Hk. pose proof (Rabs_pos (A' k k)) as Ha. destruct (Req_dec (b3 k) 0) as [e|e]; [exfalso|apply Rabs_pos_lt; exact e]. rewrite e, Rabs_R0, Rmult_0_r in Hk. exact (Rlt_irrefl _ (Rle_lt_trans _ _ _ Ha Hk)). }
      assert (GM : 0 < maxT (E:=RE) (maxT (E:=RE) (Rabs (b3 0%nat)) (Rabs (b3 1%nat))) (maxT (E:=RE) (Rabs (b3 2%nat)) (Rabs (b3 3%nat)))).
      { pose proof (max_l (maxT (E:=RE) (Rabs (b3 0%nat)) (Rabs (b3 1%nat))) (maxT (E:=RE) (Rabs (b3 2%nat)) (Rabs (b3 3%nat)))). pose proof (max_r (maxT (E:=RE) (Rabs (b3 0%nat)) (Rabs (b3 1%nat))) (maxT (E:=RE) (Rabs (b3 2%nat)) (Rabs (b3 3%nat)))).
        pose proof (max_l (Rabs (b3 0%nat)) (Rabs (b3 1%nat))). pose proof (max_r (Rabs (b3 0%nat)) (Rabs (b3 1%nat))). pose proof (max_l (Rabs (b3 2%nat)) (Rabs (b3 3%nat))). pose proof (max_r (Rabs (b3 2%nat)) (Rabs (b3 3%nat))).
        apply orb_true_iff in Eb. destruct Eb as [Eb|Eb]; [apply orb_true_iff in Eb; destruct Eb as [Eb|Eb]; [apply orb_true_iff in Eb; destruct Eb as [Eb|Eb]|]|]; apply GB in Eb; lra. }
      unfold sc1. apply Rdiv_lt_0_compat; [|exact GM]. unfold sy_eight. cbn [add one RE div]. lra.
    + split; [|exact NEAR]. apply FIN. intros k. apply Rmult_comm.
  - cbn [snd fst]. split; [exact HI|]. split; [cbn; lra|]. split; [|exact NEAR]. apply FIN. intros k. symmetry. apply Rmult_1_l.
Qed.
Lemma sylv1_run (sn sgn l r b : R) : 0 < sn -> let '(info, sc, x) := sylv1 (E:=RE) sn sgn l r b in
  0 < sc /\ ((info = 0%Z /\ sn <= Rabs (l + sgn * r) /\ l * x + sgn * (x * r) = sc * b) \/ (info = 1%Z /\ Rabs (l + sgn * r) < sn)).
Proof.
  intros Hsn. unfold sylv1. cbv zeta. cbn [ltb absv RE add mul div one]. set (t := l + sgn * r). destruct (Rltb (Rabs t) sn) eqn:Es.
  - apply Rltb_t in Es. split; [|auto]. destruct (Rltb sn (sn * Rabs b)) eqn:Eb; [|lra]. apply Rltb_t in Eb. apply Rdiv_lt_0_compat; [lra|]. nra.
  - apply Rltb_f in Es. split.
    + destruct (Rltb (Rabs t) (sn * Rabs b)) eqn:Eb; [|lra]. apply Rltb_t in Eb. apply Rdiv_lt_0_compat; [lra|]. pose proof (Rabs_pos b). nra.
    + left. split; auto. split; auto. assert (t <> 0) by (intros e; rewrite e, Rabs_R0 in Es; lra). set (sc := if Rltb _ _ then _ else _). replace (l * (b * sc / t) + sgn * (b * sc / t * r)) with (b * sc * (t / t)) by (unfold t at 1; field; auto). field. auto.
Qed.
