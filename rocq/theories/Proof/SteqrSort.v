(** * steqr: ordering the eigenvalues, and the whole routine *)
From Coq Require Import Bool Arith ZArith Ascii Lia Reals Lra Ring Field List Permutation FinFun.
From Verif.Core Require Import Scalar Instances Inv0 Prog View Slice RealLaws.
From Verif.Model Require Import Blas1 Householder Sort Rot Steqr.
From Verif.Spec Require Import Outcome LinAlg Norms Householder Reduce Sort Steqr.
From Verif.Properties Require Import Sort.
From Verif.Proof Require Import SumLemmas Tactics Blas1Proof PotrfProof BlockAlg LarfProof LarfgProof QRProof QGenProof QFactProof ReduceMath SliceTac GetrfRecProof RotgProof GivensProof SteqrMath Ev2Proof SteqrProof.
Local Open Scope T_scope.

Lemma perm_comp n (p q : nat -> nat) : Permutation (map p (seq 0 n)) (seq 0 n) -> Permutation (map q (seq 0 n)) (seq 0 n) ->
  Permutation (map (fun i => p (q i)) (seq 0 n)) (seq 0 n).
Proof. intros Hp Hq. rewrite <- (map_map q p). etransitivity; [apply Permutation_map; exact Hq|exact Hp]. Qed.
Lemma perm_id n : Permutation (map (fun i => i) (seq 0 n)) (seq 0 n).
Proof. rewrite map_id. auto. Qed.
Lemma perm_of_inj n p : (forall i, (i < n)%nat -> (p i < n)%nat) -> (forall i j, (i < n)%nat -> (j < n)%nat -> p i = p j -> i = j) -> Permutation (map p (seq 0 n)) (seq 0 n).
Proof.
  intros H1 H2. apply NoDup_Permutation_bis.
  - assert (K : forall l, NoDup l -> (forall x, In x l -> (x < n)%nat) -> NoDup (map p l)).
    { induction l as [|a l IH]; intros ND HL; cbn; constructor.
      - intros J. apply in_map_iff in J. destruct J as (b & e & Hb). apply H2 in e; [|apply HL; cbn; auto..]. subst b. inversion ND; auto.
      - apply IH; [inversion ND; auto|]. intros x Hx. apply HL. cbn; auto. }
    apply K; [apply seq_NoDup|]. intros x Hx. apply in_seq in Hx. lia.
  - rewrite map_length, seq_length. lia.
  - intros x Hx. apply in_map_iff in Hx. destruct Hx as (a & <- & Ha). apply in_seq in Ha. apply in_seq. assert (K := H1 a ltac:(lia)). lia.
Qed.
Section V.
Context {E : Env}.
Lemma values_perm n (f g : nat -> T) : Permutation (values n f) (values n g) ->
  exists p, Permutation (map p (seq 0 n)) (seq 0 n) /\ forall i, (i < n)%nat -> g i = f (p i).
Proof.
  intros H. unfold values in H. apply (Permutation_nth _ _ (f 0%nat)) in H. destruct H as (L & p & P1 & P2 & P3).
  rewrite map_length, seq_length in *. exists p. assert (Lt : forall i, (i < n)%nat -> (p i < n)%nat) by (intros; apply P1; auto). split.
  - apply perm_of_inj; auto.
  - intros i Hi. assert (K := P3 i Hi). rewrite (map_nth f) in K.
    assert (G : nth i (map g (seq 0 n)) (f 0%nat) = g i).
    { rewrite (nth_indep _ (f 0%nat) (g 0%nat)) by (rewrite map_length, seq_length; auto). rewrite (map_nth g), seq_nth; auto. }
    rewrite G in K. rewrite K, seq_nth by auto. auto.
Qed.
End V.

Section P.
Context {E : Env} {FL : FieldLaws E} {CL : ConjLaws E} {OL : ROrdLaws E} {QL : EqbLaws E} {XL : CplxLaws E} {RL : RLaws E} {NL : FinLaws E} {IL : Inv0Laws E}.
Add Field Tf : fth.
Section St.
Context (d e Z : view) (n : nat).
Context (Hd : nr d = n) (Hd1 : nc d = 1%nat) (Id : vinj d) (He : (n <= nr e + 1)%nat) (He1 : nc e = 1%nat) (Ie : vinj e) (Dde : disj d e).
Context (HZ : nc Z = n /\ vinj Z /\ disj Z d /\ disj Z e).
Let HZ' : true = true -> nc Z = n /\ vinj Z /\ disj Z d /\ disj Z e := fun _ => HZ.
Context (Z1 : mat) (dv ev : nat -> T).
Definition sinv (s0 : state) (i : nat) (s : state) : Prop := exists p, Permutation (map p (seq 0 n)) (seq 0 n) /\
  st3 true d e Z n s0 (fun j => dv (p j)) ev (fun r q => Z1 r (p q)) s /\
  forall a b, (a < i)%nat -> (a < b < n)%nat -> ltb (dv (p b)) (dv (p a)) = false.
Lemma st_sort_run s0 s X : (0 < n)%nat -> st3 true d e Z n s0 dv ev Z1 s ->
  wp (st_sort n d Z) (fun _ s' => sinv s0 n s') X s.
Proof.
  intros Hn HS. unfold st_sort. apply (wp_forup (sinv s0)); [lia| | |].
  - exists (fun j => j). split; [apply perm_id|]. split; auto. intros; lia.
  - intros i s1 Hi (p & Hp & HS1 & HP).
    apply wp_bind. eapply (st3_rd_d true d e Z n); eauto; try lia. apply wp_bind.
    apply (wp_foldup _ (fun j kp s2 => s2 = s1 /\ (i <= fst kp < n)%nat /\ snd kp = dv (p (fst kp)) /\ forall b, (i <= b < j)%nat -> ltb (dv (p b)) (snd kp) = false)).
    + lia.
    + cbn. split; auto. split; [lia|]. split; auto. intros b Hb. replace b with i by lia. apply lt_irr.
    + intros j [kk pp] s2 Hj (-> & K1 & K2 & K3). cbn [fst snd] in *. subst pp.
      apply wp_bind. eapply (st3_rd_d true d e Z n); eauto; try lia.
      destruct (ltb (dv (p j)) (dv (p kk))) eqn:el.
      * apply wp_bind. eapply (st3_rd_d true d e Z n); eauto; try lia. apply wp_ret. cbn. split; auto. split; [lia|]. split; auto.
        intros b Hb. destruct (Nat.eq_dec b j) as [->|]; [apply lt_irr|]. destruct (ltb (dv (p b)) (dv (p j))) eqn:e2; auto.
        rewrite <- (K3 b) by lia. symmetry. eapply lt_trans; eauto.
      * apply wp_ret. cbn. split; auto. split; auto. split; auto. intros b Hb. destruct (Nat.eq_dec b j) as [->|]; auto. apply K3; lia.
    + intros [kk pp] s2 (-> & K1 & K2 & K3). cbn [fst snd] in *. subst pp.
      destruct (Nat.eqb_spec kk i) as [->|N]; cbn [negb].
      * apply wp_ret. exists p. split; auto. split; auto. intros a b Ha Hb. destruct (Nat.eq_dec a i) as [->|]; [apply K3; lia|apply HP; lia].
      * apply wp_bind. eapply (st3_rd_d true d e Z n); eauto; try lia.
        apply wp_bind. eapply (st3_wr_d true d e Z n); eauto; try lia. intros s2 HS2.
        apply wp_bind. eapply (st3_wr_d true d e Z n); eauto; try lia. intros s3 HS3.
        destruct HZ as (Q1 & Q2 & Q3 & Q4).
        apply wp_bind, wp_slcol; try lia. apply wp_bind, wp_slcol; try lia.
        apply wp_noX. eapply wp_conseq; [apply swap_run; auto| |auto].
        -- apply vinj_vcol; auto; lia.
        -- apply vinj_vcol; auto; lia.
        -- eapply (col_disj true d e Z n); eauto; lia.
        -- intros [] s4 V. cbv beta in V. set (sw := fun j => if (j =? i)%nat then kk else if (j =? kk)%nat then i else j).
           assert (Hsw : Permutation (map sw (seq 0 n)) (seq 0 n)) by (apply swap_perm; lia).
           exists (fun j => p (sw j)). split; [apply perm_comp; auto|].
           assert (K : forall j, (j < n)%nat -> (if (j =? i)%nat then dv (p kk) else upd (fun j => dv (p j)) kk (dv (p i)) j) = dv (p (sw j))).
           { intros j Hj. unfold sw, upd. destruct (Nat.eqb_spec j i), (Nat.eqb_spec j kk); auto. }
           split.
           ++ assert (R := st3_cols true d e Z n Hd Hd1 He He1 HZ' s0 _ _ _ s3 s4 i kk _ _ eq_refl HS3 ltac:(lia) ltac:(lia) ltac:(lia) V).
              destruct R as (R1 & R2 & R3 & R4 & R5). split; [|split; [|split; [|split]]]; auto.
              ** intros j Hj. rewrite R1 by auto. apply K; auto.
              ** intros _ r q Hr Hq. rewrite R3 by auto. destruct HS3 as (_ & _ & V3 & _). unfold sw.
                 destruct (Nat.eqb_spec q i); [|destruct (Nat.eqb_spec q kk)]; auto.
                 --- change (vval (vcol Z 0 (nr Z) kk) s3 r) with (val Z s3 r kk). rewrite V3; auto; lia.
                 --- change (vval (vcol Z 0 (nr Z) i) s3 r) with (val Z s3 r i). rewrite V3; auto; lia.
           ++ intros a b Ha Hb. destruct (Nat.eq_dec a i) as [->|Na].
              ** unfold sw. rewrite Nat.eqb_refl. destruct (Nat.eqb_spec b i); [lia|]. destruct (Nat.eqb_spec b kk); apply K3; lia.
              ** assert (A : sw a = a) by (unfold sw; destruct (Nat.eqb_spec a i), (Nat.eqb_spec a kk); lia).
                 rewrite A. apply HP; [lia|]. unfold sw. destruct (Nat.eqb_spec b i), (Nat.eqb_spec b kk); lia.
  - intros s1 (p & Hp & HS1 & HP). exists p. split; auto. split; auto. intros a b Ha Hb. apply HP; lia.
Qed.
End St.

(** the whole routine *)
Lemma steqr_run fuel wz d e Z s (eps smin smax : R) : let n := nr d in let T0 := symtri (vval d s) (vval e s) in
  (0 <= eps)%R -> (0 < smin)%R -> (0 < smax)%R -> (2 * n <= fuel)%nat ->
  nc d = 1%nat -> vinj d -> (n <= nr e + 1)%nat -> nc e = 1%nat -> vinj e -> disj d e ->
  (wz = true -> nc Z = n /\ vinj Z /\ disj Z d /\ disj Z e) ->
  (forall i, (i < n)%nat -> conj (vval d s i) = vval d s i) -> (forall i, (i + 1 < n)%nat -> conj (vval e s i) = vval e s i) ->
  runs (steqr fuel (ofR eps) (ofR smin) (ofR smax) wz d e Z) s (fun info s' => info = 0%Z /\
    exists dv ev W, st3 wz d e Z n s dv ev (mmul n (val Z s) W) s' /\
    (forall i, (i < n)%nat -> conj (dv i) = dv i) /\ increasing n dv /\ unitary n W /\
    ((forall i, (i + 1 < n)%nat -> ev i = 0) ->
      (fro n n (fun i j => (T0 i j - mmul n (mmul n W (diagm dv)) (ctr W) i j)%T) <= INR (n - 1) * sqrt (eps * eps * fro2 n n T0 + 2 * smin))%R)).
Proof.
  intros n T0 Heps Hsmin Hsmax Hf Hd1 Id He He1 Ie Dde HZ RD RE. unfold runs, steqr. change (nr d) with n.
  assert (INIT : st3 wz d e Z n s (vval d s) (vval e s) (mmul n (val Z s) idm) s).
  { split; [|split; [|split; [|split]]]; auto. intros _ r q Hr Hq. rewrite mmul_id_r; auto. }
  set (delta := sqrt (eps * eps * fro2 n n T0 + 2 * smin)).
  assert (SI : Sim n T0 delta 0 T0 idm) by apply Sim_init.
  destruct (Nat.eqb_spec n 0) as [N0|N0].
  { apply wp_ret. split; auto. exists (vval d s), (vval e s), idm. split; auto. split; auto. split; [intros i j Hj; lia|]. split; [apply unitary_id|].
    intros _. rewrite N0. cbn. unfold fro, fro2. cbn. rewrite sqrt_0. lra. }
  destruct (Nat.eqb_spec n 1) as [N1|N1].
  { apply wp_ret. split; auto. exists (vval d s), (vval e s), idm. split; auto. split; auto. split; [intros i j Hj; lia|]. split; [apply unitary_id|].
    intros _. destruct SI as (_ & K & _). replace (INR (n - 1)) with (INR 0) by (f_equal; lia).
    erewrite fro_ext; [exact K|]. intros i j Hi Hj. cbv beta. f_equal. apply wmw_ext; auto. intros r q Hr Hq. unfold T0, symtri, diagm. nats; auto. }
  apply wp_bind. eapply wp_conseq; [apply (st_loop_run wz d e Z n eq_refl Hd1 Id He He1 Ie Dde HZ (val Z s) T0 eps smin smax Heps Hsmin Hsmax s noX _ 0 (vval d s) (vval e s) idm)| |auto]; auto; try lia.
  - split; auto. split; [split; auto|exact SI].
  - rewrite Nat.add_0_l. apply (nzc_le wz d e Z n); auto.
  - intros u0 s1 (k & dv & ev & W & (HS & (RD1 & RE1) & HM) & Hk).
    assert (DIAG : (forall i, (i + 1 < n)%nat -> ev i = 0) -> Sim n T0 delta k (diagm dv) W).
    { intros EZ. eapply Sim_ext; [|exact HM]. intros r q Hr Hq. unfold symtri, diagm. nats; auto; apply EZ; lia. }
    assert (FIN : forall p dv', Permutation (map p (seq 0 n)) (seq 0 n) -> (forall i, (i < n)%nat -> dv' i = dv (p i)) -> (forall i, (i + 1 < n)%nat -> ev i = 0) ->
      (fro n n (fun i j => (T0 i j - mmul n (mmul n (fun i j => W i (p j)) (diagm dv')) (ctr (fun i j => W i (p j))) i j)%T) <= INR (n - 1) * delta)%R).
    { intros p dv' Hp Hv EZ. assert (K := Sim_perm n T0 delta k dv dv' W p Hp Hv (DIAG EZ)). destruct K as (_ & K & _).
      eapply Rle_trans; [exact K|]. apply Rmult_le_compat_r; [apply sqrt_pos|]. apply le_INR; auto. }
    apply wp_bind. apply wp_conseq with (Q := fun _ s' => exists p dv', Permutation (map p (seq 0 n)) (seq 0 n) /\ (forall i, (i < n)%nat -> dv' i = dv (p i)) /\
      st3 wz d e Z n s dv' ev (mmul n (val Z s) (fun i j => W i (p j))) s' /\ increasing n dv') (X := noX); [| |auto].
    + destruct wz; cbn [negb].
      * eapply wp_conseq; [apply (st_sort_run d e Z n eq_refl Hd1 Id He He1 Dde (HZ eq_refl) (mmul n (val Z s) W) dv ev s s1 noX); auto; lia| |auto].
        intros [] s2 (p & Hp & HS2 & HP). exists p, (fun j => dv (p j)). split; auto. split; auto. split; auto. intros i j Hij. apply HP; lia.
      * assert (VD : forall i, (i < n)%nat -> vval d s1 i = dv i) by apply HS.
        assert (K := lasrt_sorts fuel "I"%char n d s1 Hf Hd1 (le_n _) Id).
        assert (RA : forall a, among n (vval d s1) a -> conj a = a) by (intros a (i & Hi & ->); rewrite VD by auto; apply RD1; auto).
        specialize (K ltac:(split; [intros; apply lt_irr|split; [intros; eapply lt_trans; eauto|]]; intros a b c Ha Hb Hc Hab;
          destruct (lt_tot a c) as [L|[->|L]]; auto; right; eapply lt_trans; eauto) ltac:(left; right; auto)).
        destruct K as (r & s2 & K & K1 & [K2 K2'] & K3 & K4 & K5 & _). apply wp_bind. unfold wp. rewrite K. cbn.
        apply values_perm in K4. destruct K4 as (p & Hp & K4). exists p, (vval d s2). split; auto.
        split; [intros i Hi; rewrite K4 by auto; apply VD, (perm_lt n p); auto|]. split; [|apply K5; right; auto].
        destruct HS as (S1 & S2 & S3 & S4 & S5). split; [auto|]. split.
        -- intros i Hi. rewrite <- S2 by auto. unfold vval, val. apply K2. intros (a & b & Ha & Hb & e0). symmetry in e0. apply Dde in e0; auto; lia.
        -- split; [discriminate|]. split; [|congruence]. intros l L1 L2 L3. rewrite K2 by auto. auto.
    + intros u1 s2 (p & dv' & Hp & Hv & HS2 & HI). apply wp_ret. split; auto. exists dv', ev, (fun i j => W i (p j)). split; auto.
      split; [intros i Hi; rewrite Hv by auto; apply RD1, (perm_lt n p); auto|]. split; auto. split; [apply unitary_perm; auto; apply HM|]. intros EZ. apply FIN; auto.
Qed.
End P.
