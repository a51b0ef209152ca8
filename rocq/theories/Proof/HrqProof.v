(** * hessenberg_rq *)
From Coq Require Import Bool Arith ZArith List Lia Ring Field.
From Verif.Core Require Import Scalar Prog View Slice.
From Verif.Spec Require Import LinAlg Householder Reduce Steqr Rot.
From Verif.Model Require Import Blas1 Rot Gghrd.
From Verif.Proof Require Import SumLemmas Tactics SliceTac Blas1Proof PotrfProof BlockAlg LarfgProof QRProof QGenProof ReduceMath GivensProof RotSeqProof GghrdProof.
Import ListNotations.
Local Open Scope T_scope.

Section P.
Context {E : Env} {FL : FieldLaws E} {CL : ConjLaws E} {QL : EqbLaws E}.
Add Field Tf : fth.

Lemma rstep_zero c s x i r : x i = 0 -> x (i + 1)%nat = 0 -> rstep Left c s x i r = x r.
Proof. intros H1 H2. unfold rstep. cbn [upf dnf]. destruct (Nat.eqb_spec r i) as [->|]; [|destruct (Nat.eqb_spec r (i + 1)) as [->|]]; rewrite ?H1, ?H2; auto; ring. Qed.
(** rotations that act on zeros only *)
Lemma rsteps_zero c s q : forall l x, (forall i, In i l -> (q < i)%nat) -> (forall r, (q < r)%nat -> x r = 0) -> forall r, rsteps Left c s l x r = x r.
Proof.
  induction l as [|i l IH]; intros x Hl Hx r; [reflexivity|]. unfold rsteps. cbn [fold_left]. change (rsteps Left c s l (rstep Left c s x i) r = x r).
  assert (Z : forall r, rstep Left c s x i r = x r). { intros r'. apply rstep_zero; apply Hx; specialize (Hl i (or_introl eq_refl)); lia. }
  rewrite IH; auto.
  - intros i' Hi'. apply Hl. cbn. auto.
  - intros r' Hr'. rewrite Z. auto.
Qed.
(** rows beyond the rotations are not touched *)
Lemma rsteps_out c s : forall l x r, (forall i, In i l -> (i + 1 < r)%nat) -> rsteps Left c s l x r = x r.
Proof.
  induction l as [|i l IH]; intros x r Hl; [reflexivity|]. unfold rsteps. cbn [fold_left]. change (rsteps Left c s l (rstep Left c s x i) r = x r).
  rewrite IH by (intros; apply Hl; cbn; auto). specialize (Hl i (or_introl eq_refl)). unfold rstep. destruct (Nat.eqb_spec r i); [lia|]. destruct (Nat.eqb_spec r (i + 1)); [lia|]. auto.
Qed.
(** only the rows 0, ..., m matter *)
Lemma rsteps_agree c s m : forall l x y, (forall i, In i l -> (i + 1 <= m)%nat) -> (forall r, (r <= m)%nat -> x r = y r) -> forall r, (r <= m)%nat -> rsteps Left c s l x r = rsteps Left c s l y r.
Proof.
  induction l as [|i l IH]; intros x y Hl Hx r Hr; [cbn; auto|]. unfold rsteps. cbn [fold_left]. change (rsteps Left c s l (rstep Left c s x i) r = rsteps Left c s l (rstep Left c s y i) r).
  apply IH; auto; [intros; apply Hl; cbn; auto|]. intros r' Hr'. specialize (Hl i (or_introl eq_refl)). unfold rstep. rewrite !Hx by lia. auto.
Qed.
Lemma rsteps_coef side c s c' s' : forall l x, (forall i, In i l -> c i = c' i /\ s i = s' i) -> forall r, rsteps side c s l x r = rsteps side c' s' l x r.
Proof.
  induction l as [|i l IH]; intros x Hl r; [reflexivity|]. unfold rsteps. cbn [fold_left]. change (rsteps side c s l (rstep side c s x i) r = rsteps side c' s' l (rstep side c' s' x i) r).
  rewrite IH by (intros; apply Hl; cbn; auto). apply rsteps_ext. destruct (Hl i (or_introl eq_refl)) as [h1 h2]. intros r'. unfold rstep. rewrite h1, h2. auto.
Qed.
Lemma pseq_ext n c s c' s' : forall l, (forall i, In i l -> c i = c' i /\ s i = s' i) -> forall r q, pseq n c s l r q = pseq n c' s' l r q.
Proof.
  induction l as [|i l IH]; intros Hl r q; [reflexivity|]. unfold pseq. cbn [fold_right].
  change (mmul n (prot c s i) (pseq n c s l) r q = mmul n (prot c' s' i) (pseq n c' s' l) r q).
  destruct (Hl i (or_introl eq_refl)) as [h1 h2]. unfold mmul. apply sum_ext. intros l' Hl'. rewrite (IH ltac:(intros; apply Hl; cbn; auto)). f_equal. unfold prot. rewrite h1, h2. auto.
Qed.
Lemma ctr_prot c s i r q : conj (c i) = c i -> ctr (prot c s i) r q = givens (i + 1) i (c i) (- s i) r q.
Proof.
  intros Hc. assert (C0 : conj 0 = 0) by apply conj_0. assert (C1 : conj 1 = 1) by apply conj_1.
  unfold ctr, prot, givens, idm. repeat match goal with |- context [Nat.eqb ?a ?b] => destruct (Nat.eqb_spec a b); try lia end; subst;
  rewrite ?Hc, ?conj_opp, ?conj_conj, ?C0, ?C1; auto; try ring.
Qed.
Lemma hrq_col_run cl sl A hi col s n : nc cl = 1%nat -> nc sl = 1%nat -> vinj A -> disj cl A -> disj sl A ->
  nr A = n -> nc A = n -> (hi < n)%nat -> (col < n)%nat -> (hi <= nr cl)%nat -> (hi <= nr sl)%nat ->
  wp (hrq_col cl sl A hi col) (fun _ s' => eff A (fun r q => if (q =? col)%nat then rsteps Left (vval cl s) (vval sl s) (rev (seq 0 hi)) (fun r => val A s r col) r else val A s r q) s s') noX s.
Proof.
  intros C1 C2 IA D1 D2 RA CA H1 H2 H3 H4. unfold hrq_col.
  apply (wp_fordown (fun j s' => eff A (fun r q => if (q =? col)%nat then rsteps Left (vval cl s) (vval sl s) (rev (seq j (hi - j))) (fun r => val A s r col) r else val A s r q) s s')); [lia| | |].
  - rewrite Nat.sub_diag. cbn [seq rev]. apply (eff_ext _ _ _ _ _ (eff_refl _ _)). intros r q Hr Hq. destruct (Nat.eqb_spec q col) as [->|]; reflexivity.
  - intros j s1 Hj He. eapply wp_conseq; [eapply (rot_one_run Left cl sl A C1 C2 IA D1 D2 s j col s1 _ ltac:(lia) ltac:(lia)); cbn [sv]; [lia|lia|exact He]| |intros ? ? []].
    intros [] s2 He2. cbn [sv] in He2. apply (eff_ext _ _ _ _ _ He2). intros r q Hr Hq. cbv beta. destruct (Nat.eqb_spec q col) as [->|]; auto.
    replace (hi - j)%nat with (S (hi - S j)) by lia. cbn [seq rev]. rewrite rsteps_snoc. auto.
  - intros s1 He. rewrite Nat.sub_0_r in He. exact He.
Qed.

Section G.
Variables (rotg : T -> T -> T * T * T) (Hrot : rotg_good rotg).
Variables (n : nat) (A cl sl cr sr : view) (s0 : state).
Hypotheses (IA : vinj A) (RA : nr A = n) (CA : nc A = n) (Hn : (1 < n)%nat)
  (Lcl : nc cl = 1%nat) (Lsl : nc sl = 1%nat) (Lcr : nc cr = 1%nat) (Lsr : nc sr = 1%nat)
  (Ncl : nr cl = (n - 1)%nat) (Nsl : nr sl = (n - 1)%nat) (Ncr : nr cr = (n - 1)%nat) (Nsr : nr sr = (n - 1)%nat)
  (Icr : vinj cr) (Isr : vinj sr)
  (D1 : disj cl A) (D2 : disj sl A) (D3 : disj cr A) (D4 : disj sr A) (D5 : disj cl cr) (D6 : disj cl sr) (D7 : disj sl cr) (D8 : disj sl sr) (D9 : disj cr sr).
Notation clv := (vval cl s0).
Notation slv := (vval sl s0).
Hypothesis Hclr : forall j, (j < n - 1)%nat -> conj (clv j) = clv j.
(** the contents of A, cr and sr, and the frame *)
Definition Sq (F : mat) (cf sf : nat -> T) (s : state) : Prop :=
  (forall r q, (r < n)%nat -> (q < n)%nat -> val A s r q = F r q) /\
  (forall j, (j < n - 1)%nat -> vval cr s j = cf j) /\ (forall j, (j < n - 1)%nat -> vval sr s j = sf j) /\
  (forall l, ~ inview A l -> ~ inview cr l -> ~ inview sr l -> mem s l = mem s0 l) /\ imem s = imem s0.
Lemma Sq_A F cf sf G F' s s' : Sq F cf sf s -> eff A G s s' -> (forall r q, (r < n)%nat -> (q < n)%nat -> G r q = F' r q) -> Sq F' cf sf s'.
Proof.
  intros (H1 & H2 & H3 & H4 & H5) (E1 & E2 & E3) HG. split; [|split; [|split; [|split]]].
  - intros r q Hr Hq. rewrite E1 by lia. auto.
  - intros j Hj. rewrite <- H2 by auto. unfold vval, val. apply E2. intros (a & b & Ha & Hb & e). apply (D3 j 0%nat a b); auto; lia.
  - intros j Hj. rewrite <- H3 by auto. unfold vval, val. apply E2. intros (a & b & Ha & Hb & e). apply (D4 j 0%nat a b); auto; lia.
  - intros l h1 h2 h3. rewrite E2 by auto. auto.
  - congruence.
Qed.
Lemma Sq_cr F cf sf G cf' s s' : Sq F cf sf s -> eff cr G s s' -> (forall j, (j < n - 1)%nat -> G j 0%nat = cf' j) -> Sq F cf' sf s'.
Proof.
  intros (H1 & H2 & H3 & H4 & H5) (E1 & E2 & E3) HG. split; [|split; [|split; [|split]]].
  - intros r q Hr Hq. rewrite <- H1 by auto. unfold val. apply E2. intros (a & b & Ha & Hb & e). apply (D3 a b r q); auto; try lia.
  - intros j Hj. unfold vval. rewrite E1 by lia. auto.
  - intros j Hj. rewrite <- H3 by auto. unfold vval, val. apply E2. intros (a & b & Ha & Hb & e). apply (D9 a b j 0%nat); auto; lia.
  - intros l h1 h2 h3. rewrite E2 by auto. auto.
  - congruence.
Qed.
Lemma Sq_sr F cf sf G sf' s s' : Sq F cf sf s -> eff sr G s s' -> (forall j, (j < n - 1)%nat -> G j 0%nat = sf' j) -> Sq F cf sf' s'.
Proof.
  intros (H1 & H2 & H3 & H4 & H5) (E1 & E2 & E3) HG. split; [|split; [|split; [|split]]].
  - intros r q Hr Hq. rewrite <- H1 by auto. unfold val. apply E2. intros (a & b & Ha & Hb & e). apply (D4 a b r q); auto; try lia.
  - intros j Hj. rewrite <- H2 by auto. unfold vval, val. apply E2. intros (a & b & Ha & Hb & e). apply (D9 j 0%nat a b); auto; lia.
  - intros j Hj. unfold vval. rewrite E1 by lia. auto.
  - intros l h1 h2 h3. rewrite E2 by auto. auto.
  - congruence.
Qed.
Lemma Sq_cl F cf sf s j : Sq F cf sf s -> (j < n - 1)%nat -> vval cl s j = clv j.
Proof.
  intros (_ & _ & _ & H & _) Hj. unfold vval, val. apply H; intros (a & b & Ha & Hb & e); [apply (D1 j 0%nat a b)|apply (D5 j 0%nat a b)|apply (D6 j 0%nat a b)]; auto; lia.
Qed.
Lemma Sq_sl F cf sf s j : Sq F cf sf s -> (j < n - 1)%nat -> vval sl s j = slv j.
Proof.
  intros (_ & _ & _ & H & _) Hj. unfold vval, val. apply H; intros (a & b & Ha & Hb & e); [apply (D2 j 0%nat a b)|apply (D7 j 0%nat a b)|apply (D8 j 0%nat a b)]; auto; lia.
Qed.
Lemma Sq_ext F F' cf sf s : (forall r q, (r < n)%nat -> (q < n)%nat -> F r q = F' r q) -> Sq F cf sf s -> Sq F' cf sf s.
Proof. intros H (H1 & H2). split; auto. intros. rewrite H1 by auto. auto. Qed.
Definition upd1 (f : nat -> T) (j : nat) (v : T) : nat -> T := fun i => if (i =? j)%nat then v else f i.

Lemma hrq_right_run F cf sf s i : Sq F cf sf s -> (0 < i < n)%nat ->
  wp (hrq_right rotg A cr sr i) (fun _ s' => exists c sn, conj c = c /\ c * c + sn * conj sn = 1 /\
    c * F i (i - 1)%nat - conj sn * F i i = 0 /\
    Sq (fun r q => if (r <=? i)%nat then gcol i (i - 1) c sn F r q else F r q) (upd1 cf (i - 1) c) (upd1 sf (i - 1) (- sn)) s') noX s.
Proof.
  intros HS Hi. unfold hrq_right. assert (VF := proj1 HS).
  apply wp_bind, wp_rd; [lia..|]. apply wp_bind, wp_rd; [lia..|]. rewrite !VF by lia.
  destruct (rotg (F i i) (F i (i - 1)%nat)) as [[r c] sn] eqn:ER. apply Hrot in ER. destruct ER as (R1 & R2 & R3 & R4).
  apply wp_bind. apply (wp_wr_eff _ _ _ _ _ _ _ _ _ (eff_refl A s) IA); [lia..|]. intros s1 E1.
  assert (HS1 : Sq (fupd F i i r) cf sf s1). { apply (Sq_A _ _ _ _ _ _ _ HS E1). intros a b Ha Hb. unfold fupd. rewrite VF by auto. auto. }
  unfold wrv, rdv. apply wp_bind. apply (wp_wr_eff _ _ _ _ _ _ _ _ _ (eff_refl cr s1) Icr); [lia..|]. intros s2 E2.
  assert (HS2 : Sq (fupd F i i r) (upd1 cf (i - 1) c) sf s2).
  { apply (Sq_cr _ _ _ _ _ _ _ HS1 E2). intros j Hj. unfold fupd, upd1. cbn [Nat.eqb]. rewrite andb_true_r. destruct (Nat.eqb_spec j (i - 1)); auto. apply HS1; auto. }
  apply wp_bind. apply (wp_wr_eff _ _ _ _ _ _ _ _ _ (eff_refl sr s2) Isr); [lia..|]. intros s3 E3.
  assert (HS3 : Sq (fupd F i i r) (upd1 cf (i - 1) c) (upd1 sf (i - 1) sn) s3).
  { apply (Sq_sr _ _ _ _ _ _ _ HS2 E3). intros j Hj. unfold fupd, upd1. cbn [Nat.eqb]. rewrite andb_true_r. destruct (Nat.eqb_spec j (i - 1)); auto. apply HS2; auto. }
  apply wp_bind, wp_rd; [lia..|]. 
  assert (Ex : val sr s3 (i - 1) 0 = sn). { destruct HS3 as (_ & _ & H & _). unfold vval in H. rewrite H by lia. unfold upd1. rewrite Nat.eqb_refl. auto. }
  rewrite Ex. apply wp_bind. apply (wp_wr_eff _ _ _ _ _ _ _ _ _ (eff_refl sr s3) Isr); [lia..|]. intros s4 E4.
  assert (HS4 : Sq (fupd F i i r) (upd1 cf (i - 1) c) (upd1 sf (i - 1) (- sn)) s4).
  { apply (Sq_sr _ _ _ _ _ _ _ HS3 E4). intros j Hj. unfold fupd, upd1. cbn [Nat.eqb]. rewrite andb_true_r. destruct (Nat.eqb_spec j (i - 1)); auto. destruct HS3 as (_ & _ & H & _). unfold vval in H. rewrite H by auto. unfold upd1. destruct (Nat.eqb_spec j (i - 1)); auto; lia. }
  apply wp_bind. apply (wp_wr_eff _ _ _ _ _ _ _ _ _ (eff_refl A s4) IA); [lia..|]. intros s5 E5.
  set (F1 := fupd (fupd F i i r) i (i - 1) 0).
  assert (HS5 : Sq F1 (upd1 cf (i - 1) c) (upd1 sf (i - 1) (- sn)) s5).
  { apply (Sq_A _ _ _ _ _ _ _ HS4 E5). intros a b Ha Hb. unfold F1, fupd at 1 3. rewrite (proj1 HS4) by auto. auto. }
  assert (Ec : val cr s5 (i - 1) 0 = c). { destruct HS5 as (_ & H & _ & _). unfold vval in H. rewrite H by lia. unfold upd1. rewrite Nat.eqb_refl. auto. }
  assert (Es : val sr s5 (i - 1) 0 = - sn). { destruct HS5 as (_ & _ & H & _). unfold vval in H. rewrite H by lia. unfold upd1. rewrite Nat.eqb_refl. auto. }
  apply wp_bind, wp_slcol; [lia..|]. apply wp_bind, wp_slcol; [lia..|]. apply wp_bind, wp_rd; [lia..|]. apply wp_bind, wp_rd; [lia..|]. rewrite Ec, Es.
  eapply wp_conseq; [apply (rot_vcols_eff A (i - 1) i i); auto; lia| |intros ? ? []]. intros [] s6 E6. cbv beta in E6. exists c, sn. repeat (split; [assumption|]).
  apply (Sq_A _ _ _ _ _ _ _ HS5 E6). intros a b Ha Hb. assert (V := proj1 HS5). destruct (Nat.ltb_spec a i) as [L|L].
  - destruct (Nat.leb_spec a i); [|lia]. unfold gcol. rewrite !V by lia. assert (G : forall q, F1 a q = F a q). { intros q. unfold F1, fupd. destruct (Nat.eqb_spec a i); [lia|]. auto. } rewrite !G.
    rewrite conj_conj, conj_opp. destruct (Nat.eqb_spec b (i - 1)), (Nat.eqb_spec b i); try lia; auto; ring.
  - rewrite V by lia. unfold F1, fupd. destruct (Nat.eqb_spec a i) as [->|N]; cbn [andb].
    + rewrite Nat.leb_refl. unfold gcol. destruct (Nat.eqb_spec b (i - 1)) as [->|]; [destruct (Nat.eqb_spec (i - 1) i); [lia|]; auto|]. destruct (Nat.eqb_spec b i) as [->|]; auto.
    + destruct (Nat.leb_spec a i); [lia|]. auto.
Qed.

(** ** The loop *)
Variable A0 : mat.
Hypotheses (HA0 : forall r q, (r < n)%nat -> (q < n)%nat -> val A s0 r q = A0 r q) (Hsub : forall q, (q + 1 < n)%nat -> A0 (q + 1)%nat q = 0).
Definition Pl : mat := pasc n clv slv (n - 1).
(** the left rotations applied to the upper triangle *)
Definition HP : mat := mmul n Pl (upper_part A0).
Lemma HP_col q m : (q < n)%nat -> (q + 1 <= m)%nat -> forall r, (r < n)%nat ->
  HP r q = rsteps Left clv slv (rev (seq 0 (Nat.min m (n - 1)))) (fun r => upper_part A0 r q) r.
Proof.
  intros Hq Hm r Hr.
  assert (K : rsteps Left clv slv (rev (seq 0 (n - 1))) (fun r => upper_part A0 r q) r = HP r q).
  { rewrite (rsteps_pseq Left clv slv n (fun r => upper_part A0 r q) (seq 0 (n - 1))); auto; intros i Hi; apply in_seq in Hi; [apply Hclr; lia|lia]. }
  rewrite <- K. set (m' := Nat.min m (n - 1)). replace (n - 1)%nat with (m' + (n - 1 - m'))%nat at 1 by (unfold m'; lia). rewrite seq_app, rev_app_distr, rsteps_app.
  apply rsteps_ext. intros r'. apply (rsteps_zero clv slv q (rev (seq (0 + m') (n - 1 - m'))) (fun r => upper_part A0 r q)).
  - intros i Hi. apply in_rev, in_seq in Hi. unfold m' in *. lia.
  - intros r2 Hr2. unfold upper_part. destruct (Nat.ltb_spec q r2); auto; lia.
Qed.
Lemma HP_hess r q : (r < n)%nat -> (q + 1 < r)%nat -> HP r q = 0.
Proof.
  intros Hr Hq. rewrite (HP_col q (q + 1)) by lia. rewrite rsteps_out.
  - unfold upper_part. destruct (Nat.ltb_spec q r); auto; lia.
  - intros i Hi. apply in_rev, in_seq in Hi. lia.
Qed.
(** the rotations of column q as the program performs them, on all that is stored there *)
Lemma HP_stored q hi : (q < n)%nat -> hi = Nat.min (q + 1) (n - 1) -> forall r, (r < n)%nat ->
  rsteps Left clv slv (rev (seq 0 hi)) (fun r => A0 r q) r = if (r <=? q + 1)%nat then HP r q else A0 r q.
Proof.
  intros Hq -> r Hr. destruct (Nat.leb_spec r (q + 1)) as [L|L].
  - rewrite (HP_col q (q + 1)) by lia. apply (rsteps_agree _ _ (Nat.min (q + 1) (n - 1))); [| |lia].
    + intros i Hi. apply in_rev, in_seq in Hi. lia.
    + intros r' Hr'. unfold upper_part. destruct (Nat.ltb_spec q r'); auto. replace r' with (q + 1)%nat by lia. apply Hsub; lia.
  - rewrite rsteps_out; [reflexivity|]. intros i Hi. apply in_rev, in_seq in Hi. lia.
Qed.
(** after the columns i, ..., n-1 have been handled from the left and i+1, ..., n-1 from the right *)
Definition Hinv (i : nat) (s : state) : Prop := exists (M : mat) cf sf,
  (forall j, (i <= j < n - 1)%nat -> conj (cf j) = cf j /\ cf j * cf j + sf j * conj (sf j) = 1) /\
  (forall r q, (r < n)%nat -> (q < n)%nat -> M r q = mmul n HP (ctr (pseq n cf sf (seq i (n - 1 - i)))) r q) /\
  (forall r q, (r < n)%nat -> (q < i)%nat -> M r q = HP r q) /\
  (forall r q, (r < n)%nat -> (i <= q)%nat -> (q < r)%nat -> M r q = 0) /\
  Sq (fun r q => if (i <=? q)%nat && (r <=? q)%nat then M r q else A0 r q) cf sf s.
Lemma hrq_step i s : (0 < i < n)%nat -> Hinv i s ->
  wp (hrq_col cl sl A i (i - 1);; hrq_right rotg A cr sr i) (fun _ s' => Hinv (i - 1) s') noX s.
Proof.
  intros Hi (M & cf & sf & HR & HM & HL & HZ & HS).
  apply wp_bind. eapply wp_conseq; [apply (hrq_col_run cl sl A i (i - 1) s n); auto; lia| |intros ? ? []]. intros [] s1 E1. cbv beta in E1.
  set (F1 := fun r q => if (q =? i - 1)%nat then (if (r <=? i)%nat then HP r q else A0 r q) else if (i <=? q)%nat && (r <=? q)%nat then M r q else A0 r q).
  assert (HS1 : Sq F1 cf sf s1).
  { apply (Sq_A _ _ _ _ _ _ _ HS E1). intros r q Hr Hq. unfold F1. destruct (Nat.eqb_spec q (i - 1)) as [->|N]; [|apply (proj1 HS); auto].
    transitivity (rsteps Left clv slv (rev (seq 0 i)) (fun r => A0 r (i - 1)%nat) r).
    - transitivity (rsteps Left (vval cl s) (vval sl s) (rev (seq 0 i)) (fun r => A0 r (i - 1)%nat) r).
      + assert (AG : forall m, (m = i \/ m = r)%nat -> (m < n)%nat) by (intros; lia).
        apply (rsteps_agree _ _ (n - 1)); [|intros r' Hr'; rewrite (proj1 HS) by lia; destruct (Nat.leb_spec i (i - 1)); [lia|auto]|lia]. intros a Ha. apply in_rev, in_seq in Ha. lia.
      + apply rsteps_coef. intros a Ha. apply in_rev, in_seq in Ha. split; [apply (Sq_cl _ _ _ _ _ HS); lia|apply (Sq_sl _ _ _ _ _ HS); lia].
    - rewrite (HP_stored (i - 1) i) by lia. replace (i - 1 + 1)%nat with i by lia. auto. }
  eapply wp_conseq; [apply (hrq_right_run F1 cf sf s1 i HS1 ltac:(lia))| |intros ? ? []]. intros [] s2 (c & sn & C1 & C2 & C3 & HS2).
  set (M' := gcol i (i - 1) c sn M).
  assert (B1 : forall r, (r <= i)%nat -> F1 r (i - 1)%nat = M r (i - 1)%nat). { intros r Hr. unfold F1. rewrite Nat.eqb_refl. destruct (Nat.leb_spec r i); [|lia]. symmetry. apply HL; lia. }
  assert (B2 : forall r, (r <= i)%nat -> F1 r i = M r i). { intros r Hr. unfold F1. destruct (Nat.eqb_spec i (i - 1)); [lia|]. rewrite Nat.leb_refl. destruct (Nat.leb_spec r i); [|lia]. auto. }
  exists M', (upd1 cf (i - 1) c), (upd1 sf (i - 1) (- sn)). split; [|split; [|split; [|split]]].
  - intros j Hj. unfold upd1. destruct (Nat.eqb_spec j (i - 1)); [|apply HR; lia]. rewrite conj_opp. split; auto. rewrite <- C2. ring.
  - intros r q Hr Hq. replace (n - 1 - (i - 1))%nat with (Datatypes.S (n - 1 - i)) by lia. cbn [seq]. replace (Datatypes.S (i - 1)) with i by lia.
    set (c' := upd1 cf (i - 1) c). set (s' := upd1 sf (i - 1) (- sn)).
    change (pseq n c' s' ((i - 1)%nat :: seq i (n - 1 - i))) with (mmul n (prot c' s' (i - 1)) (pseq n c' s' (seq i (n - 1 - i)))).
    transitivity (mmul n HP (mmul n (ctr (pseq n cf sf (seq i (n - 1 - i)))) (givens i (i - 1) c sn)) r q).
    + rewrite mmul_assoc. rewrite mmul_givens by lia. unfold M'. apply gcol_ext with (n := n); auto; lia.
    + apply mmul_ext; auto. intros l Hl. rewrite ctr_mmul. apply mmul_ext; intros l' Hl'.
      * unfold ctr. f_equal. apply pseq_ext. intros a Ha. apply in_seq in Ha. unfold c', s', upd1. destruct (Nat.eqb_spec a (i - 1)); [lia|auto].
      * rewrite ctr_prot; unfold c', s', upd1; rewrite Nat.eqb_refl; auto. replace (i - 1 + 1)%nat with i by lia. replace (- - sn) with sn by ring. auto.
  - intros r q Hr Hq. unfold M', gcol. destruct (Nat.eqb_spec q i); [lia|]. destruct (Nat.eqb_spec q (i - 1)); [lia|]. apply HL; lia.
  - intros r q Hr Hq Hx. unfold M', gcol. destruct (Nat.eqb_spec q i) as [->|].
    + rewrite (HZ r i) by lia. rewrite (HL r (i - 1)%nat) by lia. rewrite HP_hess by lia. ring.
    + destruct (Nat.eqb_spec q (i - 1)) as [->|]; [|apply HZ; lia]. destruct (Nat.eq_dec r i) as [->|N].
      * rewrite <- B1, <- B2 by lia. exact C3.
      * rewrite (HZ r i) by lia. rewrite (HL r (i - 1)%nat) by lia. rewrite HP_hess by lia. ring.
  - eapply Sq_ext; [|exact HS2]. intros r q Hr Hq. cbv beta. destruct (Nat.leb_spec r i) as [L|L].
    + unfold gcol. rewrite !B1, !B2 by lia. unfold M', gcol. destruct (Nat.eqb_spec q i) as [->|N1].
      { destruct (Nat.leb_spec (i - 1) i); [|lia]. destruct (Nat.leb_spec r i); [|lia]. auto. }
      destruct (Nat.eqb_spec q (i - 1)) as [->|N2].
      { rewrite !Nat.leb_refl. cbn [andb]. destruct (Nat.eqb_spec (i - 1) i); [lia|]. rewrite ?Nat.eqb_refl. 
        destruct (Nat.leb_spec r (i - 1)); auto.
        assert (r = i) as -> by lia. rewrite <- B1, <- B2, C3 by lia.
        symmetry. replace i with (i - 1 + 1)%nat at 1 by lia. apply Hsub. lia. }
      unfold F1. destruct (Nat.eqb_spec q (i - 1)); [lia|]. destruct (Nat.leb_spec i q), (Nat.leb_spec (i - 1) q); cbn [andb]; auto; lia.
    + unfold F1, M', gcol. destruct (Nat.eqb_spec q (i - 1)) as [->|N2].
      { destruct (Nat.leb_spec r i); [lia|]. destruct (Nat.leb_spec r (i - 1)); [lia|]. rewrite andb_false_r. auto. }
      destruct (Nat.leb_spec i q), (Nat.leb_spec (i - 1) q); cbn [andb]; auto; try lia. destruct (Nat.leb_spec r q); auto. destruct (Nat.eqb_spec q i); [lia|]. auto.
Qed.
Lemma hessenberg_rq_run : wp (hessenberg_rq rotg A cl sl cr sr) (fun _ s' => Hinv 0 s') noX s0.
Proof.
  unfold hessenberg_rq. rewrite CA. cbv zeta. destruct (Nat.eqb_spec n 0); [lia|]. destruct (Nat.ltb_spec (n - 1) 1); [lia|].
  apply wp_bind. eapply wp_conseq; [apply (hrq_col_run cl sl A (n - 1) (n - 1) s0 n); auto; lia| |intros ? ? []]. intros [] s1 E1. cbv beta in E1.
  assert (HS0 : Sq A0 (vval cr s0) (vval sr s0) s0) by (split; [auto|repeat split; auto]).
  apply (wp_fordown (fun i s => Hinv (i - 1) s)); [lia| | |].
  - exists HP, (vval cr s0), (vval sr s0). split; [intros; lia|]. split; [|split; [auto|split; [intros; lia|]]].
    + intros r q Hr Hq. rewrite Nat.sub_diag. cbn [seq]. unfold pseq. cbn [fold_right]. transitivity (mmul n HP idm r q); [symmetry; apply mmul_id_r; auto|]. apply mmul_ext; auto. intros. symmetry. apply ctr_idm.
    + apply (Sq_A _ _ _ _ _ _ _ HS0 E1). intros r q Hr Hq. destruct (Nat.eqb_spec q (n - 1)) as [->|N].
      * rewrite Nat.leb_refl. destruct (Nat.leb_spec r (n - 1)); [|lia]. cbn [andb]. transitivity (rsteps Left clv slv (rev (seq 0 (n - 1))) (fun r => A0 r (n - 1)%nat) r).
        { apply (rsteps_agree _ _ (n - 1)); auto; [intros a Ha; apply in_rev, in_seq in Ha; lia|intros; apply HA0; lia]. }
        rewrite (HP_stored (n - 1) (n - 1)) by lia. destruct (Nat.leb_spec r (n - 1 + 1)); auto; lia.
      * destruct (Nat.leb_spec (n - 1) q); [lia|]. cbn [andb]. apply HA0; auto.
  - intros i s Hi HI. replace (S i - 1)%nat with i in HI by lia. apply hrq_step; auto.
  - intros s HI. exact HI.
Qed.
End G.
End P.
