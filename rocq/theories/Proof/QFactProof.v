(** * LQ, QL and RQ factorizations *)
From Coq Require Import Bool Arith ZArith Lia Reals Lra Psatz Ring Field.
From Verif.Core Require Import Scalar Prog View Slice Loops WorkEff Instances RealLaws.
From Verif.Spec Require Import LinAlg Outcome Norms Householder.
From Verif.Model Require Import Gemm Blas1 Blas2 Blas3 Legacy LaAux Norms Work Householder QFact.
From Verif.Proof Require Import SumLemmas Tactics SliceTac LegacyProof PotrfProof BlockAlg LarfProof LarfgProof QRProof QGenProof.
Local Open Scope T_scope.

Section P.
Context {E : Env} {FL : FieldLaws E} {CL : ConjLaws E} {OL : ROrdLaws E} {QL : EqbLaws E} {XL : CplxLaws E} {RL : RLaws E} {NL : FinLaws E}.
Add Field Tf : fth.

(** a matrix seen so that the reflectors act on it from the left *)
Definition xof (sm : storev_t) (A : mat) : mat := match sm with Columnwise => A | Rowwise => ctr A end.
(** what is needed of a reflector in these coordinates *)
Record refc (dir : direction_t) (n : nat) (z : nat -> T) (tau : T) (v : nat -> T) : Prop := {
  rc_beta : conj (v (hpos dir n)) = v (hpos dir n);
  rc_unitary : unitary n (refl tau (hvec dir n v));
  rc_apply : forall i, (i < n)%nat -> mvmul n (ctr (refl tau (hvec dir n v))) z i = if (i =? hpos dir n)%nat then v (hpos dir n) else 0 }.
Lemma reflects_refc sm dir n z tau v : reflects sm dir n z tau v -> refc dir n (hst sm z) tau (hst sm v).
Proof.
  intros [R1 R2 R3 R4 R5 R6]. destruct sm; cbn [hst] in *; constructor; auto.
  - rewrite R1. auto.
  - intros i Hi. specialize (R4 i Hi). cbn [happly] in R4. unfold mvmul, ctr.
    transitivity (conj (sum n (fun l => z l * refl tau (hvec dir n (fun i => conj (v i))) l i))).
    + rewrite sum_conj. apply sum_ext. intros l Hl. rewrite conj_mul. ring.
    + rewrite R4. destruct (_ =? _)%nat; [auto|apply conj_0].
Qed.
Lemma refc_ext dir n z z' tau v v' : (0 < n)%nat -> refc dir n z tau v -> (forall i, (i < n)%nat -> z i = z' i) -> (forall i, (i < n)%nat -> v i = v' i) -> refc dir n z' tau v'.
Proof.
  intros Hn [R1 R3 R4] Hz Hv. assert (Hp := hpos_lt dir n Hn).
  assert (HH : forall a b, (a < n)%nat -> (b < n)%nat -> refl tau (hvec dir n v) a b = refl tau (hvec dir n v') a b).
  { intros a b Ha Hb. apply refl_ext; unfold hvec; destruct (_ =? _)%nat; auto. }
  constructor.
  - rewrite <- Hv by auto. auto.
  - eapply unitary_ext; [exact HH|auto].
  - intros i Hi. rewrite <- Hv by auto. rewrite <- R4 by auto. unfold mvmul. apply sum_ext. intros l Hl. rewrite Hz by auto. unfold ctr. rewrite HH by auto. auto.
Qed.
Lemma vsq_hst sm n z : vsq n (hst sm z) = vsq n z.
Proof. destruct sm; cbn [hst]; auto. apply ofR_inj. rewrite !vsq_sum. apply sum_ext. intros. rewrite conj_conj. ring. Qed.
Lemma embw_unitary M a b tau u p : (a <= b <= M)%nat -> (p < b - a)%nat -> u p = 1 -> unitary (b - a) (refl tau u) -> unitary M (refl tau (embw a b u)).
Proof.
  intros Hi Hp Hu HU. apply refl_unitary. rewrite (unitary_cond _ _ _ p Hp Hu HU). f_equal. symmetry. rewrite embw_sumc by auto. apply sum_ext. intros l Hl.
  rewrite embw_in by lia. do 2 f_equal. lia.
Qed.

(** ** One step, in matrices.  [el r c]: the element (r,c) has been eliminated *)
Definition masked (el : nat -> nat -> bool) (X : mat) : mat := fun r c => if el r c then 0 else X r c.
Lemma fact_step M N dir a b c (el el' : nat -> nat -> bool) (P P' X0 X X' : mat) tau :
  (a < b <= M)%nat -> (c < N)%nat -> unitary M P ->
  (forall r j, (r < M)%nat -> (j < N)%nat -> X0 r j = mmul M P (masked el X) r j) ->
  refc dir (b - a) (fun r => X (a + r)%nat c) tau (fun r => X' (a + r)%nat c) ->
  let H := refl tau (embw a b (hvec dir (b - a) (fun r => X' (a + r)%nat c))) in
  (forall r i, (r < M)%nat -> (i < M)%nat -> P' r i = mmul M P H r i) ->
  (forall r, (r < M)%nat -> ~ (a <= r < b)%nat -> X' r c = X r c) ->
  (forall r, (r < M)%nat -> el r c = false) -> (forall r, (r < M)%nat -> el' r c = ((a <=? r) && (r <? b) && negb (r - a =? hpos dir (b - a)))%nat) ->
  (forall j, (j < N)%nat -> j <> c -> (forall r, (r < M)%nat -> el' r j = el r j) /\
     ((forall r, (r < M)%nat -> X' r j = X r j) /\ (forall r, (a <= r < b)%nat -> el r j = true) \/
      (forall r, (r < M)%nat -> X' r j = mmul M (ctr H) X r j) /\ (forall r, (r < M)%nat -> el r j = false))) ->
  unitary M P' /\ (forall r j, (r < M)%nat -> (j < N)%nat -> X0 r j = mmul M P' (masked el' X') r j).
Proof.
  intros Hab Hc UP HX [R1 R3 R4] H HP Hout He He' Hj. set (u := hvec dir (b - a) (fun r => X' (a + r)%nat c)) in *.
  assert (Hp := hpos_lt dir (b - a) ltac:(lia)).
  assert (UH : unitary M H). { apply (embw_unitary M a b tau u (hpos dir (b - a))); auto; [lia|]. unfold u, hvec. rewrite Nat.eqb_refl. auto. }
  split; [eapply unitary_ext; [|apply (unitary_mul M P H UP UH)]; intros; symmetry; apply HP; auto|].
  intros r j Hr Hjn. rewrite HX by auto.
  transitivity (mmul M (mmul M P H) (masked el' X') r j); [|apply mmul_ext; intros; [symmetry; apply HP; auto|auto]].
  rewrite <- mmul_assoc. apply mmul_ext; intros l Hl; auto. symmetry. apply unitary_solve; auto. clear l Hl. intros l Hl.
  assert (HCM : forall (B : mat) y, mmul M (ctr H) B l y = if ((a <=? l) && (l <? b))%nat then mmul (b - a) (ctr (refl tau u)) (fun l c => B (a + l)%nat c) (l - a)%nat y else B l y).
  { intros B y. transitivity (mmul M (refl (conj tau) (embw a b u)) B l y); [apply mmul_ext; auto; intros; apply ctr_refl|].
    rewrite embw_l by (auto; lia). destruct ((a <=? l) && (l <? b))%nat; auto. apply mmul_ext; auto. intros; symmetry; apply ctr_refl. }
  destruct (Nat.eq_dec j c) as [->|Hne].
  - rewrite HCM. unfold masked at 1. rewrite He' by auto. destruct (Nat.leb_spec a l); cbn [andb]; [destruct (Nat.ltb_spec l b); cbn [andb]|].
    + unfold mmul. rewrite (sum_ext (b - a) _ (fun k => ctr (refl tau u) (l - a)%nat k * X (a + k)%nat c)).
      * assert (R4' := R4 (l - a)%nat ltac:(lia)). unfold mvmul in R4'. rewrite R4'. destruct (Nat.eqb_spec (l - a) (hpos dir (b - a))) as [e|]; cbn [negb]; auto. f_equal. lia.
      * intros k Hk. unfold masked. rewrite He by lia. auto.
    + unfold masked. rewrite He by auto. apply Hout; auto; lia.
    + unfold masked. rewrite He by auto. apply Hout; auto; lia.
  - destruct (Hj j Hjn Hne) as (E1 & [[E2 E3]|[E2 E3]]).
    + rewrite HCM. unfold masked at 1. rewrite E1 by auto. destruct (Nat.leb_spec a l); cbn [andb]; [destruct (Nat.ltb_spec l b); cbn [andb]|].
      * rewrite E3 by lia. symmetry. apply mmul_0_r. intros k Hk. unfold masked. rewrite E3 by lia. auto.
      * unfold masked. rewrite E2 by auto. auto.
      * unfold masked. rewrite E2 by auto. auto.
    + unfold masked at 1. rewrite E1, E3 by auto. rewrite E2 by auto. apply mmul_ext; auto. intros k Hk. unfold masked. rewrite E3 by auto. auto.
Qed.

Lemma rprod_rev M H k : forall a b, (a < M)%nat -> (b < M)%nat -> rprod M H k a b = mprod M (fun u => H (k - 1 - u)%nat) k a b.
Proof.
  intros a b Ha Hb. rewrite rprod_tsprod by auto. 
  assert (G : forall c j p q, (p < M)%nat -> (q < M)%nat -> tsprod M H j c p q = mprod M (fun u => H (j + c - 1 - u)%nat) c p q).
  { induction c as [|c IH]; intros j p q Hp Hq; [reflexivity|]. cbn [tsprod mprod]. replace (j + S c - 1 - c)%nat with j by lia.
    apply mmul_ext; intros l Hl; auto. rewrite IH by auto. apply mprod_ext; auto. intros u x y Hu Hx Hy. replace (S j + c - 1 - u)%nat with (j + S c - 1 - u)%nat by lia. auto. }
  rewrite G by auto. reflexivity.
Qed.

Section G.
Variables (h : hconst) (st bt hsm : R) (sm : storev_t) (dir : direction_t) (A tau : view) (work : lmat) (s : state).
Hypothesis Hh : hconst_ok h st bt hsm.
Hypothesis HI : vinj A.
Hypothesis HIt : vinj tau.
Hypothesis Ht1 : nc tau = 1%nat.
Hypothesis HD : disj A tau.
Let m := nr A.
Let n := nc A.
Let M' := match sm with Columnwise => m | Rowwise => n end.
Let N' := match sm with Columnwise => n | Rowwise => m end.
Let k := Nat.min m n.
Hypothesis Hlen : (k <= nr tau)%nat.
Hypothesis HwA : disj (lview work) A.
Hypothesis Hwt : disj (lview work) tau.
Let X (s1 : state) : mat := xof sm (val A s1).
Hypothesis Hnorm : forall c, (c < N')%nat -> (vsq M' (fun r => X s r c) <= bt * bt)%R.
Hypothesis Hwork : (m <= 1 \/ n <= 1 \/ (lok work /\ contiguous work = true /\ N' - 1 <= lm work * ln work))%nat.

(** the program step: line [c], window [a,b), reflector [i], the other lines [d0,d1) if [cond] *)
Definition fline (a b c : nat) : M view := match sm with Columnwise => slcol A a b c | Rowwise => slrow A c a b end.
Definition fapply (v : view) (a b d0 d1 i : nat) : M unit :=
  match sm with
  | Columnwise => C <- slc A a b d0 d1;; t <- rdv tau i;; larf_work Left dir Columnwise v (conj t) C work
  | Rowwise => C <- slc A d0 d1 a b;; t <- rdv tau i;; larf_work Right dir Rowwise v t C work
  end.
Definition fstep (cond : bool) (a b c d0 d1 i : nat) : M unit :=
  v <- fline a b c;; t <- larfg h dir sm v;; wrv tau i t;;
  if cond then fapply v a b d0 d1 i else ret tt.
Definition stepped (a b c d0 d1 i : nat) (s1 s4 : state) : Prop :=
  refc dir (b - a) (fun r => X s1 (a + r)%nat c) (vval tau s4 i) (fun r => X s4 (a + r)%nat c) /\
  (forall r, (r < M')%nat -> ~ (a <= r < b)%nat -> X s4 r c = X s1 r c) /\
  (forall r j, (r < M')%nat -> (j < N')%nat -> j <> c -> ~ (d0 <= j < d1)%nat -> X s4 r j = X s1 r j) /\
  (forall r j, (r < M')%nat -> (d0 <= j < d1)%nat ->
     X s4 r j = mmul M' (ctr (refl (vval tau s4 i) (embw a b (hvec dir (b - a) (fun r => X s4 (a + r)%nat c))))) (X s1) r j) /\
  (forall j, (j < nr tau)%nat -> j <> i -> vval tau s4 j = vval tau s1 j) /\
  (forall l, ~ inview A l -> ~ inview tau l -> ~ inview (lview work) l -> mem s4 l = mem s1 l) /\ imem s4 = imem s1.

Definition lview' (a b c : nat) : view := match sm with Columnwise => vcol A a b c | Rowwise => vrow A c a b end.
Lemma lview_val a b c s1 r : hst sm (vval (lview' a b c) s1) r = X s1 (a + r)%nat c.
Proof. unfold lview', X. destruct sm; reflexivity. Qed.
Lemma nr_lview a b c : nr (lview' a b c) = (b - a)%nat /\ nc (lview' a b c) = 1%nat.
Proof. unfold lview'. destruct sm; split; reflexivity. Qed.
Lemma inview_line a b c l : (a < b <= M')%nat -> (c < N')%nat -> inview (lview' a b c) l -> inview A l.
Proof. intros. unfold lview', M', N', m, n in *. destruct sm; [eapply inview_vcol; [| |eassumption]|eapply inview_vrow; [| |eassumption]]; lia. Qed.
(** elements of A off the line *)
Lemma line_off a b c s1 s2 : (a < b <= M')%nat -> (c < N')%nat -> (forall l, ~ inview (lview' a b c) l -> mem s2 l = mem s1 l) ->
  forall r j, (r < M')%nat -> (j < N')%nat -> (j <> c \/ ~ (a <= r < b)%nat) -> X s2 r j = X s1 r j.
Proof.
  intros Hab Hc Hf r j Hr Hj Hn. unfold X, lview', M', N', m, n in *. destruct sm; cbn [xof]; [|unfold ctr; f_equal]; apply Hf; intros (p & q & Hp & Hq & e); cbn [nr nc ad vcol vrow] in *; apply HI in e; lia.
Qed.

Lemma fline_wp a b c (K : view -> M unit) (Q : unit -> state -> Prop) s1 : (a < b <= M')%nat -> (c < N')%nat ->
  wp (K (lview' a b c)) Q noX s1 -> wp (v <- fline a b c;; K v) Q noX s1.
Proof. intros Hab Hc HK. apply wp_bind. unfold fline, lview', M', N', m, n in *. destruct sm; [apply wp_slcol|apply wp_slrow]; auto; lia. Qed.
Lemma vinj_line a b c : (a < b <= M')%nat -> (c < N')%nat -> vinj (lview' a b c).
Proof. intros. unfold lview', M', N', m, n in *. destruct sm; [apply vinj_vcol|apply vinj_vrow]; auto; lia. Qed.
Lemma tau_write_X s2 i t r j : (i < nr tau)%nat -> (r < M')%nat -> (j < N')%nat -> X (setm s2 (ad tau i 0) t) r j = X s2 r j.
Proof.
  intros Hi Hr Hj. unfold X, M', N', m, n in *. destruct sm; cbn [xof]; [|unfold ctr; f_equal]; unfold val, setm; cbn [mem];
    (match goal with |- context[Z.eqb ?x ?y] => destruct (Z.eqb_spec x y) as [e|]; [exfalso|reflexivity] end); apply HD in e; auto; lia.
Qed.
Lemma eff_X F W s3 s4 : effw A F W s3 s4 -> forall r j, (r < M')%nat -> (j < N')%nat -> X s4 r j = xof sm F r j.
Proof. intros (L1 & _) r j Hr Hj. unfold X, M', N', m, n in *. destruct sm; cbn [xof]; [|unfold ctr; f_equal]; apply L1; auto. Qed.
Lemma need_work a b d0 d1 c : (a < b <= M')%nat -> (d0 <= d1 <= N')%nat -> (c < N')%nat -> ~ (d0 <= c < d1)%nat -> (b - a <= 1 \/ d1 - d0 = 0 \/ wk_ok work (d1 - d0))%nat.
Proof.
  intros. destruct (Nat.le_gt_cases (b - a) 1); auto. destruct (Nat.eq_dec (d1 - d0) 0) as [|Hz]; auto. right. right.
  destruct Hwork as [|[|(W1 & W2 & W3)]]; [exfalso; unfold M', N', m, n in *; destruct sm; lia..|]. apply wk_ok_contig; auto. lia.
Qed.
Lemma fapply_run a b c d0 d1 i s3 : (a < b <= M')%nat -> (c < N')%nat -> (d0 <= d1 <= N')%nat -> ~ (d0 <= c < d1)%nat -> (i < nr tau)%nat ->
  wp (fapply (lview' a b c) a b d0 d1 i) (fun _ s4 => exists F, effw A F (inview (lview work)) s3 s4 /\
    forall r j, (r < M')%nat -> (j < N')%nat -> xof sm F r j = if ((d0 <=? j) && (j <? d1))%nat then
      mmul M' (ctr (refl (vval tau s3 i) (embw a b (hvec dir (b - a) (fun r => X s3 (a + r)%nat c))))) (X s3) r j else X s3 r j) noX s3.
Proof.
  intros Hab Hc Hd Hdc Hi. assert (HWk := need_work a b d0 d1 c Hab Hd Hc Hdc). unfold fapply.
  assert (Wl : disj (lview work) (lview' a b c)).
  { eapply disj_inc; [| |exact HwA]; intros l; [auto|]. apply inview_line; auto. }
  assert (Hdl : disj (lview' a b c) (match sm with Columnwise => subv A a b d0 d1 | Rowwise => subv A d0 d1 a b end)).
  { unfold lview', M', N', m, n in *. destruct sm; intros p q p' q' Hp Hq Hp' Hq' e; cbn [nr nc ad vcol vrow subv] in *; apply HI in e; lia. }
  assert (ES := lview_val a b c s3). destruct (nr_lview a b c) as [Nv Nv1].
  set (v := lview' a b c) in *. clearbody v. unfold X, M', N', m, n in *. destruct sm; cbn [xof] in *.
  - apply wp_bind, wp_slc; [lia..|]. apply wp_bind. unfold rdv. apply wp_rd; [auto|lia|]. change (val tau s3 i 0) with (vval tau s3 i).
    eapply wp_conseq; [apply (larf_part_l dir Columnwise v (conj (vval tau s3 i)) A work s3 a b d0 d1)| |auto]; auto; try lia.
    + split; auto.
    + intros r0 s4 HL. cbv beta in HL. eexists. split; [exact HL|]. intros r j Hr Hj. cbv beta. destruct (_ && _)%bool; auto.
      apply mmul_ext; intros l Hl; auto. rewrite ctr_refl. apply refl_ext; unfold embw; destruct (_ && _)%bool; auto; unfold hvec; destruct (_ =? _)%nat; auto; apply ES.
  - apply wp_bind, wp_slc; [lia..|]. apply wp_bind. unfold rdv. apply wp_rd; [auto|lia|]. change (val tau s3 i 0) with (vval tau s3 i).
    eapply wp_conseq; [apply (larf_part_r dir Rowwise v (vval tau s3 i) A work s3 a b d0 d1)| |auto]; auto; try lia.
    + split; auto.
    + intros r0 s4 HL. cbv beta in HL. eexists. split; [exact HL|]. intros r j Hr Hj. unfold ctr at 1. destruct (_ && _)%bool; auto.
      rewrite <- (conj_conj (mmul (nc A) (ctr _) _ r j)). f_equal. symmetry.
      transitivity (ctr (mmul (nc A) (ctr (refl (vval tau s3 i) (embw a b (hvec dir (b - a) (fun r0 => ctr (val A s3) (a + r0)%nat c))))) (ctr (val A s3))) j r); [reflexivity|].
      rewrite ctr_mmul. apply mmul_ext; intros l Hl; rewrite ctr_ctr; auto. apply refl_ext; unfold embw; destruct (_ && _)%bool; auto; unfold hvec; destruct (_ =? _)%nat; auto; symmetry; apply ES.
Qed.
Lemma fstep_run cond a b c d0 d1 i s1 (Q : unit -> state -> Prop) : (a < b <= M')%nat -> (c < N')%nat -> (d0 <= d1 <= N')%nat -> ~ (d0 <= c < d1)%nat -> (i < nr tau)%nat ->
  (cond = false -> d0 = d1) -> (vsq M' (fun r => X s1 r c) <= bt * bt)%R ->
  (forall s4, stepped a b c d0 d1 i s1 s4 -> Q tt s4) -> wp (fstep cond a b c d0 d1 i) Q noX s1.
Proof.
  intros Hab Hc Hd Hdc Hi Hcond Hv HQ. unfold fstep. apply fline_wp; auto. destruct (nr_lview a b c) as [Nv Nv1].
  apply wp_bind. eapply wp_use.
  { apply (larfg_reflects h st bt hsm dir sm (lview' a b c) s1); auto; [lia|apply vinj_line; auto|].
    left. rewrite Nv. rewrite <- (vsq_hst sm). rewrite (vsq_ext _ _ (fun r => X s1 (a + r)%nat c)) by (intros; apply lview_val).
    eapply Rle_trans; [|exact Hv]. eapply Rle_trans; [|apply (vsq_head b M'); lia]. apply (vsq_tail a b (fun r => X s1 r c)). lia. }
  intros t s2 HL. cbv beta in HL. destruct HL as ((A1 & A2 & A3) & HR). rewrite Nv in HR.
  apply wp_bind. unfold wrv. apply wp_wr; [auto|lia|].
  assert (Ka := fun r j => tau_write_X s2 i t r j Hi).
  set (s3 := setm s2 (ad tau i 0) t) in *.
  assert (Kt : vval tau s3 i = t) by (unfold vval, val, s3, setm; cbn [mem]; rewrite Z.eqb_refl; auto).
  assert (Koff : forall r j, (r < M')%nat -> (j < N')%nat -> (j <> c \/ ~ (a <= r < b)%nat) -> X s3 r j = X s1 r j).
  { intros r j Hr Hj Hn. rewrite Ka by auto. apply (line_off a b c s1 s2 Hab Hc A2 r j Hr Hj Hn). }
  assert (Kref : refc dir (b - a) (fun r => X s1 (a + r)%nat c) t (fun r => X s3 (a + r)%nat c)).
  { eapply refc_ext; [lia|exact (reflects_refc _ _ _ _ _ _ HR)| |].
    - intros r Hr. apply lview_val.
    - intros r Hr. rewrite lview_val. symmetry. apply Ka; lia. }
  assert (Kto : forall j, (j < nr tau)%nat -> j <> i -> vval tau s3 j = vval tau s1 j).
  { intros j Hj Hne. unfold vval, val, s3, setm. cbn [mem]. destruct (Z.eqb_spec (ad tau j 0) (ad tau i 0)) as [e|]; [apply HIt in e; lia|].
    apply A2. intros K. apply (inview_line a b c) in K; auto. destruct K as (r & q & Hr & Hq & e). symmetry in e. apply HD in e; auto; lia. }
  assert (Kf : forall l, ~ inview A l -> ~ inview tau l -> mem s3 l = mem s1 l).
  { intros l Hl Hl'. unfold s3, setm. cbn [mem]. destruct (Z.eqb_spec l (ad tau i 0)) as [->|]; [exfalso; apply Hl'; exists i, 0%nat; repeat split; first [lia|reflexivity]|].
    apply A2. intros K'. apply Hl. eapply inview_line; eauto. }
  assert (Ki : imem s3 = imem s1) by exact A3. clearbody s3. clear A1 A2 A3 HR s2 Ka.
  destruct cond.
  2: { apply wp_ret. apply HQ. assert (d0 = d1) by auto. subst d1. rewrite <- Kt in Kref. split; [exact Kref|]. split; [intros; apply Koff; auto|]. split; [intros; apply Koff; auto|].
       split; [intros; lia|]. split; [exact Kto|]. split; [|exact Ki]. intros; apply Kf; auto. }
  clear Hcond. eapply wp_conseq; [apply (fapply_run a b c d0 d1 i s3); auto| |auto].
  intros r0 s4 HL. cbv beta in HL. destruct r0. destruct HL as (F & HE & HF). apply HQ. assert (EX := eff_X _ _ _ _ HE). destruct HE as (L1 & L2 & L3).
  assert (Et : forall j, (j < nr tau)%nat -> vval tau s4 j = vval tau s3 j).
  { intros j Hj. apply L2; (apply nin; [apply disj_sym; auto|auto|lia]). }
  assert (Ec : forall r, (r < M')%nat -> X s4 r c = X s3 r c).
  { intros r Hr. rewrite EX, HF by auto. destruct (Nat.leb_spec d0 c), (Nat.ltb_spec c d1); try lia; auto. }
  split; [|split; [|split; [|split; [|split; [|split]]]]].
  - rewrite Et, Kt by auto. eapply refc_ext; [lia|exact Kref|auto|]. intros r Hr. symmetry. apply Ec. lia.
  - intros r Hr Hn. rewrite Ec by auto. apply Koff; auto.
  - intros r j Hr Hj Hne Hn. rewrite EX, HF by auto. destruct (Nat.leb_spec d0 j), (Nat.ltb_spec j d1); try lia; cbn [andb]; apply Koff; auto.
  - intros r j Hr Hj. rewrite EX, HF by (auto; lia). destruct (Nat.leb_spec d0 j), (Nat.ltb_spec j d1); try lia; cbn [andb]. rewrite Et by auto.
    apply mmul_ext; intros l Hl.
    + unfold ctr. f_equal. apply refl_ext; unfold embw; match goal with |- (if ?c then _ else _) = _ => destruct c eqn:Ebb end; auto;
        apply andb_true_iff in Ebb; destruct Ebb as [E1 E2]; apply Nat.leb_le in E1; apply Nat.ltb_lt in E2; unfold hvec; destruct (_ =? _)%nat; auto; symmetry; apply Ec; lia.
    + apply Koff; auto; lia.
  - intros j Hj Hne. rewrite Et by auto. apply Kto; auto.
  - intros l Hl1 Hl2 Hl3. rewrite L2 by auto. apply Kf; auto.
  - congruence.
Qed.

(** ** The loop.  Step [t] treats reflector [idx t], in line [rc i], rows [ra i, rb i) of X *)
Definition idx (t : nat) : nat := match dir with Forward => t | Backward => k - 1 - t end.
Definition ra (i : nat) : nat := match dir with Forward => i | Backward => 0 end.
Definition rb (i : nat) : nat := match dir with Forward => M' | Backward => M' - k + i + 1 end.
Definition rc (i : nat) : nat := match dir with Forward => i | Backward => N' - k + i end.
Definition rd0 (i : nat) : nat := match dir with Forward => S i | Backward => 0 end.
Definition rd1 (i : nat) : nat := match dir with Forward => N' | Backward => N' - k + i end.
Definition Hr (s1 : state) (i : nat) : mat := refl (vval tau s1 i) (embw (ra i) (rb i) (hvec dir (rb i - ra i) (fun r => X s1 (ra i + r)%nat (rc i)))).
Definition el (t r j : nat) : bool := match dir with Forward => (j <? t) && (j <? r) | Backward => (N' - t <=? j) && (r + N' <? M' + j) end%nat.
Definition finv (t : nat) (s1 : state) : Prop :=
  unitary M' (mprod M' (fun u => Hr s1 (idx u)) t) /\
  (forall r j, (r < M')%nat -> (j < N')%nat -> X s r j = mmul M' (mprod M' (fun u => Hr s1 (idx u)) t) (masked (el t) (X s1)) r j) /\
  (forall u, (u < t)%nat -> let i := idx u in conj (X s1 (ra i + hpos dir (rb i - ra i))%nat (rc i)) = X s1 (ra i + hpos dir (rb i - ra i))%nat (rc i)) /\
  (forall l, ~ inview A l -> ~ inview tau l -> ~ inview (lview work) l -> mem s1 l = mem s l) /\ imem s1 = imem s.
Lemma kmin : k = Nat.min M' N'.
Proof. clear Hnorm Hwork Hlen Ht1. unfold k, M', N'. destruct sm; lia. Qed.
Lemma finv_norm t s1 c : finv t s1 -> (c < N')%nat -> (match dir with Forward => t <= c | Backward => c + t < N' end)%nat -> (vsq M' (fun r => X s1 r c) <= bt * bt)%R.
Proof. clear Hwork Hlen Ht1.
  intros (H1 & H2 & _) Hc Htc. rewrite <- (unitary_vsq M' _ (fun r => X s1 r c) (fun r => X s r c) H1); [apply Hnorm; auto|].
  intros r Hr. rewrite H2 by auto. apply sum_ext. intros l Hl. unfold masked, el. destruct dir.
  - destruct (Nat.ltb_spec c t); [lia|]. auto.
  - destruct (Nat.leb_spec (N' - t) c); [lia|]. auto.
Qed.
Lemma idx_lt t : (t < k)%nat -> (idx t < k)%nat.
Proof. clear Hnorm Hwork Hlen Ht1. unfold idx. destruct dir; lia. Qed.
Lemma step_geom t : (t < k)%nat -> let i := idx t in (ra i < rb i <= M')%nat /\ (rc i < N')%nat /\ (rd0 i <= rd1 i <= N')%nat /\ ~ (rd0 i <= rc i < rd1 i)%nat.
Proof. clear Hnorm Hwork Hlen Ht1. intros Ht. assert (Hk := kmin). unfold idx, ra, rb, rc, rd0, rd1. cbv zeta. destruct dir; lia. Qed.
Lemma finv_step t s1 s4 : (t < k)%nat -> finv t s1 -> (let i := idx t in stepped (ra i) (rb i) (rc i) (rd0 i) (rd1 i) i s1 s4) -> finv (S t) s4.
Proof.
  intros Ht (H1 & H2 & H3 & H4 & H5). destruct (step_geom t Ht) as (G1 & G2 & G3 & G4). assert (Gi := idx_lt t Ht). cbv zeta. set (i := idx t) in *. intros (S1 & S2 & S3 & S4 & S5 & S6 & S7).
  assert (Hk := kmin).
  assert (Hold : forall u, (u < t)%nat -> (forall r, (r < M')%nat -> X s4 r (rc (idx u)) = X s1 r (rc (idx u))) /\ vval tau s4 (idx u) = vval tau s1 (idx u)).
  { intros u Hu. split.
    - intros r Hr. apply S3; auto; unfold i, rc, rd0, rd1, idx in *; destruct dir; lia.
    - apply S5; unfold i, idx in *; destruct dir; lia. }
  assert (EP : forall r c, (r < M')%nat -> (c < M')%nat -> mprod M' (fun u => Hr s4 (idx u)) t r c = mprod M' (fun u => Hr s1 (idx u)) t r c).
  { intros r c Hr' Hc'. apply mprod_ext; auto. intros u p q Hu Hp Hq. destruct (Hold u Hu) as [O1 O2]. destruct (step_geom u ltac:(lia)) as (Gu & _). unfold Hr. rewrite O2.
    apply refl_ext; unfold embw; match goal with |- (if ?c then _ else _) = _ => destruct c eqn:Ebb end; auto;
      apply andb_true_iff in Ebb; destruct Ebb as [E1 E2]; apply Nat.leb_le in E1; apply Nat.ltb_lt in E2; unfold hvec; destruct (_ =? _)%nat; auto; apply O1; lia. }
  assert (FS := fact_step M' N' dir (ra i) (rb i) (rc i) (el t) (el (S t)) (mprod M' (fun u => Hr s1 (idx u)) t) (mprod M' (fun u => Hr s4 (idx u)) (S t)) (X s) (X s1) (X s4) (vval tau s4 i) G1 G2 H1 H2 S1).
  cbv zeta in FS. destruct FS as [F1 F2].
  - intros r c Hr' Hc'. cbn [mprod]. apply mmul_ext; intros l Hl; auto.
  - exact S2.
  - intros r Hr'. unfold el, i, rc, idx. destruct dir.
    + destruct (Nat.ltb_spec t t); [lia|auto].
    + destruct (Nat.leb_spec (N' - t) (N' - k + (k - 1 - t))); [lia|auto].
  - intros r Hr'. unfold el, i, rc, ra, rb, hpos, idx in *. destruct dir.
    + destruct (Nat.ltb_spec t (S t)); [|lia]. destruct (Nat.ltb_spec r M'); [|lia]. destruct (Nat.ltb_spec t r), (Nat.leb_spec t r), (Nat.eqb_spec (r - t) 0); try lia; auto.
    + destruct (Nat.leb_spec (N' - S t) (N' - k + (k - 1 - t))); [|lia]. cbn [Nat.leb andb].
      destruct (Nat.ltb_spec (r + N') (M' + (N' - k + (k - 1 - t)))), (Nat.ltb_spec r (M' - k + (k - 1 - t) + 1)), (Nat.eqb_spec (r - 0) (M' - k + (k - 1 - t) + 1 - 0 - 1)); cbn [negb andb]; try lia; auto.
  - intros j Hj Hjc. split.
    + intros r Hr'. unfold el, i, rc, idx in *. destruct dir.
      * destruct (Nat.ltb_spec j (S t)), (Nat.ltb_spec j t); try lia; auto.
      * destruct (Nat.leb_spec (N' - S t) j), (Nat.leb_spec (N' - t) j); try lia; auto.
    + assert (Dj : (rd0 i <= j < rd1 i)%nat \/ ~ (rd0 i <= j < rd1 i)%nat) by lia. destruct Dj as [Dj|Dj]; [right|left]; split.
      * intros r Hr'. apply S4; auto.
      * intros r Hr'. unfold el, i, rd0, rd1, idx in *. destruct dir.
        -- destruct (Nat.ltb_spec j t); [lia|auto].
        -- destruct (Nat.leb_spec (N' - t) j); [lia|auto].
      * intros r Hr'. apply S3; auto.
      * intros r Hr'. unfold el, i, rd0, rd1, ra, rb, rc, idx in *. destruct dir.
        -- destruct (Nat.ltb_spec j t), (Nat.ltb_spec j r); try lia; auto.
        -- destruct (Nat.leb_spec (N' - t) j), (Nat.ltb_spec (r + N') (M' + j)); try lia; auto.
  - split; [exact F1|]. split; [exact F2|]. split; [|split].
    + intros u Hu. cbv zeta. destruct (Nat.eq_dec u t) as [->|Hne]; [exact (rc_beta _ _ _ _ _ S1)|].
      destruct (Hold u ltac:(lia)) as [O1 _]. destruct (step_geom u ltac:(lia)) as (Gu & _). assert (Hp := hpos_lt dir (rb (idx u) - ra (idx u)) ltac:(lia)).
      rewrite O1 by lia. apply H3. lia.
    + intros l A1 A2 A3. rewrite S6 by auto. auto.
    + congruence.
Qed.
Lemma finv_0 : finv 0 s.
Proof. clear Hnorm Hwork Hlen Ht1.
  split; [apply unitary_id|]. split; [|split; [intros; lia|split; auto]].
  intros r j Hr' Hj. cbn [mprod]. rewrite mmul_id_l by auto. unfold masked, el. destruct dir; [destruct (Nat.ltb_spec j 0); [lia|auto]|destruct (Nat.leb_spec (N' - 0) j); [lia|auto]].
Qed.
Lemma fone (p : M unit) cond t s1 : (t < k)%nat -> finv t s1 -> (let i := idx t in p = fstep cond (ra i) (rb i) (rc i) (rd0 i) (rd1 i) i /\ (cond = false -> rd0 i = rd1 i)) ->
  wp p (fun _ s' => finv (S t) s') noX s1.
Proof.
  intros Ht Hinv [-> Hc]. destruct (step_geom t Ht) as (G1 & G2 & G3 & G4). assert (Gi := idx_lt t Ht). assert (Hk := kmin).
  apply fstep_run; auto; [lia| |].
  - apply (finv_norm t); auto. unfold rc, idx in *. destruct dir; lia.
  - intros s4 H4. apply (finv_step t s1 s4); auto.
Qed.
Lemma floop_to (f : nat -> M unit) (cond : nat -> bool) t0 : (t0 <= k)%nat ->
  (forall t, (t < t0)%nat -> let i := idx t in f t = fstep (cond t) (ra i) (rb i) (rc i) (rd0 i) (rd1 i) i /\ (cond t = false -> rd0 i = rd1 i)) ->
  wp (forup 0 t0 f) (fun _ s' => finv t0 s') noX s.
Proof.
  intros H0 Hf. apply (wp_forup finv); [lia|apply finv_0| |auto].
  intros t s1 [_ Ht] Hinv. apply (fone (f t) (cond t) t s1); [lia|auto|]. apply Hf. auto.
Qed.
Lemma floop (f : nat -> M unit) (cond : nat -> bool) :
  (forall t, (t < k)%nat -> let i := idx t in f t = fstep (cond t) (ra i) (rb i) (rc i) (rd0 i) (rd1 i) i /\ (cond t = false -> rd0 i = rd1 i)) ->
  wp (forup 0 k f) (fun _ s' => finv k s') noX s.
Proof. intros Hf. apply (floop_to f cond k); auto. Qed.
(** the result in the terms of the specification *)
Lemma rvec_X s' i r : (i < k)%nat -> (r < M')%nat ->
  rvec dir sm M' k (stored dir sm m n k (val A s')) i r = embw (ra i) (rb i) (hvec dir (rb i - ra i) (fun r => X s' (ra i + r)%nat (rc i))) r.
Proof. clear Hnorm Hwork Hlen Ht1.
  intros Hi Hr'. assert (Hk := kmin). unfold rvec, embw, rpos, hvec, hpos, ra, rb, rc, stored, X, M', N' in *. destruct dir.
  - destruct (Nat.leb_spec i r), (Nat.ltb_spec r i), (Nat.eqb_spec r i); try lia; cbn [andb]; auto.
    + destruct (Nat.ltb_spec r (match sm with Columnwise => m | Rowwise => n end)); [|lia]. destruct (Nat.eqb_spec (r - i) 0); [auto|lia].
    + destruct (Nat.ltb_spec r (match sm with Columnwise => m | Rowwise => n end)); [|lia]. destruct (Nat.eqb_spec (r - i) 0); [lia|].
      replace (i + (r - i))%nat with r by lia. destruct sm; reflexivity.
  - cbn [Nat.leb andb]. set (mm := match sm with Columnwise => m | Rowwise => n end) in *.
    destruct (Nat.eqb_spec r (mm - k + i)), (Nat.ltb_spec r (mm - k + i + 1)); try lia.
    + destruct (Nat.eqb_spec (r - 0) (mm - k + i + 1 - 0 - 1)); [auto|lia].
    + destruct (Nat.eqb_spec (r - 0) (mm - k + i + 1 - 0 - 1)); [lia|]. destruct (Nat.ltb_spec (mm - k + i) r); [lia|]. replace (0 + (r - 0))%nat with r by lia. destruct sm; reflexivity.
    + destruct (Nat.ltb_spec (mm - k + i) r); [auto|lia].
Qed.
Lemma hprod_idx (H : nat -> mat) a b : (a < M')%nat -> (b < M')%nat -> hprod dir M' H k a b = mprod M' (fun u => H (idx u)) k a b.
Proof. intros Ha Hb. unfold hprod, idx. destruct dir; [reflexivity|]. apply rprod_rev; auto. Qed.
Lemma masked_trap s' l j : (l < M')%nat -> (j < N')%nat -> masked (el k) (X s') l j = xof sm (trap dir sm m n (val A s')) l j.
Proof. clear Hnorm Hwork Hlen Ht1.
  intros Hl Hj. assert (Hk := kmin). unfold masked, el, X, xof, trap, M', N' in *. destruct dir, sm; unfold ctr.
  - destruct (Nat.ltb_spec j k), (Nat.ltb_spec j l), (Nat.leb_spec l j); cbn [andb]; try lia; auto.
  - destruct (Nat.ltb_spec j k), (Nat.ltb_spec j l), (Nat.leb_spec l j); cbn [andb]; try lia; rewrite ?conj_0; auto.
  - destruct (Nat.leb_spec (n - k) j), (Nat.ltb_spec (l + n) (m + j)), (Nat.leb_spec (m + j) (n + l)); cbn [andb]; try lia; auto.
  - destruct (Nat.leb_spec (m - k) j), (Nat.ltb_spec (l + m) (n + j)), (Nat.leb_spec (n + j) (m + l)); cbn [andb]; try lia; rewrite ?conj_0; auto.
Qed.
Lemma diag_X s' i : (i < k)%nat ->
  (let i' := idx (idx i) in conj (X s' (ra i' + hpos dir (rb i' - ra i'))%nat (rc i')) = X s' (ra i' + hpos dir (rb i' - ra i'))%nat (rc i')) ->
  let e := match dir with Forward => val A s' i i | Backward => val A s' (m - k + i)%nat (n - k + i)%nat end in conj e = e.
Proof. clear Hnorm Hwork Hlen Ht1.
  intros Hi H3. assert (Hk := kmin). cbv zeta in *. unfold idx, ra, rb, rc, hpos, X, xof, M', N' in *. destruct dir.
  - rewrite Nat.add_0_r in H3. destruct sm; unfold ctr in *; auto. rewrite conj_conj in H3. auto.
  - replace (k - 1 - (k - 1 - i))%nat with i in H3 by lia. set (mm := match sm with Columnwise => m | Rowwise => n end) in *. replace (0 + (mm - k + i + 1 - 0 - 1))%nat with (mm - k + i)%nat in H3 by lia. unfold mm in *.
    destruct sm; unfold ctr in *; auto. rewrite conj_conj in H3. auto.
Qed.
Lemma X_mul s1 (W B : mat) : (forall r j, (r < M')%nat -> (j < N')%nat -> X s1 r j = mmul M' W (xof sm B) r j) ->
  let Q := match sm with Columnwise => W | Rowwise => ctr W end in
  forall i j, (i < m)%nat -> (j < n)%nat -> val A s1 i j = match sm with Columnwise => mmul m Q B i j | Rowwise => mmul n B Q i j end.
Proof. clear Hnorm Hwork Hlen Ht1.
  intros EX Q i j Hi Hj. unfold Q, X, xof, M', N' in *. destruct sm.
  - apply EX; auto.
  - specialize (EX j i Hj Hi). unfold ctr at 1 in EX. rewrite <- (conj_conj (val A s1 i j)), EX.
    change (conj (mmul n W (ctr B) j i)) with (ctr (mmul n W (ctr B)) i j). rewrite ctr_mmul. apply mmul_ext; intros; auto. apply ctr_ctr.
Qed.
Lemma X_unitary W : unitary M' W -> unitary M' (match sm with Columnwise => W | Rowwise => ctr W end).
Proof. clear Hnorm Hwork Hlen Ht1. intros U. destruct sm; auto. apply unitary_ctr. auto. Qed.
Lemma finv_final s' : finv k s' ->
  let V := stored dir sm m n k (val A s') in
  let Q := qof dir sm M' V (vval tau s') k in
  unitary M' Q /\
  (forall i j, (i < m)%nat -> (j < n)%nat -> val A s i j = match sm with Columnwise => mmul m Q (trap dir sm m n (val A s')) i j | Rowwise => mmul n (trap dir sm m n (val A s')) Q i j end) /\
  (forall i, (i < k)%nat -> let e := match dir with Forward => val A s' i i | Backward => val A s' (m - k + i)%nat (n - k + i)%nat end in conj e = e) /\
  only_changes (fun l => inview A l \/ inview tau l \/ inview (lview work) l) s s'.
Proof. clear Hnorm Hwork Hlen Ht1.
  intros (H1 & H2 & H3 & H4 & H5) V Q.
  set (P := mprod M' (fun u => Hr s' (idx u)) k) in *.
  set (W := hprod dir M' (fun i => refl (vval tau s' i) (rvec dir sm M' k V i)) k).
  assert (EW : forall a b, (a < M')%nat -> (b < M')%nat -> W a b = P a b).
  { intros a b Ha Hb. unfold W, P. rewrite hprod_idx by auto. apply mprod_ext; auto. intros u p q Hu Hp Hq. unfold Hr. assert (Hu' := idx_lt u Hu). apply refl_ext; apply rvec_X; auto. }
  assert (UW : unitary M' W) by (eapply unitary_ext; [|exact H1]; intros; symmetry; apply EW; auto).
  assert (EX : forall r j, (r < M')%nat -> (j < N')%nat -> X s r j = mmul M' W (xof sm (trap dir sm m n (val A s'))) r j).
  { intros r j Hr' Hj. rewrite H2 by auto. apply mmul_ext; intros l Hl; [symmetry; apply EW; auto|]. apply masked_trap; auto. }
  split; [|split; [|split; [|split; auto]]].
  - exact (X_unitary W UW).
  - exact (X_mul s W _ EX).
  - intros i Hi. apply diag_X; auto. exact (H3 (idx i) (idx_lt i Hi)).
  - intros l Hl. apply H4; tauto.
Qed.
End G.

(** what is proved of the three routines *)
Definition factored (dir : direction_t) (sm : storev_t) (A tau : view) (work : lmat) (s : state) (r : Z) (s' : state) : Prop :=
  let m := nr A in let n := nc A in let k := Nat.min m n in let nq := match sm with Columnwise => m | Rowwise => n end in
  let Q := qof dir sm nq (stored dir sm m n k (val A s')) (vval tau s') k in
  r = 0%Z /\ unitary nq Q /\
  (forall i j, (i < m)%nat -> (j < n)%nat -> val A s i j = match sm with Columnwise => mmul m Q (trap dir sm m n (val A s')) i j | Rowwise => mmul n (trap dir sm m n (val A s')) Q i j end) /\
  (forall i, (i < k)%nat -> let e := match dir with Forward => val A s' i i | Backward => val A s' (m - k + i)%nat (n - k + i)%nat end in conj e = e) /\
  only_changes (fun l => inview A l \/ inview tau l \/ inview (lview work) l) s s'.
Section W.
Variables (h : hconst) (st bt hsm : R) (A tau : view) (work : lmat) (s : state).
Hypothesis Hh : hconst_ok h st bt hsm.
Hypothesis HI : vinj A.
Hypothesis HIt : vinj tau.
Hypothesis Ht1 : nc tau = 1%nat.
Hypothesis HD : disj A tau.
Hypothesis Hlen : (Nat.min (nr A) (nc A) <= nr tau)%nat.
Hypothesis HwA : disj (lview work) A.
Hypothesis Hwt : disj (lview work) tau.
Lemma ctr_norm (c : nat) : vsq (nc A) (fun r => ctr (val A s) r c) = vsq (nc A) (fun j => val A s c j).
Proof. exact (vsq_hst Rowwise (nc A) (fun j => val A s c j)). Qed.
Lemma check_tau (B : Type) (K : M B) Q : wp K Q noX s -> wp (check (negb (nr tau <? Nat.min (nr A) (nc A))%nat);; K) Q noX s.
Proof. intros H. apply wp_bind, wp_check; auto. destruct (Nat.ltb_spec (nr tau) (Nat.min (nr A) (nc A))); [lia|reflexivity]. Qed.

Lemma finv_factored dir sm z s' : z = 0%Z /\ finv sm dir A tau work s (Nat.min (nr A) (nc A)) s' -> factored dir sm A tau work s z s'.
Proof. intros [-> HL]. split; auto. apply (finv_final sm dir A tau work s); auto. Qed.
Lemma gelq2_finv : (forall i, (i < nr A)%nat -> (vsq (nc A) (fun j => val A s i j) <= bt * bt)%R) ->
  (nr A <= 1 \/ nc A <= 1 \/ (lok work /\ contiguous work = true /\ nr A - 1 <= lm work * ln work))%nat ->
  wp (gelq2_work h A tau work) (fun z s' => z = 0%Z /\ finv Rowwise Forward A tau work s (Nat.min (nr A) (nc A)) s') noX s.
Proof.
  intros Hn Hw. unfold gelq2_work. cbv zeta. apply check_tau. apply wp_bind.
  eapply wp_use.
  { apply (floop h st bt hsm Rowwise Forward A tau work s) with (cond := fun t => ((t <? Nat.min (nr A) (nc A) - 1) || (Nat.min (nr A) (nc A) <? nr A))%nat); auto.
    - intros c Hc. cbn [xof]. rewrite ctr_norm. auto.
    - intros t Ht. unfold idx, ra, rb, rc, rd0, rd1. cbv zeta. split.
      + unfold fstep, fline, fapply. replace (t + 1)%nat with (S t) by lia. reflexivity.
      + intros Hc. apply orb_false_iff in Hc. destruct Hc as [C1 C2]. apply Nat.ltb_ge in C1, C2. lia. }
  intros u s' HL. cbv beta in HL. apply wp_ret. split; auto.
Qed.
Lemma geql2_finv : (forall j, (j < nc A)%nat -> (vsq (nr A) (fun i => val A s i j) <= bt * bt)%R) ->
  (nr A <= 1 \/ nc A <= 1 \/ (lok work /\ contiguous work = true /\ nc A - 1 <= lm work * ln work))%nat ->
  wp (geql2_work h A tau work) (fun z s' => z = 0%Z /\ finv Columnwise Backward A tau work s (Nat.min (nr A) (nc A)) s') noX s.
Proof.
  intros Hn Hw. unfold geql2_work. cbv zeta. apply check_tau.
  assert (W : wp (forup 0 (Nat.min (nr A) (nc A)) (fun i2 => 
    let i := (Nat.min (nr A) (nc A) - 1 - i2)%nat in
    v <- slcol A 0 (nr A - Nat.min (nr A) (nc A) + i + 1) (nc A - Nat.min (nr A) (nc A) + i);;
    t <- larfg h Backward Columnwise v;;
    wrv tau i t;;
    if (Nat.min (nr A) (nc A) <? nc A + i)%nat then
      C <- slc A 0 (nr A - Nat.min (nr A) (nc A) + i + 1) 0 (nc A - Nat.min (nr A) (nc A) + i);;
      t <- rdv tau i;;
      larf_work Left Backward Columnwise v (conj t) C work
    else ret tt)) (fun _ s' => finv Columnwise Backward A tau work s (Nat.min (nr A) (nc A)) s') noX s).
  { apply (floop h st bt hsm Columnwise Backward A tau work s) with (cond := fun t => (Nat.min (nr A) (nc A) <? nc A + (Nat.min (nr A) (nc A) - 1 - t))%nat); auto.
    intros t Ht. unfold idx, ra, rb, rc, rd0, rd1. cbv zeta. split; [reflexivity|].
    intros Hc. apply Nat.ltb_ge in Hc. lia. }
  destruct (Nat.leb_spec (nc A) 0) as [Hz|Hz].
  - apply wp_ret. replace (Nat.min (nr A) (nc A)) with 0%nat in W by lia.
    split; auto. replace (Nat.min (nr A) (nc A)) with 0%nat by lia. 
    unfold wp in W. cbn in W. exact W.
  - apply wp_bind. eapply wp_use; [exact W|]. intros u s' HL. cbv beta in HL. apply wp_ret. split; auto.
Qed.
Lemma gerq2_finv : (forall i, (i < nr A)%nat -> (vsq (nc A) (fun j => val A s i j) <= bt * bt)%R) ->
  (nr A <= 1 \/ nc A <= 1 \/ (lok work /\ contiguous work = true /\ nr A - 1 <= lm work * ln work))%nat ->
  wp (gerq2_work h A tau work) (fun z s' => z = 0%Z /\ finv Rowwise Backward A tau work s (Nat.min (nr A) (nc A)) s') noX s.
Proof.
  intros Hn Hw. unfold gerq2_work. cbv zeta. apply check_tau.
  assert (W : wp (forup 0 (Nat.min (nr A) (nc A)) (fun i2 => 
    let i := (Nat.min (nr A) (nc A) - 1 - i2)%nat in
    v <- slrow A (nr A - 1 - i2) 0 (nc A - i2);;
    t <- larfg h Backward Rowwise v;;
    wrv tau i t;;
    if (i2 + 1 <? nr A)%nat then
      C <- slc A 0 (nr A - 1 - i2) 0 (nc A - i2);;
      t <- rdv tau i;;
      larf_work Right Backward Rowwise v t C work
    else ret tt)) (fun _ s' => finv Rowwise Backward A tau work s (Nat.min (nr A) (nc A)) s') noX s).
  { apply (floop h st bt hsm Rowwise Backward A tau work s) with (cond := fun t => (t + 1 <? nr A)%nat); auto.
    - intros c Hc. cbn [xof]. rewrite ctr_norm. auto.
    - intros t Ht. unfold idx, ra, rb, rc, rd0, rd1. cbv zeta. split.
      + replace (nc A - Nat.min (nr A) (nc A) + (Nat.min (nr A) (nc A) - 1 - t) + 1)%nat with (nc A - t)%nat by lia.
        replace (nr A - Nat.min (nr A) (nc A) + (Nat.min (nr A) (nc A) - 1 - t))%nat with (nr A - 1 - t)%nat by lia. reflexivity.
      + intros Hc. apply Nat.ltb_ge in Hc. lia. }
  destruct (Nat.leb_spec (nc A) 0) as [Hz|Hz].
  - apply wp_ret. replace (Nat.min (nr A) (nc A)) with 0%nat in W by lia.
    split; auto. replace (Nat.min (nr A) (nc A)) with 0%nat by lia. 
    unfold wp in W. cbn in W. exact W.
  - apply wp_bind. eapply wp_use; [exact W|]. intros u s' HL. cbv beta in HL. apply wp_ret. split; auto.
Qed.
Lemma wp_ret_tt {V V' : Type} (a : M V) (b : V -> M V') (c : V -> V' -> M unit) Q X s1 :
  wp (v <- a;; t <- b v;; c v t;; ret tt) Q X s1 -> wp (v <- a;; t <- b v;; c v t) Q X s1.
Proof.
  unfold wp, bind. destruct (a s1) as [v s2|e s2| |]; auto. destruct (b v s2) as [t s3|e s3| |]; auto. destruct (c v t s3) as [u s4|e s4| |]; auto. destruct u. auto.
Qed.
Lemma geqr2_finv : (forall j, (j < nc A)%nat -> (vsq (nr A) (fun i => val A s i j) <= bt * bt)%R) ->
  (nr A <= 1 \/ nc A <= 1 \/ (lok work /\ contiguous work = true /\ nc A - 1 <= lm work * ln work))%nat ->
  wp (geqr2_work h A tau work) (fun z s' => z = 0%Z /\ finv Columnwise Forward A tau work s (Nat.min (nr A) (nc A)) s') noX s.
Proof.
  intros Hn Hw. unfold geqr2_work. cbv zeta. apply check_tau.
  destruct (Nat.leb_spec (nc A) 0) as [Hz|Hz]; [|destruct (Nat.leb_spec (nr A) 0) as [Hz'|Hz']]; cbn [orb].
  1, 2: apply wp_ret; split; auto; replace (Nat.min (nr A) (nc A)) with 0%nat by lia; apply finv_0.
  apply wp_bind. eapply wp_use.
  { apply (floop_to h st bt hsm Columnwise Forward A tau work s) with (cond := fun _ => true) (t0 := Nat.min (nr A) (nc A - 1)); auto; [lia|].
    intros t Ht. unfold idx, ra, rb, rc, rd0, rd1. cbv zeta. split; [|discriminate]. unfold fstep, fline, fapply. replace (t + 1)%nat with (S t) by lia. reflexivity. }
  intros u s1 HL. cbv beta in HL. apply wp_bind. destruct (Nat.ltb_spec (nc A - 1) (nr A)) as [Hl|Hl].
  - replace (Nat.min (nr A) (nc A - 1)) with (nc A - 1)%nat in HL by lia. apply wp_ret_tt. eapply wp_use.
    { apply (fone h st bt hsm Columnwise Forward A tau work s) with (cond := false) (t := (nc A - 1)%nat); auto; [lia|].
      unfold idx, ra, rb, rc, rd0, rd1. cbv zeta. split; [reflexivity|intros; lia]. }
    intros u' s2 HL2. cbv beta in HL2. apply wp_ret. split; auto. replace (Nat.min (nr A) (nc A)) with (S (nc A - 1)) by lia. auto.
  - apply wp_ret. apply wp_ret. split; auto. replace (Nat.min (nr A) (nc A)) with (Nat.min (nr A) (nc A - 1)) by lia. auto.
Qed.
Lemma gelq2_work_run : (forall i, (i < nr A)%nat -> (vsq (nc A) (fun j => val A s i j) <= bt * bt)%R) ->
  (nr A <= 1 \/ nc A <= 1 \/ (lok work /\ contiguous work = true /\ nr A - 1 <= lm work * ln work))%nat ->
  wp (gelq2_work h A tau work) (factored Forward Rowwise A tau work s) noX s.
Proof. intros Hn Hw. eapply wp_conseq; [apply (gelq2_finv Hn Hw)| |auto]. intros z s' HL. apply finv_factored; auto. Qed.
Lemma geql2_work_run : (forall j, (j < nc A)%nat -> (vsq (nr A) (fun i => val A s i j) <= bt * bt)%R) ->
  (nr A <= 1 \/ nc A <= 1 \/ (lok work /\ contiguous work = true /\ nc A - 1 <= lm work * ln work))%nat ->
  wp (geql2_work h A tau work) (factored Backward Columnwise A tau work s) noX s.
Proof. intros Hn Hw. eapply wp_conseq; [apply (geql2_finv Hn Hw)| |auto]. intros z s' HL. apply finv_factored; auto. Qed.
Lemma gerq2_work_run : (forall i, (i < nr A)%nat -> (vsq (nc A) (fun j => val A s i j) <= bt * bt)%R) ->
  (nr A <= 1 \/ nc A <= 1 \/ (lok work /\ contiguous work = true /\ nr A - 1 <= lm work * ln work))%nat ->
  wp (gerq2_work h A tau work) (factored Backward Rowwise A tau work s) noX s.
Proof. intros Hn Hw. eapply wp_conseq; [apply (gerq2_finv Hn Hw)| |auto]. intros z s' HL. apply finv_factored; auto. Qed.
End W.
End P.
