(** * Blocks of reflectors: matrices acting on a window; larft followed by larfb *)
From Coq Require Import Bool Arith ZArith Lia Ring Field.
From Verif.Core Require Import Scalar Prog View Slice Loops WorkEff.
From Verif.Spec Require Import LinAlg Outcome Householder Parts.
From Verif.Model Require Import Gemm Blas1 Blas2 Blas3 Legacy LaAux Norms Work Householder QGen QFact BlockQ.
From Verif.Proof Require Import SumLemmas SliceTac LegacyProof BlockAlg PotrfProof Blas1Proof LaAuxProof LarfProof LarfgProof QRProof WorkProof QGenProof LarftProof LarfbProof.
Local Open Scope T_scope.

Section P.
Context {E : Env} {FL : FieldLaws E} {CL : ConjLaws E}.
Add Field Tf : fth.

(** ** a matrix acting on the rows (columns) [a, b) *)
Definition win (a b r : nat) : bool := ((a <=? r) && (r <? b))%nat.
Lemma win_spec a b r : BoolSpec (a <= r < b)%nat (~ (a <= r < b)%nat) (win a b r).
Proof. unfold win. destruct (Nat.leb_spec a r), (Nat.ltb_spec r b); cbn [andb]; constructor; lia. Qed.
Definition embm (a b : nat) (G : mat) : mat := fun r c => if win a b r && win a b c then G (r - a)%nat (c - a)%nat else idm r c.
Lemma embm_ext a b G G' : (forall r c, (r < b - a)%nat -> (c < b - a)%nat -> G r c = G' r c) -> forall r c, embm a b G r c = embm a b G' r c.
Proof. intros H r c. unfold embm. destruct (win_spec a b r), (win_spec a b c); cbn [andb]; auto. apply H; lia. Qed.
Lemma embm_id a b r c : embm a b idm r c = idm r c.
Proof.
  unfold embm. destruct (win_spec a b r), (win_spec a b c); cbn [andb]; auto. unfold idm. destruct (Nat.eqb_spec (r - a) (c - a)), (Nat.eqb_spec r c); auto; lia.
Qed.
Lemma embm_ctr a b G r c : ctr (embm a b G) r c = embm a b (ctr G) r c.
Proof.
  unfold ctr, embm. rewrite andb_comm. destruct (win a b r && win a b c); auto. apply ctr_idm.
Qed.
Lemma embm_refl a b tau u r c : embm a b (refl tau u) r c = refl tau (embw a b u) r c.
Proof.
  unfold embm. change (embw a b u) with (fun r => if win a b r then u (r - a)%nat else 0). unfold refl.
  destruct (win_spec a b r), (win_spec a b c); cbn [andb]; rewrite ?conj_0; try ring. f_equal. unfold idm. destruct (Nat.eqb_spec (r - a) (c - a)), (Nat.eqb_spec r c); auto; lia.
Qed.
Lemma embm_l m a b G (B : mat) r j : (a <= b <= m)%nat -> (r < m)%nat ->
  mmul m (embm a b G) B r j = if win a b r then mmul (b - a) G (fun l c => B (a + l)%nat c) (r - a)%nat j else B r j.
Proof.
  intros Hab Hr. destruct (win_spec a b r) as [Hw|Hw].
  - unfold mmul. rewrite (sum_split_at a m) by lia. rewrite (sum_split_at (b - a) (m - a)) by lia.
    rewrite (sum_0 a), (sum_0 (m - a - (b - a))).
    + transitivity (sum (b - a) (fun l => embm a b G r (a + l)%nat * B (a + l)%nat j)); [ring|]. apply sum_ext. intros l Hl. f_equal. unfold embm.
      destruct (win_spec a b r), (win_spec a b (a + l)); try lia. cbn [andb]. f_equal. lia.
    + intros l Hl. unfold embm. destruct (win_spec a b (a + (b - a + l))); [lia|]. rewrite andb_false_r. unfold idm. destruct (Nat.eqb_spec r (a + (b - a + l))); [lia|ring].
    + intros l Hl. unfold embm. destruct (win_spec a b l); [lia|]. rewrite andb_false_r. unfold idm. destruct (Nat.eqb_spec r l); [lia|ring].
  - transitivity (mmul m idm B r j); [|apply mmul_id_l; auto]. apply mmul_ext; auto. intros l Hl. unfold embm. destruct (win_spec a b r); [lia|]. auto.
Qed.
Lemma embm_r m a b G (B : mat) r j : (a <= b <= m)%nat -> (j < m)%nat ->
  mmul m B (embm a b G) r j = if win a b j then mmul (b - a) (fun r l => B r (a + l)%nat) G r (j - a)%nat else B r j.
Proof.
  intros Hab Hr. destruct (win_spec a b j) as [Hw|Hw].
  - unfold mmul. rewrite (sum_split_at a m) by lia. rewrite (sum_split_at (b - a) (m - a)) by lia.
    rewrite (sum_0 a), (sum_0 (m - a - (b - a))).
    + transitivity (sum (b - a) (fun l => B r (a + l)%nat * embm a b G (a + l)%nat j)); [ring|]. apply sum_ext. intros l Hl. f_equal. unfold embm.
      destruct (win_spec a b j), (win_spec a b (a + l)); try lia. cbn [andb]. f_equal. lia.
    + intros l Hl. unfold embm. destruct (win_spec a b (a + (b - a + l))); [lia|]. cbn [andb]. unfold idm. destruct (Nat.eqb_spec (a + (b - a + l)) j); [lia|ring].
    + intros l Hl. unfold embm. destruct (win_spec a b l); [lia|]. cbn [andb]. unfold idm. destruct (Nat.eqb_spec l j); [lia|ring].
  - transitivity (mmul m B idm r j); [|apply mmul_id_r; auto]. apply mmul_ext; auto. intros l Hl. unfold embm. destruct (win_spec a b j); [lia|]. rewrite andb_false_r. auto.
Qed.
Lemma embm_mul m a b G G' r c : (a <= b <= m)%nat -> (r < m)%nat -> mmul m (embm a b G) (embm a b G') r c = embm a b (mmul (b - a) G G') r c.
Proof.
  intros Hab Hr. rewrite embm_l by auto. change (embm a b (mmul (b - a) G G') r c) with (if win a b r && win a b c then mmul (b - a) G G' (r - a)%nat (c - a)%nat else idm r c).
  destruct (win_spec a b r); cbn [andb]; [|unfold embm; destruct (win_spec a b r); [lia|]; auto].
  destruct (win_spec a b c).
  - unfold mmul. apply sum_ext; intros l Hl; f_equal; unfold embm. destruct (win_spec a b (a + l)), (win_spec a b c); try lia. cbn [andb]. f_equal; lia.
  - transitivity 0; [|unfold idm; destruct (Nat.eqb_spec r c); [lia|auto]]. apply mmul_0_r. intros l Hl. unfold embm. destruct (win_spec a b c); [lia|]. rewrite andb_false_r. unfold idm. destruct (Nat.eqb_spec (a + l) c); [lia|auto].
Qed.
Lemma embm_mprod m a b (H : nat -> mat) k : (a <= b <= m)%nat -> forall r c, (r < m)%nat -> (c < m)%nat -> mprod m (fun i => embm a b (H i)) k r c = embm a b (mprod (b - a) H k) r c.
Proof.
  intros Hab. induction k as [|k IH]; intros r c Hr Hc; cbn [mprod]; [symmetry; apply embm_id|]. rewrite <- (embm_mul m) by auto. apply mmul_ext; auto.
Qed.
Lemma embm_rprod m a b (H : nat -> mat) k : (a <= b <= m)%nat -> forall r c, (r < m)%nat -> (c < m)%nat -> rprod m (fun i => embm a b (H i)) k r c = embm a b (rprod (b - a) H k) r c.
Proof.
  intros Hab. induction k as [|k IH]; intros r c Hr Hc; cbn [rprod]; [symmetry; apply embm_id|]. rewrite <- (embm_mul m) by auto. apply mmul_ext; auto.
Qed.
Lemma embm_hprod d m a b (H : nat -> mat) k : (a <= b <= m)%nat -> forall r c, (r < m)%nat -> (c < m)%nat -> hprod d m (fun i => embm a b (H i)) k r c = embm a b (hprod d (b - a) H k) r c.
Proof. intros. destruct d; [apply embm_mprod|apply embm_rprod]; auto. Qed.
Lemma hprod_ext d m (H H' : nat -> mat) k : (forall i r c, (i < k)%nat -> (r < m)%nat -> (c < m)%nat -> H i r c = H' i r c) -> forall r c, (r < m)%nat -> (c < m)%nat -> hprod d m H k r c = hprod d m H' k r c.
Proof. intros HH r c Hr Hc. destruct d; [apply mprod_ext|apply rprod_ext]; auto. Qed.
Lemma unitary_embm m a b G : (a <= b <= m)%nat -> unitary (b - a) G -> unitary m (embm a b G).
Proof.
  intros Hab U i j Hi Hj. split.
  - transitivity (mmul m (embm a b (ctr G)) (embm a b G) i j); [apply mmul_ext; auto; intros; apply embm_ctr|]. rewrite embm_mul by auto. rewrite <- (embm_id a b). apply embm_ext. intros; apply U; auto.
  - transitivity (mmul m (embm a b G) (embm a b (ctr G)) i j); [apply mmul_ext; auto; intros; apply embm_ctr|]. rewrite embm_mul by auto. rewrite <- (embm_id a b). apply embm_ext. intros; apply U; auto.
Qed.

(** ** larft, then larfb *)
Lemma blkrefl_ctr k Tm U r c : blkrefl k (ctr Tm) U r c = ctr (blkrefl k Tm U) r c.
Proof.
  unfold blkrefl, ctr. rewrite conj_sub. f_equal; [symmetry; apply ctr_idm|]. rewrite sum_conj. rewrite sum_swap. apply sum_ext. intros a Ha. rewrite sum_conj. apply sum_ext. intros b Hb.
  rewrite !conj_mul, conj_conj. ring.
Qed.
End P.
Section Q.
Context {E : Env} {FL : FieldLaws E} {CL : ConjLaws E} {QL : EqbLaws E} {XL : CplxLaws E}.
Add Field Tf2 : fth.
Definition trans_ok (trans : op_t) : Prop := match trans with NoTrans | ConjTrans => True | Trans => cplx = false | Conj => False end.
Lemma blkrefl_op trans k Tm U r c : trans_ok trans -> blkrefl k (opm trans Tm) U r c = opm trans (blkrefl k Tm U) r c.
Proof.
  intros Ht. destruct trans; try contradiction; cbn [opm]; auto.
  - transitivity (blkrefl k (ctr Tm) U r c).
    + apply blkrefl_ext; auto. intros a b Ha Hb. unfold ctr, opm. rewrite real_type; auto.
    + rewrite blkrefl_ctr. unfold ctr. rewrite real_type; auto.
  - apply (blkrefl_ctr k Tm U r c).
Qed.
(** the product of the reflectors stored in V *)
Definition vprod (dir : direction_t) (sm : storev_t) (nq k : nat) (V : mat) (tau : nat -> T) : mat := hprod dir nq (fun i => refl (tau i) (rvec dir sm nq k V i)) k.
Lemma blk_apply side trans dir sm V tau Tm C work s :
  let m := nr C in let n := nc C in let k := nr tau in let nq := sel side m n in
  trans_ok trans ->
  match sm with Columnwise => nr V = nq /\ nc V = k | Rowwise => nr V = k /\ nc V = nq end ->
  nc tau = 1%nat -> nr Tm = k -> nc Tm = k -> (k <= nq)%nat -> vinj C -> vinj Tm -> disj V C -> disj V Tm -> disj tau Tm -> disj C Tm ->
  (m = 0 \/ n = 0 \/ k = 0 \/ wkm_ok work (sel side k m) (sel side n k))%nat ->
  disj V (lview work) -> disj Tm (lview work) -> disj C (lview work) ->
  runs (larft dir sm V tau Tm;; larfb_work side trans dir sm V Tm C work) s (fun _ s' =>
    effw C (rapply side nq (opm trans (vprod dir sm nq k (val V s) (vval tau s))) (val C s)) (fun l => inview Tm l \/ inview (lview work) l) s s').
Proof.
  intros m n k nq Ht HV Ht1 HT1 HT2 Hk HIC HIT HVC HVT HtT HCT Hwk WV WT WC.
  assert (Hn : match sm with Columnwise => nr V | Rowwise => nc V end = nq) by (destruct sm; tauto).
  apply wp_bind. eapply wp_conseq; [apply (larft_run dir sm V tau Tm s); auto; change (nr tau) with k; rewrite ?Hn; auto; try lia; destruct sm; lia| |auto].
  intros z s1 HL. cbv beta in HL. destruct HL as (_ & G & He & HG). rewrite Hn in HG. change (nr tau) with k in HG, He.
  assert (HF : forall A, disj A Tm -> forall i j, (i < nr A)%nat -> (j < nc A)%nat -> val A s1 i j = val A s i j).
  { intros A HD i j Hi Hj. apply (val_frame Tm _ A s s1 He); auto. intros l Hl. apply (nin_disj A Tm); auto. }
  eapply wp_conseq; [apply (larfb_work_run side trans dir sm V Tm C work s1); auto; rewrite ?HT1; auto; apply disj_sym; auto| |auto].
  intros z' s2 HL. cbv beta in HL. destruct HL as (_ & K1 & K2 & K3). rewrite HT1 in K1. change (sel side (nr C) (nc C)) with nq in K1.
  split; [|split].
  - intros i j Hi Hj. rewrite K1 by auto.
    assert (HB : forall r c, (r < nq)%nat -> (c < nq)%nat -> blkrefl k (opm trans (trim (tupl dir) NonUnit (val Tm s1))) (rvec dir sm nq k (val V s1)) r c = opm trans (vprod dir sm nq k (val V s) (vval tau s)) r c).
    { intros r c Hr Hc. transitivity (blkrefl k (opm trans (trim (tupl dir) NonUnit G)) (rvec dir sm nq k (val V s)) r c).
      - assert (HVr : forall a r, (a < k)%nat -> (r < nq)%nat -> rvec dir sm nq k (val V s1) a r = rvec dir sm nq k (val V s) a r).
        { intros a r' Ha Hr'. unfold rvec. destruct (_ =? _)%nat; auto. match goal with |- (if ?c then _ else _) = _ => destruct c end; auto. destruct sm; rewrite HF; auto; lia. }
        apply blkrefl_ext; intros; [|apply HVr; auto..].
        assert (HTr : forall a b, (a < k)%nat -> (b < k)%nat -> trim (tupl dir) NonUnit (val Tm s1) a b = trim (tupl dir) NonUnit G a b).
        { intros a' b' Ha' Hb'. unfold trim. assert (V1 := proj1 He a' b' ltac:(lia) ltac:(lia)). unfold tri_in in V1. destruct (Nat.eqb_spec a' b') as [e|e].
          - rewrite V1. destruct dir; destruct (Nat.leb_spec a' b'), (Nat.leb_spec b' a'), (Nat.ltb_spec b' k), (Nat.ltb_spec a' k); try lia; auto.
          - destruct (intri (tupl dir) a' b') eqn:Ei; auto. rewrite V1. destruct dir; cbn [tupl intri] in Ei; rewrite Ei; cbn [andb];
            [destruct (Nat.ltb_spec b' k)|destruct (Nat.ltb_spec a' k)]; try lia; auto. }
        destruct trans; cbn [opm]; rewrite HTr; auto.
      - rewrite blkrefl_op by auto. unfold vprod. destruct trans; cbn [opm]; rewrite HG; auto. }
    unfold rapply. unfold nq, m, n in *. destruct side; cbn [sel] in *; apply mmul_ext; intros l Hl; auto.
  - intros l Hl Hp. rewrite K2 by tauto. apply He. tauto.
  - rewrite K3. apply He.
Qed.
End Q.
