(** * gebrd: the blocked bidiagonal reduction *)
From Coq Require Import Bool Arith ZArith Lia Reals Lra Ring Field.
From Verif.Core Require Import Scalar Prog View Slice Loops RealLaws WorkEff.
From Verif.Spec Require Import LinAlg Norms Householder Reduce Parts.
From Verif.Model Require Import Gemm Blas1 Blas2 Legacy LaAux Work Householder QGen Reduce Gebrd.
From Verif.Proof Require Import SumLemmas Tactics SliceTac LowOps ExactBlas Blas1Proof Blas2Proof GemmProof LaAuxProof PotrfProof BlockAlg LarfProof LarfgProof QRProof QGenProof QFactProof LarfbProof ReduceMath ReduceProof HessProof BidProof LarftProof GehrdProof Lahr2Proof GebrdMath LabrdOps LabrdProof.
Local Open Scope T_scope.

Section A.
Context {E : Env} {FL : FieldLaws E} {CL : ConjLaws E} {OL : ROrdLaws E} {QL : EqbLaws E} {XL : CplxLaws E} {RL : RLaws E} {NL : FinLaws E}.
Add Field Tf : fth.

Section G.
Variables (A tauv tauw X Y : view) (sI : state).
Variables m n nb : nat.
Hypothesis HA : nr A = m /\ nc A = n.
Hypothesis HX : nr X = m /\ nc X = nb.
Hypothesis HY : nr Y = n /\ nc Y = nb.
Hypothesis Hv1 : nc tauv = 1%nat.
Hypothesis Hw1 : nc tauw = 1%nat.
Hypothesis Hlv : (Nat.min m n <= nr tauv)%nat.
Hypothesis Hlw : (Nat.min m n <= nr tauw)%nat.
Hypothesis IA : vinj A.
Hypothesis IX : vinj X.
Hypothesis IY : vinj Y.
Hypothesis Iv : vinj tauv.
Hypothesis Iw : vinj tauw.
Hypothesis DAX : disj A X.
Hypothesis DAY : disj A Y.
Hypothesis DXY : disj X Y.
Hypothesis DAv : disj A tauv.
Hypothesis DAw : disj A tauw.
Hypothesis DXv : disj X tauv.
Hypothesis DXw : disj X tauw.
Hypothesis DYv : disj Y tauv.
Hypothesis DYw : disj Y tauw.
Hypothesis Dvw : disj tauv tauw.
Variables (h : hconst) (st bt hsm : R).
Hypothesis Hh : hconst_ok h st bt hsm.
Definition fr (s s' : state) : Prop := (forall l, ~ inview A l -> ~ inview X l -> ~ inview Y l -> ~ inview tauv l -> ~ inview tauw l -> mem s' l = mem s l) /\ imem s' = imem s.
Lemma fr_trans s1 s2 s3 : fr s1 s2 -> fr s2 s3 -> fr s1 s3.
Proof. intros [H1 H2] [K1 K2]. split; [intros l L1 L2 L3 L4 L5; rewrite K1, H1; auto|congruence]. Qed.

Ltac dj := let e := fresh "e" in intros ? ? ? ? ? ? ? ? e; cbn [nr nc ad vcol vrow subv Slice.vsub] in *;
  first [ (apply IA in e; lia) | (apply IX in e; lia) | (apply IY in e; lia) | (apply Iv in e; lia) | (apply Iw in e; lia)
        | (revert e; apply DAX; lia) | (revert e; apply DAY; lia) | (revert e; apply DXY; lia) | (revert e; apply DAv; lia) | (revert e; apply DAw; lia)
        | (revert e; apply DXv; lia) | (revert e; apply DXw; lia) | (revert e; apply DYv; lia) | (revert e; apply DYw; lia) | (revert e; apply Dvw; lia)
        | (symmetry in e; revert e; apply DAX; lia) | (symmetry in e; revert e; apply DAY; lia) | (symmetry in e; revert e; apply DXY; lia) ].

(** ** The trailing update: gebrd.hpp:110-137 *)
Lemma trail_run o ib pr pc s : (o + ib < m)%nat -> (o + ib < n)%nat -> (ib <= nb)%nat -> (pr < m)%nat -> (pc < n)%nat -> ~ (o + ib <= pr /\ o + ib <= pc)%nat -> conj (val A s pr pc) = val A s pr pc ->
  let g1 := fun r c => if ((r =? pr) && (c =? pc))%nat then 1 else val A s r c in
  wp (e <- (x <- rd A pr pc;; wr A pr pc 1;; ret (re x));;
      V <- slc A (o + ib) m o (o + ib);;
      Y3 <- slc Y (o + ib) n 0 ib;;
      gemm NoTrans ConjTrans (- one) V Y3 (Sc 1) (subv A (o + ib) m (o + ib) n);;
      U <- slc A o (o + ib) (o + ib) n;;
      X3 <- slc X (o + ib) m 0 ib;;
      gemm NoTrans NoTrans (- one) X3 U (Sc 1) (subv A (o + ib) m (o + ib) n);;
      wr A pr pc e)
    (fun _ s' => eff A (fun r c => if ((o + ib <=? r) && (o + ib <=? c))%nat then val A s r c - sum ib (fun l => g1 r (o + l)%nat * conj (val Y s c l)) - sum ib (fun l => val X s r l * g1 (o + l)%nat c) else val A s r c) s s') noX s.
Proof.
  intros H1 H2 H3 H4 H5 H6 H7 g1. destruct HA as [HA1 HA2], HX as [HX1 HX2], HY as [HY1 HY2].
  apply wp_bind. apply wp_bind, wp_rd; [lia|lia|]. apply wp_bind, wp_wr; [lia|lia|]. apply wp_ret.
  set (s1 := setm s (ad A pr pc) 1).
  assert (F1 : eff A g1 s s1).
  { split; [|split; auto].
    - intros i j Hi Hj. unfold g1, val, s1, setm; cbn [mem]. destruct (Z.eqb_spec (ad A i j) (ad A pr pc)) as [e|e].
      + apply IA in e; try lia. destruct e as [-> ->]. rewrite !Nat.eqb_refl. reflexivity.
      + destruct (Nat.eqb_spec i pr), (Nat.eqb_spec j pc); cbn [andb]; auto. subst. congruence.
    - intros l Hl. unfold s1, setm; cbn [mem]. destruct (Z.eqb_spec l (ad A pr pc)) as [e|]; auto. exfalso. apply Hl. exists pr, pc. repeat split; auto; lia. }
  clearbody s1. apply wp_bind, wp_slc; [lia..|]. apply wp_bind, wp_slc; [lia..|].
  assert (FY : forall s2 F, eff A F s s2 -> forall c l, (c < n)%nat -> (l < nb)%nat -> val Y s2 c l = val Y s c l).
  { intros s2 F (_ & K & _) c l Hc Hl. apply K. apply nin; [apply disj_sym; auto|lia|lia]. }
  assert (FX : forall s2 F, eff A F s s2 -> forall c l, (c < m)%nat -> (l < nb)%nat -> val X s2 c l = val X s c l).
  { intros s2 F (_ & K & _) c l Hc Hl. apply K. apply nin; [apply disj_sym; auto|lia|lia]. }
  apply wp_bind. eapply wp_use.
  { apply (gemm_run NoTrans ConjTrans (- one) (subv A (o + ib) m o (o + ib)) (subv Y (o + ib) n 0 ib) (Sc 1) (subv A (o + ib) m (o + ib) n) s1 (m - (o + ib)) (n - (o + ib)) ib); auto; cbn; try lia.
    - apply vinj_subv; auto; lia.
    - dj.
    - dj. }
  intros u0 s2 HL. cbv beta in HL. clear u0. apply (eff_sub A (o + ib) m (o + ib) n g1 _ s s1 s2 IA ltac:(lia) ltac:(lia) F1) in HL.
  set (F := fun i j => if inbox (o + ib) m (o + ib) n i j then _ else _) in HL. rename HL into F2.
  assert (EF : forall r c, (r < m)%nat -> (c < n)%nat -> F r c = if ((o + ib <=? r) && (o + ib <=? c))%nat then val A s r c - sum ib (fun l => g1 r (o + l)%nat * conj (val Y s c l)) else g1 r c).
  { intros r c Hr Hc. unfold F, inbox. destruct (Nat.leb_spec (o + ib) r), (Nat.ltb_spec r m), (Nat.leb_spec (o + ib) c), (Nat.ltb_spec c n); cbn [andb]; auto; try lia.
    rewrite gemm_val_exact by reflexivity. cbn [cval]. unfold mmul. 
    rewrite (sum_ext ib _ (fun l => g1 r (o + l)%nat * conj (val Y s c l))).
    - transitivity (- one * sum ib (fun l => g1 r (o + l)%nat * conj (val Y s c l)) + 1 * g1 r c).
      + f_equal. f_equal. transitivity (val A s1 (o + ib + (r - (o + ib)))%nat (o + ib + (c - (o + ib)))%nat); [reflexivity|]. replace (o + ib + (r - (o + ib)))%nat with r by lia. replace (o + ib + (c - (o + ib)))%nat with c by lia. apply F1; lia.
      + unfold g1 at 2. destruct (Nat.eqb_spec r pr), (Nat.eqb_spec c pc); cbn [andb]; try lia; ring.
    - intros l Hl. cbn [opm]. f_equal.
      + transitivity (val A s1 (o + ib + (r - (o + ib)))%nat (o + l)%nat); [reflexivity|]. replace (o + ib + (r - (o + ib)))%nat with r by lia. apply F1; lia.
      + f_equal. transitivity (val Y s1 (o + ib + (c - (o + ib)))%nat l); [reflexivity|]. replace (o + ib + (c - (o + ib)))%nat with c by lia. eapply FY; eauto; lia. }
  apply wp_bind, wp_slc; [lia..|]. apply wp_bind, wp_slc; [lia..|].
  apply wp_bind. eapply wp_use.
  { apply (gemm_run NoTrans NoTrans (- one) (subv X (o + ib) m 0 ib) (subv A o (o + ib) (o + ib) n) (Sc 1) (subv A (o + ib) m (o + ib) n) s2 (m - (o + ib)) (n - (o + ib)) ib); auto; cbn; try lia.
    - apply vinj_subv; auto; lia.
    - dj.
    - dj. }
  intros u0 s3 HL. cbv beta in HL. clear u0. apply (eff_sub A (o + ib) m (o + ib) n F _ s s2 s3 IA ltac:(lia) ltac:(lia) F2) in HL.
  set (G := fun i j => if inbox (o + ib) m (o + ib) n i j then _ else _) in HL. rename HL into F3.
  apply wp_wr; [lia|lia|]. rewrite re_idem by auto. destruct F3 as (G1 & G2 & G3). split; [|split; auto].
  - intros r c Hr Hc. rewrite HA1 in Hr. rewrite HA2 in Hc. unfold val at 1, setm; cbn [mem]. destruct (Z.eqb_spec (ad A r c) (ad A pr pc)) as [e|e].
    + apply IA in e; try lia. destruct e as [-> ->]. destruct (Nat.leb_spec (o + ib) pr), (Nat.leb_spec (o + ib) pc); cbn [andb]; auto. lia.
    + change (mem s3 (ad A r c)) with (val A s3 r c). rewrite G1 by lia. unfold G, inbox. destruct (Nat.leb_spec (o + ib) r), (Nat.ltb_spec r m), (Nat.leb_spec (o + ib) c), (Nat.ltb_spec c n); cbn [andb]; try lia.
      2-4: rewrite EF by lia; destruct (Nat.leb_spec (o + ib) r), (Nat.leb_spec (o + ib) c); cbn [andb]; try lia; unfold g1; destruct (Nat.eqb_spec r pr), (Nat.eqb_spec c pc); cbn [andb]; auto; subst; congruence.
      rewrite gemm_val_exact by reflexivity. cbn [cval]. unfold mmul.
      rewrite (sum_ext ib _ (fun l => val X s r l * g1 (o + l)%nat c)).
      * transitivity (- one * sum ib (fun l => val X s r l * g1 (o + l)%nat c) + 1 * F r c).
        -- f_equal. f_equal. transitivity (val A s2 (o + ib + (r - (o + ib)))%nat (o + ib + (c - (o + ib)))%nat); [reflexivity|]. replace (o + ib + (r - (o + ib)))%nat with r by lia. replace (o + ib + (c - (o + ib)))%nat with c by lia. apply F2; lia.
        -- rewrite EF by lia. destruct (Nat.leb_spec (o + ib) r), (Nat.leb_spec (o + ib) c); cbn [andb]; try lia. ring.
      * intros l Hl. cbn [opm]. f_equal.
        -- transitivity (val X s2 (o + ib + (r - (o + ib)))%nat l); [reflexivity|]. replace (o + ib + (r - (o + ib)))%nat with r by lia. eapply FX; eauto; lia.
        -- transitivity (val A s2 (o + l)%nat (o + ib + (c - (o + ib)))%nat); [reflexivity|]. replace (o + ib + (c - (o + ib)))%nat with c by lia. destruct F2 as (F2 & _). rewrite F2 by lia. rewrite EF by lia. destruct (Nat.leb_spec (o + ib) (o + l)); [lia|]. reflexivity.
  - intros l Hl. unfold setm; cbn [mem]. destruct (Z.eqb_spec l (ad A pr pc)) as [e|]; auto. exfalso. apply Hl. exists pr, pc. repeat split; auto; lia.
Qed.

(** ** A block, seen in the whole matrix *)
Section B.
Variables (o ib : nat).
Hypothesis Hib : (0 < ib)%nat.
Hypothesis Hoib : (o + ib <= Nat.min m n)%nat.
Hypothesis Hibn : (ib <= nb)%nat.
Let A2 := subv A o m o n.
Let X2 := subv X o m 0 ib.
Let Y2 := subv Y o n 0 ib.
Let tq := Slice.vsub tauv o (o + ib).
Let tp := Slice.vsub tauw o (o + ib).
Lemma ST_start s : ST A2 X2 Y2 tq tp s (m - o) (n - o) ib (val A2 s) (val X2 s) (val Y2 s) (vval tq s) (vval tp s) s.
Proof. constructor; auto. Qed.
Lemma in_sub (V : view) i0 i1 j0 j1 l : (i1 <= nr V)%nat -> (j1 <= nc V)%nat -> inview (subv V i0 i1 j0 j1) l -> inview V l.
Proof. intros H1 H2 (i & j & Hi & Hj & e). cbn [nr nc ad subv] in *. exists (i0 + i)%nat, (j0 + j)%nat. repeat split; auto; lia. Qed.
Lemma in_vsub (V : view) a b l : nc V = 1%nat -> (b <= nr V)%nat -> inview (Slice.vsub V a b) l -> inview V l.
Proof. intros H1 H2 (i & j & Hi & Hj & e). cbn [nr nc ad Slice.vsub] in *. exists (a + i)%nat, 0%nat. repeat split; auto; lia. Qed.
Lemma ST_glob a x y q p s s1 : ST A2 X2 Y2 tq tp s (m - o) (n - o) ib a x y q p s1 ->
  (forall r c, (r < m)%nat -> (c < n)%nat -> val A s1 r c = gm o (val A s) a r c) /\
  (forall r l, (o <= r < m)%nat -> (l < ib)%nat -> val X s1 r l = sh o x r l) /\ (forall r l, (o <= r < n)%nat -> (l < ib)%nat -> val Y s1 r l = sh o y r l) /\
  (forall k, (k < o + ib)%nat -> vval tauv s1 k = gt o q (vval tauv s) k) /\ (forall k, (k < o + ib)%nat -> vval tauw s1 k = gt o p (vval tauw s) k) /\ fr s s1.
Proof.
  intros HS. destruct HA as [HA1 HA2], HX as [HX1 HX2], HY as [HY1 HY2]. split; [|split; [|split; [|split; [|split]]]].
  - intros r c Hr Hc. unfold gm. destruct (Nat.leb_spec o r), (Nat.leb_spec o c); cbn [andb].
    + rewrite <- (st_A _ _ _ _ _ _ _ _ _ _ _ _ _ _ _ HS) by lia. unfold A2, val; cbn [ad subv]. f_equal. f_equal; lia.
    + apply (st_f _ _ _ _ _ _ _ _ _ _ _ _ _ _ _ HS); unfold A2, X2, Y2, tq, tp; intros (i & j & Hi & Hj & e); revert Hi Hj e; cbn [nr nc ad subv Slice.vsub]; intros Hi Hj e; first [apply IA in e; lia | revert e; apply DAX; lia | revert e; apply DAY; lia | revert e; apply DAv; lia | revert e; apply DAw; lia].
    + apply (st_f _ _ _ _ _ _ _ _ _ _ _ _ _ _ _ HS); unfold A2, X2, Y2, tq, tp; intros (i & j & Hi & Hj & e); revert Hi Hj e; cbn [nr nc ad subv Slice.vsub]; intros Hi Hj e; first [apply IA in e; lia | revert e; apply DAX; lia | revert e; apply DAY; lia | revert e; apply DAv; lia | revert e; apply DAw; lia].
    + apply (st_f _ _ _ _ _ _ _ _ _ _ _ _ _ _ _ HS); unfold A2, X2, Y2, tq, tp; intros (i & j & Hi & Hj & e); revert Hi Hj e; cbn [nr nc ad subv Slice.vsub]; intros Hi Hj e; first [apply IA in e; lia | revert e; apply DAX; lia | revert e; apply DAY; lia | revert e; apply DAv; lia | revert e; apply DAw; lia].
  - intros r l Hr Hl. unfold sh. rewrite <- (st_X _ _ _ _ _ _ _ _ _ _ _ _ _ _ _ HS) by lia. unfold X2, val; cbn [ad subv]. f_equal. f_equal. lia.
  - intros r l Hr Hl. unfold sh. rewrite <- (st_Y _ _ _ _ _ _ _ _ _ _ _ _ _ _ _ HS) by lia. unfold Y2, val; cbn [ad subv]. f_equal. f_equal. lia.
  - intros k Hk. unfold gt. destruct (Nat.ltb_spec k o).
    + apply (st_f _ _ _ _ _ _ _ _ _ _ _ _ _ _ _ HS); unfold A2, X2, Y2, tq, tp; intros (i & j & Hi & Hj & e); revert Hi Hj e; cbn [nr nc ad subv Slice.vsub]; intros Hi Hj e; first [apply Iv in e; lia | revert e; apply Dvw; lia | symmetry in e; revert e; first [apply DAv; lia | apply DXv; lia | apply DYv; lia]].
    + rewrite <- (st_q _ _ _ _ _ _ _ _ _ _ _ _ _ _ _ HS) by (unfold tq; cbn; lia). unfold tq, vval, val; cbn [ad Slice.vsub]. f_equal. f_equal. lia.
  - intros k Hk. unfold gt. destruct (Nat.ltb_spec k o).
    + apply (st_f _ _ _ _ _ _ _ _ _ _ _ _ _ _ _ HS); unfold A2, X2, Y2, tq, tp; intros (i & j & Hi & Hj & e); revert Hi Hj e; cbn [nr nc ad subv Slice.vsub]; intros Hi Hj e; first [apply Iw in e; lia | symmetry in e; revert e; first [apply Dvw; lia | apply DAw; lia | apply DXw; lia | apply DYw; lia]].
    + rewrite <- (st_p _ _ _ _ _ _ _ _ _ _ _ _ _ _ _ HS) by (unfold tp; cbn; lia). unfold tp, vval, val; cbn [ad Slice.vsub]. f_equal. f_equal. lia.
  - split; [|apply (st_i _ _ _ _ _ _ _ _ _ _ _ _ _ _ _ HS)]. intros l L1 L2 L3 L4 L5. apply (st_f _ _ _ _ _ _ _ _ _ _ _ _ _ _ _ HS); unfold A2, X2, Y2, tq, tp; intros K.
    + apply L1. revert K. apply in_sub; lia.
    + apply L2. revert K. apply in_sub; lia.
    + apply L3. revert K. apply in_sub; lia.
    + apply L4. revert K. apply in_vsub; lia.
    + apply L5. revert K. apply in_vsub; lia.
Qed.
End B.

(** *** n <= m *)
Section Tall.
Hypothesis Hnm : (n <= m)%nat.
Variable X0 : mat.
Hypothesis Hnorm : (fro2 m n X0 <= bt * bt)%R.
Definition gT (t : nat) (s : state) : Prop := bidinv m n X0 t (val A s) (vval tauv s) (vval tauw s) /\ fr sI s.
Lemma blockT_run i s : (i < n)%nat -> (0 < nb)%nat -> gT i s -> wp (gebrd_block h nb i A tauv tauw X Y) (fun _ s' => gT (Nat.min (i + nb) n) s') noX s.
Proof.
  intros Hi Hb [HB HF]. destruct HA as [HA1 HA2], HX as [HX1 HX2], HY as [HY1 HY2]. unfold gebrd_block. cbv zeta. rewrite HA1, HA2. replace (Nat.min m n) with n by lia.
  set (ib := Nat.min nb (n - i)). assert (Eib : (0 < ib)%nat /\ (i + ib <= n)%nat /\ (ib <= nb)%nat /\ Nat.min (i + nb) n = (i + ib)%nat) by (unfold ib; lia). clearbody ib. destruct Eib as (E1 & E2 & E3 & ->).
  apply wp_bind, wp_slc; [lia..|]. apply wp_bind, wp_slvec; [lia..|]. apply wp_bind, wp_slvec; [lia..|]. apply wp_bind, wp_slc; [lia..|]. apply wp_bind, wp_slc; [lia..|].
  set (A2 := subv A i m i n). set (X2 := subv X i m 0 ib). set (Y2 := subv Y i n 0 ib). set (tq := Slice.vsub tauv i (i + ib)). set (tp := Slice.vsub tauw i (i + ib)).
  apply wp_bind. eapply wp_use with (Q := fun _ s1 => JU A2 X2 Y2 tq tp s (m - i) (n - i) ib i m n X0 (val A s) (vval tauv s) (vval tauw s) ib s1).
  { unfold labrd. change (nr A2) with (m - i)%nat. change (nc A2) with (n - i)%nat. change (nc X2) with (ib - 0)%nat. rewrite Nat.sub_0_r. cbv zeta.
    destruct (Nat.eqb_spec (m - i) 0); [lia|]. destruct (Nat.eqb_spec (n - i) 0); [lia|]. cbn [orb]. destruct (Nat.leb_spec (n - i) (m - i)); [|lia].
    apply wp_bind. apply (wp_forup (fun j s' => JU A2 X2 Y2 tq tp s (m - i) (n - i) ib i m n X0 (val A s) (vval tauv s) (vval tauw s) j s')); [lia| | |].
    - exists (val A2 s), (val X2 s), (val Y2 s), (vval tq s), (vval tp s). split; [constructor; auto|]. rewrite Nat.add_0_r.
      eapply bidinv_ext; [lia|lia| | | |exact HB].
      + intros r c Hr Hc. rewrite vt_0. unfold gm. destruct (Nat.leb_spec i r), (Nat.leb_spec i c); cbn [andb]; auto. unfold A2, val; cbn [ad subv]. f_equal. f_equal; lia.
      + intros k Hk. unfold gt. destruct (Nat.ltb_spec k i); auto. lia.
      + intros k Hk _. unfold gt. destruct (Nat.ltb_spec k i); auto. lia.
    - intros j s1 Hj HJ. apply (upper_run A2 X2 Y2 tq tp s (m - i) (n - i) ib) with (st := st) (bt := bt) (hsm := hsm); auto; try lia; unfold A2, X2, Y2, tq, tp; cbn; try lia; try (dj; fail).
    - intros s1 HJ. apply wp_ret. exact HJ. }
  intros z s1 (a & x & y & q & p & HS & HV). clear z. apply ST_glob in HS; [|lia..]. destruct HS as (L1 & L2 & L3 & L4 & L5 & L6).
  assert (FIN : forall s2, (forall r c, (r < m)%nat -> (c < n)%nat -> val A s2 r c = vt n i ib (gm i (val A s) a) (sh i y) (sh i x) r c) -> (forall l, ~ inview A l -> mem s2 l = mem s1 l) -> imem s2 = imem s1 -> gT (i + ib) s2).
  { intros s2 K1 K2 K3. split.
    - eapply bidinv_ext; [lia|lia| | | |exact HV].
      + intros r c Hr Hc. symmetry. auto.
      + intros k Hk. rewrite <- L4 by lia. symmetry. apply K2. apply nin; [apply disj_sym; auto|lia|lia].
      + intros k Hk _. rewrite <- L5 by lia. symmetry. apply K2. apply nin; [apply disj_sym; auto|lia|lia].
    - eapply fr_trans; [exact HF|]. eapply fr_trans; [exact L6|]. split; auto. }
  destruct (Nat.ltb_spec (i + ib) m), (Nat.ltb_spec (i + ib) n); cbn [andb].
  2-4: apply wp_ret; apply FIN; auto; intros r c Hr Hc; rewrite L1 by auto; unfold vt; destruct (Nat.leb_spec (i + ib) c); [lia|]; rewrite andb_false_r; reflexivity.
  apply wp_bind, wp_assert; [apply Nat.ltb_lt; lia|]. apply wp_bind, wp_slc; [lia..|]. destruct (Nat.leb_spec n m); [|lia].
  assert (Hre : conj (val A s1 (i + ib - 1)%nat (i + ib)%nat) = val A s1 (i + ib - 1)%nat (i + ib)%nat).
  { rewrite L1 by lia. destruct HV as (_ & _ & _ & HV). destruct (HV (i + ib - 1)%nat ltac:(lia)) as [_ HV2]. specialize (HV2 ltac:(lia)). unfold vt in HV2. destruct (Nat.leb_spec (i + ib) (i + ib - 1)); [lia|]. cbn [andb] in HV2. replace (i + ib - 1 + 1)%nat with (i + ib)%nat in HV2 by lia. exact HV2. }
  eapply wp_conseq; [apply (trail_run i ib (i + ib - 1) (i + ib) s1); auto; lia| |auto].
  intros u0 s2 HL. cbv beta zeta in HL. destruct HL as (K1 & K2 & K3). apply FIN; auto. intros r c Hr Hc. rewrite K1 by lia. unfold vt.
  destruct (Nat.leb_spec (i + ib) r), (Nat.leb_spec (i + ib) c); cbn [andb]; auto.
  rewrite L1 by auto. f_equal; [f_equal|]; apply sum_ext; intros l Hl.
  - rewrite L3 by lia. destruct (Nat.eqb_spec r (i + ib - 1)); [lia|]. cbn [andb]. rewrite L1 by lia. unfold qvec. destruct (Nat.ltb_spec r (i + l)); [lia|]. destruct (Nat.eqb_spec r (i + l)); [lia|]. reflexivity.
  - rewrite L2 by lia. f_equal. unfold subvec. destruct (Nat.eqb_spec (i + l) (i + ib - 1)), (Nat.eqb_spec c (i + ib)), (Nat.eqb_spec c (i + l + 1)); cbn [andb]; try lia; try (rewrite conj_1; reflexivity);
      destruct (Nat.ltb_spec (i + l + 1) c), (Nat.ltb_spec c n); try lia; cbn [andb]; unfold ctr; rewrite conj_conj, L1 by lia; reflexivity.
Qed.
Lemma loopT_run fuel i s : (0 < nb)%nat -> (n <= i + fuel)%nat -> gT (Nat.min i n) s -> wp (gebrd_loop fuel h nb i A tauv tauw X Y) (fun _ s' => gT n s') noX s.
Proof.
  revert i s. destruct HA as [HA1 HA2]. induction fuel as [|f IH]; intros i s Hb Hf HG; cbn [gebrd_loop]; rewrite HA1, HA2; replace (Nat.min m n) with n by lia; destruct (Nat.ltb_spec i n); try lia;
    try (apply wp_ret; replace (Nat.min i n) with n in HG by lia; exact HG).
  apply wp_bind. eapply wp_use; [apply blockT_run; auto; replace (Nat.min i n) with i in HG by lia; exact HG|]. intros u0 s1 HL. cbv beta in HL. apply IH; auto. lia.
Qed.
End Tall.
(** *** m <= n *)
Section Wide.
Hypothesis Hmn : (m < n)%nat.
Variable X0 : mat.
Hypothesis Hnorm : (fro2 n m X0 <= bt * bt)%R.
Definition gW (t : nat) (s : state) : Prop := bidinv n m X0 t (ctr (val A s)) (vval tauw s) (vval tauv s) /\ fr sI s.
Lemma blockW_run i s : (i < m)%nat -> (0 < nb)%nat -> gW i s -> wp (gebrd_block h nb i A tauv tauw X Y) (fun _ s' => gW (Nat.min (i + nb) m) s') noX s.
Proof.
  intros Hi Hb [HB HF]. destruct HA as [HA1 HA2], HX as [HX1 HX2], HY as [HY1 HY2]. unfold gebrd_block. cbv zeta. rewrite HA1, HA2. replace (Nat.min m n) with m by lia.
  set (ib := Nat.min nb (m - i)). assert (Eib : (0 < ib)%nat /\ (i + ib <= m)%nat /\ (ib <= nb)%nat /\ Nat.min (i + nb) m = (i + ib)%nat) by (unfold ib; lia). clearbody ib. destruct Eib as (E1 & E2 & E3 & ->).
  apply wp_bind, wp_slc; [lia..|]. apply wp_bind, wp_slvec; [lia..|]. apply wp_bind, wp_slvec; [lia..|]. apply wp_bind, wp_slc; [lia..|]. apply wp_bind, wp_slc; [lia..|].
  set (A2 := subv A i m i n). set (X2 := subv X i m 0 ib). set (Y2 := subv Y i n 0 ib). set (tq := Slice.vsub tauv i (i + ib)). set (tp := Slice.vsub tauw i (i + ib)).
  apply wp_bind. eapply wp_use with (Q := fun _ s1 => JL A2 X2 Y2 tq tp s (m - i) (n - i) ib i n m X0 (val A s) (vval tauw s) (vval tauv s) ib s1).
  { unfold labrd. change (nr A2) with (m - i)%nat. change (nc A2) with (n - i)%nat. change (nc X2) with (ib - 0)%nat. rewrite Nat.sub_0_r. cbv zeta.
    destruct (Nat.eqb_spec (m - i) 0); [lia|]. destruct (Nat.eqb_spec (n - i) 0); [lia|]. cbn [orb]. destruct (Nat.leb_spec (n - i) (m - i)); [lia|].
    apply wp_bind. apply (wp_forup (fun j s' => JL A2 X2 Y2 tq tp s (m - i) (n - i) ib i n m X0 (val A s) (vval tauw s) (vval tauv s) j s')); [lia| | |].
    - exists (val A2 s), (val X2 s), (val Y2 s), (vval tq s), (vval tp s). split; [constructor; auto|]. rewrite Nat.add_0_r.
      eapply bidinv_ext; [lia|lia| | | |exact HB].
      + intros r c Hr Hc. rewrite vt_0. unfold ctr. f_equal. unfold gm. destruct (Nat.leb_spec i r), (Nat.leb_spec i c); cbn [andb]; auto. unfold A2, val; cbn [ad subv]. f_equal. f_equal; lia.
      + intros k Hk. unfold gt. destruct (Nat.ltb_spec k i); auto. lia.
      + intros k Hk _. unfold gt. destruct (Nat.ltb_spec k i); auto. lia.
    - intros j s1 Hj HJ. apply (lower_run A2 X2 Y2 tq tp s (m - i) (n - i) ib) with (st := st) (bt := bt) (hsm := hsm); auto; try lia; unfold A2, X2, Y2, tq, tp; cbn; try lia; try (dj; fail).
    - intros s1 HJ. apply wp_ret. exact HJ. }
  intros z s1 (a & x & y & q & p & HS & HV). clear z. apply ST_glob in HS; [|lia..]. destruct HS as (L1 & L2 & L3 & L4 & L5 & L6).
  assert (FIN : forall s2, (forall r c, (r < m)%nat -> (c < n)%nat -> val A s2 r c = conj (vt m i ib (ctr (gm i (val A s) a)) (sh i x) (sh i y) c r)) -> (forall l, ~ inview A l -> mem s2 l = mem s1 l) -> imem s2 = imem s1 -> gW (i + ib) s2).
  { intros s2 K1 K2 K3. split.
    - eapply bidinv_ext; [lia|lia| | | |exact HV].
      + intros r c Hr Hc. unfold ctr at 2. rewrite K1, conj_conj by auto. reflexivity.
      + intros k Hk. rewrite <- L5 by lia. symmetry. apply K2. apply nin; [apply disj_sym; auto|lia|lia].
      + intros k Hk _. rewrite <- L4 by lia. symmetry. apply K2. apply nin; [apply disj_sym; auto|lia|lia].
    - eapply fr_trans; [exact HF|]. eapply fr_trans; [exact L6|]. split; auto. }
  destruct (Nat.ltb_spec (i + ib) m), (Nat.ltb_spec (i + ib) n); cbn [andb].
  2-4: apply wp_ret; apply FIN; auto; intros r c Hr Hc; rewrite L1 by auto; unfold vt; destruct (Nat.leb_spec (i + ib) r); [lia|]; rewrite andb_false_r; unfold ctr; rewrite conj_conj; reflexivity.
  apply wp_bind, wp_assert; [apply Nat.ltb_lt; lia|]. apply wp_bind, wp_slc; [lia..|]. destruct (Nat.leb_spec n m); [lia|].
  assert (Hre : conj (val A s1 (i + ib)%nat (i + ib - 1)%nat) = val A s1 (i + ib)%nat (i + ib - 1)%nat).
  { rewrite L1 by lia. destruct HV as (_ & _ & _ & HV). destruct (HV (i + ib - 1)%nat ltac:(lia)) as [_ HV2]. specialize (HV2 ltac:(lia)). unfold vt in HV2. destruct (Nat.leb_spec (i + ib) (i + ib - 1)); [lia|]. cbn [andb] in HV2. replace (i + ib - 1 + 1)%nat with (i + ib)%nat in HV2 by lia. unfold ctr in HV2. rewrite conj_conj in HV2. auto. }
  eapply wp_conseq; [apply (trail_run i ib (i + ib) (i + ib - 1) s1); auto; lia| |auto].
  intros u0 s2 HL. cbv beta zeta in HL. destruct HL as (K1 & K2 & K3). apply FIN; auto. intros r c Hr Hc. rewrite K1 by lia. unfold vt.
  destruct (Nat.leb_spec (i + ib) r), (Nat.leb_spec (i + ib) c); cbn [andb]; try (unfold ctr; rewrite conj_conj; apply L1; auto).
  rewrite L1 by auto. rewrite !conj_sub, !sum_conj. change (ctr (gm i (val A s) a) c r) with (conj (gm i (val A s) a r c)). rewrite conj_conj.
  match goal with |- ?u - ?v - ?w = ?u - ?v' - ?w' => assert (J1 : v = w'); [|assert (J2 : w = v'); [|rewrite J1, J2; ring]] end; apply sum_ext; intros l Hl; rewrite conj_mul, ?conj_conj.
  - rewrite L3 by lia. assert (KK : (if ((r =? i + ib) && (i + l =? i + ib - 1))%nat then 1 else val A s1 r (i + l)%nat) = subvec m (ctr (ctr (gm i (val A s) a))) (i + l) r); [|rewrite KK; ring].
    unfold subvec. destruct (Nat.eqb_spec (i + l) (i + ib - 1)), (Nat.eqb_spec r (i + ib)), (Nat.eqb_spec r (i + l + 1)); cbn [andb]; try lia; auto;
      destruct (Nat.ltb_spec (i + l + 1) r), (Nat.ltb_spec r m); try lia; cbn [andb]; unfold ctr; rewrite conj_conj, L1 by lia; reflexivity.
  - rewrite L2 by lia. destruct (Nat.eqb_spec c (i + ib - 1)); [lia|]. rewrite andb_false_r. rewrite L1 by lia. unfold qvec. destruct (Nat.ltb_spec c (i + l)); [lia|]. destruct (Nat.eqb_spec c (i + l)); [lia|]. unfold ctr. rewrite conj_conj. ring.
Qed.
Lemma loopW_run fuel i s : (0 < nb)%nat -> (m <= i + fuel)%nat -> gW (Nat.min i m) s -> wp (gebrd_loop fuel h nb i A tauv tauw X Y) (fun _ s' => gW m s') noX s.
Proof.
  revert i s. destruct HA as [HA1 HA2]. induction fuel as [|f IH]; intros i s Hb Hf HG; cbn [gebrd_loop]; rewrite HA1, HA2; replace (Nat.min m n) with m by lia; destruct (Nat.ltb_spec i m); try lia;
    try (apply wp_ret; replace (Nat.min i m) with m in HG by lia; exact HG).
  apply wp_bind. eapply wp_use; [apply blockW_run; auto; replace (Nat.min i m) with i in HG by lia; exact HG|]. intros u0 s1 HL. cbv beta in HL. apply IH; auto. lia.
Qed.
End Wide.
End G.
End A.
