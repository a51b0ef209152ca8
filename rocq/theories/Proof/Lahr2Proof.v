(** * lahr2: the two stages of a step *)
From Coq Require Import Bool Arith ZArith Lia Reals Lra Ring Field.
From Verif.Core Require Import Scalar Prog View Slice Loops WorkEff RealLaws.
From Verif.Spec Require Import LinAlg Outcome Norms Householder Reduce Parts.
From Verif.Model Require Import Gemm Blas1 Blas2 Blas3 Legacy LaAux Norms Work Householder QGen QFact BlockQ Reduce Gehrd.
From Verif.Proof Require Import SumLemmas Tactics SliceTac LegacyProof PotrfProof BlockAlg LowOps ExactBlas Blas1Proof Blas2Proof TrmvProof GemmProof TrmmProof LaAuxProof LarfProof LarfgProof QRProof QGenProof QFactProof LarftProof LarfbProof ReduceMath ReduceProof GehrdMath GehrdProof.
Local Open Scope T_scope.

Section L.
Context {E : Env} {FL : FieldLaws E} {CL : ConjLaws E} {OL : ROrdLaws E} {QL : EqbLaws E} {XL : CplxLaws E} {RL : RLaws E} {NL : FinLaws E}.
Add Field Tf : fth.

Definition lU (n k : nat) (X : mat) (j r : nat) : T := if ((r =? k + j + 1) && (r <? n))%nat then 1 else if ((k + j + 1 <? r) && (r <? n))%nat then X r j else 0.
Lemma lU_sup n k X j r : (r < k + j + 1 \/ n <= r)%nat -> lU n k X j r = 0.
Proof. intros H. unfold lU. destruct (Nat.eqb_spec r (k + j + 1)), (Nat.ltb_spec (k + j + 1) r), (Nat.ltb_spec r n); cbn [andb]; auto; lia. Qed.
Lemma lU_ext n k X X' j r : (forall q, (k + j + 1 < q < n)%nat -> X q j = X' q j) -> lU n k X j r = lU n k X' j r.
Proof. intros H. unfold lU. destruct (_ && _)%bool; auto. destruct (Nat.ltb_spec (k + j + 1) r), (Nat.ltb_spec r n); cbn [andb]; auto. Qed.

Lemma conj_loop v i s0 (B : Type) (K : M B) (Q : B -> state -> Prop) : nc v = 1%nat -> vinj v -> nr v = i ->
  (forall s, veff v (fun j => conj (vval v s0 j)) s0 s -> wp K Q noX s) ->
  wp ((for_ j in 0 upto i do (x <- rdv v j;; wrv v j (conj x)));; K) Q noX s0.
Proof.
  intros Hy HI Hm HQ. apply wp_bind.
  loop (fun k s => eff v (fun i j => if (i <? k)%nat then conj (vval v s0 i) else vval v s0 i) s0 s) as j s.
  { apply eff_refl_vec; auto. }
  { steps. effext. }
  { apply HQ. apply veff_eff; auto. effext. }
Qed.
Lemma nin_col A i0 i1 j r c : vinj A -> (i1 <= nr A)%nat -> (j < nc A)%nat -> (r < nr A)%nat -> (c < nc A)%nat -> ~ (c = j /\ (i0 <= r < i1)%nat) -> ~ inview (vcol A i0 i1 j) (ad A r c).
Proof. intros HI H1 H2 H3 H4 H5 (p & q & Hp & Hq & e). cbn [nr nc ad vcol subv] in *. apply HI in e; try lia. Qed.

Section S.
Variables (n k nb : nat) (A tau Tm Y : view).
Hypothesis HA : nr A = n /\ nc A = (n - k)%nat.
Hypothesis HT : nr Tm = nb /\ nc Tm = nb.
Hypothesis HY : (n <= nr Y)%nat /\ nc Y = nb.
Hypothesis Ht : (nb <= nr tau)%nat /\ nc tau = 1%nat.
Hypothesis Hnb : (0 < nb)%nat /\ (k + nb < n)%nat.
Hypothesis IA : vinj A.
Hypothesis IT : vinj Tm.
Hypothesis IY : vinj Y.
Hypothesis It : vinj tau.
Hypothesis DAT : disj A Tm.
Hypothesis DAY : disj A Y.
Hypothesis DAt : disj A tau.
Hypothesis DTY : disj Tm Y.
Hypothesis DTt : disj Tm tau.
Hypothesis DYt : disj Y tau.
Ltac dj := let e := fresh "e" in intros ? ? ? ? ? ? ? ? e; cbn [nr nc ad vcol vrow subv Slice.vsub] in *;
  first [ (apply IA in e; lia) | (apply IT in e; lia) | (apply IY in e; lia)
        | (revert e; apply DAT; lia) | (revert e; apply DAY; lia) | (revert e; apply DAt; lia) | (revert e; apply DTY; lia) | (revert e; apply DTt; lia) | (revert e; apply DYt; lia)
        | (symmetry in e; revert e; apply DAT; lia) | (symmetry in e; revert e; apply DAY; lia) | (symmetry in e; revert e; apply DAt; lia) | (symmetry in e; revert e; apply DTY; lia) | (symmetry in e; revert e; apply DTt; lia) | (symmetry in e; revert e; apply DYt; lia) ].

(** ** Bringing column i up to date *)
Section U.
Variables (i : nat) (ei : T) (s1 : state).
Hypothesis Hi : (0 < i < nb)%nat.
Hypothesis H1 : val A s1 (k + i)%nat (i - 1)%nat = 1.
Let u := lU n k (val A s1).
Definition ub1 (r : nat) : T := val A s1 r i - sum i (fun l => val Y s1 r l * conj (u l (k + i)%nat)).
Definition ub2 (r : nat) : T := ub1 r - sum i (fun a => u a r * sum i (fun q => conj (trim Upper NonUnit (val Tm s1) q a) * sum (n - (k + 1)) (fun x => conj (u q (k + 1 + x)%nat) * ub1 (k + 1 + x)%nat))).
Lemma upd_stage : wp (lahr2_update k nb A Tm Y ei i) (fun _ s' =>
  (forall r c, (r < n)%nat -> (c < n - k)%nat -> val A s' r c = if ((c =? i) && (k <? r))%nat then ub2 r else if ((r =? k + i) && (c =? i - 1))%nat then ei else val A s1 r c) /\
  (forall a l, (a < nb)%nat -> (l < i)%nat -> val Tm s' a l = val Tm s1 a l) /\
  (forall l, ~ inview A l -> ~ inview Tm l -> mem s' l = mem s1 l) /\ imem s' = imem s1) noX s1.
Proof.
  destruct HA as [HA1 HA2], HT as [HT1 HT2], HY as [HY1 HY2], Hnb as [Hnb1 Hnb2]. unfold lahr2_update. rewrite HA1. cbv zeta.
  apply wp_bind, wp_slc; [lia..|]. apply wp_bind, wp_slrow; [lia..|]. apply wp_bind, wp_slcol; [lia..|].
  set (Vti := vrow A (k + i) 0 i). set (b := vcol A (k + 1) n i).
  assert (IV : vinj Vti) by (intros p q p' q' K1 K2 K3 K4 e; cbn [nr nc ad vrow subv Vti] in *; apply IA in e; lia).
  assert (Ib : vinj b) by (intros p q p' q' K1 K2 K3 K4 e; cbn [nr nc ad vcol subv b] in *; apply IA in e; lia).
  apply (conj_loop Vti i s1); [reflexivity|auto|cbn; lia|]. intros s2 E2. apply veff_eff in E2; [|reflexivity].
  apply (eff_vrow A (k + i) 0 i (val A s1) _ s1 s1 s2 IA) in E2; [|lia|lia|apply eff_refl].
  assert (F2 : forall r l, (r < nr Y)%nat -> (l < nc Y)%nat -> val Y s2 r l = val Y s1 r l).
  { intros r l Hr Hl. apply E2. apply nin; auto. apply disj_sym; auto. }
  apply wp_bind. eapply wp_use; [apply (gemv_run NoTrans (- one) (subv Y (k + 1) n 0 i) Vti (Sc 1) b s2 (n - (k + 1)) i); cbn [notransb]; [split; cbn; lia|reflexivity|reflexivity|cbn; lia|cbn; lia|lia|auto|unfold b; dj|unfold Vti, b; dj]|].
  intros u0 s3 E3. cbv beta in E3. clear u0. apply veff_eff in E3; [|reflexivity].
  eapply (eff_vcol A (k + 1) n i _ _ s1 s2 s3 IA) in E3; [|lia|lia|exact E2].
  apply (conj_loop Vti i s3); [reflexivity|auto|cbn; lia|]. intros s4 E4. apply veff_eff in E4; [|reflexivity].
  assert (E3' := E3). eapply (eff_vrow A (k + i) 0 i _ _ s1 s3 s4 IA) in E4; [|lia|lia|exact E3].
  assert (E4' : eff A (fun r c => if ((c =? i) && (k <? r))%nat then ub1 r else val A s1 r c) s1 s4).
  { eapply eff_ext; [exact E4|]. intros r c Hr Hc. cbv beta. destruct E2 as (E2 & _), E3' as (E3' & _).
    destruct (inbox_spec (k + i) (S (k + i)) 0 i r c).
    - destruct (Nat.eqb_spec c i); [lia|]. cbn [andb]. change (vval Vti s3 (c - 0)%nat) with (val A s3 (k + i)%nat (0 + (c - 0))%nat). rewrite E3' by lia. replace (0 + (c - 0))%nat with c by lia.
      destruct (inbox_spec (k + 1) n i (S i) (k + i) c); [lia|]. destruct (inbox_spec (k + i) (S (k + i)) 0 i (k + i) c); [|lia].
      change (vval Vti s1 (c - 0)%nat) with (val A s1 (k + i)%nat (0 + (c - 0))%nat). rewrite conj_conj. f_equal; lia.
    - destruct (inbox_spec (k + 1) n i (S i) r c).
      + destruct (Nat.eqb_spec c i); [|lia]. destruct (Nat.ltb_spec k r); [|lia]. cbn [andb]. subst c. rewrite gemv_val_exact. cbn [cval]. unfold mvmul, ub1. cbn [opm].
        rewrite (sum_ext i _ (fun l => val Y s1 r l * conj (u l (k + i)%nat))).
        * change (vval b s2 (r - (k + 1))%nat) with (val A s2 (k + 1 + (r - (k + 1)))%nat i). replace (k + 1 + (r - (k + 1)))%nat with r by lia. rewrite E2 by lia.
          destruct (inbox_spec (k + i) (S (k + i)) 0 i r i); [lia|]. ring.
        * intros l Hl. change (val (subv Y (k + 1) n 0 i) s2 (r - (k + 1))%nat l) with (val Y s2 (k + 1 + (r - (k + 1)))%nat (0 + l)%nat). rewrite F2 by lia.
          replace (k + 1 + (r - (k + 1)))%nat with r by lia. f_equal. change (vval Vti s2 l) with (val A s2 (k + i)%nat (0 + l)%nat). rewrite E2 by lia. destruct (inbox_spec (k + i) (S (k + i)) 0 i (k + i) (0 + l)); [|lia].
          change (vval Vti s1 (0 + l - 0)%nat) with (val A s1 (k + i)%nat (0 + (0 + l - 0))%nat). f_equal. unfold u, lU. destruct (Nat.eqb_spec (k + i) (k + l + 1)), (Nat.ltb_spec (k + i) n), (Nat.ltb_spec (k + l + 1) (k + i)); cbn [andb]; try lia.
          -- rewrite <- H1. f_equal. lia.
          -- f_equal. lia.
      + destruct (inbox_spec (k + i) (S (k + i)) 0 i r c); [lia|]. destruct (Nat.eqb_spec c i), (Nat.ltb_spec k r); cbn [andb]; auto; lia. }
  clear E2 E3 E3' E4 F2. rename E4' into E4.
  apply wp_bind, wp_slvec; [lia|cbn; lia|]. apply wp_bind, wp_slvec; [cbn; lia|cbn; lia|]. apply wp_bind, wp_slc; [lia..|]. apply wp_bind, wp_slc; [cbn; lia..|]. apply wp_bind, wp_slc; [cbn; lia..|]. apply wp_bind, wp_slcol; [lia..|].
  set (V := subv A (k + 1) n 0 i). set (w := vcol Tm 0 i (nb - 1)).
  assert (Iw : vinj w) by (intros p q p' q' K1 K2 K3 K4 e; cbn [nr nc ad vcol subv w] in *; apply IT in e; lia).
  assert (FT : forall a l, (a < nb)%nat -> (l < nb)%nat -> val Tm s4 a l = val Tm s1 a l).
  { intros a l Hr Hl. apply E4. apply nin; [apply disj_sym; auto|lia|lia]. }
  apply (lahr2_upd_run b w (subv V 0 i 0 i) (subv V i (n - (k + 1)) 0 i) (subv Tm 0 i 0 i) (n - (k + 1)) i s4).
  1-5: split; cbn; lia.
  1: lia.
  1-2: assumption.
  1: unfold b, w; dj.
  1-3: split; unfold b, w, V; dj.
  { apply slc_ret; lia. }
  intros s5 B1 B2 B3.
  apply wp_wr; [lia|lia|]. repeat apply Logic.conj.
  - assert (E5 : forall r c, (r < n)%nat -> (c < n - k)%nat -> val A s5 r c = if ((c =? i) && (k <? r))%nat then ub2 r else val A s1 r c).
    { intros r c Hr Hc. destruct E4 as (E4 & _). destruct (Nat.eqb_spec c i), (Nat.ltb_spec k r); cbn [andb].
      - subst c. specialize (B1 (r - (k + 1))%nat ltac:(lia)). change (vval b s5 (r - (k + 1))%nat) with (val A s5 (k + 1 + (r - (k + 1)))%nat i) in B1. replace (k + 1 + (r - (k + 1)))%nat with r in B1 by lia. rewrite B1.
        assert (Ev : forall x a, (x < n - (k + 1))%nat -> (a < i)%nat -> uV (subv V 0 i 0 i) (subv V i (n - (k + 1)) 0 i) i s4 x a = u a (k + 1 + x)%nat).
        { intros x a Hx Ha. assert (EA : forall q, (q < n)%nat -> val A s4 q a = val A s1 q a). { intros q Hq. rewrite E4 by lia. destruct (Nat.eqb_spec a i); [lia|]. reflexivity. }
          unfold uV, u, lU, trim, intri. destruct (Nat.ltb_spec x i).
          - destruct (Nat.eqb_spec x a), (Nat.eqb_spec (k + 1 + x) (k + a + 1)), (Nat.ltb_spec (k + 1 + x) n), (Nat.ltb_spec (k + a + 1) (k + 1 + x)), (Nat.leb_spec a x); cbn [andb]; try lia; auto.
            change (val (subv V 0 i 0 i) s4 x a) with (val A s4 (k + 1 + x)%nat a). apply EA. lia.
          - destruct (Nat.eqb_spec (k + 1 + x) (k + a + 1)), (Nat.ltb_spec (k + 1 + x) n), (Nat.ltb_spec (k + a + 1) (k + 1 + x)); cbn [andb]; try lia.
            change (val (subv V i (n - (k + 1)) 0 i) s4 (x - i)%nat a) with (val A s4 (k + 1 + (i + (x - i)))%nat a). rewrite EA by lia. f_equal. lia. }
        assert (Eb : forall x, (x < n - (k + 1))%nat -> vval b s4 x = ub1 (k + 1 + x)%nat).
        { intros x Hx. change (vval b s4 x) with (val A s4 (k + 1 + x)%nat i). rewrite E4 by lia. rewrite Nat.eqb_refl. destruct (Nat.ltb_spec k (k + 1 + x)); [|lia]. reflexivity. }
        rewrite Eb by lia. unfold ub2. replace (k + 1 + (r - (k + 1)))%nat with r by lia. f_equal. apply sum_ext. intros a Ha. rewrite Ev by lia. f_equal; [f_equal; lia|]. unfold uw2. apply sum_ext. intros q Hq. f_equal.
        { f_equal. unfold trim. destruct (intri _ _ _); destruct (_ =? _)%nat; auto; apply FT; lia. }
        unfold uw1. apply sum_ext. intros x Hx. rewrite Ev by lia. rewrite Eb by lia. auto.
      - transitivity (val A s4 r c); [apply B2; [apply nin_col; auto; lia|apply nin; [unfold w; dj|lia|lia]]|]. rewrite E4 by lia. destruct (Nat.eqb_spec c i), (Nat.ltb_spec k r); cbn [andb]; auto; lia.
      - transitivity (val A s4 r c); [apply B2; [apply nin_col; auto; lia|apply nin; [unfold w; dj|lia|lia]]|]. rewrite E4 by lia. destruct (Nat.eqb_spec c i), (Nat.ltb_spec k r); cbn [andb]; auto; lia.
      - transitivity (val A s4 r c); [apply B2; [apply nin_col; auto; lia|apply nin; [unfold w; dj|lia|lia]]|]. rewrite E4 by lia. destruct (Nat.eqb_spec c i), (Nat.ltb_spec k r); cbn [andb]; auto; lia. }
    intros r c Hr Hc. unfold val, setm; cbn [mem]. destruct (Z.eqb_spec (ad A r c) (ad A (k + i) (i - 1))) as [e|e].
    + apply IA in e; try lia. destruct e as [-> ->]. destruct (Nat.eqb_spec (i - 1) i); [lia|]. rewrite !Nat.eqb_refl. reflexivity.
    + change (mem s5 (ad A r c)) with (val A s5 r c). rewrite E5 by auto. destruct (_ && _)%bool; auto. destruct (Nat.eqb_spec r (k + i)), (Nat.eqb_spec c (i - 1)); cbn [andb]; auto. subst. congruence.
  - intros a l Ha Hl. unfold val at 1, setm; cbn [mem]. destruct (Z.eqb_spec (ad Tm a l) (ad A (k + i) (i - 1))) as [e|e]; [exfalso; symmetry in e; revert e; apply DAT; lia|].
    rewrite <- FT by lia. apply B2; [apply nin; [unfold b; dj|lia|lia]|apply nin_col; auto; lia].
  - intros l K1 K2. unfold setm; cbn [mem]. destruct (Z.eqb_spec l (ad A (k + i) (i - 1))) as [e|e]; [exfalso; apply K1; subst l; exists (k + i)%nat, (i - 1)%nat; repeat split; auto; lia|].
    rewrite B2; [apply E4; auto| |]; intros K; [apply K1|apply K2]; revert K; apply inview_vcol; lia.
  - cbn [imem setm]. rewrite B3. apply E4.
Qed.
End U.

(** ** The reflector of column i, and column i of Y and T *)
Section R.
Variables (h : hconst) (st bt hsm : R).
Hypothesis Hh : hconst_ok h st bt hsm.
Variables (i : nat) (s1 : state).
Hypothesis Hi : (i < nb)%nat.
Hypothesis Hv : (vsq (n - (k + i + 1)) (fun r => val A s1 (k + i + 1 + r)%nat i) <= bt * bt)%R.
Definition vv (v : nat -> T) (x : nat) : T := if (x =? 0)%nat then 1 else v x.
Definition rdl (v : nat -> T) (l : nat) : T := sum (n - (k + i + 1)) (fun x => conj (val A s1 (k + i + 1 + x)%nat l) * vv v x).
Lemma ref_stage : wp (lahr2_reflect h k A tau Tm Y i) (fun ei s' => exists v,
  refc Forward (n - (k + i + 1)) (fun r => val A s1 (k + i + 1 + r)%nat i) (vval tau s' i) v /\ ei = v 0%nat /\
  (forall r c, (r < n)%nat -> (c < n - k)%nat -> val A s' r c = if ((c =? i) && (k + i + 1 <=? r))%nat then vv v (r - (k + i + 1))%nat else val A s1 r c) /\
  (forall j, (j < nr tau)%nat -> j <> i -> vval tau s' j = vval tau s1 j) /\
  (forall a l, (a < nb)%nat -> (l < nb)%nat -> (a <= i)%nat -> val Tm s' a l = if (l =? i)%nat then (if (a <? i)%nat then sum i (fun l => trim Upper NonUnit (val Tm s1) a l * (- vval tau s' i * rdl v l)) else vval tau s' i) else val Tm s1 a l) /\
  (forall r l, (r < n)%nat -> (l < nb)%nat -> val Y s' r l = if ((l =? i) && (k <? r))%nat then vval tau s' i * (sum (n - (k + i + 1)) (fun c => val A s1 r (i + 1 + c)%nat * vv v c) - sum i (fun l => val Y s1 r l * rdl v l)) else val Y s1 r l) /\
  (forall l, ~ inview A l -> ~ inview tau l -> ~ inview Tm l -> ~ inview Y l -> mem s' l = mem s1 l) /\ imem s' = imem s1) noX s1.
Proof.
  destruct HA as [HA1 HA2], HT as [HT1 HT2], HY as [HY1 HY2], Hnb as [Hnb1 Hnb2], Ht as [Ht1 Ht2]. unfold lahr2_reflect. rewrite HA1. cbv zeta.
  apply (fgen_run h st bt hsm Columnwise Forward A tau Hh IA It Ht2 DAt (k + i + 1) n i i s1).
  { unfold dM. lia. } { unfold dN. lia. } { lia. } { exact Hv. }
  intros s2 (G1 & G2 & G3 & G4 & G5). unfold lnv. cbn [xof] in G1, G2. unfold dM, dN in G2. rewrite HA1, HA2 in G2.
  set (a := (k + i + 1)%nat) in *. assert (Ha : a = (k + i + 1)%nat) by reflexivity. clearbody a. set (vw := vcol A a n i).
  set (v := fun r => val A s2 (a + r)%nat i).
  apply wp_bind. unfold rdv at 1. apply wp_rd; [cbn; lia|cbn; lia|]. replace (val vw s2 0 0) with (v 0%nat) by (unfold v; cbn; reflexivity).
  apply wp_bind. unfold wrv. apply wp_wr; [cbn; lia|cbn; lia|]. set (s3 := setm s2 (ad vw 0 0) 1).
  assert (E3 : forall r c, (r < n)%nat -> (c < n - k)%nat -> val A s3 r c = if ((c =? i) && (a <=? r))%nat then vv v (r - a)%nat else val A s1 r c).
  { intros r c Hr Hc. unfold val at 1, s3, setm. cbn [mem]. destruct (Z.eqb_spec (ad A r c) (ad vw 0 0)) as [e|e].
    - cbn [ad vcol vw] in e. apply IA in e; try lia. destruct e as [-> ->]. rewrite Nat.eqb_refl. destruct (Nat.leb_spec a (a + 0)); [|lia]. cbn [andb]. unfold vv. replace (a + 0 - a)%nat with 0%nat by lia. reflexivity.
    - change (mem s2 (ad A r c)) with (val A s2 r c). destruct (Nat.eqb_spec c i), (Nat.leb_spec a r); cbn [andb].
      + unfold vv. destruct (Nat.eqb_spec (r - a) 0) as [e9|e9]; [exfalso; apply e; cbn [ad vcol vw]; f_equal; lia|]. unfold v. subst c. f_equal. lia.
      + apply G2; auto. lia.
      + apply G2; auto.
      + apply G2; auto. }
  assert (N3 : forall l, ~ inview A l -> ~ inview tau l -> mem s3 l = mem s1 l).
  { intros l K1 K2. unfold s3, setm. cbn [mem]. destruct (Z.eqb_spec l (ad vw 0 0)) as [e|e]; [exfalso; apply K1; subst l; exists (a + 0)%nat, i; cbn [ad vw vcol]; repeat split; auto; lia|]. apply G4; auto. }
  assert (T3 : forall j, (j < nr tau)%nat -> vval tau s3 j = vval tau s2 j).
  { intros j Hj. unfold vval, val, s3, setm. cbn [mem]. destruct (Z.eqb_spec (ad tau j 0) (ad vw 0 0)) as [e|e]; [exfalso|reflexivity]. symmetry in e. cbn [ad vw vcol] in e. revert e. apply DAt; lia. }
  assert (I3 : imem s3 = imem s1) by (unfold s3; cbn; auto).
  clearbody s3. clear G4 G5.
  apply wp_bind, wp_slc; [lia..|]. apply wp_bind, wp_slcol; [lia..|].
  assert (FT : forall a l, (a < nb)%nat -> (l < nb)%nat -> val Tm s3 a l = val Tm s1 a l) by (intros p q Hp Hq; apply N3; apply nin; try lia; [apply disj_sym; auto|auto]).
  assert (FY : forall a l, (a < n)%nat -> (l < nb)%nat -> val Y s3 a l = val Y s1 a l) by (intros p q Hp Hq; apply N3; apply nin; try lia; [apply disj_sym; auto|auto]).
  set (y := vcol Y (k + 1) n i). set (t := vcol Tm 0 i i).
  apply (lahr2_ref_run y t (subv A (k + 1) n (i + 1) (n - k)) vw (subv A a n 0 i) (subv Y (k + 1) n 0 i) (subv Tm 0 i 0 i) tau (n - (k + 1)) i (n - a) i (vval tau s2 i) s3).
  { repeat split; [auto|lia|apply T3; lia]. }
  { split; unfold y, t; dj. }
  { split; cbn; lia. } { split; cbn; lia. } { split; cbn; lia. } { split; cbn; lia. } { split; cbn; lia. } { split; cbn; lia. } { split; cbn; lia. } { lia. }
  { intros p q p' q' K1 K2 K3 K4 e; cbn [nr nc ad vcol subv y] in *; apply IY in e; lia. }
  { intros p q p' q' K1 K2 K3 K4 e; cbn [nr nc ad vcol subv t] in *; apply IT in e; lia. }
  { unfold y, t; dj. } { split; unfold y, t; dj. } { split; unfold y, t, vw; dj. } { split; unfold y, t; dj. } { split; unfold y, t; dj. } { split; unfold y, t; dj. }
  { unfold slcol, t. destruct (Nat.leb_spec 0 i), (Nat.leb_spec i (nr Tm)), (Nat.ltb_spec i (nc Tm)); try lia. reflexivity. }
  { apply slc_ret; lia. } { apply slc_ret; lia. } { apply slc_ret; lia. }
  intros s4 B1 B2 B3 B4.
  assert (A4 : forall r c, (r < n)%nat -> (c < n - k)%nat -> val A s4 r c = val A s3 r c).
  { intros r c Hr Hc. apply B3; apply nin; try lia; unfold y, t; dj. }
  assert (t4 : forall j, (j < nr tau)%nat -> vval tau s4 j = vval tau s2 j).
  { intros j Hj. rewrite <- T3 by auto. apply B3; apply nin; try lia; unfold y, t; dj. }
  assert (Ev : forall x, (x < n - a)%nat -> vval vw s3 x = vv v x).
  { intros x Hx. change (vval vw s3 x) with (val A s3 (a + x)%nat i). rewrite E3 by lia. rewrite Nat.eqb_refl. destruct (Nat.leb_spec a (a + x)); [|lia]. cbn [andb]. f_equal. lia. }
  assert (Er : forall l, (l < i)%nat -> rd_ vw (subv A a n 0 i) (n - a) s3 l = rdl v l).
  { intros l Hl. unfold rd_, rdl. rewrite <- Ha. apply sum_ext. intros x Hx. rewrite Ev by auto. f_equal. change (val (subv A a n 0 i) s3 x l) with (val A s3 (a + x)%nat l). rewrite E3 by lia. destruct (Nat.eqb_spec l i); [lia|]. reflexivity. }
  apply wp_bind. apply wp_wr; [lia|lia|]. set (s5 := setm s4 (ad Tm i i) (vval tau s2 i)).
  assert (T5 : forall j, (j < nr tau)%nat -> vval tau s5 j = vval tau s2 j).
  { intros j Hj. rewrite <- t4 by auto. unfold vval, val, s5, setm. cbn [mem]. destruct (Z.eqb_spec (ad tau j 0) (ad Tm i i)) as [e|e]; [exfalso|reflexivity]. symmetry in e. revert e. apply DTt; lia. }
  apply wp_ret. exists v. repeat apply Logic.conj.
  - rewrite T5 by lia. exact G1.
  - reflexivity.
  - intros r c Hr Hc. rewrite <- E3 by auto. rewrite <- A4 by auto. unfold val, s5, setm. cbn [mem]. destruct (Z.eqb_spec (ad A r c) (ad Tm i i)) as [e|e]; [exfalso|reflexivity]. revert e. apply DAT; lia.
  - intros j Hj Hne. rewrite T5 by auto. apply G3; auto.
  - intros p l Hp Hl Hpi. rewrite T5 by lia. unfold val at 1, s5, setm. cbn [mem]. destruct (Z.eqb_spec (ad Tm p l) (ad Tm i i)) as [e|e].
    + apply IT in e; try lia. destruct e as [-> ->]. rewrite Nat.eqb_refl. rewrite Nat.ltb_irrefl. reflexivity.
    + destruct (Nat.eqb_spec l i) as [->|Hne].
      * destruct (Nat.ltb_spec p i); [|exfalso; apply e; f_equal; lia]. specialize (B2 p ltac:(lia)). change (vval t s4 p) with (mem s4 (ad Tm p i)) in B2. rewrite B2. apply sum_ext. intros q Hq.
        rewrite Er by lia. f_equal. unfold trim. destruct (intri _ _ _); destruct (_ =? _)%nat; auto; apply FT; lia.
      * rewrite <- FT by lia. apply B3; [apply nin; [unfold y; dj|lia|lia]|apply nin_col; auto; lia].
  - intros r l Hr Hl. rewrite T5 by lia. unfold val at 1, s5, setm. cbn [mem]. destruct (Z.eqb_spec (ad Y r l) (ad Tm i i)) as [e|e]; [exfalso; symmetry in e; revert e; apply DTY; lia|].
    destruct (Nat.eqb_spec l i) as [->|Hne]; [destruct (Nat.ltb_spec k r)|]; cbn [andb].
    + specialize (B1 (r - (k + 1))%nat ltac:(lia)). change (vval y s4 (r - (k + 1))%nat) with (mem s4 (ad Y (k + 1 + (r - (k + 1))) i)) in B1. replace (k + 1 + (r - (k + 1)))%nat with r in B1 by lia. rewrite B1. f_equal. f_equal.
      * apply sum_ext. intros c Hc. rewrite Ev by auto. f_equal. change (val (subv A (k + 1) n (i + 1) (n - k)) s3 (r - (k + 1)) c) with (val A s3 (k + 1 + (r - (k + 1)))%nat (i + 1 + c)%nat). rewrite E3 by lia. destruct (Nat.eqb_spec (i + 1 + c) i); [lia|]. cbn [andb]. f_equal. lia.
      * apply sum_ext. intros q Hq. rewrite Er by auto. f_equal. change (val (subv Y (k + 1) n 0 i) s3 (r - (k + 1)) q) with (val Y s3 (k + 1 + (r - (k + 1)))%nat q). rewrite FY by lia. f_equal. lia.
    + rewrite <- FY by lia. apply B3; [apply nin_col; auto; lia|apply nin; [unfold t; dj|lia|lia]].
    + rewrite <- FY by lia. apply B3; [apply nin_col; auto; lia|apply nin; [unfold t; dj|lia|lia]].
  - intros l K1 K2 K3 K4. unfold s5, setm. cbn [mem]. destruct (Z.eqb_spec l (ad Tm i i)) as [e|e]; [exfalso; apply K3; subst l; exists i, i; repeat split; auto; lia|]. rewrite B3; [apply N3; auto| |]; intros K; [apply K4|apply K3]; revert K; apply inview_vcol; lia.
  - cbn. rewrite B4. auto.
Qed.
End R.

(** ** The loop *)
Section W.
Variables (h : hconst) (st bt hsm : R).
Hypothesis Hh : hconst_ok h st bt hsm.
Variables (N : nat) (M : mat) (s : state).
Hypothesis HnN : (n <= N)%nat.
Hypothesis HM : forall r c, (r < n)%nat -> (k <= c < n)%nat -> M r c = val A s r (c - k)%nat.
Hypothesis Hfro : (fro2 N N M <= bt * bt)%R.
Definition lu (s1 : state) : nat -> nat -> T := lU n k (val A s1).
Definition lFA (i : nat) (ei : T) (s1 : state) (r c : nat) : T := if ((0 <? i) && (r =? k + i) && (c =? i - 1))%nat then ei else val A s1 r c.
(** columns < i are reduced, columns >= z and rows <= k are as at the start; [F] is the matrix A *)
Definition lpm (i z : nat) (F : mat) (s1 : state) : Prop :=
  (forall r c, (r < n)%nat -> (c < n - k)%nat -> (z <= c \/ r <= k)%nat -> val A s1 r c = val A s r c) /\
  (forall a l, (a <= l < i)%nat -> val Tm s1 a l = gT N (lu s1) (vval tau s1) i a l) /\
  (forall r l, (k < r < n)%nat -> (l < i)%nat -> val Y s1 r l = gY N M (lu s1) (vval tau s1) i r l) /\
  unitary N (gP N (lu s1) (vval tau s1) i) /\
  (forall j r, (j < i)%nat -> (k < r < n)%nat -> (if (r <=? k + j + 1)%nat then F r j else 0) = gG N M (lu s1) (vval tau s1) i r (k + j)%nat) /\
  (forall j, (j < i)%nat -> conj (F (k + j + 1)%nat j) = F (k + j + 1)%nat j) /\
  (forall j, (j < nr tau)%nat -> (i <= j)%nat -> vval tau s1 j = vval tau s j) /\
  (forall l, ~ inview A l -> ~ inview tau l -> ~ inview Tm l -> ~ inview Y l -> mem s1 l = mem s l) /\ imem s1 = imem s.
Definition linv (i : nat) (ei : T) (s1 : state) : Prop := ((0 < i)%nat -> val A s1 (k + i)%nat (i - 1)%nat = 1) /\ lpm i i (lFA i ei s1) s1.
Definition lmid (i : nat) (s1 : state) : Prop := lpm i (S i) (val A s1) s1 /\ forall r, (k < r < n)%nat -> val A s1 r i = gG N M (lu s1) (vval tau s1) i r (k + i)%nat.
(** a change that keeps the first i columns below the subdiagonal, T, Y and tau *)
Lemma lpm_keep i z z' F F' s1 s2 : (i <= nb)%nat -> lpm i z F s1 ->
  (forall r c, (r < n)%nat -> (c < n - k)%nat -> (z' <= c \/ r <= k)%nat -> val A s2 r c = val A s r c) ->
  (forall r c, (c < i)%nat -> (k + c + 1 < r < n)%nat -> val A s2 r c = val A s1 r c) ->
  (forall r c, (c < i)%nat -> (k < r <= k + c + 1)%nat -> F' r c = F r c) ->
  (forall a l, (a <= l < i)%nat -> val Tm s2 a l = val Tm s1 a l) ->
  (forall r l, (k < r < n)%nat -> (l < i)%nat -> val Y s2 r l = val Y s1 r l) ->
  (forall j, (j < nr tau)%nat -> vval tau s2 j = vval tau s1 j) ->
  (forall l, ~ inview A l -> ~ inview tau l -> ~ inview Tm l -> ~ inview Y l -> mem s2 l = mem s1 l) -> imem s2 = imem s1 ->
  lpm i z' F' s2.
Proof.
  intros Hi (P1 & P2 & P3 & P4 & P5 & P6 & P7 & P8 & P9) Q1 Q2 Q3 Q4 Q5 Q6 Q7 Q8. destruct Ht as [Ht1 Ht2].
  assert (XU : forall l r, (l < i)%nat -> (r < N)%nat -> lu s2 l r = lu s1 l r) by (intros l r Hl Hr; apply lU_ext; intros q Hq; apply Q2; lia).
  assert (Xt : forall l, (l < i)%nat -> vval tau s2 l = vval tau s1 l) by (intros l Hl; apply Q6; lia).
  repeat apply Logic.conj; auto.
  - intros a l Hl. rewrite Q4, P2 by auto. symmetry. apply ltm_ext; auto.
  - intros r l Hr Hl. rewrite Q5, P3 by auto. symmetry. apply gY_ext; auto.
  - eapply unitary_ext; [|exact P4]. intros r c Hr Hc. symmetry. apply gP_ext; auto.
  - intros j r Hj Hr. rewrite (gG_ext N M _ (lu s1) _ (vval tau s1)) by (auto; lia). rewrite <- P5 by auto. destruct (Nat.leb_spec r (k + j + 1)); auto. apply Q3; lia.
  - intros j Hj. rewrite Q3 by lia. auto.
  - intros j Hj Hij. rewrite Q6 by auto. auto.
  - intros l K1 K2 K3 K4. rewrite Q7 by auto. auto.
  - congruence.
Qed.
Lemma lG_0 U t r c : (r < N)%nat -> (c < N)%nat -> gG N M U t 0 r c = M r c.
Proof.
  intros Hr Hc. unfold gG, gP. cbn [mprod]. transitivity (mmul N idm (mmul N M idm) r c); [apply mmul_ext; auto; intros; apply ctr_idm|]. rewrite mmul_id_l by auto. apply mmul_id_r; auto.
Qed.
Lemma upd_inv i ei s1 : (i < nb)%nat -> linv i ei s1 -> wp (if (0 <? i)%nat then lahr2_update k nb A Tm Y ei i else ret tt) (fun _ s2 => lmid i s2) noX s1.
Proof.
  intros Hi [L1 L2]. destruct Hnb as [Hnb1 Hnb2]. assert (L2' := L2). destruct L2' as (P1 & P2 & P3 & P4 & P5 & P6 & P7 & P8 & P9).
  destruct (Nat.ltb_spec 0 i) as [Hz|Hz].
  - eapply wp_conseq; [apply (upd_stage i ei s1); auto; lia| |auto]. intros u0 s2 (U1 & U2 & U3 & U4). clear u0. specialize (L1 Hz).
    assert (Et : forall j, (j < nr tau)%nat -> vval tau s2 j = vval tau s1 j).
    { intros j Hj. apply U3; apply nin; try (apply disj_sym; auto); destruct Ht; lia. }
    assert (EY : forall r l, (r < nr Y)%nat -> (l < nc Y)%nat -> val Y s2 r l = val Y s1 r l).
    { intros r l Hr Hl. apply U3; apply nin; try (apply disj_sym; auto); auto. }
    assert (EV : forall r c, (c < i)%nat -> (k + c + 1 < r < n)%nat -> val A s2 r c = val A s1 r c).
    { intros r c Hc Hr. rewrite U1 by lia. destruct (Nat.eqb_spec c i); [lia|]. cbn [andb]. destruct (Nat.eqb_spec r (k + i)), (Nat.eqb_spec c (i - 1)); cbn [andb]; auto; lia. }
    split.
    + apply (lpm_keep i i (S i) (lFA i ei s1) _ s1 s2); auto; try lia.
      * intros r c Hr Hc Hor. rewrite U1 by auto. destruct (Nat.eqb_spec c i), (Nat.ltb_spec k r); cbn [andb]; try lia; (destruct (Nat.eqb_spec r (k + i)), (Nat.eqb_spec c (i - 1)); cbn [andb]; try lia; apply P1; auto; lia).
      * intros r c Hc Hr. rewrite U1 by lia. unfold lFA. destruct (Nat.eqb_spec c i); [lia|]. destruct (Nat.ltb_spec 0 i); [|lia]. cbn [andb]. auto.
      * intros a l Hl. apply U2; lia.
      * intros r l Hr Hl. apply EY; destruct HY; lia.
    + intros r Hr. rewrite U1 by lia. rewrite Nat.eqb_refl. destruct (Nat.ltb_spec k r); [|lia]. cbn [andb].
      assert (XU : forall l x, (l < i)%nat -> (x < N)%nat -> lu s2 l x = lu s1 l x) by (intros l x Hl Hx; apply lU_ext; intros q Hq; apply EV; lia).
      assert (Xt : forall l, (l < i)%nat -> vval tau s2 l = vval tau s1 l) by (intros l Hl; apply Et; destruct Ht; lia).
      rewrite (gG_ext N M _ (lu s1) _ (vval tau s1)) by (auto; lia).
      assert (B1 : forall x, (k < x < n)%nat -> ub1 i s1 x = mmul N M (gP N (lu s1) (vval tau s1) i) x (k + i)%nat).
      { intros x Hx. rewrite gMP by lia. unfold ub1. f_equal.
        - rewrite P1 by lia. rewrite HM by lia. f_equal. lia.
        - apply sum_ext. intros l Hl. rewrite P3 by auto. reflexivity. }
      unfold gG. rewrite gPX by lia. unfold ub2. f_equal; [apply B1; lia|]. apply sum_ext. intros a Ha. f_equal. apply sum_ext. intros q Hq. f_equal.
      * f_equal. unfold trim, intri. destruct (Nat.leb_spec q a); [destruct (_ =? _)%nat; apply P2; lia|]. unfold gT. rewrite ltm_out by lia. destruct (Nat.eqb_spec q a); [lia|reflexivity].
      * rewrite (sum_split_at (k + 1) N) by lia. rewrite (sum_0 (k + 1)) by (intros x Hx; unfold lu; rewrite (lU_sup n k _ q x) by lia; rewrite conj_0; ring).
        rewrite (sum_split_at (n - (k + 1)) (N - (k + 1))) by lia. rewrite (sum_0 (N - (k + 1) - (n - (k + 1)))) by (intros x Hx; unfold lu; rewrite (lU_sup n k _ q) by lia; rewrite conj_0; ring).
        match goal with |- ?L = _ => transitivity (0 + (L + 0)); [ring|] end. f_equal. f_equal. apply sum_ext. intros x Hx. rewrite B1 by lia. reflexivity.
  - apply wp_ret. assert (i = 0)%nat as -> by lia. split.
    + apply (lpm_keep 0 0 1 (lFA 0 ei s1) _ s1 s1); auto; try lia. intros r c Hr Hc Hor. apply P1; auto; lia.
    + intros r Hr. rewrite lG_0 by lia. rewrite HM by lia. rewrite P1 by lia. f_equal. lia.
Qed.
Lemma ref_inv i s1 : (i < nb)%nat -> lmid i s1 -> wp (lahr2_reflect h k A tau Tm Y i) (fun ei s2 => linv (S i) ei s2) noX s1.
Proof.
  intros Hi [(P1 & P2 & P3 & P4 & P5 & P6 & P7 & P8 & P9) PC]. destruct Hnb as [Hnb1 Hnb2], Ht as [Ht1 Ht2].
  set (a := (k + i + 1)%nat). set (u := lu s1) in *. set (t := vval tau s1) in *.
  assert (Hv : (vsq (n - a) (fun r => val A s1 (a + r)%nat i) <= bt * bt)%R).
  { eapply Rle_trans; [|exact Hfro]. rewrite <- (fro2_uni_r N N (gP N u t i) M P4). rewrite <- (fro2_uni N N (ctr (gP N u t i)) _ (unitary_ctr _ _ P4)).
    eapply Rle_trans; [|apply (fro2_col N N _ (k + i)); lia]. eapply Rle_trans; [|apply (vsq_head n N); lia].
    eapply Rle_trans; [|apply (vsq_tail a n); unfold a; lia]. right. apply vsq_ext. intros r Hr. rewrite PC by (unfold a in *; lia). reflexivity. }
  eapply wp_conseq; [apply (ref_stage h st bt hsm Hh i s1 Hi Hv)| |auto].
  intros ei s2 (v & R1 & -> & R2 & R3 & R4 & R5 & R6 & R7). change (k + i + 1)%nat with a in R1.
  assert (EU : forall l r, (l < i)%nat -> (r < N)%nat -> lu s2 l r = u l r).
  { intros l r Hl Hr. apply lU_ext. intros q Hq. rewrite R2 by lia. destruct (Nat.eqb_spec l i); [lia|]. reflexivity. }
  assert (Et : forall l, (l < i)%nat -> vval tau s2 l = t l) by (intros l Hl; apply R3; lia).
  assert (EN : forall r, (r < N)%nat -> lu s2 i r = embw a n (hvec Forward (n - a) v) r).
  { intros r Hr. unfold lu, lU, embw, hvec. cbn [hpos]. destruct (Nat.eqb_spec r (k + i + 1)), (Nat.ltb_spec r n), (Nat.ltb_spec (k + i + 1) r), (Nat.leb_spec a r); cbn [andb]; try (unfold a in *; lia); auto.
    - destruct (Nat.eqb_spec (r - a) 0); [auto|unfold a in *; lia].
    - rewrite R2 by lia. rewrite Nat.eqb_refl. destruct (Nat.leb_spec (k + i + 1) r); [|lia]. cbn [andb]. reflexivity. }
  assert (EV : forall x, (x < n - a)%nat -> vv v x = lu s2 i (a + x)%nat).
  { intros x Hx. rewrite EN by lia. rewrite embw_in by lia. replace (a + x - a)%nat with x by lia. reflexivity. }
  assert (Esum : forall f : nat -> T, sum N (fun c => f c * lu s2 i c) = sum (n - a) (fun x => f (a + x)%nat * vv v x)).
  { intros f. rewrite (sum_ext N _ (fun c => f c * embw a n (hvec Forward (n - a) v) c)) by (intros c Hc; rewrite EN by auto; auto). rewrite embw_sum by (unfold a; lia). reflexivity. }
  destruct (gG_new N n k M (lu s2) (vval tau s2) HnN (lU_sup n k _) i v) as [N1 N2].
  { unfold a in *; lia. }
  { eapply refc_ext; [unfold a; lia|exact R1| |auto]. intros q Hq. cbv beta. change (k + i + 1)%nat with a. rewrite PC by (unfold a in *; lia). apply gG_ext; auto; unfold a in *; try lia; intros; symmetry; auto. }
  { exact EN. }
  { eapply unitary_ext; [|exact P4]. intros r c Hr Hc. symmetry. apply gP_ext; auto. }
  assert (HF : forall r c, (r < n)%nat -> (c <= i)%nat -> lFA (S i) (v 0%nat) s2 r c = if ((c =? i) && (r =? a))%nat then v 0%nat else val A s2 r c).
  { intros r c Hr Hc. unfold lFA. cbn [Nat.ltb Nat.leb andb]. destruct (Nat.eqb_spec r (k + S i)), (Nat.eqb_spec c (S i - 1)), (Nat.eqb_spec c i), (Nat.eqb_spec r a); cbn [andb]; auto; unfold a in *; lia. }
  assert (Rc : conj (v 0%nat) = v 0%nat) by (destruct R1 as [R1 _ _]; exact R1).
  split.
  { intros _. rewrite R2 by lia. replace (S i - 1 =? i)%nat with true by (symmetry; apply Nat.eqb_eq; lia). destruct (Nat.leb_spec (k + i + 1) (k + S i)); [|lia]. cbn [andb]. replace (k + S i - (k + i + 1))%nat with 0%nat by lia. reflexivity. }
  repeat apply Logic.conj; auto.
  - intros r c Hr Hc Hor. rewrite R2 by auto. destruct (Nat.eqb_spec c i), (Nat.leb_spec (k + i + 1) r); cbn [andb]; try lia; apply P1; auto; lia.
  - intros p l Hl. rewrite R4 by lia. unfold gT. destruct (Nat.eqb_spec l i) as [->|Hne].
    + cbn [ltm]. rewrite Nat.eqb_refl. destruct (Nat.ltb_spec p i); [|destruct (Nat.eqb_spec p i); [auto|lia]]. apply sum_ext. intros q Hq. f_equal.
      * unfold trim, intri. rewrite (ltm_ext N _ u _ t) by auto. destruct (Nat.leb_spec p q); [destruct (_ =? _)%nat; apply P2; lia|]. rewrite ltm_out by lia. destruct (Nat.eqb_spec p q); [lia|reflexivity].
      * f_equal. unfold rdl, dotU. rewrite (Esum (fun r => conj (lu s2 q r))). change (k + i + 1)%nat with a. apply sum_ext. intros x Hx. f_equal. rewrite EU by (unfold a in *; lia). f_equal. unfold u, lu, lU. destruct (Nat.eqb_spec (a + x) (k + q + 1)), (Nat.ltb_spec (k + q + 1) (a + x)), (Nat.ltb_spec (a + x) n); cbn [andb]; auto; unfold a in *; lia.
    + rewrite ltm_stable by lia. rewrite (ltm_ext N _ u _ t) by auto. apply P2. lia.
  - intros r l Hr Hl. rewrite R5 by lia. destruct (Nat.eqb_spec l i) as [->|Hne]; cbn [andb].
    + destruct (Nat.ltb_spec k r); [|lia]. rewrite gY_new. f_equal. f_equal.
      * rewrite (Esum (fun c => M r c)). change (k + i + 1)%nat with a. apply sum_ext. intros x Hx. f_equal. rewrite HM by (unfold a in *; lia). rewrite P1 by (unfold a in *; lia). f_equal. unfold a. lia.
      * apply sum_ext. intros q Hq. rewrite P3 by lia. f_equal; [apply gY_ext; auto; intros; symmetry; auto|].
        unfold rdl, dotU. rewrite (Esum (fun r => conj (lu s2 q r))). change (k + i + 1)%nat with a. apply sum_ext. intros x Hx. f_equal. rewrite EU by (unfold a in *; lia). f_equal. unfold u, lu, lU. destruct (Nat.eqb_spec (a + x) (k + q + 1)), (Nat.ltb_spec (k + q + 1) (a + x)), (Nat.ltb_spec (a + x) n); cbn [andb]; auto; unfold a in *; lia.
    + rewrite gY_old by lia. rewrite P3 by lia. apply gY_ext; auto; intros; symmetry; auto.
  - intros j r Hj Hr. destruct (Nat.eq_dec j i) as [->|Hne].
    + rewrite N2 by lia. rewrite HF by lia. rewrite Nat.eqb_refl. cbn [andb]. change (k + i + 1)%nat with a. destruct (Nat.leb_spec a r), (Nat.ltb_spec r n), (Nat.eqb_spec r a), (Nat.leb_spec r a); cbn [andb]; try lia; auto.
      rewrite R2 by lia. rewrite Nat.eqb_refl. destruct (Nat.leb_spec (k + i + 1) r); [unfold a in *; lia|]. cbn [andb]. rewrite PC by auto. apply gG_ext; auto; try lia; intros; symmetry; auto.
    + assert (EG : forall x, (k < x < n)%nat -> gG N M (lu s2) (vval tau s2) i x (k + j)%nat = if (x <=? k + j + 1)%nat then val A s1 x j else 0).
      { intros x Hx. rewrite P5 by lia. apply gG_ext; auto; lia. }
      rewrite (gG_old N n k M (lu s2) (vval tau s2) HnN (lU_sup n k _)); try lia.
      * rewrite EG by lia. destruct (Nat.leb_spec r (k + j + 1)); auto. rewrite HF by lia. destruct (Nat.eqb_spec j i); [lia|]. cbn [andb]. rewrite R2 by lia. destruct (Nat.eqb_spec j i); [lia|]. reflexivity.
      * intros x Hx. rewrite EG by lia. destruct (Nat.leb_spec x (k + j + 1)); [lia|auto].
  - intros j Hj. rewrite HF by lia. destruct (Nat.eqb_spec j i) as [->|Hne]; cbn [andb].
    + change (k + i + 1)%nat with a. rewrite Nat.eqb_refl. auto.
    + rewrite R2 by lia. destruct (Nat.eqb_spec j i); [lia|]. cbn [andb]. apply P6. lia.
  - intros j Hj Hij. rewrite R3 by lia. apply P7; lia.
  - intros l K1 K2 K3 K4. rewrite R6 by auto. auto.
  - congruence.
Qed.
(** ** Rows 0, ..., k of Y *)
Lemma top_run s2 : lpm nb nb (val A s2) s2 -> wp (lahr2_top k nb A Tm Y) (fun _ s' => lpm nb nb (val A s') s' /\
  forall r l, (r < n)%nat -> (l < nb)%nat -> val Y s' r l = gY N M (lu s') (vval tau s') nb r l) noX s2.
Proof.
  intros HL. destruct HA as [HA1 HA2], HT as [HT1 HT2], HY as [HY1 HY2], Hnb as [Hnb1 Hnb2], Ht as [Ht1 Ht2]. unfold lahr2_top. rewrite HA1. cbv zeta.
  assert (HL' := HL). destruct HL' as (P1 & P2 & P3 & P4 & _).
  apply wp_bind, wp_slc; [lia..|]. apply wp_bind, wp_slc; [lia..|]. set (Y1 := subv Y 0 (k + 1) 0 nb).
  assert (IY1 : vinj Y1) by (intros p q p' q' K1 K2 K3 K4 e; cbn [nr nc ad vcol subv Y1] in *; apply IY in e; lia).
  set (u := lu s2).
  (* lacpy *)
  apply wp_bind. eapply wp_use; [apply (lacpy_run General (subv A 0 (k + 1) 1 (nb + 1)) Y1 s2); [reflexivity|cbn; lia|cbn; lia|auto|unfold Y1; dj]|].
  intros u0 s3 E3. cbv beta in E3. clear u0.
  assert (E3' : eff Y1 (fun r a => val A s2 r (1 + a)%nat) s2 s3).
  { destruct E3 as (K1 & K3 & K4). repeat apply Logic.conj; auto.
    - intros r a Hr Ha. rewrite K1; auto. cbn [nr nc subv Y1] in *. cbn [selected]. repeat split; lia.
    - intros l Hl. apply K3. intros (p & q & Hp & Hq & _ & e). apply Hl. exists p, q. auto. }
  clear E3. rename E3' into E3.
  assert (NA : forall s3 F, eff Y1 F s2 s3 -> forall r c, (r < nr A)%nat -> (c < nc A)%nat -> val A s3 r c = val A s2 r c).
  { intros s' F (_ & K & _) r c Hr Hc. apply K. apply nin; auto. unfold Y1; dj. }
  assert (NT : forall s3 F, eff Y1 F s2 s3 -> forall r c, (r < nr Tm)%nat -> (c < nc Tm)%nat -> val Tm s3 r c = val Tm s2 r c).
  { intros s' F (_ & K & _) r c Hr Hc. apply K. apply nin; auto. unfold Y1; dj. }
  (* times V1 *)
  apply wp_bind, wp_slc; [lia..|].
  apply wp_bind. eapply wp_use; [apply (trmm_run Right Lower NoTrans Unit 1 (subv A (k + 1) (k + nb + 1) 0 nb) Y1 s3 (k + 1) nb); try reflexivity; [cbn; lia|cbn; lia|cbn; lia|cbn; lia|auto|unfold Y1; dj]|].
  intros u0 s4 E4. cbv beta in E4. clear u0.
  assert (E4' : eff Y1 (fun r a => sum nb (fun x => val A s2 r (1 + x)%nat * u a (k + 1 + x)%nat)) s2 s4).
  { eapply eff_ext; [apply (eff_trans _ _ _ _ _ _ E3 E4)|]. intros r a Hr Ha. cbn [nr nc subv Y1] in Hr, Ha. cbv beta. unfold mmul. rewrite (sum_ext nb _ (fun x => val A s2 r (1 + x)%nat * u a (k + 1 + x)%nat)); [ring|].
    intros x Hx. cbn [opm]. f_equal; [apply E3; cbn; lia|]. unfold trim, intri, u, lu, lU. destruct (Nat.eqb_spec x a), (Nat.eqb_spec (k + 1 + x) (k + a + 1)), (Nat.ltb_spec (k + 1 + x) n), (Nat.ltb_spec (k + a + 1) (k + 1 + x)), (Nat.leb_spec a x); cbn [andb]; try lia; auto.
    change (val (subv A (k + 1) (k + nb + 1) 0 nb) s3 x a) with (val A s3 (k + 1 + x)%nat a). apply (NA _ _ E3); lia. }
  clear E3 E4. rename E4' into E4.
  (* plus A5 V2 *)
  apply wp_bind. eapply (wp_use _ _ (fun _ s5 => eff Y1 (fun r a => sum N (fun c => M r c * u a c)) s2 s5)).
  { assert (ES : forall r a, (r < k + 1)%nat -> (a < nb)%nat -> sum N (fun c => M r c * u a c) = sum nb (fun x => val A s2 r (1 + x)%nat * u a (k + 1 + x)%nat) + sum (n - (k + nb + 1)) (fun x => val A s2 r (nb + 1 + x)%nat * u a (k + nb + 1 + x)%nat)).
    { intros r a Hr Ha. rewrite (sum_split_at (k + 1) N) by lia. rewrite (sum_0 (k + 1)) by (intros x Hx; unfold u, lu; rewrite (lU_sup n k _ a x) by lia; ring).
      rewrite (sum_split_at nb (N - (k + 1))) by lia. rewrite (sum_split_at (n - (k + nb + 1)) (N - (k + 1) - nb)) by lia. rewrite (sum_0 (N - (k + 1) - nb - (n - (k + nb + 1)))) by (intros x Hx; unfold u, lu; rewrite (lU_sup n k _ a) by lia; ring).
      match goal with |- 0 + (?x + (?y + 0)) = _ => transitivity (x + y); [ring|] end. f_equal; apply sum_ext; intros x Hx.
      - f_equal. rewrite HM by lia. rewrite P1 by lia. f_equal. lia.
      - replace (k + 1 + (nb + x))%nat with (k + nb + 1 + x)%nat by lia. f_equal. rewrite HM by lia. rewrite P1 by lia. f_equal. lia. }
    destruct (Nat.ltb_spec (k + nb + 1) n) as [Hc|Hc].
    - apply wp_bind, wp_slc; [lia..|]. apply wp_bind, wp_slc; [lia..|].
      eapply wp_conseq; [apply (gemm_run NoTrans NoTrans 1 (subv A 0 (k + 1) (nb + 1) (n - k)) (subv A (k + nb + 1) n 0 nb) (Sc 1) Y1 s4 (k + 1) nb (n - (k + nb + 1))); try reflexivity; [split; cbn; lia|split; cbn; lia|cbn; lia|cbn; lia|auto|unfold Y1; dj|unfold Y1; dj]| |auto].
      intros u0 s5 E5. cbv beta in E5. eapply eff_ext; [apply (eff_trans _ _ _ _ _ _ E4 E5)|]. intros r a Hr Ha. cbn [nr nc subv Y1] in Hr, Ha. cbv beta. rewrite gemm_val_exact by reflexivity. rewrite ES by lia. cbn [cval].
      replace (val Y1 s4 r a) with (sum nb (fun x => val A s2 r (1 + x)%nat * u a (k + 1 + x)%nat)) by (symmetry; apply E4; cbn; lia). unfold mmul. cbn [opm].
      rewrite (sum_ext _ _ (fun x => val A s2 r (nb + 1 + x)%nat * u a (k + nb + 1 + x)%nat)); [ring|]. intros x Hx.
      change (val (subv A 0 (k + 1) (nb + 1) (n - k)) s4 r x) with (val A s4 r (nb + 1 + x)%nat). change (val (subv A (k + nb + 1) n 0 nb) s4 x a) with (val A s4 (k + nb + 1 + x)%nat a).
      rewrite !(NA _ _ E4) by lia. f_equal. unfold u, lu, lU. destruct (Nat.eqb_spec (k + nb + 1 + x) (k + a + 1)), (Nat.ltb_spec (k + nb + 1 + x) n), (Nat.ltb_spec (k + a + 1) (k + nb + 1 + x)); cbn [andb]; auto; lia.
    - apply wp_ret. eapply eff_ext; [exact E4|]. intros r a Hr Ha. cbn [nr nc subv Y1] in Hr, Ha. cbv beta. rewrite ES by lia. replace (n - (k + nb + 1))%nat with 0%nat by lia. cbn [sum]. ring. }
  intros u0 s5 E5. cbv beta in E5. clear u0.
  (* times T *)
  eapply wp_conseq; [apply (trmm_run Right Upper NoTrans NonUnit 1 Tm Y1 s5 (k + 1) nb); try reflexivity; [cbn; lia|cbn; lia|cbn; lia|cbn; lia|auto|unfold Y1; dj]| |auto].
  intros u0 s6 E6. cbv beta in E6. clear u0.
  assert (E6' : eff Y1 (fun r l => gY N M u (vval tau s2) nb r l) s2 s6).
  { eapply eff_ext; [apply (eff_trans _ _ _ _ _ _ E5 E6)|]. intros r l Hr Hl. cbn [nr nc subv Y1] in Hr, Hl. cbv beta. unfold mmul, gY. cbn [opm].
    rewrite (sum_ext N _ (fun c => sum nb (fun a => M r c * u a c * gT N u (vval tau s2) nb a l))) by (intros c Hc; rewrite <- sum_scal_l; apply sum_ext; intros; ring). rewrite sum_swap.
    rewrite (sum_ext nb _ (fun a => sum N (fun c => M r c * u a c * gT N u (vval tau s2) nb a l))); [ring|]. intros a Ha. rewrite sum_scal_r. f_equal; [apply E5; cbn; lia|].
    unfold trim, intri. destruct (Nat.leb_spec a l).
    - rewrite <- P2 by lia. rewrite (NT _ _ E5) by lia. destruct (_ =? _)%nat; auto.
    - unfold gT. rewrite ltm_out by lia. destruct (Nat.eqb_spec a l); [lia|auto]. }
  clear E5 E6 E4. rename E6' into E6.
  assert (EA := NA _ _ E6). assert (ET := NT _ _ E6). destruct E6 as (E61 & E62 & E63).
  assert (Et : forall j, (j < nr tau)%nat -> vval tau s6 j = vval tau s2 j).
  { intros j Hj. apply E62. apply nin; [unfold Y1; dj|lia|lia]. }
  assert (EY : forall r l, (k < r < n)%nat -> (l < nb)%nat -> val Y s6 r l = val Y s2 r l).
  { intros r l Hr Hl. apply E62. intros (p & q & Hp & Hq & e). cbn [nr nc ad subv Y1] in *. apply IY in e; lia. }
  split.
  - apply (lpm_keep nb nb nb (val A s2) _ s2 s6); auto.
    + intros r c Hr Hc Hor. rewrite EA by lia. apply P1; auto.
    + intros r c Hc Hr. apply EA; lia.
    + intros r c Hc Hr. apply EA; lia.
    + intros a l Hl. apply ET; lia.
    + intros l K1 K2 K3 K4. apply E62. intros K. apply K4. revert K. apply inview_subv; lia.
  - intros r l Hr Hl. rewrite (gY_ext N M _ u _ (vval tau s2)).
    + destruct (Nat.le_gt_cases r k).
      * change (val Y s6 r l) with (val Y1 s6 r l). apply E61; cbn; lia.
      * rewrite EY by lia. apply P3; lia.
    + intros q x Hq Hx. apply lU_ext. intros y Hy. apply EA; lia.
    + intros q Hq. apply Et. lia.
Qed.
Lemma lahr2_run : runs (lahr2 h k nb A tau Tm Y) s (fun res s' => res = 0%Z /\ lpm nb nb (val A s') s' /\
  forall r l, (r < n)%nat -> (l < nb)%nat -> val Y s' r l = gY N M (lu s') (vval tau s') nb r l).
Proof.
  destruct HA as [HA1 HA2], Hnb as [Hnb1 Hnb2], Ht as [Ht1 Ht2]. unfold runs, lahr2. rewrite HA1. cbv zeta. destruct (Nat.leb_spec n 1); [lia|].
  apply wp_bind, wp_assert; [apply Nat.ltb_lt; auto|]. apply wp_bind. apply (wp_foldup _ (fun i ei s1 => linv i ei s1)).
  - lia.
  - split; [intros K; lia|]. repeat apply Logic.conj; auto; try (intros; lia). apply unitary_id.
  - intros i ei s1 Hi HJ. apply wp_bind. eapply wp_conseq; [apply (upd_inv i ei s1 ltac:(lia) HJ)| |auto]. intros u0 s2 H2. cbv beta in H2. apply ref_inv; auto; lia.
  - intros ei s1 [L1 L2]. apply wp_bind. apply wp_wr; [lia|lia|]. apply wp_bind. eapply wp_conseq; [apply top_run| |auto].
    + assert (L2' := L2). destruct L2' as (P1 & P2 & P3 & P4 & _).
      assert (EA : forall r c, (r < n)%nat -> (c < n - k)%nat -> val A (setm s1 (ad A (k + nb) (nb - 1)) ei) r c = lFA nb ei s1 r c).
      { intros r c Hr Hc. unfold lFA. unfold val at 1, setm. cbn [mem]. destruct (Nat.ltb_spec 0 nb); [|lia]. cbn [andb]. destruct (Z.eqb_spec (ad A r c) (ad A (k + nb) (nb - 1))) as [e|e].
        - apply IA in e; try lia. destruct e as [-> ->]. rewrite !Nat.eqb_refl. reflexivity.
        - destruct (Nat.eqb_spec r (k + nb)), (Nat.eqb_spec c (nb - 1)); cbn [andb]; auto. subst. congruence. }
      apply (lpm_keep nb nb nb (lFA nb ei s1) _ s1 _); auto.
      * intros r c Hr Hc Hor. rewrite EA by auto. unfold lFA. destruct (Nat.eqb_spec r (k + nb)), (Nat.eqb_spec c (nb - 1)); rewrite ?andb_true_r, ?andb_false_r; try (apply P1; auto). lia.
      * intros r c Hc Hr. rewrite EA by lia. unfold lFA. destruct (Nat.eqb_spec r (k + nb)), (Nat.eqb_spec c (nb - 1)); rewrite ?andb_true_r, ?andb_false_r; auto. lia.
      * intros r c Hc Hr. apply EA; lia.
      * intros a l Hl. destruct HT. unfold val, setm. cbn [mem]. destruct (Z.eqb_spec (ad Tm a l) (ad A (k + nb) (nb - 1))) as [e|e]; auto. exfalso. symmetry in e. revert e. apply DAT; lia.
      * intros r l Hr Hl. destruct HY. unfold val, setm. cbn [mem]. destruct (Z.eqb_spec (ad Y r l) (ad A (k + nb) (nb - 1))) as [e|e]; auto. exfalso. symmetry in e. revert e. apply DAY; lia.
      * intros j Hj. unfold vval, val, setm. cbn [mem]. destruct (Z.eqb_spec (ad tau j 0) (ad A (k + nb) (nb - 1))) as [e|e]; auto. exfalso. symmetry in e. revert e. apply DAt; lia.
      * intros l K1 K2 K3 K4. unfold setm. cbn [mem]. destruct (Z.eqb_spec l (ad A (k + nb) (nb - 1))) as [e|e]; auto. exfalso. apply K1. subst l. exists (k + nb)%nat, (nb - 1)%nat. repeat split; auto; lia.
    + intros u0 s3 [H2 H3]. apply wp_ret. auto.
Qed.
End W.
End S.
End L.
