(** * gehrd: one block *)
From Coq Require Import Bool Arith ZArith Lia Reals Lra Ring Field.
From Verif.Core Require Import Scalar Prog View Slice Loops WorkEff RealLaws.
From Verif.Spec Require Import LinAlg Outcome Norms Householder Reduce Parts.
From Verif.Model Require Import Gemm Blas1 Blas2 Blas3 Legacy LaAux Norms Work Householder QGen QFact BlockQ Reduce Gehrd.
From Verif.Proof Require Import SumLemmas Tactics SliceTac LegacyProof PotrfProof BlockAlg LowOps ExactBlas Blas1Proof Blas2Proof TrmvProof GemmProof TrmmProof LaAuxProof LarfProof LarfgProof QRProof QGenProof QFactProof LarftProof LarfbProof ReduceMath ReduceProof HessProof GehrdMath GehrdProof Lahr2Proof BlockFact.
Local Open Scope T_scope.

Section G.
Context {E : Env} {FL : FieldLaws E} {CL : ConjLaws E} {OL : ROrdLaws E} {QL : EqbLaws E} {XL : CplxLaws E} {RL : RLaws E} {NL : FinLaws E}.
Add Field Tf : fth.

Lemma blk_l k q (T' : mat) (U : nat -> nat -> T) (C : mat) r c : (r < q)%nat ->
  mmul q (blkrefl k T' U) C r c = C r c - sum k (fun a => U a r * sum k (fun b => T' a b * sum q (fun x => conj (U b x) * C x c))).
Proof.
  intros Hr. unfold mmul, blkrefl. rewrite (sum_ext q _ (fun x => idm r x * C x c - sum k (fun a => U a r * sum k (fun b => T' a b * (conj (U b x) * C x c))))).
  - rewrite sum_minus. f_equal; [apply (mmul_id_l q C r c Hr)|]. rewrite sum_swap. apply sum_ext. intros a Ha. rewrite sum_scal_l. f_equal. rewrite sum_swap. apply sum_ext. intros b Hb. apply sum_scal_l.
  - intros x Hx. match goal with |- (?a - ?b) * ?z = _ => transitivity (a * z - b * z); [ring|] end. f_equal. rewrite <- sum_scal_r. apply sum_ext. intros a Ha. rewrite <- sum_scal_r, <- sum_scal_l. apply sum_ext. intros b Hb. ring.
Qed.

Section B.
Variables (ihi n nb i : nat) (A tau Y mT : view) (Yt : lmat).
Hypothesis HA : nr A = n /\ nc A = n.
Hypothesis HY : nr Y = n /\ nc Y = nb.
Hypothesis HT : nr mT = nb /\ nc mT = nb.
Hypothesis Hnb : (0 < nb)%nat /\ (i + nb < ihi)%nat /\ (ihi <= n)%nat.
Hypothesis IA : vinj A.
Hypothesis IT : vinj mT.
Hypothesis IY : vinj Y.
Hypothesis DAT : disj A mT.
Hypothesis DAY : disj A Y.
Hypothesis DTY : disj mT Y.
Hypothesis HYt : forall l, inview (lview Yt) l -> inview Y l.
Hypothesis HYw : wkm_ok Yt nb (n - (i + nb)).
Ltac dj := let e := fresh "e" in intros ? ? ? ? ? ? ? ? e; cbn [nr nc ad vcol vrow subv Slice.vsub] in *;
  first [ (apply IA in e; lia) | (apply IT in e; lia) | (apply IY in e; lia)
        | (revert e; apply DAT; lia) | (revert e; apply DAY; lia) | (revert e; apply DTY; lia)
        | (symmetry in e; revert e; apply DAT; lia) | (symmetry in e; revert e; apply DAY; lia) | (symmetry in e; revert e; apply DTY; lia) ].

Variable s2 : state.
Let u := lU ihi i (val (subv A 0 ihi i ihi) s2).
Let X2 := val A s2.
Definition b7 (r c : nat) : T := if (c <? ihi)%nat then val A s2 r c - sum nb (fun l => val Y s2 r l * conj (u l c)) else val A s2 r c.
Definition b8 (r c : nat) : T := b7 r c - sum nb (fun a => u a r * sum nb (fun b => conj (trim Upper NonUnit (val mT s2) b a) * sum (ihi - (i + 1)) (fun x => conj (u b (i + 1 + x)%nat) * b7 (i + 1 + x)%nat c))).
Definition bfin (r c : nat) : T :=
  if (c <? i + nb)%nat then (if ((r <=? i) && (i <? c))%nat then val A s2 r c - sum nb (fun l => val Y s2 r l * conj (u l c)) else val A s2 r c)
  else if (r <? ihi)%nat then (if (i <? r)%nat then b8 r c else b7 r c) else val A s2 r c.
Lemma block_tail : wp ((if (i + nb <? ihi)%nat then
    V2 <- slc (subv A (i + 1) ihi i (i + nb)) (nb - 1) (ihi - i - 1) 0 nb;;
    ei <- rd (subv A (i + 1) ihi i (i + nb)) (nb - 1) (nb - 1);;
    wr (subv A (i + 1) ihi i (i + nb)) (nb - 1) (nb - 1) 1;;
    A3 <- slc A 0 ihi (i + nb) ihi;;
    Y_2 <- slc Y 0 ihi 0 nb;;
    gemm NoTrans ConjTrans (- one) Y_2 V2 (Sc 1) A3;;
    wr (subv A (i + 1) ihi i (i + nb)) (nb - 1) (nb - 1) ei
   else ret tt);;
  V1 <- slc A (i + 1) (i + nb + 1) i (i + nb);;
  trmm Right Lower ConjTrans Unit 1 V1 (subv Y 0 n 0 nb);;
  (for_ j in 0 upto (nb - 1) do (
    A4 <- slcol A 0 (i + 1) (i + j + 1);;
    y <- slcol Y 0 (i + 1) j;;
    axpy (- one) y A4));;
  A5 <- slc A (i + 1) ihi (i + nb) n;;
  larfb_work Left ConjTrans Forward Columnwise (subv A (i + 1) ihi i (i + nb)) (subv mT 0 nb 0 nb) A5 Yt;;
  ret tt) (fun _ s' => (forall r c, (r < n)%nat -> (c < n)%nat -> val A s' r c = bfin r c) /\
    (forall l, ~ inview A l -> ~ inview Y l -> mem s' l = mem s2 l) /\ imem s' = imem s2) noX s2.
Proof.
  destruct HA as [HA1 HA2], HT as [HT1 HT2], HY as [HY1 HY2], Hnb as (Hnb1 & Hnb2 & Hnb3).
  set (V := subv A (i + 1) ihi i (i + nb)).
  destruct (Nat.ltb_spec (i + nb) ihi); [|lia].
  assert (uV : forall x a, (x < ihi - (i + 1))%nat -> (a < x)%nat -> (a < nb)%nat -> u a (i + 1 + x)%nat = X2 (i + 1 + x)%nat (i + a)%nat).
  { intros x a Hx Ha Hb. unfold u, lU. destruct (Nat.eqb_spec (i + 1 + x) (i + a + 1)), (Nat.ltb_spec (i + 1 + x) ihi), (Nat.ltb_spec (i + a + 1) (i + 1 + x)); cbn [andb]; try lia. reflexivity. }
  assert (u1 : forall a, (a < nb)%nat -> u a (i + 1 + a)%nat = 1).
  { intros a Ha. unfold u, lU. destruct (Nat.eqb_spec (i + 1 + a) (i + a + 1)), (Nat.ltb_spec (i + 1 + a) ihi); cbn [andb]; try lia. reflexivity. }
  assert (u0 : forall a c, (c < i + a + 1)%nat -> u a c = 0) by (intros a c Hc; apply lU_sup; auto).
  assert (uo : forall a c, (ihi <= c)%nat -> u a c = 0) by (intros a c Hc; apply lU_sup; auto).
  (* A3 := A3 - Y V^H *)
  apply wp_bind. eapply (wp_use _ _ (fun _ s5 => eff A (fun r c => if ((r <? ihi) && (i + nb <=? c))%nat then b7 r c else X2 r c) s2 s5)).
  { unfold runs. apply wp_bind, wp_slc; [cbn; lia..|]. apply wp_bind, wp_rd; [cbn; lia..|]. apply wp_bind, wp_wr; [cbn; lia..|].
    set (p0 := ad V (nb - 1) (nb - 1)). set (s3 := setm s2 p0 1).
    assert (E3 : eff A (fun r c => if ((r =? i + nb) && (c =? i + nb - 1))%nat then 1 else X2 r c) s2 s3).
    { repeat apply Logic.conj; [intros r c Hr Hc|intros l Hl|reflexivity]; unfold s3, setm, val; cbn [mem].
      - destruct (Z.eqb_spec (ad A r c) p0) as [e|e].
        + unfold p0 in e. cbn [ad subv V] in e. apply IA in e; try lia. destruct e as [-> ->]. destruct (Nat.eqb_spec (i + 1 + (nb - 1)) (i + nb)), (Nat.eqb_spec (i + (nb - 1)) (i + nb - 1)); try lia. reflexivity.
        + destruct (Nat.eqb_spec r (i + nb)), (Nat.eqb_spec c (i + nb - 1)); cbn [andb]; auto. exfalso. apply e. unfold p0. cbn [ad subv V]. f_equal; lia.
      - destruct (Z.eqb_spec l p0) as [e|e]; auto. exfalso. apply Hl. rewrite e. unfold p0. exists (i + 1 + (nb - 1))%nat, (i + (nb - 1))%nat. cbn [ad subv V]. repeat split; auto; lia. }
    apply wp_bind, wp_slc; [lia..|]. apply wp_bind, wp_slc; [lia..|]. apply wp_bind. eapply wp_use.
    { apply (gemm_run NoTrans ConjTrans (- one) (subv Y 0 ihi 0 nb) (subv V (nb - 1) (ihi - i - 1) 0 nb) (Sc 1) (subv A 0 ihi (i + nb) ihi) s3 ihi (ihi - (i + nb)) nb); try reflexivity; [split; cbn; lia|split; cbn; lia|cbn; lia| |unfold V; dj|unfold V; dj].
      intros p q p' q' K1 K2 K3 K4 e; cbn [nr nc ad vcol subv] in *; apply IA in e; lia. }
    intros w0 s4 E4. cbv beta in E4. clear w0. eapply (eff_sub A 0 ihi (i + nb) ihi _ _ s2 s3 s4 IA) in E4; [|lia|lia|exact E3].
    apply wp_wr; [cbn; lia|cbn; lia|]. change (ad V (nb - 1) (nb - 1)) with p0. change (val V s2 (nb - 1) (nb - 1)) with (mem s2 p0).
    destruct E4 as (E41 & E42 & E43), E3 as (E31 & E32 & E33). repeat apply Logic.conj; [intros r c Hr Hc|intros l Hl|cbn; auto].
    - unfold setm, val at 1. cbn [mem]. destruct (Z.eqb_spec (ad A r c) p0) as [e|e].
      + rewrite <- e. unfold p0 in e. cbn [ad subv V] in e. assert (e' := e). apply IA in e'; try lia. destruct e' as [-> ->]. destruct (Nat.leb_spec (i + nb) (i + (nb - 1))); [lia|]. rewrite andb_false_r. reflexivity.
      + change (mem s4 (ad A r c)) with (val A s4 r c). rewrite E41 by auto.
        assert (Ene : ~ (r = (i + nb)%nat /\ c = (i + nb - 1)%nat)). { intros [-> ->]. apply e. unfold p0. cbn [ad subv V]. f_equal; lia. }
        assert (E3' : val A s3 r c = X2 r c). { rewrite E31 by auto. destruct (Nat.eqb_spec r (i + nb)), (Nat.eqb_spec c (i + nb - 1)); cbn [andb]; auto. tauto. }
        destruct (inbox_spec 0 ihi (i + nb) ihi r c).
        * destruct (Nat.ltb_spec r ihi), (Nat.leb_spec (i + nb) c); try lia. cbn [andb]. unfold b7. destruct (Nat.ltb_spec c ihi); [|lia]. rewrite gemm_val_exact by reflexivity. cbn [cval]. unfold mmul. cbn [opm].
          change (val (subv A 0 ihi (i + nb) ihi) s3 (r - 0) (c - (i + nb))) with (val A s3 (0 + (r - 0))%nat (i + nb + (c - (i + nb)))%nat). replace (i + nb + (c - (i + nb)))%nat with c by lia. replace (0 + (r - 0))%nat with r by lia. rewrite E3'.
          rewrite (sum_ext nb _ (fun l => val Y s2 r l * conj (u l c))); [unfold X2; ring|]. intros l Hl. f_equal.
          -- change (val (subv Y 0 ihi 0 nb) s3 (r - 0) l) with (val Y s3 (0 + (r - 0))%nat l). replace (0 + (r - 0))%nat with r by lia. apply E32. apply nin; [dj|lia|lia].
          -- f_equal. change (val (subv V (nb - 1) (ihi - i - 1) 0 nb) s3 (c - (i + nb)) l) with (val A s3 (i + 1 + (nb - 1 + (c - (i + nb))))%nat (i + l)%nat). replace (i + 1 + (nb - 1 + (c - (i + nb))))%nat with c by lia. rewrite E31 by lia.
             destruct (Nat.eqb_spec c (i + nb)), (Nat.eqb_spec (i + l) (i + nb - 1)); cbn [andb].
             ++ replace c with (i + 1 + l)%nat by lia. rewrite u1; auto.
             ++ replace c with (i + 1 + (c - i - 1))%nat by lia. rewrite uV by lia. auto.
             ++ replace c with (i + 1 + (c - i - 1))%nat by lia. rewrite uV by lia. auto.
             ++ replace c with (i + 1 + (c - i - 1))%nat by lia. rewrite uV by lia. auto.
        * transitivity (val A s3 r c); [symmetry; apply E31; auto|]. rewrite E3'. destruct (Nat.ltb_spec r ihi), (Nat.leb_spec (i + nb) c); cbn [andb]; auto. unfold b7. destruct (Nat.ltb_spec c ihi); [lia|auto].
    - unfold setm. cbn [mem]. destruct (Z.eqb_spec l p0) as [e|e]; [rewrite e; auto|]. apply E42. auto. }
  intros w0 s5 E5. cbv beta in E5. clear w0.
  (* Y := Y V1^H *)
  apply wp_bind, wp_slc; [lia..|]. apply wp_bind. eapply wp_use.
  { apply (trmm_run Right Lower ConjTrans Unit 1 (subv A (i + 1) (i + nb + 1) i (i + nb)) (subv Y 0 n 0 nb) s5 n nb); try reflexivity; [cbn; lia|cbn; lia|cbn; lia|cbn; lia| |dj].
    intros p q p' q' K1 K2 K3 K4 e; cbn [nr nc ad vcol subv] in *; apply IY in e; lia. }
  intros w0 s6 E6. cbv beta in E6. clear w0.
  assert (Y5 : forall r l, (r < n)%nat -> (l < nb)%nat -> val Y s5 r l = val Y s2 r l) by (intros r l Hr Hl; apply E5; apply nin; [dj|lia|lia]).
  assert (Y6 : forall r j, (r < n)%nat -> (j < nb)%nat -> val Y s6 r j = sum nb (fun l => val Y s2 r l * conj (u l (i + 1 + j)%nat))).
  { intros r j Hr Hj. destruct E6 as (E6 & _). change (val Y s6 r j) with (val (subv Y 0 n 0 nb) s6 r j). rewrite E6 by (cbn; lia). unfold mmul. cbn [opm].
    rewrite (sum_ext nb _ (fun l => val Y s2 r l * conj (u l (i + 1 + j)%nat))); [ring|]. intros l Hl. f_equal; [apply Y5; auto|]. f_equal. unfold trim, intri. destruct (Nat.eqb_spec j l) as [->|Hne]; [rewrite u1; auto|].
    destruct (Nat.leb_spec l j).
    - rewrite uV by lia. change (val (subv A (i + 1) (i + nb + 1) i (i + nb)) s5 j l) with (val A s5 (i + 1 + j)%nat (i + l)%nat). destruct E5 as (E5 & _). rewrite E5 by lia. destruct (Nat.leb_spec (i + nb) (i + l)); [lia|]. rewrite andb_false_r. auto.
    - rewrite u0 by lia. auto. }
  assert (A6 : forall r c, (r < n)%nat -> (c < n)%nat -> val A s6 r c = val A s5 r c).
  { intros r c Hr Hc. destruct E6 as (_ & E6 & _). apply E6. apply nin; [dj|lia|lia]. }
  (* rows 0..i *)
  apply wp_bind.
  set (F := fun (m r c : nat) => if ((r <? i + 1) && (i + 1 <=? c) && (c <? i + 1 + m))%nat then X2 r c - sum nb (fun l => val Y s2 r l * conj (u l c)) else if ((r <? ihi) && (i + nb <=? c))%nat then b7 r c else X2 r c).
  apply (wp_forup (fun m s7 => eff A (F m) s6 s7)).
  { lia. }
  { repeat apply Logic.conj; auto. intros r c Hr Hc. rewrite A6 by lia. destruct E5 as (E5 & _). rewrite E5 by auto. unfold F. destruct (Nat.leb_spec (i + 1) c), (Nat.ltb_spec c (i + 1 + 0)); try lia; rewrite ?andb_false_r, ?andb_true_r; auto. }
  { intros j s7 Hj HE7. apply wp_bind, wp_slcol; [lia..|]. apply wp_bind, wp_slcol; [lia..|].
    assert (Y7 : forall r, (r < n)%nat -> val Y s7 r j = val Y s6 r j) by (intros r Hr; apply HE7; apply nin; [dj|lia|lia]).
    eapply wp_conseq; [apply (axpy_run (- one) (vcol Y 0 (i + 1) j) (vcol A 0 (i + 1) (i + j + 1)) s7); [reflexivity|reflexivity|cbn; lia| |dj]| |auto].
    - intros p q p' q' K1 K2 K3 K4 e; cbn [nr nc ad vcol subv] in *; apply IA in e; lia.
    - intros w0 s8 E8. cbv beta in E8. apply veff_eff in E8; [|reflexivity]. assert (HE7' := HE7). eapply (eff_vcol A 0 (i + 1) (i + j + 1) _ _ s6 s7 s8 IA) in E8; [|lia|lia|exact HE7]. eapply eff_ext; [exact E8|]. intros r c Hr Hc. cbv beta.
      destruct (inbox_spec 0 (i + 1) (i + j + 1) (S (i + j + 1)) r c).
      + cbn [nr vcol]. destruct (Nat.ltb_spec (r - 0) (i + 1 - 0)); [|lia]. change (vval (vcol A 0 (i + 1) (i + j + 1)) s7 (r - 0)) with (val A s7 (0 + (r - 0))%nat (i + j + 1)%nat). change (vval (vcol Y 0 (i + 1) j) s7 (r - 0)) with (val Y s7 (0 + (r - 0))%nat j). replace (0 + (r - 0))%nat with r by lia.
        destruct HE7' as (HE7' & _). rewrite HE7' by lia. rewrite Y7 by lia. rewrite Y6 by lia. unfold F. replace c with (i + j + 1)%nat by lia. replace (i + 1 + j)%nat with (i + j + 1)%nat by lia.
        destruct (Nat.ltb_spec r (i + 1)), (Nat.leb_spec (i + 1) (i + j + 1)), (Nat.ltb_spec (i + j + 1) (i + j + 1)), (Nat.ltb_spec (i + j + 1) (i + 1 + S j)), (Nat.leb_spec (i + nb) (i + j + 1)); try lia. cbn [andb]. rewrite ?andb_false_r. ring.
      + unfold F. destruct (Nat.ltb_spec r (i + 1)), (Nat.leb_spec (i + 1) c), (Nat.ltb_spec c (i + 1 + j)), (Nat.ltb_spec c (i + 1 + S j)); cbn [andb]; auto; lia. }
  intros s7 E7. cbv beta in E7.
  (* larfb *)
  apply wp_bind, wp_slc; [lia..|]. apply wp_bind. eapply wp_use.
  { apply (larfb_work_run Left ConjTrans Forward Columnwise V (subv mT 0 nb 0 nb) (subv A (i + 1) ihi (i + nb) n) Yt s7).
    - auto.
    - split; cbn; lia.
    - reflexivity.
    - cbn; lia.
    - intros p q p' q' K1 K2 K3 K4 e; cbn [nr nc ad vcol subv] in *; apply IA in e; lia.
    - unfold V; dj.
    - dj.
    - right. right. right. cbn [sel nr nc subv]. rewrite Nat.sub_0_r. exact HYw.
    - eapply disj_inc; [| |exact DAY]; [intros l; apply inview_subv; lia|exact HYt].
    - eapply disj_inc; [| |exact DTY]; [intros l; apply inview_subv; lia|exact HYt].
    - eapply disj_inc; [| |exact DAY]; [intros l; apply inview_subv; lia|exact HYt]. }
  intros w0 s8 (_ & E8). cbv beta in E8. clear w0. apply wp_ret.
  assert (HF : forall r c, (i + nb <= c)%nat -> (r < ihi)%nat -> F (nb - 1)%nat r c = b7 r c).
  { intros r c Hc Hr. unfold F. destruct (Nat.ltb_spec c (i + 1 + (nb - 1))); [lia|]. rewrite andb_false_r. destruct (Nat.ltb_spec r ihi), (Nat.leb_spec (i + nb) c); try lia. reflexivity. }
  assert (HFV : forall x a, (x < ihi - (i + 1))%nat -> (a < nb)%nat -> val A s7 (i + 1 + x)%nat (i + a)%nat = X2 (i + 1 + x)%nat (i + a)%nat).
  { intros x a Hx Ha. destruct E7 as (E7 & _). rewrite E7 by lia. unfold F. destruct (Nat.ltb_spec (i + 1 + x) (i + 1)), (Nat.leb_spec (i + nb) (i + a)); try lia. rewrite andb_false_r. reflexivity. }
  assert (HT7 : forall a b, (a < nb)%nat -> (b < nb)%nat -> val mT s7 a b = val mT s2 a b).
  { intros a b Ha Hb. transitivity (val mT s6 a b); [apply E7; apply nin; [dj|lia|lia]|]. transitivity (val mT s5 a b); [|apply E5; apply nin; [dj|lia|lia]]. destruct E6 as (_ & E6 & _). apply E6. apply nin; [dj|lia|lia]. }
  assert (NY : forall r c, (r < n)%nat -> (c < n)%nat -> ~ inview (lview Yt) (ad A r c)).
  { intros r c Hr Hc Hl. apply HYt in Hl. revert Hl. apply nin; [auto|lia|lia]. }
  destruct E8 as (E81 & E82 & E83). repeat apply Logic.conj.
  - intros r c Hr Hc. unfold bfin.
    assert (Kout : ((r <? i + 1) || (ihi <=? r) || (c <? i + nb) = true)%nat -> val A s8 r c = F (nb - 1)%nat r c).
    { intros Ho. destruct E7 as (E7 & _). rewrite <- E7 by lia. apply E82; [|apply NY; auto]. intros (p & q & Hp & Hq & e). cbn [nr nc ad subv] in *. apply IA in e; try lia. destruct (Nat.ltb_spec r (i + 1)), (Nat.leb_spec ihi r), (Nat.ltb_spec c (i + nb)); try discriminate; lia. }
    destruct (Nat.ltb_spec c (i + nb)).
    + rewrite Kout by (rewrite !orb_true_r; auto). unfold F. destruct (Nat.leb_spec (i + nb) c); [lia|]. rewrite andb_false_r. destruct (Nat.ltb_spec r (i + 1)), (Nat.leb_spec r i), (Nat.leb_spec (i + 1) c), (Nat.ltb_spec i c), (Nat.ltb_spec c (i + 1 + (nb - 1))); cbn [andb]; try lia; reflexivity.
    + destruct (Nat.ltb_spec r ihi); [destruct (Nat.ltb_spec i r)|].
      * replace (val A s8 r c) with (val (subv A (i + 1) ihi (i + nb) n) s8 (r - (i + 1)) (c - (i + nb))) by (change (val A s8 (i + 1 + (r - (i + 1)))%nat (i + nb + (c - (i + nb)))%nat = val A s8 r c); f_equal; lia).
        rewrite E81 by (cbn; lia). unfold rapply. cbn [sel nr nc subv]. rewrite blk_l by lia. rewrite Nat.sub_0_r.
        assert (EX : forall x, (x < ihi - (i + 1))%nat -> val (subv A (i + 1) ihi (i + nb) n) s7 x (c - (i + nb)) = b7 (i + 1 + x)%nat c).
        { intros x Hx. rewrite <- HF by lia. change (val (subv A (i + 1) ihi (i + nb) n) s7 x (c - (i + nb))) with (val A s7 (i + 1 + x)%nat (i + nb + (c - (i + nb)))%nat). replace (i + nb + (c - (i + nb)))%nat with c by lia. apply E7; lia. }
        assert (EV : forall x a, (x < ihi - (i + 1))%nat -> (a < nb)%nat -> rvec Forward Columnwise (ihi - (i + 1)) nb (val V s7) a x = u a (i + 1 + x)%nat).
        { intros x a Hx Ha. unfold rvec. cbn [rpos]. destruct (Nat.eqb_spec x a) as [->|]; [rewrite u1; auto|]. destruct (Nat.ltb_spec x a); [rewrite u0 by lia; auto|]. rewrite uV by lia. change (val V s7 x a) with (val A s7 (i + 1 + x)%nat (i + a)%nat). apply HFV; auto. }
        unfold b8. rewrite EX by lia. replace (i + 1 + (r - (i + 1)))%nat with r by lia. f_equal. apply sum_ext. intros a Ha. rewrite EV by lia. replace (i + 1 + (r - (i + 1)))%nat with r by lia. f_equal. apply sum_ext. intros b Hb. f_equal.
        -- cbn [opm]. f_equal. unfold trim. cbn [tupl]. destruct (intri _ _ _), (_ =? _)%nat; auto; apply HT7; auto.
        -- apply sum_ext. intros x Hx. rewrite EV, EX by auto. reflexivity.
      * rewrite Kout by (replace (r <? i + 1)%nat with true by (symmetry; apply Nat.ltb_lt; lia); auto). apply HF; auto.
      * rewrite Kout by (replace (ihi <=? r)%nat with true by (symmetry; apply Nat.leb_le; lia); rewrite orb_true_r; auto). unfold F. destruct (Nat.ltb_spec r (i + 1)), (Nat.ltb_spec r ihi); try lia. reflexivity.
  - intros l K1 K2. rewrite E82.
    + destruct E7 as (_ & E7 & _). rewrite E7 by auto. destruct E6 as (_ & E6 & _). rewrite E6 by (intros K; apply K2; revert K; apply inview_subv; lia). apply E5; auto.
    + intros K. apply K1. revert K. apply inview_subv; lia.
    + intros K. apply K2. auto.
  - destruct E7 as (_ & _ & E7), E6 as (_ & _ & E6), E5 as (_ & _ & E5). congruence.
Qed.
End B.

(** ** The invariant of the unblocked reduction is kept by a block *)
Section I.
Variables (h : hconst) (st bt hsm : R) (ilo ihi n nb : nat) (A tau Y mT : view) (Yt work : lmat) (s : state).
Hypothesis Hh : hconst_ok h st bt hsm.
Hypothesis HA : nr A = n /\ nc A = n.
Hypothesis HI : vinj A.
Hypothesis HIt : vinj tau.
Hypothesis Ht1 : nc tau = 1%nat.
Hypothesis Htl : (ihi <= nr tau)%nat.
Hypothesis HD : disj A tau.
Hypothesis HwA : disj (lview work) A.
Hypothesis Hwt : disj (lview work) tau.
Hypothesis Hihi : (0 < ihi <= n)%nat.
Hypothesis Hin : hess_input n ilo ihi (val A s).
Hypothesis Hnorm : (fro2 n n (val A s) <= bt * bt)%R.
Hypothesis Hnb : (0 < nb)%nat.
Hypothesis HY : nr Y = n /\ nc Y = nb.
Hypothesis HT : nr mT = nb /\ nc mT = nb.
Hypothesis IT : vinj mT.
Hypothesis IY : vinj Y.
Hypothesis DTY : disj mT Y.
Hypothesis WY : forall l, inview Y l -> inview (lview work) l.
Hypothesis WT : forall l, inview mT l -> inview (lview work) l.
Hypothesis HYt : forall l, inview (lview Yt) l -> inview Y l.
Hypothesis HYw : forall d, (d <= n)%nat -> wkm_ok Yt nb d.
Let DAY : disj A Y. Proof. apply disj_sym. eapply disj_inc; [| |exact HwA]; auto. Qed.
Let DAT : disj A mT. Proof. apply disj_sym. eapply disj_inc; [| |exact HwA]; auto. Qed.
Let DYt : disj Y tau. Proof. eapply disj_inc; [| |exact Hwt]; auto. Qed.
Let DTt : disj mT tau. Proof. eapply disj_inc; [| |exact Hwt]; auto. Qed.
Ltac dj := let e := fresh "e" in intros ? ? ? ? ? ? ? ? e; cbn [nr nc ad vcol vrow subv Slice.vsub] in *;
  first [ (revert e; apply DAT; lia) | (revert e; apply DAY; lia) | (revert e; apply DTY; lia) | (revert e; apply HD; lia) | (revert e; apply DYt; lia) | (revert e; apply DTt; lia)
        | (symmetry in e; revert e; apply DAT; lia) | (symmetry in e; revert e; apply DAY; lia) | (symmetry in e; revert e; apply DTY; lia) | (symmetry in e; revert e; apply HD; lia) | (symmetry in e; revert e; apply DYt; lia) | (symmetry in e; revert e; apply DTt; lia) ].
Lemma block_run t s1 : let i := (ilo + t)%nat in (i + nb < ihi)%nat -> hinv ilo ihi n A tau work s t s1 ->
  wp (gehrd_block h ihi nb i A tau Y mT Yt) (fun _ s' => hinv ilo ihi n A tau work s (t + nb) s') noX s1.
Proof.
  intros i Hib (I1 & I2 & I3 & I4 & I5 & I6 & I7 & I8). assert (Hi : i = (ilo + t)%nat) by reflexivity. clearbody i.
  destruct HA as [HA1 HA2], HY as [HY1 HY2], HT as [HT1 HT2].
  unfold gehrd_block. rewrite HA2. cbv zeta. replace (Nat.min nb (ihi - i - 1)) with nb by lia.
  apply wp_bind, wp_slc; [lia..|]. apply wp_bind, wp_slc; [lia..|]. apply wp_bind, wp_slvec; [lia..|]. apply wp_bind, wp_slc; [lia..|]. apply wp_bind, wp_slc; [lia..|].
  set (A2 := subv A 0 ihi i ihi). set (tau2 := Slice.vsub tau i ihi). set (M := masked (hel ilo ihi t) (val A s1)).
  assert (HMge : forall r c, (i <= c)%nat -> M r c = val A s1 r c). { intros r c Hc. unfold M, masked, hel. destruct (Nat.ltb_spec c (ilo + t)); [lia|]. rewrite andb_false_r. reflexivity. }
  apply wp_bind. eapply wp_use.
  { apply (lahr2_run ihi i nb A2 tau2 (subv mT 0 nb 0 nb) (subv Y 0 n 0 nb)) with (N := n) (M := M) (st := st) (bt := bt) (hsm := hsm); auto.
    - split; cbn; lia.
    - split; cbn; lia.
    - split; cbn; lia.
    - split; cbn; lia.
    - intros p q p' q' K1 K2 K3 K4 e; cbn [nr nc ad vcol subv A2] in *; apply HI in e; lia.
    - intros p q p' q' K1 K2 K3 K4 e; cbn [nr nc ad vcol subv] in *; apply IT in e; lia.
    - intros p q p' q' K1 K2 K3 K4 e; cbn [nr nc ad vcol subv] in *; apply IY in e; lia.
    - intros p q p' q' K1 K2 K3 K4 e; cbn [nr nc ad vcol Slice.vsub tau2] in *; apply HIt in e; lia.
    - unfold A2; dj.
    - unfold A2; dj.
    - unfold A2, tau2; dj.
    - dj.
    - unfold tau2; dj.
    - unfold tau2; dj.
    - lia.
    - intros r c Hr Hc. rewrite HMge by lia. change (val A2 s1 r (c - i)%nat) with (val A s1 r (i + (c - i))%nat). f_equal. lia.
    - eapply Rle_trans; [|exact Hnorm]. rewrite <- (two_sided_fro n n _ _ _ _ I1 I1 I2). right. reflexivity. }
  intros w0 s2 (_ & (P1 & P2 & P3 & P4 & P5 & P6 & P7 & P8 & P9) & PY). clear w0.
  set (u := lu ihi i A2 s2) in *. set (tv := vval tau2 s2) in *.
  (* what lahr2 leaves alone *)
  assert (X2 : forall r c, (r < n)%nat -> (c < n)%nat -> (ihi <= r \/ r <= i \/ c < i \/ i + nb <= c)%nat -> val A s2 r c = val A s1 r c).
  { intros r c Hr Hc Ho. assert (Hcase : (ihi <= r \/ c < i \/ ihi <= c)%nat \/ (r < ihi /\ i <= c < ihi /\ (nb <= c - i \/ r <= i))%nat) by lia. destruct Hcase as [Hc1|Hc1].
    - apply P8.
      + intros (p & q & Hp & Hq & e). cbn [nr nc ad subv A2] in *. apply HI in e; lia.
      + apply nin; [unfold tau2; dj|lia|lia].
      + apply nin; [dj|lia|lia].
      + apply nin; [dj|lia|lia].
    - specialize (P1 r (c - i)%nat ltac:(lia) ltac:(lia) ltac:(lia)). change (val A2 s2 r (c - i)%nat) with (val A s2 r (i + (c - i))%nat) in P1. change (val A2 s1 r (c - i)%nat) with (val A s1 r (i + (c - i))%nat) in P1. replace (i + (c - i))%nat with c in P1 by lia. exact P1. }
  assert (t2 : forall j, (j < nr tau)%nat -> ~ (i <= j < i + nb)%nat -> vval tau s2 j = vval tau s1 j).
  { intros j Hj Ho. destruct (Nat.lt_ge_cases j i), (Nat.lt_ge_cases j ihi).
    - apply P8; [apply nin; [unfold A2; dj|lia|lia]| |apply nin; [dj|lia|lia]|apply nin; [dj|lia|lia]]. intros (p & q & Hp & Hq & e). cbn [nr nc ad Slice.vsub tau2] in *. apply HIt in e; lia.
    - lia.
    - specialize (P7 (j - i)%nat ltac:(cbn; lia) ltac:(lia)). change (tv (j - i)%nat) with (vval tau s2 (i + (j - i))%nat) in P7. change (vval tau2 s1 (j - i)%nat) with (vval tau s1 (i + (j - i))%nat) in P7. replace (i + (j - i))%nat with j in P7 by lia. exact P7.
    - apply P8; [apply nin; [unfold A2; dj|lia|lia]| |apply nin; [dj|lia|lia]|apply nin; [dj|lia|lia]]. intros (p & q & Hp & Hq & e). cbn [nr nc ad Slice.vsub tau2] in *. apply HIt in e; lia. }
  eapply wp_conseq; [apply (block_tail ihi n nb i A Y mT Yt (Logic.conj HA1 HA2) (Logic.conj HY1 HY2) (Logic.conj HT1 HT2) (Logic.conj Hnb (Logic.conj Hib (proj2 Hihi))) HI IY DAT DAY DTY HYt (HYw (n - (i + nb))%nat ltac:(lia)) s2)| |auto].
  intros w0 s8 (F1 & F2 & F3). clear w0.
  assert (t8 : forall j, (j < nr tau)%nat -> vval tau s8 j = vval tau s2 j).
  { intros j Hj. apply F2; apply nin; try lia; dj. }
  set (MP := mmul n M (gP n u tv nb)).
  assert (Hsup : forall j r, (r < i + j + 1 \/ ihi <= r)%nat -> u j r = 0) by (intros j r Hr; apply lU_sup; auto).
  assert (EMP : forall r c, (c < n)%nat -> MP r c = M r c - sum nb (fun l => gY n M u tv nb r l * conj (u l c))) by (intros r c Hc; apply gMP; auto).
  assert (EMPl : forall r c, (c < n)%nat -> (c <= i \/ ihi <= c)%nat -> MP r c = M r c).
  { intros r c Hc Ho. rewrite EMP by auto. rewrite sum_0; [ring|]. intros l Hl. rewrite (Hsup l c) by lia. rewrite conj_0. ring. }
  assert (EY2 : forall r l, (r < ihi)%nat -> (l < nb)%nat -> val Y s2 r l = gY n M u tv nb r l).
  { intros r l Hr Hl. apply PY; auto. }
  assert (B7 : forall r c, (r < ihi)%nat -> (i + nb <= c < n)%nat -> b7 ihi nb i A Y s2 r c = MP r c).
  { intros r c Hr Hc. unfold b7. destruct (Nat.ltb_spec c ihi).
    - rewrite EMP by lia. rewrite HMge by lia. rewrite X2 by lia. f_equal. apply sum_ext. intros l Hl. rewrite EY2 by auto. reflexivity.
    - rewrite EMPl by lia. rewrite HMge by lia. apply X2; lia. }
  assert (EG : forall r c, (r < n)%nat -> gG n M u tv nb r c = MP r c - sum nb (fun a => u a r * sum nb (fun b => conj (gT n u tv nb b a) * sum n (fun x => conj (u b x) * MP x c)))) by (intros r c Hr; unfold gG; apply gPX; auto).
  assert (EGl : forall r c, (r < n)%nat -> (r <= i \/ ihi <= r)%nat -> gG n M u tv nb r c = MP r c).
  { intros r c Hr Ho. rewrite EG by auto. rewrite sum_0; [ring|]. intros a Ha. rewrite (Hsup a r) by lia. ring. }
  assert (Xlow : forall x c, (i < x < ihi)%nat -> (c < i)%nat -> M x c = 0).
  { intros x c Hx Hc. unfold M, masked, hel. destruct (Nat.leb_spec ilo c), (Nat.ltb_spec c (ilo + t)), (Nat.ltb_spec (c + 1) x), (Nat.ltb_spec x ihi); cbn [andb]; try lia; auto. rewrite I5 by lia. apply Hin; lia. }
  assert (HG : forall r c, (r < n)%nat -> (c < n)%nat -> masked (hel ilo ihi (t + nb)) (val A s8) r c = gG n M u tv nb r c).
  { intros r c Hr Hc. unfold masked at 1. rewrite F1 by auto. unfold bfin.
    destruct (Nat.le_gt_cases ihi r) as [Hr1|Hr1]; [|destruct (Nat.le_gt_cases r i) as [Hr2|Hr2]].
    - (* rows >= ihi *) rewrite EGl by auto. replace (hel ilo ihi (t + nb) r c) with false by (unfold hel; destruct (Nat.ltb_spec r ihi); [lia|]; rewrite andb_false_r; auto).
      transitivity (val A s1 r c).
      + destruct (Nat.leb_spec r i); [lia|]. destruct (Nat.ltb_spec r ihi); [lia|]. destruct (c <? i + nb)%nat; cbn [andb]; apply X2; auto.
      + rewrite EMP by auto. rewrite sum_0.
        * unfold M, masked, hel. destruct (Nat.ltb_spec r ihi); [lia|]. rewrite andb_false_r. ring.
        * intros l Hl. replace (gY n M u tv nb r l) with (0 : T); [ring|]. symmetry. unfold gY. apply sum_0. intros x Hx. destruct (Nat.lt_ge_cases i x) as [Hx1|Hx1]; [destruct (Nat.lt_ge_cases x ihi) as [Hx2|Hx2]|].
          -- rewrite HMge by lia. rewrite I4 by lia. rewrite Hin by lia. ring.
          -- rewrite (sum_0 nb); [ring|]. intros a Ha. rewrite (Hsup a x) by lia. ring.
          -- rewrite (sum_0 nb); [ring|]. intros a Ha. rewrite (Hsup a x) by lia. ring.
    - (* rows <= i *) rewrite EGl by auto. destruct (Nat.leb_spec r i); [|lia]. destruct (Nat.ltb_spec r ihi); [|lia]. destruct (Nat.ltb_spec i r); [lia|]. cbn [andb].
      destruct (Nat.le_gt_cases c i) as [Hc1|Hc1].
      + rewrite EMPl by lia. destruct (Nat.ltb_spec c (i + nb)); [|lia]. destruct (Nat.ltb_spec i c); [lia|]. rewrite X2 by lia. unfold M, masked.
        replace (hel ilo ihi (t + nb) r c) with (hel ilo ihi t r c); auto. unfold hel. destruct (Nat.leb_spec ilo c), (Nat.ltb_spec c (ilo + t)), (Nat.ltb_spec c (ilo + (t + nb))), (Nat.ltb_spec (c + 1) r); cbn [andb]; auto; lia.
      + replace (hel ilo ihi (t + nb) r c) with false by (unfold hel; destruct (Nat.ltb_spec (c + 1) r); [lia|]; rewrite andb_false_r; auto).
        destruct (Nat.ltb_spec i c); [|lia]. destruct (Nat.ltb_spec c (i + nb)).
        * rewrite EMP by auto. rewrite HMge by lia. rewrite X2 by lia. f_equal. apply sum_ext. intros l Hl. rewrite EY2 by lia. reflexivity.
        * apply B7; lia.
    - (* i < r < ihi *) destruct (Nat.leb_spec r i); [lia|]. destruct (Nat.ltb_spec r ihi); [|lia]. destruct (Nat.ltb_spec i r); [|lia]. cbn [andb].
      destruct (Nat.lt_ge_cases c i) as [Hc1|Hc1]; [|destruct (Nat.lt_ge_cases c (i + nb)) as [Hc2|Hc2]].
      + destruct (Nat.ltb_spec c (i + nb)); [|lia]. rewrite X2 by lia. rewrite EG by auto. rewrite EMPl by lia. rewrite Xlow by lia. rewrite sum_0.
        * assert (Xl := Xlow r c ltac:(lia) Hc1). unfold M, masked in Xl. unfold hel in *. destruct (Nat.leb_spec ilo c), (Nat.ltb_spec c (ilo + t)), (Nat.ltb_spec c (ilo + (t + nb))), (Nat.ltb_spec (c + 1) r), (Nat.ltb_spec r ihi); cbn [andb] in *; try lia; rewrite ?Xl; ring.
        * intros a Ha. rewrite (sum_0 nb); [ring|]. intros b Hb. rewrite (sum_0 n); [ring|]. intros x Hx. destruct (Nat.lt_ge_cases i x) as [Hx1|Hx1]; [destruct (Nat.lt_ge_cases x ihi) as [Hx2|Hx2]|].
          -- rewrite EMPl by lia. rewrite Xlow by lia. ring.
          -- rewrite (Hsup b x) by lia. rewrite conj_0. ring.
          -- rewrite (Hsup b x) by lia. rewrite conj_0. ring.
      + destruct (Nat.ltb_spec c (i + nb)); [|lia]. specialize (P5 (c - i)%nat r ltac:(lia) ltac:(lia)). replace (i + (c - i))%nat with c in P5 by lia. rewrite <- P5. unfold hel. destruct (Nat.leb_spec ilo c), (Nat.ltb_spec c (ilo + (t + nb))), (Nat.ltb_spec (c + 1) r), (Nat.ltb_spec r ihi), (Nat.leb_spec r (c + 1)); cbn [andb]; try lia; auto.
        change (val A2 s2 r (c - i)%nat) with (val A s2 r (i + (c - i))%nat). f_equal. lia.
      + destruct (Nat.ltb_spec c (i + nb)); [lia|]. replace (hel ilo ihi (t + nb) r c) with false by (unfold hel; destruct (Nat.ltb_spec c (ilo + (t + nb))); [lia|]; rewrite andb_false_r; auto).
        rewrite EG by auto. unfold b8. rewrite B7 by lia. f_equal. apply sum_ext. intros a Ha. change (lU ihi i (val (subv A 0 ihi i ihi) s2)) with u. f_equal. apply sum_ext. intros b Hb. f_equal.
        * f_equal. unfold trim, intri. destruct (Nat.leb_spec b a).
          -- specialize (P2 b a ltac:(lia)). change (val (subv mT 0 nb 0 nb) s2 b a) with (val mT s2 b a) in P2. destruct (_ =? _)%nat; apply P2.
          -- unfold gT. rewrite ltm_out by lia. destruct (Nat.eqb_spec b a); [lia|auto].
        * rewrite (sum_split_at (i + 1) n) by lia. rewrite (sum_0 (i + 1)) by (intros x Hx; rewrite (Hsup b x) by lia; rewrite conj_0; ring).
          rewrite (sum_split_at (ihi - (i + 1)) (n - (i + 1))) by lia. rewrite (sum_0 (n - (i + 1) - (ihi - (i + 1)))) by (intros x Hx; rewrite (Hsup b) by lia; rewrite conj_0; ring).
          match goal with |- ?L = _ => transitivity (0 + (L + 0)); [ring|] end. f_equal. f_equal. apply sum_ext. intros x Hx. rewrite B7 by lia. reflexivity. }
  assert (KH0 : forall w r c, (w < t)%nat -> (r < n)%nat -> (c < n)%nat -> hH ilo ihi A tau s8 w r c = hH ilo ihi A tau s1 w r c).
  { intros w r c Hw Hr Hc. unfold hH. rewrite t8, t2 by lia. apply refl_ext; apply subvec_ext; intros q Hq; rewrite F1 by lia; unfold bfin; (destruct (Nat.ltb_spec (ilo + w) (i + nb)); [|lia]); (destruct (Nat.ltb_spec i (ilo + w)); [lia|]); rewrite andb_false_r; apply X2; lia. }
  assert (Xcol : forall j q, (j < nb)%nat -> (i < q < ihi)%nat -> val A s8 q (i + j)%nat = val A2 s2 q j).
  { intros j q Hj Hq. rewrite F1 by lia. unfold bfin. destruct (Nat.ltb_spec (i + j) (i + nb)); [|lia]. destruct (Nat.leb_spec q i); [lia|]. reflexivity. }
  assert (KH1 : forall j r c, (j < nb)%nat -> (r < n)%nat -> (c < n)%nat -> hH ilo ihi A tau s8 (t + j) r c = refl (tv j) (u j) r c).
  { intros j r c Hj Hr Hc. unfold hH. replace (ilo + (t + j))%nat with (i + j)%nat by lia. rewrite t8 by lia. change (vval tau s2 (i + j)%nat) with (tv j).
    assert (Es : forall x, subvec ihi (val A s8) (i + j) x = u j x).
    { intros x. unfold subvec, u, lu, lU. destruct (Nat.eqb_spec x (i + j + 1)), (Nat.ltb_spec x ihi), (Nat.ltb_spec (i + j + 1) x); cbn [andb]; try lia; auto. apply Xcol; lia. }
    apply refl_ext; auto. }
  assert (KP : forall r c, (r < n)%nat -> (c < n)%nat -> mprod n (hH ilo ihi A tau s8) (t + nb) r c = mmul n (mprod n (hH ilo ihi A tau s1) t) (gP n u tv nb) r c).
  { intros r c Hr Hc. rewrite mprod_app by auto. apply mmul_ext; intros l Hl.
    - apply mprod_ext; auto.
    - unfold gP. apply mprod_ext; auto. }
  repeat apply Logic.conj.
  - eapply unitary_ext; [intros x y Hx Hy; symmetry; apply KP; auto|]. apply unitary_mul; auto.
  - intros r c Hr Hc. rewrite (two_sided n n _ _ (gP n u tv nb) (gP n u tv nb) M (masked (hel ilo ihi (t + nb)) (val A s8)) (val A s) P4 P4 I2) by (auto; intros x y Hx Hy; rewrite HG by auto; unfold gG; apply mmul_assoc).
    apply mmul_ext; intros l Hl; [apply mmul_ext; auto; intros l' Hl'; symmetry; apply KP; auto|]. unfold ctr. f_equal. symmetry. apply KP; auto.
  - intros w Hw. destruct (Nat.lt_ge_cases w t) as [Hw1|Hw1].
    + assert (Ec : val A s8 (ilo + w + 1)%nat (ilo + w)%nat = val A s1 (ilo + w + 1)%nat (ilo + w)%nat).
      { rewrite F1 by lia. unfold bfin. destruct (Nat.ltb_spec (ilo + w) (i + nb)); [|lia]. destruct (Nat.ltb_spec i (ilo + w)); [lia|]. rewrite andb_false_r. apply X2; lia. }
      rewrite Ec. auto.
    + replace (ilo + w)%nat with (i + (w - t))%nat by lia. rewrite Xcol by lia. apply P6. lia.
  - intros r c Hr Hc Hge. rewrite F1 by auto. unfold bfin. destruct (Nat.leb_spec r i); [lia|]. destruct (Nat.ltb_spec r ihi); [lia|]. rewrite <- I4 by auto. destruct (c <? i + nb)%nat; cbn [andb]; apply X2; auto.
  - intros r c Hr Hc Hl. rewrite F1 by auto. unfold bfin. destruct (Nat.ltb_spec c (i + nb)); [|lia]. destruct (Nat.ltb_spec i c); [lia|]. rewrite andb_false_r. rewrite <- I5 by auto. apply X2; auto. lia.
  - intros j Hj Ho. rewrite t8 by auto. rewrite t2 by (auto; lia). apply I6; auto; lia.
  - intros l K1 K2 K3. rewrite F2 by auto. rewrite P8; [auto|..]; intros K.
    + apply K1. revert K. apply inview_subv; lia.
    + apply K2. destruct K as (p & q & Hp & Hq & e). cbn [nr nc ad Slice.vsub tau2] in *. exists (i + p)%nat, 0%nat. repeat split; auto; lia.
    + apply K3. apply WT. revert K. apply inview_subv; lia.
    + apply K3. apply WY. revert K. apply inview_subv; lia.
  - congruence.
Qed.
End I.
End G.
