(** A square matrix whose stored triangle is seen as a lower triangle: "lower coordinates".
    For uplo = Upper, position (i,l) in lower coordinates is the conjugate of element (l,i). *)
From Coq Require Import Bool Arith ZArith Lia Ring Field.
From Verif.Core Require Import Scalar Prog View Rel Slice Loops.
From Verif.Spec Require Import LinAlg PosDef.
From Verif.Model Require Import Gemm Blas1 Blas2 Blas3 Cholesky.
From Verif.Proof Require Import SumLemmas OrdLemmas Tactics SliceTac GemmProof HemmProof TrsmProof HerkProof ExactBlas CholMath CholProof.
Local Open Scope T_scope.

Section Low.
Context {E : Env} {FL : FieldLaws E} {CL : ConjLaws E} {OL : ROrdLaws E} {QL : EqbLaws E}.
Add Field Tf : fth.
Implicit Types (L : mat).

Definition leff (u : uplo_t) (A : view) (L : mat) (s0 s : state) : Prop := eff A (lowf u L) s0 s.
(** Hermitian matrix read from lower coordinates (l <= i) *)
Definition hl (L : mat) : mat := fun i l => if (i =? l)%nat then re (L i l) else L i l.
Definition shift (p : nat) (L : mat) : mat := fun i l => L (p + i)%nat (p + l)%nat.
Lemma lowf_lowf u L i l : lowf u (lowf u L) i l = L i l.
Proof. destruct u; cbn; auto. apply conj_conj. Qed.
Lemma leff_ext u A L L' s0 s : nc A = nr A -> leff u A L s0 s ->
  (forall i l, (i < nr A)%nat -> (l < nr A)%nat -> L i l = L' i l) -> leff u A L' s0 s.
Proof.
  intros HC H He. apply (eff_ext _ _ _ _ _ H). intros i j Hi Hj. unfold lowf. destruct u; rewrite He by lia; auto.
Qed.
Lemma leff_refl u A s : leff u A (lowf u (val A s)) s s.
Proof. apply (eff_ext _ _ _ _ _ (eff_refl A s)). intros. symmetry. apply lowf_lowf. Qed.
Lemma herm_hl u F i l : u = Upper \/ u = Lower -> (l <= i)%nat -> herm u F i l = hl (lowf u F) i l.
Proof.
  intros Hu Hl. unfold hl. destruct (Nat.eqb_spec i l) as [->|].
  - rewrite herm_diag. destruct u; cbn; rewrite ?re_conj; auto.
  - apply herm_low; auto; lia.
Qed.
Lemma hl_ext L L' i l : L i l = L' i l -> hl L i l = hl L' i l.
Proof. intros H. unfold hl. rewrite H. auto. Qed.

Definition lrows (u : uplo_t) (A : view) (r t p q : nat) : view := match u with Upper => subv A p q r t | _ => subv A r t p q end.

(** element of a block in lower coordinates *)
Lemma val_lrows u A L s0 s r t p q i l : u = Upper \/ u = Lower -> leff u A L s0 s -> nc A = nr A ->
  (r + i < nr A)%nat -> (p + l < nr A)%nat ->
  lowf u (val (lrows u A r t p q) s) i l = L (r + i)%nat (p + l)%nat.
Proof.
  intros Hu H HC Hi Hl. destruct Hu; subst u; cbn [lowf lrows]; erewrite val_sub by (try exact H; lia); cbn; rewrite ?conj_conj; auto.
Qed.
(** writing a block *)
Lemma leff_lrows u A L G s0 s s' r t p q : u = Upper \/ u = Lower -> vinj A -> nc A = nr A -> (t <= nr A)%nat -> (q <= nr A)%nat ->
  leff u A L s0 s -> eff (lrows u A r t p q) (lowf u G) s s' ->
  leff u A (fun i l => if inbox r t p q i l then G (i - r)%nat (l - p)%nat else L i l) s0 s'.
Proof.
  intros Hu HI HC Ht Hq HL HG. destruct Hu; subst u; unfold leff, lrows in *.
  - eapply eff_ext; [apply (eff_sub A p q r t _ _ _ _ _ HI ltac:(lia) ltac:(lia) HL HG)|].
    intros i j Hi Hj. cbn [lowf]. unfold inbox.
    replace ((r <=? j) && (j <? t) && (p <=? i) && (i <? q))%nat with ((p <=? i) && (i <? q) && (r <=? j) && (j <? t))%nat
      by (destruct (p <=? i)%nat, (i <? q)%nat, (r <=? j)%nat, (j <? t)%nat; auto).
    destruct ((p <=? i) && (i <? q) && (r <=? j) && (j <? t))%nat; auto.
  - eapply eff_ext; [apply (eff_sub A r t p q _ _ _ _ _ HI ltac:(lia) ltac:(lia) HL HG)|].
    intros i j Hi Hj. cbn [lowf]. reflexivity.
Qed.

(** rank update of a diagonal block *)
Definition herk_low (u : uplo_t) (B C : view) : M unit :=
  match u with Upper => herk Upper ConjTrans (- one) B (Sc one) C | _ => herk Lower NoTrans (- one) B (Sc one) C end.
Lemma herk_low_run u A L s0 s r t p q X : u = Upper \/ u = Lower -> vinj A -> nc A = nr A ->
  (p <= q)%nat -> (q <= r)%nat -> (r <= t)%nat -> (t <= nr A)%nat -> leff u A L s0 s ->
  wp (herk_low u (lrows u A r t p q) (subv A r t r t)) (fun _ s' =>
    leff u A (fun i l => if inbox r t r t i l && (l <=? i)%nat then
        hl L i l - sum (q - p) (fun k => L i (p + k)%nat * conj (L l (p + k)%nat)) else L i l) s0 s') X s.
Proof.
  intros Hu HI HC Hpq Hqr Hrt Ht HL.
  assert (HLs : forall i l, (r + i < t)%nat -> (p + l < q)%nat -> lowf u (val (lrows u A r t p q) s) i l = L (r + i)%nat (p + l)%nat)
    by (intros; apply val_lrows with s0; auto; lia).
  assert (HCs : forall i l, (r + i < t)%nat -> (r + l < t)%nat -> lowf u (val (lrows u A r t r t) s) i l = L (r + i)%nat (r + l)%nat)
    by (intros; apply val_lrows with s0; auto; lia).
  assert (HCv : lrows u A r t r t = subv A r t r t) by (destruct Hu; subst u; auto). rewrite HCv in HCs.
  assert (Hk : runs (herk_low u (lrows u A r t p q) (subv A r t r t)) s (fun _ s' => eff (subv A r t r t) (lowf u (fun i l =>
     if (l <=? i)%nat then hl L (r + i)%nat (r + l)%nat - sum (q - p) (fun k => L (r + i)%nat (p + k)%nat * conj (L (r + l)%nat (p + k)%nat))
     else L (r + i)%nat (r + l)%nat)) s s')).
  { assert (Im := vinj_subv A r t r t HI ltac:(lia) ltac:(lia)).
    assert (C1 : conj (- one) = - one) by (rewrite conj_opp, conj_1; auto).
    assert (Hh : forall i l, (r + i < t)%nat -> (l <= i)%nat -> herm u (val (subv A r t r t) s) i l = hl L (r + i)%nat (r + l)%nat).
    { intros i l Hi Hl. rewrite herm_hl by auto. unfold hl.
      replace (r + i =? r + l)%nat with (i =? l)%nat by (destruct (Nat.eqb_spec i l), (Nat.eqb_spec (r + i) (r + l)); auto; lia).
      rewrite HCs by lia. auto. }
    destruct Hu; subst u; cbn [herk_low lrows lowf] in *.
    - eapply wp_conseq; [apply (herk_run Upper ConjTrans (- (1)) (subv A p q r t) (Sc 1) (subv A r t r t) s (t - r) (q - p)); cbn; auto using conj_1; vdisj| |auto].
      intros ? s' He. apply (eff_ext _ _ _ _ _ He). cbn [nr nc subv intri cval tri_of lowf]. intros i j Hi Hj.
      destruct (Nat.leb_spec i j).
      + rewrite (herm_sym Upper) by auto. rewrite Hh by lia. unfold mmul, opm, ctr. rewrite conj_sub, sum_conj.
        rewrite (sum_ext (q - p) _ (fun k => conj (L (r + j)%nat (p + k)%nat * conj (L (r + i)%nat (p + k)%nat)))).
        * ring.
        * intros k Hk. rewrite conj_mul, !conj_conj. rewrite <- HLs, <- HLs by lia. rewrite !conj_conj. ring.
      + rewrite <- (HCs j i) by lia. rewrite conj_conj. auto.
    - eapply wp_conseq; [apply (herk_run Lower NoTrans (- (1)) (subv A r t p q) (Sc 1) (subv A r t r t) s (t - r) (q - p)); cbn; auto using conj_1; vdisj| |auto].
      intros ? s' He. apply (eff_ext _ _ _ _ _ He). cbn [nr nc subv intri cval tri_of lowf]. intros i j Hi Hj.
      destruct (Nat.leb_spec j i).
      + rewrite Hh by lia. unfold mmul, opm, ctr.
        rewrite (sum_ext (q - p) _ (fun k => (L (r + i)%nat (p + k)%nat * conj (L (r + j)%nat (p + k)%nat)))).
        * ring.
        * intros k Hk. rewrite <- HLs, <- HLs by lia. auto.
      + rewrite <- (HCs i j) by lia. auto. }
  eapply wp_use; [exact Hk|]. intros ? s' He. cbv beta in He. rewrite <- HCv in He.
  eapply leff_ext; [auto|apply (leff_lrows u A L _ s0 s s' r t r t Hu HI HC ltac:(lia) ltac:(lia) HL He)|].
  intros i l Hi Hl. cbv beta. destruct (inbox_spec r t r t i l); cbn [andb]; auto.
  replace (l - r <=? i - r)%nat with (l <=? i)%nat by (destruct (Nat.leb_spec l i), (Nat.leb_spec (l - r) (i - r)); auto; lia).
  destruct (l <=? i)%nat; replace (r + (i - r))%nat with i by lia; replace (r + (l - r))%nat with l by lia; auto.
Qed.

(** triangular solve for the panel below a diagonal block *)
Definition trsm_low (u : uplo_t) (D B : view) : M unit :=
  match u with Upper => trsm Left Upper ConjTrans NonUnit one D B | _ => trsm Right Lower ConjTrans NonUnit one D B end.
Lemma trsm_low_run u A L s0 s p q t X : u = Upper \/ u = Lower -> vinj A -> nc A = nr A ->
  (p <= q)%nat -> (q <= t)%nat -> (t <= nr A)%nat -> leff u A L s0 s -> (forall l, (p <= l < q)%nat -> L l l <> 0) ->
  wp (trsm_low u (subv A p q p q) (lrows u A q t p q)) (fun _ s' => exists L', leff u A L' s0 s' /\
     (forall i l, (i < nr A)%nat -> (l < nr A)%nat -> ~ (q <= i < t /\ p <= l < q)%nat -> L' i l = L i l) /\
     (forall i l, (q <= i < t)%nat -> (p <= l < q)%nat ->
        sum (S l - p) (fun k => L' i (p + k)%nat * conj (L l (p + k)%nat)) = L i l)) X s.
Proof.
  intros Hu HI HC Hpq Hqt Ht HL Hnz.
  assert (HDs : forall i l, (p + i < q)%nat -> (p + l < q)%nat -> lowf u (val (lrows u A p q p q) s) i l = L (p + i)%nat (p + l)%nat)
    by (intros; apply val_lrows with s0; auto; lia).
  assert (HBs : forall i l, (q + i < t)%nat -> (p + l < q)%nat -> lowf u (val (lrows u A q t p q) s) i l = L (q + i)%nat (p + l)%nat)
    by (intros; apply val_lrows with s0; auto; lia).
  assert (HDv : lrows u A p q p q = subv A p q p q) by (destruct Hu; subst u; auto). rewrite HDv in HDs.
  assert (Hk : runs (trsm_low u (subv A p q p q) (lrows u A q t p q)) s (fun _ s' => exists G, eff (lrows u A q t p q) (lowf u G) s s' /\
     forall i l, (q + i < t)%nat -> (p + l < q)%nat -> sum (S l) (fun k => G i k * conj (L (p + l)%nat (p + k)%nat)) = L (q + i)%nat (p + l)%nat)).
  { assert (Hz : forall j, (j < q - p)%nat -> val (subv A p q p q) s j j <> 0).
    { intros j Hj e. apply (Hnz (p + j)%nat ltac:(lia)). rewrite <- HDs by lia. unfold lowf. rewrite e. destruct u; rewrite ?conj_0; auto. }
    destruct Hu; subst u; cbn [trsm_low lrows lowf] in *.
    - eapply wp_conseq; [apply (trsm_run Left Upper ConjTrans NonUnit 1 (subv A p q p q) (subv A p q q t) s (q - p) (t - q)); cbn; auto;
        [apply vinj_subv; auto; lia|vdisj]| |auto].
      intros ? s' (G & He & HG). exists (fun i l => conj (G l i)). split.
      + apply (eff_ext _ _ _ _ _ He). intros. cbn [lowf]. rewrite conj_conj. auto.
      + intros i l Hi Hl. assert (e := HG l i ltac:(lia) ltac:(lia)).
        rewrite <- HBs by lia. replace (val (subv A p q q t) s l i) with (1 * val (subv A p q q t) s l i) by ring. rewrite <- e. unfold mmul, opm.
        rewrite (sum_trunc (S l) (q - p)) by (try lia; intros k Hk; unfold trim; cbn [intri]; cases; rewrite ?conj_0; ring).
        rewrite sum_conj. apply sum_ext. intros k Hk. rewrite conj_mul, conj_conj. rewrite <- HDs by lia. rewrite conj_conj.
        unfold trim; cbn [intri]. cases; ring.
    - eapply wp_conseq; [apply (trsm_run Right Lower ConjTrans NonUnit 1 (subv A p q p q) (subv A q t p q) s (t - q) (q - p)); cbn; auto;
        [apply vinj_subv; auto; lia|vdisj]| |auto].
      intros ? s' (G & He & HG). exists G. split; [exact He|].
      intros i l Hi Hl. assert (e := HG i l ltac:(lia) ltac:(lia)).
      rewrite <- HBs by lia. replace (val (subv A q t p q) s i l) with (1 * val (subv A q t p q) s i l) by ring. rewrite <- e. unfold mmul, opm.
      rewrite (sum_trunc (S l) (q - p)) by (try lia; intros k Hk; unfold trim; cbn [intri]; cases; rewrite ?conj_0; ring).
      apply sum_ext. intros k Hk. rewrite <- HDs by lia.
      unfold trim; cbn [intri]. cases; ring. }
  eapply wp_use; [exact Hk|]. intros ? s' (G & He & HG).
  eexists. split; [apply (leff_lrows u A L _ s0 s s' q t p q Hu HI HC ltac:(lia) ltac:(lia) HL He)|]. split.
  - intros i l Hi Hl Hn. cbv beta. destruct (inbox_spec q t p q i l); auto. tauto.
  - intros i l Hi Hl. assert (e := HG (i - q)%nat (l - p)%nat ltac:(lia) ltac:(lia)).
    replace (q + (i - q))%nat with i in e by lia. replace (p + (l - p))%nat with l in e by lia. rewrite <- e.
    replace (S l - p)%nat with (S (l - p)) by lia. apply sum_ext. intros k Hk9. cbv beta.
    destruct (inbox_spec q t p q i (p + k)); [|lia]. do 2 f_equal. lia.
Qed.

(** update of a panel by the columns to the left *)
Definition gemm_low (u : uplo_t) (B D C : view) : M unit :=
  match u with Upper => gemm ConjTrans NoTrans (- one) D B (Sc one) C | _ => gemm NoTrans ConjTrans (- one) B D (Sc one) C end.
Lemma gemm_low_run u A L s0 s p q t X : u = Upper \/ u = Lower -> vinj A -> nc A = nr A ->
  (p <= q)%nat -> (q <= t)%nat -> (t <= nr A)%nat -> leff u A L s0 s ->
  wp (gemm_low u (lrows u A q t 0 p) (lrows u A p q 0 p) (lrows u A q t p q)) (fun _ s' =>
    leff u A (fun i l => if inbox q t p q i l then L i l - sum p (fun k => L i k * conj (L l k)) else L i l) s0 s') X s.
Proof.
  intros Hu HI HC Hpq Hqt Ht HL.
  assert (V : forall r t c d i l, (r + i < nr A)%nat -> (c + l < nr A)%nat ->
     lowf u (val (lrows u A r t c d) s) i l = L (r + i)%nat (c + l)%nat) by (intros; apply val_lrows with s0; auto).
  assert (Hk : runs (gemm_low u (lrows u A q t 0 p) (lrows u A p q 0 p) (lrows u A q t p q)) s (fun _ s' => eff (lrows u A q t p q) (lowf u (fun i l =>
     L (q + i)%nat (p + l)%nat - sum p (fun k => L (q + i)%nat k * conj (L (p + l)%nat k)))) s s')).
  { destruct Hu; subst u; cbn [gemm_low lrows lowf] in *.
    - eapply wp_conseq; [apply (gemm_run ConjTrans NoTrans (- (1)) (subv A 0 p p q) (subv A 0 p q t) (Sc 1) (subv A p q q t) s (q - p) (t - q) p);
         cbn; auto; try lia; try (split; lia); [apply vinj_subv; auto; lia|vdisj|vdisj]| |auto].
      intros ? s' He. apply (eff_ext _ _ _ _ _ He). cbn [nr nc subv lowf]. intros i j Hi Hj.
      rewrite gemm_val_exact by auto. cbn [cval]. unfold mmul, opm. rewrite conj_sub, sum_conj.
      rewrite <- (V q t p q j i), conj_conj by lia.
      rewrite (sum_ext p _ (fun k => conj (L (q + j)%nat k * conj (L (p + i)%nat k)))); [ring|].
      intros k Hk. rewrite conj_mul, conj_conj. change (L (q + j)%nat k) with (L (q + j)%nat (0 + k)%nat). change (L (p + i)%nat k) with (L (p + i)%nat (0 + k)%nat). rewrite <- (V q t 0%nat p), <- (V p q 0%nat p), !conj_conj by lia. ring.
    - eapply wp_conseq; [apply (gemm_run NoTrans ConjTrans (- (1)) (subv A q t 0 p) (subv A p q 0 p) (Sc 1) (subv A q t p q) s (t - q) (q - p) p);
         cbn; auto; try lia; try (split; lia); [apply vinj_subv; auto; lia|vdisj|vdisj]| |auto].
      intros ? s' He. apply (eff_ext _ _ _ _ _ He). cbn [nr nc subv lowf]. intros i j Hi Hj.
      rewrite gemm_val_exact by auto. cbn [cval]. unfold mmul, opm.
      rewrite <- (V q t p q i j) by lia.
      rewrite (sum_ext p _ (fun k => (L (q + i)%nat k * conj (L (p + j)%nat k)))); [ring|].
      intros k Hk. change (L (q + i)%nat k) with (L (q + i)%nat (0 + k)%nat). change (L (p + j)%nat k) with (L (p + j)%nat (0 + k)%nat). rewrite <- (V q t 0%nat p), <- (V p q 0%nat p) by lia. ring. }
  eapply wp_use; [exact Hk|]. intros ? s' He.
  eapply leff_ext; [auto|apply (leff_lrows u A L _ s0 s s' q t p q Hu HI HC ltac:(lia) ltac:(lia) HL He)|].
  intros i l Hi Hl. cbv beta. destruct (inbox_spec q t p q i l); auto.
  replace (q + (i - q))%nat with i by lia. replace (p + (l - p))%nat with l by lia. auto.
Qed.

(** a factorization routine run on a diagonal block *)
Lemma chol_sub u A L s0 s p q info s' : u = Upper \/ u = Lower -> vinj A -> nc A = nr A -> (p <= q)%nat -> (q <= nr A)%nat ->
  leff u A L s0 s -> chol_out u (subv A p q p q) s info s' ->
  exists L', leff u A L' s0 s' /\
     (forall i l, (i < nr A)%nat -> (l < nr A)%nat -> ~ (p <= l <= i /\ i < q)%nat -> L' i l = L i l) /\
     ((info = 0%Z /\ pchol (q - p) (q - p) (shift p L') (shift p (hl L))) \/
      (exists k, (k < q - p)%nat /\ info = (Z.of_nat k + 1)%Z /\ chfail k (shift p (hl L)))).
Proof.
  intros Hu HI HC Hpq Hq HL (F & He & Hf & Hr). cbn [nr subv] in *.
  assert (HDv : lrows u A p q p q = subv A p q p q) by (destruct Hu; subst u; auto).
  assert (HDs : forall i l, (p + i < q)%nat -> (p + l < q)%nat -> lowf u (val (subv A p q p q) s) i l = L (p + i)%nat (p + l)%nat)
    by (intros; rewrite <- HDv; apply val_lrows with s0; auto; lia).
  assert (He' : eff (lrows u A p q p q) (lowf u (lowf u F)) s s').
  { rewrite HDv. apply (eff_ext _ _ _ _ _ He). intros. symmetry. apply lowf_lowf. }
  assert (Hh : forall i l, (l <= i < q - p)%nat -> herm u (val (subv A p q p q) s) i l = shift p (hl L) i l).
  { intros i l Hi. rewrite herm_hl by (auto; lia). unfold shift, hl.
    replace (p + i =? p + l)%nat with (i =? l)%nat by (destruct (Nat.eqb_spec i l), (Nat.eqb_spec (p + i) (p + l)); auto; lia).
    rewrite HDs by lia. auto. }
  eexists. split; [apply (leff_lrows u A L _ s0 s s' p q p q Hu HI HC ltac:(lia) ltac:(lia) HL He')|]. split.
  - intros i l Hi Hl Hn. cbv beta. destruct (inbox_spec p q p q i l); auto.
    replace (L i l) with (L (p + (i - p)) (p + (l - p)))%nat by (f_equal; lia). rewrite <- HDs by lia. 
    unfold lowf. destruct Hu; subst u; rewrite Hf by (try lia; cbn; apply Nat.leb_gt; lia); auto.
  - destruct Hr as [[-> HP]|(k & Hk & -> & HF)].
    + left. split; auto. eapply pchol_ext; [exact HP|lia| |intros; apply Hh; lia].
      intros i l Hi Hl. unfold shift. destruct (inbox_spec p q p q (p + i) (p + l)); [|lia]. f_equal; lia.
    + right. exists k. repeat split; auto. eapply chfail_ext; [exact HF|]. intros; apply Hh; lia.
Qed.
(** back to the whole matrix *)
Lemma chol_whole u A s0 L info s' : u = Upper \/ u = Lower -> nc A = nr A -> leff u A L s0 s' ->
  (forall i l, (i < l < nr A)%nat -> L i l = lowf u (val A s0) i l) ->
  ((info = 0%Z /\ pchol (nr A) (nr A) L (hl (lowf u (val A s0)))) \/
   (exists k, (k < nr A)%nat /\ info = (Z.of_nat k + 1)%Z /\ chfail k (hl (lowf u (val A s0))))) ->
  chol_out u A s0 info s'.
Proof.
  intros Hu HC HL Hf Hr. exists (lowf u L). split; [exact HL|]. split.
  - intros i j Hi Hj Hij. destruct Hu; subst u; cbn [lowf intri] in *; apply Nat.leb_gt in Hij; rewrite Hf by lia; auto using conj_conj.
  - destruct Hr as [[-> HP]|(k & Hk & -> & HF)].
    + left. split; auto. eapply pchol_ext; [exact HP|lia| |].
      * intros. symmetry. apply lowf_lowf.
      * intros. symmetry. apply herm_hl; auto; lia.
    + right. exists k. repeat split; auto. eapply chfail_ext; [exact HF|]. intros. symmetry. apply herm_hl; auto; lia.
Qed.
(** a panel completes the block columns *)
Lemma pchol_panel jb m L H : pchol jb jb L H ->
  (forall i l, (jb <= i < m)%nat -> (l < jb)%nat -> sum (S l) (fun k => L i k * conj (L l k)) = H i l) -> pchol jb m L H.
Proof.
  intros HP Hs j Hj. destruct (HP j Hj) as (H1 & H2 & H3). repeat split; auto.
  intros i Hi. destruct (Nat.lt_ge_cases i jb); [apply H3; lia|]. symmetry. apply Hs; lia.
Qed.
End Low.
