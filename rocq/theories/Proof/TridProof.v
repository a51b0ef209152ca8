(** * hetd2: reduction of a Hermitian matrix to tridiagonal form *)
From Coq Require Import Bool Arith ZArith Lia Reals Lra Ring Field.
From Verif.Core Require Import Scalar Prog View Slice Loops WorkEff RealLaws.
From Verif.Spec Require Import LinAlg Outcome PosDef Norms Householder Reduce.
From Verif.Model Require Import Gemm Blas1 Blas2 Blas3 Legacy LaAux Norms Work Householder QGen QFact BlockQ Reduce.
From Verif.Proof Require Import SumLemmas Tactics SliceTac LegacyProof PotrfProof BlockAlg CholMath HerkProof Blas1Proof Blas2Proof HemvProof LarfProof LarfgProof QRProof QGenProof QFactProof ReduceMath ReduceProof HessProof.
From Verif.Properties Require Import Blas2.
Local Open Scope T_scope.

Section P.
Context {E : Env} {FL : FieldLaws E} {CL : ConjLaws E} {OL : ROrdLaws E} {QL : EqbLaws E} {XL : CplxLaws E} {RL : RLaws E} {NL : FinLaws E}.
Add Field Tf : fth.

Lemma two_ne0 : 1 + 1 <> (0 : T).
Proof. intros K. rewrite <- ofR_1, <- ofR_add, <- ofR_0 in K. apply ofR_inj in K. lra. Qed.
Lemma half_half : half + half = 1.
Proof. unfold half. field. apply two_ne0. Qed.
Lemma conj_half : conj half = half.
Proof.
  assert (H : (1 + 1) * conj half = (1 + 1) * half).
  { assert (K := f_equal conj half_half). rewrite conj_add, conj_1 in K. transitivity (conj half + conj half); [ring|]. transitivity (half + half); [rewrite K, half_half; auto|ring]. }
  assert (K := two_ne0). transitivity (((1 + 1) * conj half) / (1 + 1)); [field; auto|]. rewrite H. field. auto.
Qed.

(** the rank-2 update computes H^H C H *)
Lemma rank2 k (C : mat) tau (v : nat -> T) i j : hermitian k C -> (i < k)%nat -> (j < k)%nat ->
  let x := fun i => tau * mvmul k C v i in
  let w := fun i => x i + (- half * tau * sum k (fun l => conj (x l) * v l)) * v i in
  C i j + (- (1)) * v i * conj (w j) + conj (- (1)) * w i * conj (v j) = mmul k (mmul k (ctr (refl tau v)) C) (refl tau v) i j.
Proof.
  intros HC Hi Hj x w. set (p := mvmul k C v). set (g := sum k (fun l => conj (v l) * p l)).
  assert (Hp : forall c, (c < k)%nat -> sum k (fun l => conj (v l) * C l c) = conj (p c)).
  { intros c Hc. unfold p, mvmul. rewrite sum_conj. apply sum_ext. intros l Hl. rewrite (HC l c Hl Hc), conj_mul. ring. }
  assert (Hg' : conj g = sum k (fun l => conj (p l) * v l)).
  { unfold g. rewrite sum_conj. apply sum_ext. intros l Hl. rewrite conj_mul, conj_conj. ring. }
  assert (Hg : conj g = g).
  { rewrite Hg'. transitivity (sum k (fun c => sum k (fun l => conj (v l) * C l c) * v c)); [apply sum_ext; intros; rewrite Hp; auto|].
    transitivity (sum k (fun c => sum k (fun l => conj (v l) * C l c * v c))); [apply sum_ext; intros; symmetry; apply sum_scal_r|].
    rewrite sum_swap. unfold g, p, mvmul. apply sum_ext. intros l Hl. rewrite <- sum_scal_l. apply sum_ext. intros; ring. }
  assert (Hx : sum k (fun l => conj (x l) * v l) = conj tau * g).
  { rewrite <- Hg, Hg', <- sum_scal_l. apply sum_ext. intros l Hl. unfold x. rewrite conj_mul. change (mvmul k C v l) with (p l). ring. }
  assert (M1 : forall r c, (r < k)%nat -> (c < k)%nat -> mmul k (ctr (refl tau v)) C r c = C r c - conj tau * v r * conj (p c)).
  { intros r c Hr Hc. transitivity (mmul k (refl (conj tau) v) C r c); [apply mmul_ext; auto; intros; apply ctr_refl|]. rewrite refl_l by auto. rewrite Hp by auto. auto. }
  rewrite refl_r by auto. rewrite M1 by auto.
  assert (HS : sum k (fun l => mmul k (ctr (refl tau v)) C i l * v l) = p i - conj tau * v i * g).
  { rewrite (sum_ext k _ (fun l => C i l * v l - conj tau * v i * (conj (p l) * v l))) by (intros; rewrite M1 by auto; ring).
    rewrite sum_minus, sum_scal_l, <- Hg', Hg. reflexivity. }
  rewrite HS. unfold w. rewrite Hx. unfold x. change (mvmul k C v i) with (p i). change (mvmul k C v j) with (p j).
  repeat first [rewrite conj_add|rewrite conj_mul|rewrite conj_opp|rewrite conj_conj]. rewrite conj_half, ?conj_1, Hg.
  transitivity (C i j - conj tau * v i * conj (p j) - tau * p i * conj (v j) + (half + half) * (tau * conj tau * g * v i * conj (v j))); [ring|]. rewrite half_half. ring.
Qed.

(** a two-sided transformation of a Hermitian matrix by a reflector acting on a window *)
Lemma herm_step n a b c tau (u : nat -> T) (Y Y' : mat) : (a < b <= n)%nat -> (c < n)%nat -> ~ (a <= c < b)%nat ->
  hermitian n Y -> hermitian n Y' ->
  (forall r j, (r < n)%nat -> (j < n)%nat -> ~ (a <= r < b)%nat -> ~ (a <= j < b)%nat -> Y' r j = Y r j) ->
  (forall r j, (a <= r < b)%nat -> (j < n)%nat -> ~ (a <= j < b)%nat -> j <> c -> Y r j = 0 /\ Y' r j = 0) ->
  (forall r, (a <= r < b)%nat -> Y' r c = mvmul (b - a) (ctr (refl tau u)) (fun l => Y (a + l)%nat c) (r - a)%nat) ->
  (forall r j, (a <= r < b)%nat -> (a <= j < b)%nat -> Y' r j = mmul (b - a) (mmul (b - a) (ctr (refl tau u)) (fun l q => Y (a + l)%nat (a + q)%nat)) (refl tau u) (r - a)%nat (j - a)%nat) ->
  let H := refl tau (embw a b u) in
  forall r j, (r < n)%nat -> (j < n)%nat -> Y' r j = mmul n (mmul n (ctr H) Y) H r j.
Proof.
  intros Hab Hc Hcw HY HY' HO HZ HL HW H.
  assert (HM : forall (B : mat) l y, (l < n)%nat -> mmul n (ctr H) B l y = if ((a <=? l) && (l <? b))%nat then mmul (b - a) (ctr (refl tau u)) (fun l c => B (a + l)%nat c) (l - a)%nat y else B l y).
  { intros B l y Hl. transitivity (mmul n (refl (conj tau) (embw a b u)) B l y); [apply mmul_ext; auto; intros; apply ctr_refl|].
    rewrite embw_l by (auto; lia). destruct ((a <=? l) && (l <? b))%nat; auto. apply mmul_ext; auto. intros; symmetry; apply ctr_refl. }
  (* columns outside the window *)
  assert (K1 : forall r j, (r < n)%nat -> (j < n)%nat -> ~ (a <= j < b)%nat -> mmul n (ctr H) Y r j = Y' r j).
  { intros r j Hr Hj Hn. rewrite HM by auto. destruct (Nat.leb_spec a r); cbn [andb]; [destruct (Nat.ltb_spec r b); cbn [andb]|]; [|symmetry; apply HO; auto; lia..].
    destruct (Nat.eq_dec j c) as [->|Hne].
    - rewrite HL by lia. reflexivity.
    - destruct (HZ r j ltac:(lia) Hj Hn Hne) as [_ ->]. apply mmul_0_r. intros l Hl. apply HZ; auto; lia. }
  intros r j Hr Hj. unfold H at 2. rewrite embw_r by (auto; lia).
  destruct (Nat.leb_spec a j); cbn [andb]; [destruct (Nat.ltb_spec j b); cbn [andb]|]; [|symmetry; apply K1; auto; lia..].
  destruct (Nat.le_gt_cases a r) as [G1|G1]; [destruct (Nat.lt_ge_cases r b) as [G2|G2]|].
  - rewrite HW by lia. match goal with |- mmul ?k ?P ?R ?x ?y = mmul ?k ?P' ?R ?x' ?y => change (sum k (fun l => P x l * R l y) = sum k (fun l => P' x' l * R l y)) end.
    apply sum_ext. intros l Hl. cbv beta. f_equal. rewrite HM by auto. destruct (Nat.leb_spec a r), (Nat.ltb_spec r b); try lia. reflexivity.
  - (* row outside, column inside: by symmetry *)
    rewrite HY' by auto. rewrite <- K1 by (auto; lia). rewrite HM by auto. destruct (Nat.leb_spec a j), (Nat.ltb_spec j b); try lia. cbn [andb].
    match goal with |- conj (mmul ?k ?A1 ?B1 ?x ?y) = _ => transitivity (ctr (mmul k A1 B1) y x); [reflexivity|] end. rewrite ctr_mmul. transitivity (mmul (b - a) (ctr (fun l q => Y (a + l)%nat q)) (refl tau u) r (j - a)%nat); [apply mmul_ext; auto; intros; apply ctr_ctr|].
    apply mmul_ext; auto. intros l Hl. cbv beta. rewrite HM by auto. destruct (Nat.leb_spec a r), (Nat.ltb_spec r b); try lia; cbn [andb]. unfold ctr. symmetry. apply HY; lia.
  - rewrite HY' by auto. rewrite <- K1 by (auto; lia). rewrite HM by auto. destruct (Nat.leb_spec a j), (Nat.ltb_spec j b); try lia. cbn [andb].
    match goal with |- conj (mmul ?k ?A1 ?B1 ?x ?y) = _ => transitivity (ctr (mmul k A1 B1) y x); [reflexivity|] end. rewrite ctr_mmul. transitivity (mmul (b - a) (ctr (fun l q => Y (a + l)%nat q)) (refl tau u) r (j - a)%nat); [apply mmul_ext; auto; intros; apply ctr_ctr|].
    apply mmul_ext; auto. intros l Hl. cbv beta. rewrite HM by auto. destruct (Nat.leb_spec a r), (Nat.ltb_spec r b); try lia; cbn [andb]. unfold ctr. symmetry. apply HY; lia.
Qed.

Lemma eff2_step1 C F D G s0 s1 F' s2 : eff2 C F D G s0 s1 -> disj C D -> eff C F' s1 s2 -> eff2 C F' D G s0 s2.
Proof.
  intros (H1 & H2 & H3 & H4) HD (K1 & K2 & K3). repeat apply Logic.conj; auto.
  - intros i j Hi Hj. rewrite <- H2 by auto. apply K2. apply nin; auto. apply disj_sym; auto.
  - intros l L1 L2. rewrite K2 by auto. apply H3; auto.
  - congruence.
Qed.
Lemma eff2_step2 C F D G s0 s1 G' s2 : eff2 C F D G s0 s1 -> disj C D -> eff D G' s1 s2 -> eff2 C F D G' s0 s2.
Proof. rewrite !(eff2_sym C). intros H HD K. eapply eff2_step1; eauto. apply disj_sym; auto. Qed.
Lemma eff2_eff C F D G s0 s1 : eff2 C F D G s0 s1 -> eff C F s1 s1.
Proof. intros (H1 & _). repeat apply Logic.conj; auto. Qed.
Lemma eff2_eff' C F D G s0 s1 : eff2 C F D G s0 s1 -> eff D G s1 s1.
Proof. intros (_ & H1 & _). repeat apply Logic.conj; auto. Qed.

Lemma intri_refl u r : intri u r r = true.
Proof. destruct u; cbn [intri]; auto; apply Nat.leb_refl. Qed.
Lemma intri_shift u a r j : intri u (a + r) (a + j) = intri u r j.
Proof. destruct u; cbn [intri]; auto; apply eq_true_iff_eq; rewrite !Nat.leb_le; lia. Qed.
Lemma intri_swap u r j : intri u r j = false -> intri u j r = true.
Proof. destruct u; cbn [intri]; auto; rewrite ?Nat.leb_gt, ?Nat.leb_le; lia. Qed.
Lemma intri_win u a r j : (a <= r)%nat -> (a <= j)%nat -> intri u (r - a) (j - a) = intri u r j.
Proof. intros H1 H2. rewrite <- (intri_shift u a). f_equal; lia. Qed.
Lemma uplo2_ul u : u = Upper \/ u = Lower -> uplo2 u = true.
Proof. intros [->| ->]; auto. Qed.
Lemma runs_returns A0 (q : M A0) s1 Q : returns q s1 Q -> runs q s1 Q.
Proof. intros (x & s' & K & HQ). unfold runs, wp. rewrite K. auto. Qed.
Lemma herm_win u (F : mat) a r j : herm u (fun r j => F (a + r)%nat (a + j)%nat) r j = herm u F (a + r)%nat (a + j)%nat.
Proof.
  unfold herm. destruct (Nat.eqb_spec r j), (Nat.eqb_spec (a + r) (a + j)); try lia; auto.
  assert (K : intri u (a + r) (a + j) = intri u r j); [|rewrite K; auto].
  destruct u; cbn [intri]; auto; apply eq_true_iff_eq; rewrite !Nat.leb_le; lia.
Qed.
Lemma herm_tri u (F M : mat) n r j : u = Upper \/ u = Lower -> hermitian n M -> (r < n)%nat -> (j < n)%nat ->
  (forall r j, (r < n)%nat -> (j < n)%nat -> intri u r j = true -> F r j = M r j) -> herm u F r j = M r j.
Proof.
  intros Hu HM Hr Hj HF. unfold herm. destruct (Nat.eqb_spec r j) as [->|Hne].
  - rewrite HF; auto. { apply re_idem. symmetry. apply HM; auto. } apply intri_refl.
  - destruct (intri u r j) eqn:Ht; [auto|]. rewrite HF; auto. { symmetry. apply HM; auto. }
    destruct Hu; subst u; cbn [intri] in *; rewrite ?Nat.leb_gt, ?Nat.leb_le in *; lia.
Qed.
Lemma herm_same u (F G : mat) r j : F r j = G r j -> F j r = G j r -> herm u F r j = herm u G r j.
Proof. intros K1 K2. unfold herm. rewrite K1, K2. auto. Qed.

Section G.
Variables (h : hconst) (st bt hsm : R) (u : uplo_t) (dir : direction_t) (a b c t0 t1 i n : nat) (A tau : view) (s1 : state).
Hypothesis Hh : hconst_ok h st bt hsm.
Hypothesis Hu : u = Upper \/ u = Lower.
Hypothesis HA1 : nr A = n.
Hypothesis HA2 : nc A = n.
Hypothesis HI : vinj A.
Hypothesis HIt : vinj tau.
Hypothesis Ht1 : nc tau = 1%nat.
Hypothesis HD : disj A tau.
Hypothesis Hab : (a < b <= n)%nat.
Hypothesis Hc : (c < n)%nat.
Hypothesis Hcw : ~ (a <= c < b)%nat.
Hypothesis Ht : (t0 <= i < t1 /\ t1 <= nr tau /\ t1 - t0 = b - a)%nat.
Let k := (b - a)%nat.
Let p := (a + hpos dir k)%nat.
Let win (F : mat) : mat := fun r j => F (a + r)%nat (a + j)%nat.
Hypothesis Hnorm : (vsq k (fun r => val A s1 (a + r)%nat c) <= bt * bt)%R.
Definition tstep : M unit :=
  v <- slcol A a b c;;
  taui <- larfg h dir Columnwise v;;
  (if negb (eqb taui 0) then
     C <- slc A a b a b;;
     w <- slvec tau t0 t1;;
     beta <- rd A p c;;
     wr A p c 1;;
     hemv_nobeta u taui C v w;;
     d <- dot w v;;
     axpy (- half * taui * d) v w;;
     her2 u (- (1)) v w C;;
     wr A p c beta
   else a <- rd A p p;; wr A p p (re a));;
  wrv tau i taui.
Definition tpost (s' : state) : Prop :=
  let Hm := refl (vval tau s' i) (hvec dir k (fun r => val A s' (a + r)%nat c)) in
  refc dir k (fun r => val A s1 (a + r)%nat c) (vval tau s' i) (fun r => val A s' (a + r)%nat c) /\
  (forall r j, (a <= r < b)%nat -> (a <= j < b)%nat -> herm u (val A s') r j = mmul k (mmul k (ctr Hm) (win (herm u (val A s1)))) Hm (r - a)%nat (j - a)%nat) /\
  conj (val A s' p p) = val A s' p p /\
  (forall r j, (r < n)%nat -> (j < n)%nat -> ~ ((a <= r < b)%nat /\ (a <= j < b)%nat /\ intri u r j = true) -> ~ ((a <= r < b)%nat /\ j = c) -> val A s' r j = val A s1 r j) /\
  (forall j, (j < nr tau)%nat -> ~ (t0 <= j < t1)%nat -> vval tau s' j = vval tau s1 j) /\
  (forall l, ~ inview A l -> ~ inview tau l -> mem s' l = mem s1 l) /\ imem s' = imem s1.
Lemma Hp : (a <= p < b)%nat.
Proof. assert (K := hpos_lt dir k ltac:(unfold k; lia)). unfold p, k in *. lia. Qed.
Lemma tstep_run : wp tstep (fun _ s' => tpost s') noX s1.
Proof.
  assert (Hpp := Hp). assert (Hk : (0 < k)%nat) by (unfold k; lia). assert (Hpk := hpos_lt dir k Hk).
  unfold tstep. apply wp_bind, wp_slcol; [lia..|]. set (v := vcol A a b c).
  assert (Nv : nr v = k) by reflexivity.
  apply wp_bind. eapply wp_use.
  { apply (larfg_reflects h st bt hsm dir Columnwise v s1); auto; [apply vinj_vcol; auto; lia|left; exact Hnorm]. }
  intros taui s2 HL. cbv beta in HL. destruct HL as (HE & HR). rewrite Nv in HR. apply reflects_refc in HR. cbn [hst] in HR.
  set (v2 := vval v s2) in *. set (F1 := val A s1) in *.
  assert (E2 : eff2 A (fun r j => if inbox a b c (S c) r j then v2 (r - a)%nat else F1 r j) tau (val tau s1) s1 s2).
  { eapply eff2_step1; [apply eff2_refl|auto|]. eapply eff_vcol; [auto|lia|lia|apply (eff_refl A s1)|]. apply veff_eff in HE; [exact HE|reflexivity]. }
  assert (FIN : forall F g s7, eff2 A F tau g s1 s7 ->
     (forall r, (r < k)%nat -> F (a + r)%nat c = v2 r) ->
     (forall r j, (r < k)%nat -> (j < k)%nat -> intri u r j = true -> F (a + r)%nat (a + j)%nat = mmul k (mmul k (ctr (refl taui (hvec dir k v2))) (win (herm u F1))) (refl taui (hvec dir k v2)) r j \/
       F (a + r)%nat (a + j)%nat = F1 (a + r)%nat (a + j)%nat /\ taui = 0 \/ (r = j /\ F (a + r)%nat (a + j)%nat = re (F1 (a + r)%nat (a + j)%nat) /\ taui = 0)) ->
     conj (F p p) = F p p ->
     (forall r j, (r < n)%nat -> (j < n)%nat -> ~ ((a <= r < b)%nat /\ (a <= j < b)%nat /\ intri u r j = true) -> ~ ((a <= r < b)%nat /\ j = c) -> F r j = F1 r j) ->
     (forall j, (j < nr tau)%nat -> ~ (t0 <= j < t1)%nat -> g j 0%nat = vval tau s1 j) ->
     wp (wrv tau i taui) (fun _ s' => tpost s') noX s7).
  { intros F g s7 E7 K1 K2 K3 K4 K5. unfold wrv. apply (wp_wr_eff2_2 A F tau g s1); auto; [lia|lia|]. intros s8 (L1 & L2 & L3 & L4).
    assert (Lt : vval tau s8 i = taui). { unfold vval. rewrite L2 by lia. unfold fupd. rewrite !Nat.eqb_refl. auto. }
    assert (Lc : forall r, (r < k)%nat -> val A s8 (a + r)%nat c = v2 r). { intros r Hr. rewrite L1 by (unfold k in *; lia). auto. }
    unfold tpost. rewrite Lt. cbv zeta.
    assert (LH : forall r j, (r < k)%nat -> (j < k)%nat -> refl taui (hvec dir k (fun r => val A s8 (a + r)%nat c)) r j = refl taui (hvec dir k v2) r j).
    { intros r j Hr Hj. apply refl_ext; apply hvec_ext; auto. }
    set (MM := mmul k (mmul k (ctr (refl taui (hvec dir k v2))) (win (herm u F1))) (refl taui (hvec dir k v2))) in *.
    repeat apply Logic.conj; auto.
    - eapply refc_ext; [auto|exact HR|auto|]. intros r Hr. symmetry. auto.
    - intros r j Hr Hj. transitivity (MM (r - a)%nat (j - a)%nat).
      2:{ unfold MM. apply mmul_ext; intros l Hl; [|symmetry; apply LH; unfold k in *; lia]. apply mmul_ext; auto. intros q Hq. unfold ctr. f_equal. symmetry. apply LH; auto. unfold k in *; lia. }
      assert (HH : hermitian k (win (herm u F1))). { intros r' j' Hr' Hj'. unfold win. apply herm_sym; auto. }
      assert (HMM : hermitian k MM).
      { intros r' j' Hr' Hj'. unfold MM. match goal with |- _ = conj (mmul ?k ?A1 ?B1 ?x ?y) => transitivity (ctr (mmul k A1 B1) y x); [|reflexivity] end.
        rewrite ctr_mmul. rewrite <- mmul_assoc. apply mmul_ext; intros l Hl; auto. rewrite ctr_mmul. apply mmul_ext; intros q Hq; [|symmetry; apply ctr_ctr]. unfold ctr. apply HH; auto. }
      assert (ME : taui = 0 -> forall r' j', (r' < k)%nat -> (j' < k)%nat -> MM r' j' = win (herm u F1) r' j').
      { intros -> r' j' Hr' Hj'. unfold MM. rewrite refl_r by auto. transitivity (mmul k (refl (conj 0) (hvec dir k v2)) (win (herm u F1)) r' j').
        - rewrite (mmul_ext k (ctr _) _ (refl (conj 0) (hvec dir k v2)) (win (herm u F1))) by (auto; intros; apply ctr_refl). ring.
        - rewrite refl_l by auto. rewrite conj_0. ring. }
      transitivity (herm u (win F) (r - a)%nat (j - a)%nat).
      { unfold win. rewrite herm_win. replace (a + (r - a))%nat with r by lia. replace (a + (j - a))%nat with j by lia. apply herm_same; apply L1; lia. }
      destruct (Scalar.eqb_spec taui 0) as [QE1 QE2]. destruct (eqb taui 0) eqn:Qe.
      + assert (Q0 := QE1 eq_refl). rewrite ME by (auto; unfold k; lia). unfold win at 2.
        transitivity (herm u (win F1) (r - a)%nat (j - a)%nat); [|unfold win; apply herm_win].
        assert (KK : forall r j, (r < k)%nat -> (j < k)%nat -> intri u r j = true -> if (r =? j)%nat then re (F (a + r)%nat (a + j)%nat) = re (F1 (a + r)%nat (a + j)%nat) else F (a + r)%nat (a + j)%nat = F1 (a + r)%nat (a + j)%nat).
        { intros r' j' Hr' Hj' Htri. destruct (K2 r' j' Hr' Hj' Htri) as [Q|[[Q _]|[-> [Q _]]]].
          - rewrite ME in Q by auto. unfold win, herm in Q. destruct (Nat.eqb_spec (a + r') (a + j')), (Nat.eqb_spec r' j'); try lia.
            + rewrite Q. apply re_idem. apply re_real.
            + rewrite Q. assert (Z : intri u (a + r') (a + j') = true); [|rewrite Z; auto]. rewrite intri_shift; auto.
          - rewrite Q. destruct (_ =? _)%nat; auto.
          - rewrite Nat.eqb_refl, Q. apply re_idem. apply re_real. }
        assert (Hr' : (r - a < k)%nat) by (unfold k; lia). assert (Hj' : (j - a < k)%nat) by (unfold k; lia). set (r' := (r - a)%nat) in *. set (j' := (j - a)%nat) in *. clearbody r' j'.
        unfold herm, win. destruct (Nat.eqb_spec r' j') as [->|Hne].
        * specialize (KK j' j' Hj' Hj'). rewrite Nat.eqb_refl in KK. apply KK. apply intri_refl.
        * destruct (intri u r' j') eqn:Htri; [specialize (KK r' j' Hr' Hj' Htri); destruct (Nat.eqb_spec r' j'); [lia|auto]|].
          f_equal. specialize (KK j' r' Hj' Hr'). destruct (Nat.eqb_spec j' r'); [lia|]. apply KK. apply intri_swap; auto.
      + apply (herm_tri u (win F) MM k); auto; try (unfold k; lia). intros r' j' Hr' Hj' Htri. destruct (K2 r' j' Hr' Hj' Htri) as [Q|[[_ Q]|[_ [_ Q]]]]; auto; apply QE2 in Q; discriminate.
    - rewrite L1 by lia. auto.
    - intros r j Hr Hj N1 N2. rewrite L1 by lia. auto.
    - intros j Hj N1. unfold vval. rewrite L2 by lia. unfold fupd. destruct (Nat.eqb_spec j i); [lia|]. cbn [andb]. apply K5; auto. }
  apply wp_bind. destruct (eqb taui 0) eqn:Qe; cbn [negb].
  - (* nothing to apply *)
    assert (Q0 : taui = 0) by (apply Scalar.eqb_spec; auto).
    apply wp_bind. apply (wp_rd_eff2_1 _ _ _ _ _ _ _ _ _ _ E2); [lia|lia|]. apply (wp_wr_eff2_1 _ _ _ _ _ _ _ _ _ _ _ E2); auto; [lia|lia|]. intros s3 E3.
    apply (FIN _ _ s3 E3).
    + intros r Hr. unfold fupd. destruct (Nat.eqb_spec c p); [lia|]. rewrite andb_false_r. destruct (inbox_spec a b c (S c) (a + r) c); [f_equal; lia|unfold k in *; lia].
    + intros r j Hr Hj Htri. right. unfold fupd. destruct (inbox_spec a b c (S c) p p); [lia|].
      assert (Eb : inbox a b c (S c) (a + r) (a + j) = false) by (apply inbox_f; unfold k in *; lia). rewrite Eb.
      destruct (Nat.eqb_spec (a + r) p), (Nat.eqb_spec (a + j) p); cbn [andb]; auto. right. split; [lia|]. split; auto. f_equal. f_equal; lia.
    + unfold fupd. rewrite Nat.eqb_refl. cbn [andb]. apply re_real.
    + intros r j Hr Hj N1 N2. unfold fupd. destruct (Nat.eqb_spec r p), (Nat.eqb_spec j p); cbn [andb].
      1:{ exfalso. apply N1. subst r j. repeat split; try lia. apply intri_refl. }
      all: destruct (inbox_spec a b c (S c) r j); [exfalso; apply N2; split; lia|auto].
    + auto.
  - apply wp_bind, wp_slc; [lia..|]. set (C := subv A a b a b). apply wp_bind, wp_slvec; [lia..|]. set (w := Slice.vsub tau t0 t1).
    assert (Nw : nr w = k) by (unfold w, k; cbn; lia). assert (NC : nr C = k) by reflexivity. assert (NC' : nc C = k) by reflexivity.
    assert (DCw : disj C w). { intros x y x' y' Hx Hy Hx' Hy'. cbn [nr nc ad C w subv Slice.vsub] in *. apply HD; lia. }
    assert (Dvw : disj v w). { intros x y x' y' Hx Hy Hx' Hy'. cbn [nr nc ad v w vcol Slice.vsub] in *. apply HD; lia. }
    assert (DvC : disj v C). { intros x y x' y' Hx Hy Hx' Hy' e. cbn [nr nc ad v C vcol subv] in *. apply HI in e; lia. }
    assert (Iw : vinj w). { intros x y x' y' Hx Hy Hx' Hy' e. cbn [nr nc ad w Slice.vsub] in *. apply HIt in e; lia. }
    assert (IC : vinj C) by (apply vinj_subv; auto; lia).
    apply wp_bind. apply (wp_rd_eff2_1 _ _ _ _ _ _ _ _ _ _ E2); [lia|lia|]. apply wp_bind. apply (wp_wr_eff2_1 _ _ _ _ _ _ _ _ _ _ _ E2); auto; [lia|lia|]. intros s3 E3.
    set (F3 := fupd _ p c 1) in E3. set (U := hvec dir k v2).
    assert (EvU : forall s', (forall l, inview v l -> mem s' l = mem s3 l) -> forall r, (r < k)%nat -> vval v s' r = U r).
    { intros s' Hs' r Hr. transitivity (vval v s3 r); [apply Hs'; exists r, 0%nat; repeat split; auto; cbn; lia|].
      transitivity (F3 (a + r)%nat c); [apply (proj1 E3); unfold k in *; lia|]. unfold F3, fupd, U, hvec.
      destruct (Nat.eqb_spec (a + r) p), (Nat.eqb_spec r (hpos dir k)); try (unfold p in *; lia).
      - rewrite Nat.eqb_refl. reflexivity.
      - cbn [andb]. destruct (inbox_spec a b c (S c) (a + r) c); [f_equal; lia|unfold k in *; lia]. }
    assert (EC3 : forall s', (forall l, inview C l -> mem s' l = mem s3 l) -> forall r j, (r < k)%nat -> (j < k)%nat -> val C s' r j = win F1 r j).
    { intros s' Hs' r j Hr Hj. transitivity (val C s3 r j); [apply Hs'; exists r, j; repeat split; auto|].
      transitivity (F3 (a + r)%nat (a + j)%nat); [apply (proj1 E3); unfold k in *; lia|]. unfold F3, fupd, win. destruct (Nat.eqb_spec (a + j) c); [unfold k in *; lia|]. rewrite andb_false_r.
      destruct (inbox_spec a b c (S c) (a + r) (a + j)); [unfold k in *; lia|auto]. }
    apply wp_bind. unfold hemv_nobeta. eapply wp_use.
    { apply (hemv_run u taui C v SZ w s3 k); auto. apply uplo2_ul; auto. }
    intros r0 s4 HL. cbv beta in HL. destruct HL as (W1 & W2 & W3). clear r0. rewrite Nw in W1.
    assert (V4 : forall r, (r < k)%nat -> vval v s4 r = U r).
    { apply EvU. intros l (x & y & Hx & Hy & ->). apply W2. apply nin; auto. }
    set (X := fun r => taui * mvmul k (win (herm u F1)) U r).
    assert (W1' : forall r, (r < k)%nat -> vval w s4 r = X r).
    { intros r Hr. rewrite W1 by auto. cbn [cval]. unfold X.
      assert (Z : mvmul k (herm u (val C s3)) (vval v s3) r = mvmul k (win (herm u F1)) U r); [|rewrite Z; ring].
      unfold mvmul. apply sum_ext. intros l Hl. rewrite (EvU s3) by auto. f_equal. unfold win. rewrite <- herm_win. apply herm_same; apply EC3; auto. }
    apply wp_bind. eapply wp_use; [apply dot_run; auto; rewrite Nw; auto|]. intros d s4' HL. cbv beta in HL. destruct HL as [-> ->]. rewrite Nw.
    rewrite (sum_ext k _ (fun l => conj (X l) * U l)) by (intros; rewrite W1', V4 by auto; auto).
    apply wp_bind. eapply wp_use; [apply axpy_run; auto; rewrite Nw; auto|]. intros r0 s5 HL. cbv beta in HL. destruct HL as (Y1 & Y2 & Y3). clear r0. rewrite Nw, Nv in Y1.
    set (Wf := fun r => X r + (- half * taui * sum k (fun l => conj (X l) * U l)) * U r).
    assert (Y1' : forall r, (r < k)%nat -> vval w s5 r = Wf r).
    { intros r Hr. rewrite Y1 by auto. destruct (Nat.ltb_spec r k); [|lia]. rewrite W1', V4 by auto. reflexivity. }
    assert (M5 : forall l, ~ inview w l -> mem s5 l = mem s3 l). { intros l Hl. rewrite Y2, W2 by auto. auto. }
    assert (V5 : forall r, (r < k)%nat -> vval v s5 r = U r).
    { apply EvU. intros l (x & y & Hx & Hy & ->). apply M5. apply nin; auto. }
    assert (C5 : forall r j, (r < k)%nat -> (j < k)%nat -> val C s5 r j = win F1 r j).
    { apply EC3. intros l (x & y & Hx & Hy & ->). apply M5. apply nin; auto. }
    assert (E5 : eff2 A F3 tau (val tau s5) s1 s5).
    { destruct E3 as (Q1 & Q2 & Q3 & Q4). repeat apply Logic.conj; auto.
      - intros x y Hx Hy. rewrite <- Q1 by auto. apply M5. intros (x' & y' & Hx' & Hy' & e). cbn [nr nc ad w Slice.vsub] in *. revert e. apply HD; lia.
      - intros l N1 N2. rewrite M5; auto. intros (x' & y' & Hx' & Hy' & ->). apply N2. cbn [nr nc ad w Slice.vsub] in *. exists (t0 + x')%nat, 0%nat. repeat split; lia.
      - congruence. }
    apply wp_bind. eapply wp_use.
    { apply runs_returns. apply (her2_correct u (- (1)) v w C s5 k); auto; [split; auto..|]. apply disj_sym; auto. }
    intros r0 s6 HL. cbv beta in HL. clear r0.
    assert (E6 := eff2_step1 _ _ _ _ _ _ _ _ E5 HD (eff_sub A a b a b _ _ _ _ _ HI ltac:(lia) ltac:(lia) (eff2_eff _ _ _ _ _ _ E5) HL)). clear HL. cbv beta in E6.
    apply (wp_wr_eff2_1 _ _ _ _ _ _ _ _ _ _ _ E6); auto; [lia|lia|]. intros s7 E7.
    destruct (inbox_spec a b c (S c) p c); [|lia].
    apply (FIN _ _ s7 E7).
    + intros r Hr. unfold fupd. rewrite Nat.eqb_refl, andb_true_r. destruct (Nat.eqb_spec (a + r) p) as [e|Hne]; [f_equal; lia|].
      destruct (inbox_spec a b a b (a + r) c); [lia|]. unfold F3, fupd. destruct (Nat.eqb_spec (a + r) p); [lia|]. cbn [andb]. destruct (inbox_spec a b c (S c) (a + r) c); [f_equal; lia|unfold k in *; lia].
    + intros r j Hr Hj Htri. left. unfold fupd. destruct (Nat.eqb_spec (a + j) c); [unfold k in *; lia|]. rewrite andb_false_r. destruct (inbox_spec a b a b (a + r) (a + j)); [|unfold k in *; lia].
      replace (a + r - a)%nat with r by lia. replace (a + j - a)%nat with j by lia. rewrite Htri.
      rewrite (herm_same u (val C s5) (win F1)) by auto. unfold win at 1. rewrite herm_win. rewrite !Y1', !V5 by auto.
      apply (rank2 k (win (herm u F1)) taui U r j); auto. intros r' j' Hr' Hj'. unfold win. apply herm_sym; auto.
    + unfold fupd. destruct (Nat.eqb_spec p c); [lia|]. rewrite andb_false_r. destruct (inbox_spec a b a b p p); [|lia].
      assert (Z : intri u (p - a) (p - a) = true) by (apply intri_refl). rewrite Z.
      set (q := (p - a)%nat). rewrite !conj_add, !conj_mul, !conj_conj, !conj_opp, conj_1. rewrite <- (herm_sym u (val C s5) q q) by auto. ring.
    + intros r j Hr Hj N1 N2. unfold fupd. destruct (Nat.eqb_spec r p), (Nat.eqb_spec j c); cbn [andb]; try (exfalso; apply N2; split; lia).
      all: destruct (inbox_spec a b a b r j); [destruct (intri u (r - a) (j - a)) eqn:Z|].
      all: try (exfalso; apply N1; repeat split; try lia; rewrite <- (intri_win u a) by lia; exact Z).
      all: try (rewrite C5 by (unfold k; lia); unfold win; f_equal; lia).
      all: unfold F3, fupd; destruct (Nat.eqb_spec r p), (Nat.eqb_spec j c); cbn [andb]; try lia; destruct (inbox_spec a b c (S c) r j); auto; lia.
    + intros j Hj N1. change (val tau s5 j 0) with (vval tau s5 j). transitivity (vval tau s3 j); [apply M5|].
      * intros (x' & y' & Hx' & Hy' & e). cbn [nr nc ad w Slice.vsub] in *. apply HIt in e; lia.
      * apply (proj1 (proj2 E3)); lia.
Qed.
End G.

(** ** The whole reduction *)
Definition tidx (u : uplo_t) (n e : nat) : nat := match u with Upper => n - 2 - e | _ => e end.
Definition twa (u : uplo_t) (i : nat) : nat := match u with Upper => 0 | _ => i + 1 end.
Definition twb (u : uplo_t) (n i : nat) : nat := match u with Upper => i + 1 | _ => n end.
Definition twc (u : uplo_t) (i : nat) : nat := match u with Upper => i + 1 | _ => i end.
Definition tt0 (u : uplo_t) (i : nat) : nat := match u with Upper => 0 | _ => i end.
Definition tt1 (u : uplo_t) (n i : nat) : nat := match u with Upper => i + 1 | _ => n - 1 end.
Definition tdir (u : uplo_t) : direction_t := match u with Upper => Backward | _ => Forward end.
Definition tel (u : uplo_t) (n e r j : nat) : bool := match u with Upper => (n - 1 - e <? j) && (r + 1 <? j) | _ => (j <? e) && (j + 1 <? r) end%nat.
Definition tvec (u : uplo_t) (n : nat) (F : mat) (i : nat) : nat -> T := match u with Upper => supvec F i | _ => subvec n F i end.
Definition trow (u : uplo_t) (i : nat) : nat := match u with Upper => i | _ => i + 1 end.
Definition tdg (u : uplo_t) (n e d : nat) : Prop := match u with Upper => (n - 1 - e <= d < n)%nat | _ => (d <= e)%nat end.
Lemma tvec_embw u n (F : mat) i r : u = Upper \/ u = Lower -> (i + 1 < n)%nat -> (r < n)%nat ->
  embw (twa u i) (twb u n i) (hvec (tdir u) (twb u n i - twa u i) (fun r => F (twa u i + r)%nat (twc u i))) r = tvec u n F i r.
Proof.
  intros [->| ->] Hi Hr; cbn [twa twb twc tdir tvec]; [|apply subvec_embw; auto].
  unfold embw, hvec, supvec. cbn [hpos]. rewrite !Nat.sub_0_r. cbn [Nat.leb andb]. replace (i + 1 - 1)%nat with i by lia.
  destruct (Nat.ltb_spec r (i + 1)), (Nat.eqb_spec r i), (Nat.ltb_spec r i); try lia; auto.
Qed.
Lemma tvec_ext u n (F G : mat) i r : (forall q, (twa u i <= q < twb u n i)%nat -> F q (twc u i) = G q (twc u i)) -> tvec u n F i r = tvec u n G i r.
Proof.
  destruct u; cbn [tvec twa twb twc]; intros H; try (apply subvec_ext; intros; apply H; lia).
  unfold supvec. destruct (_ =? _)%nat; auto. destruct (Nat.ltb_spec r i); auto. apply H. lia.
Qed.

Section Top.
Variables (h : hconst) (st bt hsm : R) (u : uplo_t) (n : nat) (A tau : view) (s : state).
Hypothesis Hh : hconst_ok h st bt hsm.
Hypothesis Hu : u = Upper \/ u = Lower.
Hypothesis HA1 : nr A = n.
Hypothesis HA2 : nc A = n.
Hypothesis HI : vinj A.
Hypothesis HIt : vinj tau.
Hypothesis Ht1 : nc tau = 1%nat.
Hypothesis HD : disj A tau.
Hypothesis Hn : (0 < n)%nat.
Hypothesis Hlen : (n - 1 <= nr tau)%nat.
Hypothesis Hnorm : (fro2 n n (herm u (val A s)) <= bt * bt)%R.
Definition tH (s' : state) (x : nat) : mat := refl (vval tau s' (tidx u n x)) (tvec u n (val A s') (tidx u n x)).
Definition tinv (e : nat) (s' : state) : Prop :=
  let P := mprod n (tH s') e in
  unitary n P /\
  (forall r j, (r < n)%nat -> (j < n)%nat -> herm u (val A s) r j = mmul n (mmul n P (herm u (masked (tel u n e) (val A s')))) (ctr P) r j) /\
  (forall x, (x < e)%nat -> conj (val A s' (trow u (tidx u n x)) (twc u (tidx u n x))) = val A s' (trow u (tidx u n x)) (twc u (tidx u n x))) /\
  (forall d, (d < n)%nat -> tdg u n e d -> conj (val A s' d d) = val A s' d d) /\
  (forall r j, (r < n)%nat -> (j < n)%nat -> intri u r j = false -> val A s' r j = val A s r j) /\
  (forall j, (n - 1 <= j < nr tau)%nat -> vval tau s' j = vval tau s j) /\
  (forall l, ~ inview A l -> ~ inview tau l -> mem s' l = mem s l) /\ imem s' = imem s.
Lemma tinv_0 s0 : eff2 A (fupd (val A s) (match u with Upper => n - 1 | _ => 0 end) (match u with Upper => n - 1 | _ => 0 end) (re (val A s (match u with Upper => n - 1 | _ => 0 end)%nat (match u with Upper => n - 1 | _ => 0 end)%nat))) tau (val tau s) s s0 -> tinv 0 s0.
Proof.
  set (d0 := match u with Upper => (n - 1)%nat | _ => 0%nat end). assert (Hd0 : (d0 < n)%nat) by (unfold d0; destruct u; lia).
  intros (K1 & K2 & K3 & K4). unfold tinv. cbn [mprod].
  assert (EM : forall r j, (r < n)%nat -> (j < n)%nat -> masked (tel u n 0) (val A s0) r j = val A s0 r j).
  { intros r j Hr Hj. unfold masked, tel. destruct Hu as [->| ->]; [destruct (Nat.ltb_spec (n - 1 - 0) j); [lia|auto]|destruct (Nat.ltb_spec j 0); [lia|auto]]. }
  repeat apply Logic.conj; auto.
  - apply unitary_id.
  - intros r j Hr Hj. rewrite (mmul_ext n _ (ctr idm) (mmul n idm (herm u (masked (tel u n 0) (val A s0)))) idm) by (auto; intros; apply ctr_idm).
    rewrite mmul_id_r, mmul_id_l by auto. rewrite (herm_same u (masked (tel u n 0) (val A s0)) (val A s0) r j) by auto. unfold herm. rewrite !K1 by lia. unfold fupd.
    destruct (Nat.eqb_spec r j) as [->|Hne].
    + destruct (Nat.eqb_spec j d0) as [->|]; cbn [andb]; auto. symmetry. apply re_idem. apply re_real.
    + destruct (Nat.eqb_spec r d0), (Nat.eqb_spec j d0); cbn [andb]; auto; lia.
  - intros x Hx. lia.
  - intros d Hd Hdg. assert (d = d0). { unfold d0, tdg in *. destruct Hu as [->| ->]; lia. } subst d. rewrite K1 by lia. unfold fupd. rewrite Nat.eqb_refl. cbn [andb]. apply re_real.
  - intros r j Hr Hj Htri. rewrite K1 by lia. unfold fupd. destruct (Nat.eqb_spec r d0), (Nat.eqb_spec j d0); cbn [andb]; auto. subst r j. rewrite intri_refl in Htri. discriminate.
  - intros j Hj. unfold vval. rewrite K2 by lia. auto.
Qed.
Lemma twin e : (e + 1 < n)%nat -> let i := tidx u n e in (i + 1 < n /\ twa u i < twb u n i <= n /\ twc u i < n /\ ~ (twa u i <= twc u i < twb u n i) /\
  tt0 u i <= i < tt1 u n i /\ tt1 u n i <= nr tau /\ tt1 u n i - tt0 u i = twb u n i - twa u i /\ twa u i + hpos (tdir u) (twb u n i - twa u i) = trow u i /\ (twa u i <= trow u i < twb u n i))%nat.
Proof. intros He i. unfold i. destruct Hu as [->| ->]; cbn [tidx twa twb twc tt0 tt1 tdir hpos trow]; lia. Qed.
(** the column of the current reflector *)
Lemma tcol e r j (F : mat) : (e + 1 < n)%nat -> let i := tidx u n e in (twa u i <= r < twb u n i)%nat -> j = twc u i -> herm u (masked (tel u n e) F) r j = F r j.
Proof.
  intros He i Hr ->. unfold i in *. unfold herm, masked, tel. destruct Hu as [->| ->]; cbn [tidx twa twb twc intri] in *.
  - destruct (Nat.eqb_spec r (n - 2 - e + 1)); [lia|]. destruct (Nat.leb_spec r (n - 2 - e + 1)); [|lia]. destruct (Nat.ltb_spec (n - 1 - e) (n - 2 - e + 1)); [lia|]. auto.
  - destruct (Nat.eqb_spec r e); [lia|]. destruct (Nat.leb_spec e r); [|lia]. destruct (Nat.ltb_spec e e); [lia|]. auto.
Qed.
Lemma tinv_norm e s1 : (e + 1 < n)%nat -> tinv e s1 -> let i := tidx u n e in (vsq (twb u n i - twa u i) (fun r => val A s1 (twa u i + r)%nat (twc u i)) <= bt * bt)%R.
Proof.
  intros He (I1 & I2 & _) i. subst i. destruct (twin e He) as (Q1 & Q2 & Q3 & _). set (i := tidx u n e) in *. eapply Rle_trans; [|exact Hnorm]. rewrite <- (two_sided_fro n n _ _ _ _ I1 I1 I2).
  eapply Rle_trans; [|apply (fro2_col n n _ (twc u i)); auto]. eapply Rle_trans; [|apply (vsq_head (twb u n i) n); lia]. eapply Rle_trans; [|apply (vsq_tail (twa u i) (twb u n i)); lia].
  right. apply vsq_ext. intros r Hr. symmetry. apply tcol; auto. unfold i in *. lia.
Qed.
Lemma tinv_step e s1 s2 : (e + 1 < n)%nat -> tinv e s1 -> let i := tidx u n e in tpost u (tdir u) (twa u i) (twb u n i) (twc u i) (tt0 u i) (tt1 u n i) i n A tau s1 s2 -> tinv (S e) s2.
Proof.
  intros He (I1 & I2 & I3 & I4 & I5 & I6 & I7 & I8) i. subst i. destruct (twin e He) as (Q1 & Q2 & Q3 & Q4 & Q5 & Q6 & Q7 & Q8 & Q9). set (i := tidx u n e) in *.
  intros (R1 & R2 & R3 & R4 & R5 & R6 & R7). rewrite Q8 in R3.
  set (a := twa u i) in *. set (b := twb u n i) in *. set (c := twc u i) in *.
  assert (Tidx : forall x, (x < e)%nat -> (tidx u n x < nr tau)%nat /\ ~ (tt0 u i <= tidx u n x < tt1 u n i)%nat /\ (tidx u n x + 1 < n)%nat).
  { intros x Hx. unfold i. destruct Hu as [->| ->]; cbn [tidx tt0 tt1]; lia. }
  assert (Tcol : forall x q, (x < e)%nat -> (twa u (tidx u n x) <= q < twb u n (tidx u n x))%nat -> val A s2 q (twc u (tidx u n x)) = val A s1 q (twc u (tidx u n x))).
  { intros x q Hx Hq. apply R4; unfold a, b, c, i in *; destruct Hu as [->| ->]; cbn [tidx twa twb twc] in *; lia. }
  assert (KP : forall r j, (r < n)%nat -> (j < n)%nat -> mprod n (tH s2) e r j = mprod n (tH s1) e r j).
  { intros r j Hr Hj. apply mprod_ext; auto. intros x r' j' Hx Hr' Hj'. destruct (Tidx x Hx) as (T1 & T2 & T3). unfold tH. rewrite R5 by auto. apply refl_ext; apply tvec_ext; auto. }
  set (v := hvec (tdir u) (b - a) (fun r => val A s2 (a + r)%nat c)) in *.
  assert (KH : forall r j, (r < n)%nat -> (j < n)%nat -> tH s2 e r j = refl (vval tau s2 i) (embw a b v) r j).
  { intros r j Hr Hj. unfold tH. apply refl_ext; symmetry; apply tvec_embw; auto. }
  set (Y := herm u (masked (tel u n e) (val A s1))) in *. set (Y' := herm u (masked (tel u n (S e)) (val A s2))).
  assert (HS : forall r j, (r < n)%nat -> (j < n)%nat -> Y' r j = mmul n (mmul n (ctr (refl (vval tau s2 i) (embw a b v))) Y) (refl (vval tau s2 i) (embw a b v)) r j).
  { apply (herm_step n a b c (vval tau s2 i) v Y Y'); auto.
    - intros r j Hr Hj. apply herm_sym; auto.
    - intros r j Hr Hj. apply herm_sym; auto.
    - intros r j Hr Hj N1 N2. assert (K : forall r j, (r < n)%nat -> (j < n)%nat -> ~ (a <= r < b)%nat -> masked (tel u n (S e)) (val A s2) r j = masked (tel u n e) (val A s1) r j).
      { intros r' j' Hr' Hj' N'. unfold masked. assert (Et : tel u n (S e) r' j' = tel u n e r' j').
        { unfold tel, a, b, i in *. destruct Hu as [->| ->]; cbn [tidx twa twb] in *.
          - destruct (Nat.ltb_spec (n - 1 - S e) j'), (Nat.ltb_spec (n - 1 - e) j'), (Nat.ltb_spec (r' + 1) j'); cbn [andb]; auto; lia.
          - destruct (Nat.ltb_spec j' (S e)), (Nat.ltb_spec j' e), (Nat.ltb_spec (j' + 1) r'); cbn [andb]; auto; lia. }
        rewrite Et. destruct (tel u n e r' j'); auto. apply R4; auto; lia. }
      apply herm_same; apply K; auto.
    - intros r j Hr Hj N1 Nc. assert (Z : r <> j /\ intri u r j = true /\ tel u n e r j = true /\ tel u n (S e) r j = true).
      { unfold tel, a, b, c, i in *. destruct Hu as [->| ->]; cbn [tidx twa twb twc intri] in *.
        - destruct (Nat.ltb_spec (n - 1 - S e) j), (Nat.ltb_spec (n - 1 - e) j), (Nat.ltb_spec (r + 1) j), (Nat.leb_spec r j); cbn [andb]; repeat split; auto; lia.
        - destruct (Nat.ltb_spec j (S e)), (Nat.ltb_spec j e), (Nat.ltb_spec (j + 1) r), (Nat.leb_spec j r); cbn [andb]; repeat split; auto; lia. }
      destruct Z as (Z1 & Z2 & Z3 & Z4). unfold Y, Y', herm, masked. rewrite Z2, Z3, Z4. destruct (Nat.eqb_spec r j); [lia|]. auto.
    - intros r Hr. destruct R1 as [_ _ R1]. assert (Eq : forall l, (l < b - a)%nat -> Y (a + l)%nat c = val A s1 (a + l)%nat c).
      { intros l Hl. unfold Y. apply tcol; auto. unfold a, b, i in *. lia. }
      unfold mvmul. rewrite (sum_ext (b - a) _ (fun l => ctr (refl (vval tau s2 i) v) (r - a)%nat l * val A s1 (a + l)%nat c)) by (intros; rewrite Eq by auto; auto).
      specialize (R1 (r - a)%nat ltac:(lia)). unfold mvmul in R1. change (hvec (tdir u) (b - a) (fun r => val A s2 (a + r)%nat c)) with v in R1. rewrite R1. clear R1.
      assert (Z : r <> c /\ intri u r c = true /\ tel u n (S e) r c = negb (r - a =? hpos (tdir u) (b - a))%nat).
      { unfold tel, a, b, c, i in *. destruct Hu as [->| ->]; cbn [tidx twa twb twc intri tdir hpos] in *.
        - destruct (Nat.ltb_spec (n - 1 - S e) (n - 2 - e + 1)), (Nat.ltb_spec (r + 1) (n - 2 - e + 1)), (Nat.leb_spec r (n - 2 - e + 1)), (Nat.eqb_spec (r - 0) (n - 2 - e + 1 - 0 - 1)); cbn [andb negb]; repeat split; auto; lia.
        - destruct (Nat.ltb_spec e (S e)), (Nat.ltb_spec (e + 1) r), (Nat.leb_spec e r), (Nat.eqb_spec (r - (e + 1)) 0); cbn [andb negb]; repeat split; auto; lia. }
      destruct Z as (Z1 & Z2 & Z3). unfold Y', herm, masked. rewrite Z2, Z3. destruct (Nat.eqb_spec r c); [lia|].
      destruct (Nat.eqb_spec (r - a) (hpos (tdir u) (b - a))); cbn [negb]; auto. f_equal. lia.
    - intros r j Hr Hj. assert (Z : forall e', (e' = e \/ e' = S e) -> tel u n e' r j = false /\ tel u n e' j r = false).
      { intros e' [->| ->]; unfold tel, a, b, c, i in *; (destruct Hu as [->| ->]; cbn [tidx twa twb twc] in *); repeat (match goal with |- context [(?x <? ?y)%nat] => destruct (Nat.ltb_spec x y) end); cbn [andb]; split; auto; lia. }
      destruct (Z e (or_introl eq_refl)) as [Z1 Z2]. destruct (Z (S e) (or_intror eq_refl)) as [Z3 Z4].
      transitivity (herm u (val A s2) r j); [apply herm_same; unfold masked; rewrite ?Z3, ?Z4; auto|]. rewrite R2 by auto. change (hvec (tdir u) (b - a) (fun r => val A s2 (a + r)%nat c)) with v.
      apply mmul_ext; auto. intros l Hl. apply mmul_ext; auto. intros q Hq. unfold Y. apply herm_same; unfold masked.
      + assert (Z' : tel u n e (a + q) (a + l) = false); [|rewrite Z'; auto]. clear - Hu Hl Hq He. unfold tel, a, b, i in *. destruct Hu as [->| ->]; cbn [tidx twa twb] in *; repeat (match goal with |- context [(?x <? ?y)%nat] => destruct (Nat.ltb_spec x y) end); cbn [andb]; auto; lia.
      + assert (Z' : tel u n e (a + l) (a + q) = false); [|rewrite Z'; auto]. clear - Hu Hl Hq He. unfold tel, a, b, i in *. destruct Hu as [->| ->]; cbn [tidx twa twb] in *; repeat (match goal with |- context [(?x <? ?y)%nat] => destruct (Nat.ltb_spec x y) end); cbn [andb]; auto; lia. }
  assert (UH : unitary n (refl (vval tau s2 i) (embw a b v))).
  { destruct R1 as [_ R1 _]. apply (embw_unitary n a b _ v (hpos (tdir u) (b - a))); auto; [lia|apply hpos_lt; lia|]. unfold v, hvec. rewrite Nat.eqb_refl. auto. }
  assert (EP : forall r j, (r < n)%nat -> (j < n)%nat -> mprod n (tH s2) (S e) r j = mmul n (mprod n (tH s1) e) (refl (vval tau s2 i) (embw a b v)) r j).
  { intros r j Hr Hj. cbn [mprod]. apply mmul_ext; intros l Hl; [apply KP; auto|apply KH; auto]. }
  unfold tinv. repeat apply Logic.conj.
  - eapply unitary_ext; [intros; symmetry; apply EP; auto|]. apply unitary_mul; auto.
  - intros r j Hr Hj. rewrite (two_sided n n _ _ _ _ Y Y' (herm u (val A s)) UH UH I2 HS r j Hr Hj).
    apply mmul_ext; intros l Hl; [|unfold ctr; f_equal; symmetry; apply EP; auto]. apply mmul_ext; auto. intros q Hq. symmetry. apply EP; auto.
  - intros x Hx. destruct (Nat.eq_dec x e) as [->|Hne].
    + destruct R1 as [R1 _ _]. rewrite Q8 in R1. exact R1.
    + destruct (twin x ltac:(lia)) as (_ & _ & _ & _ & _ & _ & _ & _ & T9). rewrite Tcol by (auto; lia). apply I3. lia.
  - intros d Hd Hdg. destruct (Nat.eq_dec d (trow u i)) as [->|Hne]; [exact R3|].
    rewrite R4; auto.
    + apply I4; auto. unfold tdg, i in *. destruct Hu as [->| ->]; cbn [tidx trow] in *; lia.
    + unfold tdg, a, b, i in *. destruct Hu as [->| ->]; cbn [tidx trow twa twb] in *; lia.
    + unfold tdg, a, b, i in *. destruct Hu as [->| ->]; cbn [tidx trow twa twb] in *; lia.
  - intros r j Hr Hj Htri. rewrite R4; auto.
    + intros (_ & _ & K). congruence.
    + intros (K1 & ->). unfold a, b, c, i in *. destruct Hu as [->| ->]; cbn [tidx twa twb twc intri] in *; rewrite Nat.leb_gt in Htri; lia.
  - intros j Hj. rewrite R5; [apply I6; auto|lia|]. unfold i in *. destruct Hu as [->| ->]; cbn [tidx tt0 tt1] in *; lia.
  - intros l K1 K2. rewrite R6 by auto. auto.
  - congruence.
Qed.
Definition hetd2_post (s' : state) : Prop :=
  trid_reduction u n (herm u (val A s)) (val A s') (vval tau s') /\
  (forall r j, (r < n)%nat -> (j < n)%nat -> intri u r j = false -> val A s' r j = val A s r j) /\
  (forall j, (n - 1 <= j < nr tau)%nat -> vval tau s' j = vval tau s j) /\
  (forall l, ~ inview A l -> ~ inview tau l -> mem s' l = mem s l) /\ imem s' = imem s.
Lemma tinv_post s' : tinv (n - 1) s' -> hetd2_post s'.
Proof.
  intros (I1 & I2 & I3 & I4 & I5 & I6 & I7 & I8). unfold hetd2_post. split; [|auto].
  assert (ER : forall r j, (r < n)%nat -> (j < n)%nat -> r = j \/ r = (j + 1)%nat \/ j = (r + 1)%nat -> conj (herm u (val A s') r j) = herm u (val A s') r j).
  { intros r j Hr Hj Hc. unfold herm. destruct (Nat.eqb_spec r j) as [->|]; [apply re_real|].
    assert (K : forall q, (q + 1 < n)%nat -> match u with Upper => conj (val A s' q (q + 1)%nat) = val A s' q (q + 1)%nat | _ => conj (val A s' (q + 1)%nat q) = val A s' (q + 1)%nat q end).
    { intros q Hq. assert (K := I3 (tidx u n q)). destruct Hu as [->| ->]; cbn [tidx trow twc] in *.
      - specialize (K ltac:(lia)). replace (n - 2 - (n - 2 - q))%nat with q in K by lia. exact K.
      - specialize (K ltac:(lia)). exact K. }
    destruct Hu as [Q|Q]; rewrite Q in K |- *; cbn [intri] in *.
    - destruct (Nat.leb_spec r j).
      + replace j with (r + 1)%nat by lia. apply K. lia.
      + replace r with (j + 1)%nat by lia. rewrite K by lia. apply K. lia.
    - destruct (Nat.leb_spec j r).
      + replace r with (j + 1)%nat by lia. apply K. lia.
      + replace j with (r + 1)%nat by lia. rewrite K by lia. apply K. lia. }
  assert (ET : forall r j, (r < n)%nat -> (j < n)%nat -> tridpart u (val A s') r j = herm u (masked (tel u n (n - 1)) (val A s')) r j).
  { intros r j Hr Hj. unfold tridpart. destruct (Nat.eqb_spec r j) as [->|Hne].
    - unfold herm. rewrite Nat.eqb_refl. unfold masked. assert (Z : tel u n (n - 1) j j = false).
      { unfold tel. destruct Hu as [->| ->]; destruct (Nat.ltb_spec (j + 1) j); try lia; apply andb_false_r. }
      rewrite Z. symmetry. apply re_idem. apply I4; auto. unfold tdg. destruct Hu as [->| ->]; lia.
    - destruct (Nat.eqb_spec r (j + 1)) as [->|H1]; [|destruct (Nat.eqb_spec j (r + 1)) as [->|H2]].
      + assert (K := ER (j + 1)%nat j Hr Hj ltac:(lia)). transitivity (herm u (val A s') (j + 1)%nat j).
        * unfold herm in *. destruct (Nat.eqb_spec (j + 1) j); [lia|]. destruct Hu as [Q|Q]; rewrite Q in K |- *; cbn [intri] in *.
          -- destruct (Nat.leb_spec (j + 1) j); [lia|]. rewrite conj_conj in K. exact K.
          -- destruct (Nat.leb_spec j (j + 1)); [|lia]. auto.
        * apply herm_same; unfold masked, tel; destruct Hu as [->| ->]; repeat (match goal with |- context [(?x <? ?y)%nat] => destruct (Nat.ltb_spec x y) end); cbn [andb]; auto; lia.
      + assert (K := ER r (r + 1)%nat Hr Hj ltac:(lia)). transitivity (herm u (val A s') r (r + 1)%nat).
        * unfold herm in *. destruct (Nat.eqb_spec r (r + 1)); [lia|]. destruct Hu as [Q|Q]; rewrite Q in K |- *; cbn [intri] in *.
          -- destruct (Nat.leb_spec r (r + 1)); [|lia]. auto.
          -- destruct (Nat.leb_spec (r + 1) r); [lia|]. rewrite conj_conj in K. exact K.
        * apply herm_same; unfold masked, tel; destruct Hu as [->| ->]; repeat (match goal with |- context [(?x <? ?y)%nat] => destruct (Nat.ltb_spec x y) end); cbn [andb]; auto; lia.
      + unfold herm, masked. destruct (Nat.eqb_spec r j); [lia|].
        destruct (intri u r j) eqn:Z; [assert (Z' : tel u n (n - 1) r j = true); [|rewrite Z'; auto]|assert (Z' : tel u n (n - 1) j r = true); [|rewrite Z', conj_0; auto]];
        unfold tel; destruct Hu as [Q|Q]; rewrite Q in Z |- *; cbn [intri] in Z; rewrite ?Nat.leb_gt, ?Nat.leb_le in Z; repeat (match goal with |- context [(?x <? ?y)%nat] => destruct (Nat.ltb_spec x y) end); cbn [andb]; auto; lia. }
  assert (EP : forall r j, (r < n)%nat -> (j < n)%nat -> mprod n (tH s') (n - 1) r j = tridq u n (val A s') (vval tau s') r j).
  { intros r j Hr Hj. unfold tridq, tH. destruct Hu as [->| ->]; cbn [tidx tvec]; [|reflexivity]. rewrite rprod_rev by auto.
    apply mprod_ext; auto. intros x r' j' Hx _ _. cbv beta. replace (n - 1 - 1 - x)%nat with (n - 2 - x)%nat by lia. reflexivity. }
  unfold trid_reduction. cbv zeta. repeat apply Logic.conj.
  - eapply unitary_ext; [|exact I1]. auto.
  - intros i j Hi Hj. rewrite I2 by auto. apply mmul_ext; intros l Hl; [|unfold ctr; f_equal; auto]. apply mmul_ext; intros q Hq; auto. symmetry. auto.
  - intros r j Hr Hj. unfold tridpart. destruct (Nat.eqb_spec r j) as [->|Hne]; [apply I4; auto; unfold tdg; destruct Hu as [->| ->]; lia|].
    destruct (Nat.eqb_spec r (j + 1)) as [->|H1]; [|destruct (Nat.eqb_spec j (r + 1)) as [->|H2]; [|apply conj_0]].
    + assert (K := I3 (tidx u n j)). destruct Hu as [->| ->]; cbn [tidx trow twc] in *; specialize (K ltac:(lia)); [replace (n - 2 - (n - 2 - j))%nat with j in K by lia|]; exact K.
    + assert (K := I3 (tidx u n r)). destruct Hu as [->| ->]; cbn [tidx trow twc] in *; specialize (K ltac:(lia)); [replace (n - 2 - (n - 2 - r))%nat with r in K by lia|]; exact K.
Qed.
End Top.
Lemma tinv_step_run h st bt hsm u n A tau s e s1 : hconst_ok h st bt hsm -> u = Upper \/ u = Lower -> nr A = n -> nc A = n -> vinj A -> vinj tau -> nc tau = 1%nat -> disj A tau -> (0 < n)%nat -> (n - 1 <= nr tau)%nat ->
  (fro2 n n (herm u (val A s)) <= bt * bt)%R -> (e + 1 < n)%nat -> tinv u n A tau s e s1 ->
  let i := tidx u n e in wp (tstep h u (tdir u) (twa u i) (twb u n i) (twc u i) (tt0 u i) (tt1 u n i) i A tau) (fun _ s' => tinv u n A tau s (S e) s') noX s1.
Proof.
  intros Hh Hu HA1 HA2 HI HIt Ht1 HD Hn Hlen Hnorm He HT i. destruct (twin bt u n A tau s Hu HA1 HA2 Ht1 Hn Hlen Hnorm e He) as (Q1 & Q2 & Q3 & Q4 & Q5 & Q6 & Q7 & Q8 & Q9).
  eapply wp_conseq; [apply (tstep_run h st bt hsm u (tdir u) (twa u i) (twb u n i) (twc u i) (tt0 u i) (tt1 u n i) i n A tau s1)| |auto]; auto.
  - apply (tinv_norm bt u n A tau s); auto.
  - intros x0 s2 HP; cbv beta in HP. eapply tinv_step; eauto.
Qed.
Lemma hetd2_run h st bt hsm u n A tau s : hconst_ok h st bt hsm -> u = Upper \/ u = Lower -> nr A = n -> nc A = n -> vinj A -> vinj tau -> nc tau = 1%nat -> disj A tau -> (0 < n)%nat -> (n - 1 <= nr tau)%nat ->
  (fro2 n n (herm u (val A s)) <= bt * bt)%R -> runs (hetd2 h u A tau) s (fun r s' => r = 0%Z /\ hetd2_post u n A tau s s').
Proof.
  intros Hh Hu HA1 HA2 HI HIt Ht1 HD Hn Hlen Hnorm. unfold runs, hetd2. rewrite HA1, HA2. cbv zeta.
  apply wp_bind, wp_check; [apply uplo2_ul; auto|]. apply wp_bind, wp_check; [apply Nat.eqb_refl|].
  apply wp_bind, wp_check. { destruct (Nat.eqb_spec n 0); [lia|]. cbn [negb andb]. apply Nat.leb_le. auto. }
  destruct (Nat.leb_spec n 0); [lia|].
  assert (STEP := fun e s1 => tinv_step_run h st bt hsm u n A tau s e s1 Hh Hu HA1 HA2 HI HIt Ht1 HD Hn Hlen Hnorm).
  assert (R0 := eff2_refl A tau s).
  destruct Hu as [->| ->].
  - apply wp_bind. apply (wp_rd_eff2_1 _ _ _ _ _ _ _ _ _ _ R0); [lia|lia|]. apply wp_bind. apply (wp_wr_eff2_1 _ _ _ _ _ _ _ _ _ _ _ R0); auto; [lia|lia|]. intros s0 E0.
    apply wp_bind. apply (wp_fordown (fun i s' => tinv Upper n A tau s (n - 1 - i) s')).
    + lia.
    + rewrite Nat.sub_diag. apply (tinv_0 bt); auto.
    + intros i s1 Hi HJ. specialize (STEP (n - 1 - S i)%nat s1 ltac:(lia) HJ). cbv zeta in STEP. cbn [tidx twa twb twc tt0 tt1 tdir] in STEP. replace (n - 2 - (n - 1 - S i))%nat with i in STEP by lia.
      replace (S (n - 1 - S i)) with (n - 1 - i)%nat in STEP by lia. unfold tstep in STEP. cbn [hpos] in STEP. replace (0 + (i + 1 - 0 - 1))%nat with i in STEP by lia. exact STEP.
    + intros s' HJ. apply wp_ret. split; auto. apply (tinv_post bt); auto. replace (n - 1 - 0)%nat with (n - 1)%nat in HJ by lia. auto.
  - apply wp_bind. apply (wp_rd_eff2_1 _ _ _ _ _ _ _ _ _ _ R0); [lia|lia|]. apply wp_bind. apply (wp_wr_eff2_1 _ _ _ _ _ _ _ _ _ _ _ R0); auto; [lia|lia|]. intros s0 E0.
    apply wp_bind. apply (wp_forup (fun i s' => tinv Lower n A tau s i s')).
    + lia.
    + apply (tinv_0 bt); auto.
    + intros i s1 Hi HJ. specialize (STEP i s1 ltac:(lia) HJ). cbv zeta in STEP. cbn [tidx twa twb twc tt0 tt1 tdir] in STEP. 
      unfold tstep in STEP. cbn [hpos] in STEP. replace (i + 1 + 0)%nat with (i + 1)%nat in STEP by lia. exact STEP.
    + intros s' HJ. apply wp_ret. split; auto. apply (tinv_post bt); auto.
Qed.
End P.
