(** * geqrt3 *)
From Coq Require Import Bool Arith ZArith Lia Reals Lra Ring Field.
From Verif.Core Require Import Scalar Prog View Slice Loops WorkEff Instances RealLaws.
From Verif.Spec Require Import LinAlg Outcome Norms Householder.
From Verif.Model Require Import Gemm Blas1 Blas2 Blas3 Legacy LaAux Norms Work Householder QGen QFact BlockQ Geqrt3.
From Verif.Proof Require Import SumLemmas Tactics SliceTac LegacyProof GemmProof TrmmProof ExactBlas LowOps LaAuxProof PotrfProof BlockAlg LarfProof LarfgProof QRProof WorkProof QGenProof QFactProof LarftProof LarfbProof BlockProof BlockFact Geqrt3Math.
Local Open Scope T_scope.

Section U.
Context {E : Env} {FL : FieldLaws E} {CL : ConjLaws E} {QL : EqbLaws E}.
Add Field Tf : fth.
Lemma subloop A W s m n : nr A = m -> nc A = n -> nr W = m -> nc W = n -> vinj A -> disj W A ->
  wp (for_ j in 0 upto n do for_ i in 0 upto m do (c <- rd A i j;; w <- rd W i j;; wr A i j (c - w))) (fun _ s' => eff A (fun i j => val A s i j - val W s i j) s s') noX s.
Proof.
  intros A1 A2 W1 W2 HI HD.
  eapply wp_conseq; [apply (part_loop A (fun _ => 0%nat) (fun _ => m) _ (fun i j x => x - val W s i j) n s); [lia|intros; lia| |apply eff_refl]| |auto].
  - intros i j s1 F Hj Hi He. apply wp_bind. apply (wp_rd_eff A F s); auto; [lia..|]. apply wp_bind. apply wp_rd; [lia..|].
    assert (e : val W s1 i j = val W s i j) by (apply (val_frame A F W s s1 He); [|lia..]; intros l Hl; apply (nin_disj W A); auto).
    rewrite e. apply (wp_wr_eff A F s); auto; lia.
  - intros u0 s' He. cbv beta in He. apply (eff_ext _ _ _ _ _ He). intros i j Hi Hj. cbv beta. destruct (Nat.ltb_spec j n), (Nat.leb_spec 0 i), (Nat.ltb_spec i m); cbn [andb]; try lia. auto.
Qed.
Lemma ctrloop A W s m n : nr A = n -> nc A = m -> nr W = m -> nc W = n -> vinj W -> disj A W ->
  wp (for_ j in 0 upto n do for_ i in 0 upto m do (v <- rd A j i;; wr W i j (conj v))) (fun _ s' => eff W (fun i j => conj (val A s j i)) s s') noX s.
Proof.
  intros A1 A2 W1 W2 HI HD.
  eapply wp_conseq; [apply (part_loop W (fun _ => 0%nat) (fun _ => m) _ (fun i j x => conj (val A s j i)) n s); [lia|intros; lia| |apply eff_refl]| |auto].
  - intros i j s1 F Hj Hi He. apply wp_bind. apply wp_rd; [lia..|].
    assert (e : val A s1 j i = val A s j i) by (apply (val_frame W F A s s1 He); [|lia..]; intros l Hl; apply (nin_disj A W); auto).
    rewrite e. apply (wp_wr_eff W F s); auto; lia.
  - intros u0 s' He. cbv beta in He. apply (eff_ext _ _ _ _ _ He). intros i j Hi Hj. cbv beta. destruct (Nat.ltb_spec j n), (Nat.leb_spec 0 i), (Nat.ltb_spec i m); cbn [andb]; try lia. auto.
Qed.

Section B.
Variables (A Tm : view) (m n n1 : nat) (s0 : state).
Hypothesis HS : nr A = m /\ nc A = n.
Hypothesis HT : nr Tm = n /\ nc Tm = n.
Hypothesis HIA : vinj A.
Hypothesis HIT : vinj Tm.
Hypothesis HD : disj A Tm.
Hypothesis Hn1 : (n1 <= n)%nat.
Hypothesis Hmn : (n <= m)%nat.
Let C := subv A 0 m n1 n.
Let W := subv Tm 0 n1 n1 n.
Let A11 := subv A 0 n1 0 n1.
Let A21 := subv A n1 (n - n1 + n1) 0 n1.
Let A31 := subv A (n - n1 + n1) m 0 n1.
Let A12 := subv A 0 n1 n1 n.
Let A22 := subv A n1 (n - n1 + n1) n1 n.
Let A32 := subv A (n - n1 + n1) m n1 n.
Let T11 := subv Tm 0 n1 0 n1.
Let T22 := subv Tm n1 n n1 n.
Let stC := stt C W s0.
Lemma HIC : vinj C. Proof. apply vinj_subv; auto; lia. Qed.
Lemma HIW : vinj W. Proof. apply vinj_subv; auto; lia. Qed.
Lemma HWC : disj W C. Proof. apply LarfbProof.disj_sym. apply disj_sub_l; [lia..|]. apply disj_sub_r; [lia..|]. auto. Qed.
Lemma subC a b : (b <= m)%nat -> subv C a b 0 (n - n1) = subv A a b n1 n.
Proof. intros Hb. unfold C, subv. cbn [nr nc ad]. f_equal; lia. Qed.
Lemma dA_W a b c d : (b <= m)%nat -> (d <= n)%nat -> disj (subv A a b c d) W.
Proof. intros. apply disj_sub_l; [lia..|]. apply disj_sub_r; [lia..|]. auto. Qed.
Lemma dT_C a b c d : (b <= n)%nat -> (d <= n)%nat -> disj (subv Tm a b c d) C.
Proof. intros. apply LarfbProof.disj_sym. apply disj_sub_l; [lia..|]. apply disj_sub_r; [lia..|]. auto. Qed.
Lemma dA_C a b d : (b <= m)%nat -> (d <= n1)%nat -> disj (subv A a b 0 d) C.
Proof. intros H1 H2 i j i' j' Hi Hj Hi' Hj'. cbn [nr nc subv ad C] in *. intros e. apply HIA in e; lia. Qed.
Lemma dT11_W : disj T11 W.
Proof. intros i j i' j' Hi Hj Hi' Hj'. cbn [nr nc subv ad W T11] in *. intros e. apply HIT in e; lia. Qed.
Lemma dT22_W : disj T22 W.
Proof. intros i j i' j' Hi Hj Hi' Hj'. cbn [nr nc subv ad W T22] in *. intros e. apply HIT in e; lia. Qed.

Definition Uv : nat -> nat -> T := rvec Forward Columnwise m n1 (val A s0).
Lemma U_top a l : (a < n1)%nat -> (l < n1)%nat -> trim Lower Unit (val A11 s0) l a = Uv a l.
Proof. intros Ha Hl. unfold trim, Uv, rvec, rpos. cbn [intri]. destruct (Nat.eqb_spec l a); auto. destruct (Nat.leb_spec a l), (Nat.ltb_spec l a); try lia; auto. Qed.
Lemma U_bot a x l : (a < n1)%nat -> (n1 <= x)%nat -> val A s0 (x + l)%nat a = Uv a (x + l)%nat.
Proof. intros Ha Hl. unfold Uv, rvec, rpos. destruct (Nat.eqb_spec (x + l) a), (Nat.ltb_spec (x + l) a); try lia; auto. Qed.
Lemma sum3 f : sum n1 f + sum (n - n1) (fun l => f (n1 + l)%nat) + sum (m - n) (fun l => f (n - n1 + n1 + l)%nat) = sum m f.
Proof. rewrite (sum_split_at n m) by lia. rewrite (sum_split_at n1 n) by lia. replace (n - n1 + n1)%nat with n by lia. auto. Qed.

Lemma update_run :
  wp (geqrt3_update n1 (n - n1) A11 A12 A21 A22 A31 A32 T11 W)
    (fun _ s' => effw C (mmul m (blkrefl n1 (ctr (trim Upper NonUnit (val T11 s0))) Uv) (val C s0)) (inview W) s0 s') noX s0.
Proof.
  unfold geqrt3_update. assert (I1 := HIC). assert (I2 := HIW). assert (I3 := HWC). assert (I4 := dT11_W). set (n2 := (n - n1)%nat) in *.
  assert (WC : forall G G' FW FC s s', stC FW FC s -> eff W G s s' -> (forall i j, (i < n1)%nat -> (j < n2)%nat -> G i j = G' i j) -> stC G' FC s').
  { intros G G' FW FC s s' Z He Hg. assert (Z' := stt_W C W s0 I3 _ _ _ _ _ Z He). apply (stt_ext _ _ _ _ _ _ _ _ Z'); auto. intros; apply Hg; cbn [nr nc W subv] in *; lia. }
  assert (VA : forall FW FC s a b c i j, stC FW FC s -> (b <= m)%nat -> (i < b - a)%nat -> (j < n1)%nat -> (c <= n1)%nat -> (j < c)%nat -> val (subv A a b 0 c) s i j = val A s0 (a + i)%nat j).
  { intros FW FC s a b c i j Z Hb Hi Hj Hc Hjc. rewrite (stt_val C W s0 FW FC s (subv A a b 0 c) Z); [reflexivity| | | |]; [apply dA_C; lia|apply dA_W; lia|cbn; lia|cbn; lia]. }
  assert (VC : forall FW FC s a b i j, stC FW FC s -> (b <= m)%nat -> (a + i < b)%nat -> (j < n2)%nat -> val (subv A a b n1 n) s i j = FC (a + i)%nat j).
  { intros FW FC s a b i j Z Hb Hi Hj. rewrite <- subC by auto. rewrite (stt_valC C W s0 FW FC s a b 0%nat (n - n1)%nat i j Z); [auto|cbn; lia|cbn; lia]. }
  assert (Z0 : stC (val W s0) (val C s0) s0) by (split; [auto|apply effw_refl]).
  assert (TU : forall FW FC s a l, stC FW FC s -> (a < n1)%nat -> (l < n1)%nat -> trim Lower Unit (val A11 s) l a = Uv a l).
  { intros FW FC s a l Z Ha Hl. rewrite <- U_top by auto. unfold trim. destruct (_ =? _)%nat; auto. destruct (intri _ _ _); auto. unfold A11. rewrite (VA FW FC s) by (auto; lia). reflexivity. }
  (* step 2 *)
  apply wp_bind. eapply wp_conseq; [apply (lacpy_all A12 W s0 noX); cbn [nr nc subv A12 W]; auto; try lia; apply dA_W; lia| |auto].
  intros u0 s1 He. cbv beta in He. clear u0. assert (Z1 := WC _ (val C s0) _ _ _ _ Z0 He (fun i j _ _ => eq_refl)). clear He Z0.
  (* step 3 *)
  apply wp_bind. eapply wp_conseq; [apply (trmm_run Left Lower ConjTrans Unit 1 A11 W s1 n1 n2); cbn [nr nc subv A11 W sel]; auto; try lia; apply dA_W; lia| |auto].
  intros u0 s2 He. cbv beta iota in He. clear u0.
  assert (Z2 := WC _ (fun i j => sum n1 (fun l => conj (Uv i l) * val C s0 l j)) _ _ _ _ Z1 He).
  cbv beta in Z2. match type of Z2 with ?H -> _ => assert (Hy : H) end.
  { intros i j Hi Hj. rewrite mul1. unfold mmul. apply sum_ext. intros l Hl. cbn [opm]. rewrite (TU _ _ _ _ _ Z1) by auto. f_equal. apply (proj1 Z1); cbn; lia. }
  specialize (Z2 Hy). clear Hy He Z1.
  (* step 4 *)
  apply wp_bind. eapply wp_conseq; [apply (gemm_run ConjTrans NoTrans 1 A21 A22 (Sc 1) W s2 n1 n2 n2); cbn [is_nt op_eqb nr nc subv A21 A22 W]; auto; try lia; apply dA_W; lia| |auto].
  intros u0 s3 He. cbv beta in He. clear u0.
  assert (Z3 := WC _ (fun i j => sum n1 (fun l => conj (Uv i l) * val C s0 l j) + sum n2 (fun l => conj (Uv i (n1 + l)%nat) * val C s0 (n1 + l)%nat j)) _ _ _ _ Z2 He).
  cbv beta in Z3. match type of Z3 with ?H -> _ => assert (Hy : H) end.
  { intros i j Hi Hj. rewrite gemm_val_exact by auto. cbn [cval]. rewrite (proj1 Z2) by (cbn; lia). rewrite !mul1. rewrite addC. f_equal. unfold mmul. apply sum_ext. intros l Hl. cbn [opm].
    unfold A21, A22. rewrite (VA _ _ _ _ _ _ _ _ Z2) by lia. rewrite (VC _ _ _ _ _ _ _ Z2) by lia. rewrite U_bot by lia. auto. }
  specialize (Z3 Hy). clear Hy He Z2.
  apply wp_bind. eapply wp_conseq; [apply (gemm_run ConjTrans NoTrans 1 A31 A32 (Sc 1) W s3 n1 n2 (m - n)); cbn [is_nt op_eqb nr nc subv A31 A32 W]; auto; try lia; apply dA_W; lia| |auto].
  intros u0 s4 He. cbv beta in He. clear u0.
  set (yl := fun i j => sum m (fun l => conj (Uv i l) * val C s0 l j)).
  assert (Z4 := WC _ yl _ _ _ _ Z3 He).
  cbv beta in Z4. match type of Z4 with ?H -> _ => assert (Hy : H) end.
  { intros i j Hi Hj. rewrite gemm_val_exact by auto. cbn [cval]. rewrite (proj1 Z3) by (cbn; lia). rewrite !mul1. rewrite addC. unfold yl. rewrite <- sum3. change (n - n1)%nat with n2. f_equal. unfold mmul. apply sum_ext. intros l Hl. cbn [opm].
    unfold A31, A32. rewrite (VA _ _ _ _ _ _ _ _ Z3) by lia. rewrite (VC _ _ _ _ _ _ _ Z3) by lia. rewrite U_bot by lia. auto. }
  specialize (Z4 Hy). clear Hy He Z3.
  (* step 5 *)
  set (T' := ctr (trim Upper NonUnit (val T11 s0))). set (Z := mmul n1 T' yl).
  assert (TT : forall FW FC s i j, stC FW FC s -> (i < n1)%nat -> (j < n1)%nat -> val T11 s i j = val T11 s0 i j).
  { intros FW FC s i j Hz Hi Hj. apply (stt_val C W s0 FW FC s T11 Hz); [apply dT_C; lia|auto|cbn; lia|cbn; lia]. }
  apply wp_bind. eapply wp_conseq; [apply (trmm_run Left Upper ConjTrans NonUnit 1 T11 W s4 n1 n2); cbn [nr nc subv T11 W sel]; auto; lia| |auto].
  intros u0 s5 He. cbv beta iota in He. clear u0.
  assert (Z5 := WC _ Z _ _ _ _ Z4 He).
  cbv beta in Z5. match type of Z5 with ?H -> _ => assert (Hy : H) end.
  { intros i j Hi Hj. rewrite mul1. unfold Z, mmul. apply sum_ext. intros l Hl. cbn [opm]. unfold T', ctr, trim. rewrite !(TT _ _ _ _ _ Z4) by auto. f_equal. apply (proj1 Z4); cbn; lia. }
  specialize (Z5 Hy). clear Hy He Z4.
  (* step 6 *)
  assert (EC : forall a b G FW FC FC' s s', stC FW FC s -> (b <= m)%nat -> eff (subv A a b n1 n) G s s' ->
    (forall i j, (i < m)%nat -> (j < n2)%nat -> (if inbox a b 0 n2 i j then G (i - a)%nat j else FC i j) = FC' i j) -> stC FW FC' s').
  { intros a b G FW FC FC' s s' Hz Hb He Hg. rewrite <- subC in He by auto. assert (Z' := stt_C C W s0 I1 I3 FW FC G s s' a b 0%nat (n - n1)%nat Hz ltac:(cbn; lia) ltac:(cbn; lia) He).
    apply (stt_ext _ _ _ _ _ _ _ _ Z'); auto. intros i j Hi Hj. cbn [nr nc C subv] in Hi, Hj. rewrite <- Hg by lia. cbv beta. destruct (inbox_spec a b 0 n2 i j), (inbox_spec a b 0 (n - n1) i j); try lia; auto. rewrite Nat.sub_0_r. auto. }
  apply wp_bind. eapply wp_conseq; [apply (gemm_run NoTrans NoTrans (- (1)) A21 W (Sc 1) A22 s5 n2 n2 n1); cbn [is_nt op_eqb nr nc subv A21 A22 W]; auto; try lia;
    [apply vinj_subv; auto; lia| |]| |auto].
  { intros i j i' j' Hi Hj Hi' Hj'. cbn [nr nc subv ad A21 A22] in *. intros e. apply HIA in e; lia. }
  { apply LarfbProof.disj_sym. apply dA_W; lia. }
  intros u0 s6 He. cbv beta in He. clear u0.
  assert (Z6 := EC n1 (n2 + n1)%nat _ _ _ (fun i j => if inbox n1 n 0 n2 i j then val C s0 i j - sum n1 (fun a => Uv a i * Z a j) else val C s0 i j) _ _ Z5 ltac:(lia) He).
  cbv beta in Z6. match type of Z6 with ?H -> _ => assert (Hy : H) end.
  { intros i j Hi Hj. destruct (inbox_spec n1 (n2 + n1) 0 n2 i j), (inbox_spec n1 n 0 n2 i j); try lia; auto. rewrite gemm_val_exact by auto. cbn [cval]. unfold A22. rewrite (VC _ _ _ _ _ _ _ Z5) by lia.
    replace (n1 + (i - n1))%nat with i by lia. match goal with |- _ * ?x + _ = _ - ?y => assert (e : x = y) end; [|rewrite e; ring].
    unfold mmul. apply sum_ext. intros l Hl. cbn [opm]. unfold A21. rewrite (VA _ _ _ _ _ _ _ _ Z5) by lia. rewrite U_bot by lia. replace (n1 + (i - n1))%nat with i by lia. f_equal. apply (proj1 Z5); cbn; lia. }
  specialize (Z6 Hy). clear Hy He Z5.
  apply wp_bind. eapply wp_conseq; [apply (gemm_run NoTrans NoTrans (- (1)) A31 W (Sc 1) A32 s6 (m - n) n2 n1); cbn [is_nt op_eqb nr nc subv A31 A32 W]; auto; try lia;
    [apply vinj_subv; auto; lia| |]| |auto].
  { intros i j i' j' Hi Hj Hi' Hj'. cbn [nr nc subv ad A31 A32] in *. intros e. apply HIA in e; lia. }
  { apply LarfbProof.disj_sym. apply dA_W; lia. }
  intros u0 s7 He. cbv beta in He. clear u0.
  set (FC7 := fun i j => if (n1 <=? i)%nat then val C s0 i j - sum n1 (fun a => Uv a i * Z a j) else val C s0 i j).
  assert (Z7 := EC (n2 + n1)%nat m _ _ _ FC7 _ _ Z6 ltac:(lia) He).
  cbv beta in Z7. match type of Z7 with ?H -> _ => assert (Hy : H) end.
  { intros i j Hi Hj. unfold FC7. destruct (inbox_spec (n2 + n1) m 0 n2 i j).
    - rewrite gemm_val_exact by auto. cbn [cval]. unfold A32. rewrite (VC _ _ _ _ _ _ _ Z6) by lia. cbv beta.
      replace (n2 + n1 + (i - (n2 + n1)))%nat with i by lia. destruct (inbox_spec n1 n 0 n2 i j); [lia|]. destruct (Nat.leb_spec n1 i); [|lia].
      match goal with |- _ * ?x + _ = _ - ?y => assert (e : x = y) end; [|rewrite e; ring].
      unfold mmul. apply sum_ext. intros l Hl. cbn [opm]. unfold A31. rewrite (VA _ _ _ _ _ _ _ _ Z6) by lia. rewrite U_bot by lia. replace (n2 + n1 + (i - (n2 + n1)))%nat with i by lia. f_equal. apply (proj1 Z6); cbn; lia.
    - destruct (inbox_spec n1 n 0 n2 i j), (Nat.leb_spec n1 i); try lia; auto. }
  specialize (Z7 Hy). clear Hy He Z6.
  (* step 7 *)
  apply wp_bind. eapply wp_conseq; [apply (trmm_run Left Lower NoTrans Unit 1 A11 W s7 n1 n2); cbn [nr nc subv A11 W sel]; auto; try lia; apply dA_W; lia| |auto].
  intros u0 s8 He. cbv beta iota in He. clear u0.
  assert (Z8 := WC _ (fun i j => sum n1 (fun a => Uv a i * Z a j)) _ _ _ _ Z7 He).
  cbv beta in Z8. match type of Z8 with ?H -> _ => assert (Hy : H) end.
  { intros i j Hi Hj. rewrite mul1. unfold mmul. apply sum_ext. intros l Hl. cbn [opm]. rewrite (TU _ _ _ _ _ Z7) by auto. f_equal. apply (proj1 Z7); cbn; lia. }
  specialize (Z8 Hy). clear Hy He Z7.
  (* step 8 *)
  eapply wp_conseq; [apply (subloop A12 W s8 n1 n2); cbn [nr nc subv A12 W]; auto; try lia; [apply vinj_subv; auto; lia|apply LarfbProof.disj_sym, dA_W; lia]| |auto].
  intros u0 s9 He. cbv beta in He. clear u0.
  assert (Z9 := EC 0%nat n1 _ _ _ (fun i j => val C s0 i j - sum n1 (fun a => Uv a i * Z a j)) _ _ Z8 ltac:(lia) He).
  cbv beta in Z9. match type of Z9 with ?H -> _ => assert (Hy : H) end.
  { intros i j Hi Hj. destruct (inbox_spec 0 n1 0 n2 i j).
    - unfold A12. rewrite (VC _ _ _ _ _ _ _ Z8) by lia. rewrite (proj1 Z8) by (cbn; lia). unfold FC7. rewrite Nat.sub_0_r. cbn [Nat.add]. destruct (Nat.leb_spec n1 i); [lia|]. auto.
    - unfold FC7. destruct (Nat.leb_spec n1 i); [|lia]. auto. }
  specialize (Z9 Hy). clear Hy He Z8.
  destruct Z9 as (_ & Z9). apply (effw_ext _ _ _ _ _ _ Z9). intros i j Hi Hj. cbn [nr nc C subv] in Hi, Hj.
  assert (HR : mmul m (blkrefl n1 T' Uv) (val C s0) i j = val C s0 i j - mmul m (mmul n1 (fun r a => Uv a r) (mmul n1 T' (fun b c => conj (Uv b c)))) (val C s0) i j).
  { unfold mmul at 1. rewrite (sum_ext m _ (fun l => idm i l * val C s0 l j - mmul n1 (fun r a => Uv a r) (mmul n1 T' (fun b c => conj (Uv b c))) i l * val C s0 l j)).
    - rewrite sum_minus. f_equal. apply (mmul_id_l m (val C s0) i j); lia.
    - intros l Hl. rewrite blk_mm. ring. }
  rewrite HR. f_equal. rewrite <- mmul_assoc. unfold mmul at 1. apply sum_ext. intros a Ha. f_equal. unfold Z. rewrite <- mmul_assoc. reflexivity.
Qed.
(** steps 10-14 *)
Definition U2v : nat -> nat -> T := rvec Forward Columnwise (m - n1) (n - n1) (val (subv A n1 m n1 n) s0).
Lemma U2_top a l : (a < n - n1)%nat -> (l < n - n1)%nat -> trim Lower Unit (val A22 s0) l a = U2v a l.
Proof. intros Ha Hl. unfold trim, U2v, rvec, rpos. cbn [intri]. destruct (Nat.eqb_spec l a); auto. destruct (Nat.leb_spec a l), (Nat.ltb_spec l a); try lia; auto. Qed.
Lemma U2_bot a l : (a < n - n1)%nat -> val A32 s0 l a = U2v a (n - n1 + l)%nat.
Proof. intros Ha. unfold U2v, rvec, rpos. destruct (Nat.eqb_spec (n - n1 + l) a), (Nat.ltb_spec (n - n1 + l) a); try lia. unfold A32, val, subv. cbn [ad]. f_equal. f_equal. lia. Qed.
Lemma t12_run :
  wp (geqrt3_t12 n1 (n - n1) A21 A22 A31 A32 T11 W T22)
    (fun _ s' => eff W (fun i j => - mmul (n - n1) (mmul n1 (trim Upper NonUnit (val T11 s0)) (fun p q => sum (m - n1) (fun l => conj (Uv p (n1 + l)%nat) * U2v q l))) (trim Upper NonUnit (val T22 s0)) i j) s0 s') noX s0.
Proof.
  unfold geqrt3_t12. assert (I2 := HIW). assert (I4 := dT11_W). assert (I5 := dT22_W). set (n2 := (n - n1)%nat) in *.
  assert (TR : forall F G s s', eff W F s0 s -> eff W G s s' -> eff W G s0 s').
  { intros F G s s' (A1 & A2 & A3) (B1 & B2 & B3). repeat split; auto; [|congruence]. intros l Hl. rewrite B2, A2; auto. }
  assert (VF : forall F s B, eff W F s0 s -> disj B W -> forall i j, (i < nr B)%nat -> (j < nc B)%nat -> val B s i j = val B s0 i j).
  { intros F s B He Hd. apply (val_frame W F B s0 s He). intros l Hl. apply (nin_disj B W); auto. }
  (* step 10 *)
  apply wp_bind. eapply wp_conseq; [apply (ctrloop A21 W s0 n1 n2); cbn [nr nc subv A21 W]; auto; try lia; apply dA_W; lia| |auto].
  intros u0 s1 He1. cbv beta in He1. clear u0.
  (* step 11 *)
  apply wp_bind. eapply wp_conseq; [apply (trmm_run Right Lower NoTrans Unit 1 A22 W s1 n1 n2); cbn [nr nc subv A22 W sel]; auto; try lia; apply dA_W; lia| |auto].
  intros u0 s2 He. cbv beta iota in He. clear u0. assert (He2 := TR _ _ _ _ He1 He). clear He.
  assert (He2' : eff W (fun i j => sum n2 (fun l => conj (Uv i (n1 + l)%nat) * U2v j l)) s0 s2).
  { apply (eff_ext _ _ _ _ _ He2). intros i j Hi Hj. cbn [nr nc W subv] in Hi, Hj. cbv beta. rewrite mul1. unfold mmul. apply sum_ext. intros l Hl.
    rewrite (proj1 He1) by (cbn; lia). cbv beta. unfold A21 at 1. rewrite <- (U_bot i n1 l) by lia. f_equal. cbn [opm]. rewrite <- U2_top by (change (n - n1)%nat with n2; lia).
    unfold trim. rewrite !(VF _ _ A22 He1) by (cbn [nr nc A22 subv]; first [apply dA_W; lia|lia]). auto. }
  clear He2 He1 s1.
  (* step 12 *)
  apply wp_bind. eapply wp_conseq; [apply (gemm_run ConjTrans NoTrans 1 A31 A32 (Sc 1) W s2 n1 n2 (m - n)); cbn [is_nt op_eqb nr nc subv A31 A32 W]; auto; try lia; apply dA_W; lia| |auto].
  intros u0 s3 He. cbv beta in He. clear u0. assert (He3 := TR _ _ _ _ He2' He). clear He.
  set (D := fun p q => sum (m - n1) (fun l => conj (Uv p (n1 + l)%nat) * U2v q l)).
  assert (He3' : eff W D s0 s3).
  { apply (eff_ext _ _ _ _ _ He3). intros i j Hi Hj. cbn [nr nc W subv] in Hi, Hj. cbv beta. rewrite gemm_val_exact by auto. cbn [cval]. rewrite (proj1 He2') by (cbn; lia). cbv beta. rewrite !mul1. rewrite addC.
    unfold D. rewrite (sum_split_at n2 (m - n1)) by lia. f_equal. replace (m - n1 - n2)%nat with (m - n)%nat by lia. unfold mmul. apply sum_ext. intros l Hl. cbn [opm].
    rewrite !(VF _ _ A31 He2'), (VF _ _ A32 He2') by (cbn [nr nc A31 A32 subv]; first [apply dA_W; lia|lia]). rewrite U2_bot by (change (n - n1)%nat with n2; lia). change (n - n1)%nat with n2.
    f_equal. f_equal. replace (n1 + (n2 + l))%nat with (n2 + n1 + l)%nat by lia. rewrite <- (U_bot i (n2 + n1) l) by lia. reflexivity. }
  clear He3 He2' s2.
  (* step 13 *)
  apply wp_bind. eapply wp_conseq; [apply (trmm_run Left Upper NoTrans NonUnit (- (1)) T11 W s3 n1 n2); cbn [nr nc subv T11 W sel]; auto; lia| |auto].
  intros u0 s4 He. cbv beta iota in He. clear u0. assert (He4 := TR _ _ _ _ He3' He). clear He.
  assert (He4' : eff W (fun i j => - mmul n1 (trim Upper NonUnit (val T11 s0)) D i j) s0 s4).
  { apply (eff_ext _ _ _ _ _ He4). intros i j Hi Hj. cbn [nr nc W subv] in Hi, Hj. cbv beta. match goal with |- _ * ?x = - ?y => assert (e : x = y); [|rewrite e; ring] end.
    unfold mmul. apply sum_ext. intros l Hl. cbn [opm]. rewrite (proj1 He3') by (cbn; lia). f_equal. unfold trim. rewrite !(VF _ _ T11 He3') by (cbn [nr nc T11 subv]; first [auto; fail|lia]). auto. }
  clear He4 He3' s3.
  (* step 14 *)
  eapply wp_conseq; [apply (trmm_run Right Upper NoTrans NonUnit 1 T22 W s4 n1 n2); cbn [nr nc subv T22 W sel]; auto; lia| |auto].
  intros u0 s5 He. cbv beta iota in He. clear u0. assert (He5 := TR _ _ _ _ He4' He). clear He.
  apply (eff_ext _ _ _ _ _ He5). intros i j Hi Hj. cbn [nr nc W subv] in Hi, Hj. cbv beta. rewrite mul1. match goal with |- _ = - mmul ?k ?X ?Y i j => transitivity (sum k (fun l => - (X i l * Y l j))); [|apply sum_opp] end.
  apply sum_ext. intros l Hl. cbn [opm]. rewrite (proj1 He4') by (cbn; lia). cbv beta.
  match goal with |- - ?x * ?y = - (?x * ?z) => assert (e : y = z); [|rewrite e; ring] end.
  unfold trim. rewrite !(VF _ _ T22 He4') by (cbn [nr nc T22 subv]; first [auto; fail|lia]). auto.
Qed.
End B.
End U.

(** ** The recursion *)
Section J.
Context {E : Env} {FL : FieldLaws E} {CL : ConjLaws E} {QL : EqbLaws E}.
Add Field Tf2 : fth.
Lemma in_subv A a b c d i j : vinj A -> (b <= nr A)%nat -> (d <= nc A)%nat -> (i < nr A)%nat -> (j < nc A)%nat ->
  inview (subv A a b c d) (ad A i j) -> (a <= i < b)%nat /\ (c <= j < d)%nat.
Proof. intros HI Hb Hd Hi Hj (p & q & Hp & Hq & e). cbn [nr nc subv ad] in *. apply HI in e; try lia. Qed.
Lemma nin_subv A B a b c d i j : disj A B -> (b <= nr B)%nat -> (d <= nc B)%nat -> (i < nr A)%nat -> (j < nc A)%nat -> ~ inview (subv B a b c d) (ad A i j).
Proof. intros HD Hb Hd Hi Hj K. apply inview_subv in K; auto. revert K. apply nin; auto. Qed.
Definition gq (isw : bool) (A Tm : view) (Bk : Z -> Prop) (s s' : state) : Prop :=
  let m := nr A in let n := nc A in
  let U := rvec Forward Columnwise m n (val A s') in
  let Q := mprod m (fun i => refl (val Tm s' i i) (U i)) n in
  unitary m Q /\
  (forall i j, (i < m)%nat -> (j < n)%nat -> val A s i j = mmul m Q (rtri (val A s')) i j) /\
  (forall i, (i < n)%nat -> conj (val A s' i i) = val A s' i i) /\
  (isw = false -> forall r c, (r < m)%nat -> (c < m)%nat -> Q r c = blkrefl n (trim Upper NonUnit (val Tm s')) U r c) /\
  (forall i j, (j < i < n)%nat -> val Tm s' i j = val Tm s i j) /\
  (forall l, ~ inview A l -> ~ inview Tm l -> ~ Bk l -> mem s' l = mem s l) /\ imem s' = imem s.

Section B.
Variables (A Tm : view) (m n n1 : nat) (Bk : Z -> Prop) (isw : bool) (s s1 s2 s3 s4 : state).
Hypothesis HSA : nr A = m /\ nc A = n.
Hypothesis HTA : nr Tm = n /\ nc Tm = n.
Hypothesis HIA : vinj A.
Hypothesis HIT : vinj Tm.
Hypothesis HD : disj A Tm.
Hypothesis Hn1 : (n1 <= n)%nat.
Hypothesis Hmn : (n <= m)%nat.
Hypothesis BA : forall l, Bk l -> ~ inview A l.
Hypothesis BT : forall l, Bk l -> ~ inview Tm l.
Let C := subv A 0 m n1 n.
Let W := subv Tm 0 n1 n1 n.
Let A1 := subv A 0 m 0 n1.
Let A2 := subv A n1 m n1 n.
Let T11 := subv Tm 0 n1 0 n1.
Let T22 := subv Tm n1 n n1 n.
Hypothesis K1 : gq false A1 T11 Bk s s1.
Hypothesis K2 : effw C (mmul m (blkrefl n1 (ctr (trim Upper NonUnit (val T11 s1))) (Uv A m n1 s1)) (val C s1)) (inview W) s1 s2.
Hypothesis K3 : gq isw A2 T22 Bk s2 s3.
Hypothesis K4 : if isw then s4 = s3 else
  eff W (fun i j => - mmul (n - n1) (mmul n1 (trim Upper NonUnit (val T11 s3)) (fun p q => sum (m - n1) (fun l => conj (Uv A m n1 s3 p (n1 + l)%nat) * U2v A m n n1 s3 q l))) (trim Upper NonUnit (val T22 s3)) i j) s3 s4.
Let Fr1 : forall l, ~ inview A1 l -> ~ inview T11 l -> ~ Bk l -> mem s1 l = mem s l.
Proof. apply K1. Qed.
Let Fr2 : forall l, ~ inview C l -> ~ inview W l -> mem s2 l = mem s1 l.
Proof. apply K2. Qed.
Let Fr3 : forall l, ~ inview A2 l -> ~ inview T22 l -> ~ Bk l -> mem s3 l = mem s2 l.
Proof. apply K3. Qed.
Let Fr4 : forall l, ~ inview W l -> mem s4 l = mem s3 l.
Proof. destruct isw; [rewrite K4; auto|apply K4]. Qed.
Lemma nBA i j : (i < m)%nat -> (j < n)%nat -> ~ Bk (ad A i j).
Proof. intros Hi Hj K. apply (BA _ K). exists i, j. repeat split; lia. Qed.
Lemma nBT i j : (i < n)%nat -> (j < n)%nat -> ~ Bk (ad Tm i j).
Proof. intros Hi Hj K. apply (BT _ K). exists i, j. repeat split; lia. Qed.
Ltac nA := unfold C, W, A1, A2, T11, T22; match goal with
  | |- ~ inview (subv A _ _ _ _) (ad A _ _) => let K := fresh in intros K; apply in_subv in K; [lia|auto|lia..]
  | |- ~ inview (subv Tm _ _ _ _) (ad Tm _ _) => let K := fresh in intros K; apply in_subv in K; [lia|auto|lia..]
  | |- ~ inview (subv Tm _ _ _ _) (ad A _ _) => apply nin_subv; [auto|lia..]
  | |- ~ inview (subv A _ _ _ _) (ad Tm _ _) => apply nin_subv; [apply LarfbProof.disj_sym; auto|lia..]
  | |- ~ Bk (ad A _ _) => apply nBA; lia
  | |- ~ Bk (ad Tm _ _) => apply nBT; lia
  end.
(** what becomes of the elements of A and T *)
Lemma a_left12 i j : (i < m)%nat -> (j < n1)%nat -> val A s2 i j = val A s1 i j.
Proof. intros Hi Hj. unfold val. apply Fr2; nA. Qed.
Lemma a_left i j : (i < m)%nat -> (j < n1)%nat -> val A s4 i j = val A s1 i j.
Proof. intros Hi Hj. rewrite <- a_left12 by auto. unfold val. rewrite Fr4, Fr3 by nA. auto. Qed.
Lemma a_right01 i j : (i < m)%nat -> (n1 <= j < n)%nat -> val A s1 i j = val A s i j.
Proof. intros Hi Hj. unfold val. apply Fr1; nA. Qed.
Lemma a_top i j : (i < n1)%nat -> (n1 <= j < n)%nat -> val A s4 i j = val A s2 i j.
Proof. intros Hi Hj. unfold val. rewrite Fr4, Fr3 by nA. auto. Qed.
Lemma a_34 i j : (i < m)%nat -> (j < n)%nat -> val A s4 i j = val A s3 i j.
Proof. intros Hi Hj. unfold val. rewrite Fr4 by nA. auto. Qed.
Lemma t_11 i j : (i < n1)%nat -> (j < n1)%nat -> val Tm s4 i j = val Tm s1 i j /\ val Tm s3 i j = val Tm s1 i j.
Proof. intros Hi Hj. unfold val. rewrite Fr4, Fr3, Fr2 by nA. auto. Qed.
Lemma t_22 i j : (n1 <= i < n)%nat -> (n1 <= j < n)%nat -> val Tm s4 i j = val Tm s3 i j.
Proof. intros Hi Hj. unfold val. rewrite Fr4 by nA. auto. Qed.
Lemma t_22' i j : (n1 <= i < n)%nat -> (n1 <= j < n)%nat -> val Tm s2 i j = val Tm s i j.
Proof. intros Hi Hj. unfold val. rewrite Fr2, Fr1 by nA. auto. Qed.
Lemma t_21 i j : (n1 <= i < n)%nat -> (j < n1)%nat -> val Tm s4 i j = val Tm s i j.
Proof. intros Hi Hj. unfold val. rewrite Fr4, Fr3, Fr2, Fr1 by nA. auto. Qed.
(** the vectors *)
Let U := rvec Forward Columnwise m n (val A s4).
Lemma U_1 a r : (a < n1)%nat -> (r < m)%nat -> U a r = rvec Forward Columnwise m n1 (val A1 s1) a r /\ U a r = Uv A m n1 s1 a r /\ U a r = Uv A m n1 s3 a r.
Proof.
  intros Ha Hr. unfold U, Uv, rvec, rpos. destruct (Nat.eqb r a), (Nat.ltb r a); auto. rewrite <- a_34 by lia. rewrite a_left by auto. auto.
Qed.
Lemma U_2 b r : (b < n - n1)%nat -> (r < m)%nat -> U (n1 + b)%nat r = embw n1 m (rvec Forward Columnwise (m - n1) (n - n1) (val A2 s3) b) r.
Proof.
  intros Hb Hr. unfold U, rvec, rpos, embw. destruct (Nat.leb_spec n1 r), (Nat.ltb_spec r m); cbn [andb]; try lia.
  - destruct (Nat.eqb_spec r (n1 + b)), (Nat.eqb_spec (r - n1) b), (Nat.ltb_spec r (n1 + b)), (Nat.ltb_spec (r - n1) b); try lia; auto.
    rewrite a_34 by lia. unfold val, A2, subv. cbn [ad]. do 2 f_equal. lia.
  - destruct (Nat.eqb_spec r (n1 + b)), (Nat.ltb_spec r (n1 + b)); try lia; auto.
Qed.
Let Q1 := mprod m (fun i => refl (val T11 s1 i i) (rvec Forward Columnwise m n1 (val A1 s1) i)) n1.
Let Q2 := mprod (m - n1) (fun i => refl (val T22 s3 i i) (rvec Forward Columnwise (m - n1) (n - n1) (val A2 s3) i)) (n - n1).
Let Q := mprod m (fun i => refl (val Tm s4 i i) (U i)) n.
Lemma Q_join r c : (r < m)%nat -> (c < m)%nat -> Q r c = mmul m Q1 (embm n1 m Q2) r c.
Proof.
  intros Hr Hc. unfold Q. replace n with (n1 + (n - n1))%nat by lia. rewrite mprod_app by auto. apply mmul_ext; intros l Hl.
  - apply mprod_ext; auto. intros u p q Hu Hp Hq. unfold refl. rewrite (proj1 (t_11 u u Hu Hu)). rewrite (proj1 (U_1 u p Hu Hp)), (proj1 (U_1 u q Hu Hq)). reflexivity.
  - unfold Q2. rewrite <- (embm_mprod m) by (auto; lia). apply mprod_ext; auto. intros u p q Hu Hp Hq. rewrite embm_refl. unfold refl. rewrite t_22 by lia. rewrite !U_2 by auto. reflexivity.
Qed.
Lemma Q1_u : unitary m Q1.
Proof. destruct K1 as (H & _). replace (nr A1) with m in H by (cbn; lia). replace (nc A1) with n1 in H by (cbn; lia). exact H. Qed.
Lemma Q2_u : unitary m (embm n1 m Q2).
Proof. apply unitary_embm; [lia|]. exact (proj1 K3). Qed.
Lemma Q1_blk r c : (r < m)%nat -> (c < m)%nat -> Q1 r c = blkrefl n1 (trim Upper NonUnit (val T11 s1)) (Uv A m n1 s1) r c.
Proof.
  intros Hr Hc. destruct K1 as (_ & _ & _ & H & _). specialize (H eq_refl r c). replace (nr A1) with m in H by (cbn; lia). replace (nc A1) with n1 in H by (cbn; lia).
  unfold Q1. rewrite H by auto. apply blkrefl_ext; auto; intros a Ha; destruct (U_1 a r Ha Hr) as (e1 & e2 & _), (U_1 a c Ha Hc) as (e3 & e4 & _); congruence.
Qed.
Lemma gq_join : gq isw A Tm Bk s s4.
Proof.
  unfold gq. rewrite (proj1 HSA), (proj2 HSA). cbv zeta. change (rvec Forward Columnwise m n (val A s4)) with U. change (mprod m (fun i => refl (val Tm s4 i i) (U i)) n) with Q.
  pose proof K1 as (_ & R1 & D1 & _ & L1 & _ & I1). pose proof K3 as (_ & R2 & D2 & B2 & L2 & _ & I3).
  replace (nr A1) with m in R1 by (cbn; lia). replace (nc A1) with n1 in R1, D1, L1 by (cbn; lia).
  replace (nr A2) with (m - n1)%nat in R2, B2 by reflexivity. replace (nc A2) with (n - n1)%nat in R2, D2, L2, B2 by reflexivity.
  change (forall i j, (i < m)%nat -> (j < n1)%nat -> val A1 s i j = mmul m Q1 (rtri (val A1 s1)) i j) in R1.
  change (forall i j, (i < m - n1)%nat -> (j < n - n1)%nat -> val A2 s2 i j = mmul (m - n1) Q2 (rtri (val A2 s3)) i j) in R2.
  assert (UQ : unitary m (mmul m Q1 (embm n1 m Q2))) by (apply unitary_mul; [apply Q1_u|apply Q2_u]).
  split; [eapply unitary_ext; [|exact UQ]; intros; symmetry; apply Q_join; auto|]. split; [|split; [|split; [|split; [|split]]]].
  - intros i j Hi Hj. transitivity (mmul m (mmul m Q1 (embm n1 m Q2)) (rtri (val A s4)) i j); [|apply mmul_ext; auto; intros; symmetry; apply Q_join; auto].
    rewrite <- mmul_assoc. destruct (Nat.lt_ge_cases j n1) as [Hc|Hc].
    + change (val A s i j) with (val A1 s i j). rewrite R1 by auto. apply mmul_ext; auto. intros l Hl. rewrite embm_l by (auto; lia).
      unfold rtri. change (val A1 s1 l j) with (val A s1 l j). destruct (win_spec n1 m l).
      * destruct (Nat.leb_spec l j); [lia|]. symmetry. apply sum_0. intros k Hk. destruct (Nat.leb_spec (n1 + k) j); [lia|]. ring.
      * destruct (Nat.leb_spec l j); auto. symmetry. apply a_left; lia.
    + assert (EC : forall l, (l < m)%nat -> val A s2 l j = mmul m (ctr Q1) (val A s) l j).
      { intros l Hl. assert (e := proj1 K2 l (j - n1)%nat ltac:(cbn; lia) ltac:(cbn; lia)). unfold C in e at 1. change (val A s2 (0 + l)%nat (n1 + (j - n1))%nat = mmul m (blkrefl n1 (ctr (trim Upper NonUnit (val T11 s1))) (Uv A m n1 s1)) (val C s1) l (j - n1)%nat) in e.
        replace (n1 + (j - n1))%nat with j in e by lia. cbn [Nat.add] in e. rewrite e. unfold mmul at 1 2. apply sum_ext. intros k Hk. f_equal.
        - rewrite blkrefl_ctr. unfold ctr. rewrite Q1_blk by auto. auto.
        - change (val A s1 (0 + k)%nat (n1 + (j - n1))%nat = val A s k j). replace (n1 + (j - n1))%nat with j by lia. apply a_right01; lia. }
      transitivity (mmul m Q1 (val A s2) i j).
      * transitivity (mmul m Q1 (mmul m (ctr Q1) (val A s)) i j); [|apply mmul_ext; auto; intros; symmetry; apply EC; auto].
        rewrite mmul_assoc. transitivity (mmul m idm (val A s) i j); [symmetry; apply mmul_id_l; auto|]. apply mmul_ext; auto. intros l Hl. symmetry. apply Q1_u; auto.
      * apply mmul_ext; auto. intros l Hl. rewrite embm_l by (auto; lia). destruct (win_spec n1 m l).
        -- assert (e := R2 (l - n1)%nat (j - n1)%nat ltac:(lia) ltac:(lia)). change (val A s2 (n1 + (l - n1))%nat (n1 + (j - n1))%nat = mmul (m - n1) Q2 (rtri (val A2 s3)) (l - n1)%nat (j - n1)%nat) in e.
           replace (n1 + (j - n1))%nat with j in e by lia. replace (n1 + (l - n1))%nat with l in e by lia. rewrite e.
           unfold mmul. apply sum_ext. intros k Hk. f_equal. unfold rtri. change (val A2 s3 k (j - n1)%nat) with (val A s3 (n1 + k)%nat (n1 + (j - n1))%nat). replace (n1 + (j - n1))%nat with j by lia.
           destruct (Nat.leb_spec k (j - n1)), (Nat.leb_spec (n1 + k) j); try lia; auto. symmetry. apply a_34; lia.
        -- unfold rtri. destruct (Nat.leb_spec l j); [|lia]. symmetry. apply a_top; lia.
  - intros i Hi. destruct (Nat.lt_ge_cases i n1) as [Hc|Hc].
    + rewrite a_left by lia. exact (D1 i Hc).
    + assert (e := D2 (i - n1)%nat ltac:(lia)). change (conj (val A s3 (n1 + (i - n1))%nat (n1 + (i - n1))%nat) = val A s3 (n1 + (i - n1))%nat (n1 + (i - n1))%nat) in e. replace (n1 + (i - n1))%nat with i in e by lia. rewrite a_34 by lia. auto.
  - intros Hw r c Hr Hc. rewrite Q_join by auto.
    transitivity (mmul m (blkrefl n1 (trim Upper NonUnit (val T11 s3)) (Uv A m n1 s3)) (blkrefl (n - n1) (trim Upper NonUnit (val T22 s3)) (fun q => embw n1 m (U2v A m n n1 s3 q))) r c).
    + apply mmul_ext; intros l Hl.
      * rewrite Q1_blk by auto. apply blkrefl_ext.
        -- intros a b Ha Hb. unfold trim. change (val T11 ?x ?y ?z) with (val Tm x y z). destruct (t_11 a b Ha Hb) as [_ q1], (t_11 a a Ha Ha) as [_ q2]. rewrite q1, ?q2. auto.
        -- intros a Ha. destruct (U_1 a r Ha Hr) as (_ & e1 & e2). congruence.
        -- intros a Ha. destruct (U_1 a l Ha Hl) as (_ & e1 & e2). congruence.
      * rewrite <- blkrefl_embm. apply embm_ext. intros p q Hp Hq. apply B2; auto.
    + assert (K4' := K4). rewrite Hw in K4'. transitivity (blkrefl (n1 + (n - n1)) (trim Upper NonUnit (val Tm s4)) U r c); [|replace (n1 + (n - n1))%nat with n by lia; reflexivity].
      assert (EW : forall a b, (a < n1)%nat -> (b < n - n1)%nat -> val Tm s4 a (n1 + b)%nat = - mmul (n - n1) (mmul n1 (trim Upper NonUnit (val T11 s3)) (fun p q => sum (m - n1) (fun l => conj (Uv A m n1 s3 p (n1 + l)%nat) * U2v A m n n1 s3 q l))) (trim Upper NonUnit (val T22 s3)) a b).
      { intros a b Ha Hb. exact (proj1 K4' a b ltac:(cbn; lia) ltac:(cbn; lia)). }
      apply blkrefl_join; auto.
      * intros a x Ha Hx. apply (proj2 (proj2 (U_1 a x Ha Hx))).
      * intros b x Hb Hx. apply U_2; auto.
      * intros a b Ha Hb. unfold trim. change (val T11 ?x ?y ?z) with (val Tm x y z). destruct (t_11 a b Ha Hb) as [e1 e2], (t_11 a a Ha Ha) as [e3 e4]. rewrite e1, e2, ?e3, ?e4. auto.
      * intros a b Ha Hb. unfold trim. rewrite !t_22 by lia. change (val T22 s3 ?y ?z) with (val Tm s3 (n1 + y)%nat (n1 + z)%nat).
        destruct (Nat.eqb_spec a b), (Nat.eqb_spec (n1 + a) (n1 + b)); try lia; auto. cbn [intri]. destruct (Nat.leb_spec a b), (Nat.leb_spec (n1 + a) (n1 + b)); try lia; auto.
      * intros a b Ha Hb. unfold trim. cbn [intri]. destruct (Nat.eqb_spec (n1 + a) b); [lia|]. destruct (Nat.leb_spec (n1 + a) b); [lia|]. auto.
      * intros a b Ha Hb. transitivity (val Tm s4 a (n1 + b)%nat).
        { unfold trim. cbn [intri]. destruct (Nat.eqb_spec a (n1 + b)); [lia|]. destruct (Nat.leb_spec a (n1 + b)); [|lia]. auto. }
        rewrite EW by auto. f_equal. apply mmul_ext; auto. intros q Hq. apply mmul_ext; auto. intros p Hp.
        rewrite (embw_sum m n1 m (fun l => conj (Uv A m n1 s3 p l)) (U2v A m n n1 s3 q)) by lia. auto.
  - intros i j Hij. destruct (Nat.lt_ge_cases i n1), (Nat.lt_ge_cases j n1); try lia.
    + rewrite (proj1 (t_11 i j ltac:(auto) ltac:(auto))). exact (L1 i j ltac:(lia)).
    + apply t_21; lia.
    + rewrite t_22 by lia. assert (e := L2 (i - n1)%nat (j - n1)%nat ltac:(lia)). change (val Tm s3 (n1 + (i - n1))%nat (n1 + (j - n1))%nat = val Tm s2 (n1 + (i - n1))%nat (n1 + (j - n1))%nat) in e.
      replace (n1 + (i - n1))%nat with i in e by lia. replace (n1 + (j - n1))%nat with j in e by lia. rewrite e. apply t_22'; lia.
  - intros l H1 H2 H3. rewrite Fr4, Fr3, Fr2, Fr1; auto; intros K; (apply inview_subv in K; [auto|lia..]).
  - assert (I4 : imem s4 = imem s3) by (destruct isw; [rewrite K4; auto|apply K4]). rewrite I4, I3. destruct K2 as (_ & _ & ->). auto.
Qed.
End B.
End J.
