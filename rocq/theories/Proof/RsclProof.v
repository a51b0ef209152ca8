(** rscl for complex scalars *)
From Coq Require Import Bool Arith ZArith Lia Ring Field.
From Verif.Core Require Import Scalar Prog View Rel Slice Loops.
From Verif.Spec Require Import LinAlg Outcome.
From Verif.Model Require Import Blas1 LaAux.
From Verif.Proof Require Import SumLemmas Tactics Blas1Proof LaAuxProof2 OrdLemmas.
Local Open Scope T_scope.

Ltac chpq p q alpha := change (re alpha) with p; change (im alpha) with q.
Section C.
Context {E : Env} {FL : FieldLaws E} {CL : ConjLaws E} {QL : EqbLaws E} {RL : ROrdLaws E} {XL : CplxLaws E}.
Add Field Tf : fth.

Lemma im_0 a : conj a = a -> im a = 0.
Proof.
  intros H. assert (K := norm_re_im a). rewrite H, (re_idem a H) in K.
  assert (e : im a * im a = 0). { transitivity (a * a + im a * im a - a * a); [ring|]. rewrite <- K. ring. }
  apply mul_0_inv in e. tauto.
Qed.
Lemma re_1 : re 1 = 1.
Proof. apply re_idem, conj_1. Qed.
Lemma real_1 : conj 1 = 1.
Proof. apply conj_1. Qed.
Lemma real_opp a : conj a = a -> conj (- a) = - a.
Proof. intros H. rewrite conj_opp, H. auto. Qed.
Lemma re_re a : conj (re a) = re a.
Proof. apply re_real. Qed.
(** the complex reciprocal *)
Lemma recip_mkc alpha u v : cplx = true -> conj u = u -> conj v = v -> re alpha * u - im alpha * v = 1 -> re alpha * v + im alpha * u = 0 -> alpha * mkc u v = 1.
Proof.
  intros Hc Hu Hv H1 H2. apply reim_ext.
  - rewrite re_mul, re_mkc, im_mkc, re_1 by auto. auto.
  - rewrite im_mul, re_mkc, im_mkc by auto. rewrite (im_0 1 real_1). auto.
Qed.
Lemma div_of_mul alpha c z : alpha <> 0 -> alpha * z = c -> z = c / alpha.
Proof. intros Ha <-. field. auto. Qed.
Lemma mkc_scal c u v : cplx = true -> conj c = c -> conj u = u -> conj v = v -> mkc (c * u) (c * v) = c * mkc u v.
Proof.
  intros Hc Hr Hu Hv. apply reim_ext.
  - rewrite re_mul, !re_mkc, im_mkc, (im_0 c), (re_idem c) by (auto using real_mul). ring.
  - rewrite im_mul, !im_mkc, re_mkc, (im_0 c), (re_idem c) by (auto using real_mul). ring.
Qed.
Lemma scal2 c d alpha x s0 : nc x = 1%nat -> vinj x -> alpha <> 0 -> c * d = 1 / alpha ->
  wp (bind (scal c x) (fun _ => scal d x)) (fun _ s' => veff x (fun i => vval x s0 i / alpha) s0 s') noX s0.
Proof.
  intros Hx HI Ha Hcd. apply wp_bind. eapply wp_conseq; [apply scal_run; auto| |auto]. intros u s1 (H1 & H2 & H3). cbv beta. clear u.
  eapply wp_conseq; [apply scal_run; auto| |auto]. intros u s2 (K1 & K2 & K3). split; [|split].
  - intros i Hi. rewrite K1, H1 by auto. transitivity (vval x s0 i * (c * d)); [ring|]. rewrite Hcd. field. auto.
  - intros l Hl. rewrite K2, H2; auto.
  - congruence.
Qed.
Lemma scal1 c alpha x s0 : nc x = 1%nat -> vinj x -> alpha <> 0 -> c = 1 / alpha ->
  wp (scal c x) (fun _ s' => veff x (fun i => vval x s0 i / alpha) s0 s') noX s0.
Proof.
  intros Hx HI Ha Hc. eapply wp_conseq; [apply scal_run; auto| |auto]. intros u s1 (H1 & H2 & H3). split; [|split]; auto.
  intros i Hi. rewrite H1 by auto. subst c. field. auto.
Qed.
Lemma rscl_run safeMin safeMax alpha x s0 : nc x = 1%nat -> vinj x -> alpha <> 0 -> conj safeMin = safeMin -> conj safeMax = safeMax -> safeMin * safeMax = 1 ->
  runs (rscl safeMin safeMax alpha x) s0 (fun _ s' => veff x (fun i => vval x s0 i / alpha) s0 s').
Proof.
  intros Hx HI Ha R1 R2 Hs. unfold runs, rscl. destruct cplx eqn:Hc; [|apply rscl_real_run; auto].
  unfold rscl_cplx. cbv zeta. set (p := re alpha). set (q := im alpha).
  assert (Rp : conj p = p) by apply re_real. assert (Rq : conj q = q) by apply im_real.
  assert (HM : safeMax <> 0). { intros e. rewrite e in Hs. apply one_neq_0. rewrite <- Hs. ring. }
  assert (Hm : safeMin <> 0). { intros e. rewrite e in Hs. apply one_neq_0. rewrite <- Hs. ring. }
  assert (HN : p * p + q * q <> 0).
  { unfold p, q. rewrite <- norm_re_im. apply mul_neq_0; auto. apply conj_neq_0; auto. }
  destruct (eqb q 0) eqn:Eq.
  { apply eqb_spec in Eq. assert (e : alpha = p).
    { apply reim_ext; [rewrite (re_idem p Rp); auto|]. rewrite (im_0 p Rp). exact Eq. }
    rewrite e in Ha |- *. apply rscl_real_run; auto. }
  assert (Hq : q <> 0). { intros e. rewrite e in Eq. assert (K := proj2 (eqb_spec 0 0) eq_refl). congruence. }
  destruct (eqb p 0) eqn:Ep.
  { apply eqb_spec in Ep.
    assert (Hz : forall c, conj c = c -> mkc 0 (- c / q) = c * (1 / alpha)).
    { intros c Hr. replace (mkc 0 (- c / q)) with (c * mkc 0 (- (1) / q)).
      - f_equal. apply div_of_mul; auto. apply recip_mkc; auto; [apply conj_0|apply real_div; auto; apply real_opp, real_1| |]; chpq p q alpha; rewrite Ep; field; auto.
      - rewrite <- mkc_scal; auto; [|apply conj_0|apply real_div; auto; apply real_opp, real_1]. f_equal; [ring|field; auto]. }
    destruct (ltb safeMax (absv q)); [|destruct (ltb (absv q) safeMin)].
    - apply scal2; auto. rewrite Hz by auto. transitivity (safeMin * safeMax * (1 / alpha)); [ring|]. rewrite Hs. field. auto.
    - apply scal2; auto. rewrite Hz by auto. transitivity (safeMin * safeMax * (1 / alpha)); [ring|]. rewrite Hs. field. auto.
    - apply scal1; auto. rewrite Hz by apply real_1. field. auto. }
  assert (Hp : p <> 0). { intros e. rewrite e in Ep. assert (K := proj2 (eqb_spec 0 0) eq_refl). congruence. }
  set (a := p + q * (q / p)). set (b := q + p * (p / q)).
  assert (Ea : a = (p * p + q * q) / p) by (unfold a; field; auto).
  assert (Eb : b = (p * p + q * q) / q) by (unfold b; field; auto).
  assert (Hz : forall c, conj c = c -> mkc (c / a) (- c / b) = c * (1 / alpha)).
  { intros c Hr. replace (mkc (c / a) (- c / b)) with (c * mkc (1 / a) (- (1) / b)).
    - f_equal. apply div_of_mul; auto. rewrite Ea, Eb.
      assert (RN : conj (p * p + q * q) = p * p + q * q) by auto using real_add, real_mul.
      apply recip_mkc; auto; [| |chpq p q alpha..].
      + replace (1 / ((p * p + q * q) / p)) with (p / (p * p + q * q)) by (field; auto). apply real_div; auto.
      + replace (- (1) / ((p * p + q * q) / q)) with (- q / (p * p + q * q)) by (field; auto). apply real_div; auto using real_opp.
      + field. auto.
      + field. auto.
    - assert (Na : a <> 0). { rewrite Ea. intros e. apply HN. transitivity ((p * p + q * q) / p * p); [field; auto|]. rewrite e. ring. }
      assert (Nb : b <> 0). { rewrite Eb. intros e. apply HN. transitivity ((p * p + q * q) / q * q); [field; auto|]. rewrite e. ring. }
      assert (Ra : conj a = a) by (unfold a; auto 6 using real_add, real_mul, real_div).
      assert (Rb : conj b = b) by (unfold b; auto 6 using real_add, real_mul, real_div).
      rewrite <- mkc_scal; auto; [|apply real_div; auto using real_opp, real_1..]. f_equal; field; auto. }
  assert (Na : a <> 0). { rewrite Ea. intros e. apply HN. transitivity ((p * p + q * q) / p * p); [field; auto|]. rewrite e. ring. }
  assert (Nb : b <> 0). { rewrite Eb. intros e. apply HN. transitivity ((p * p + q * q) / q * q); [field; auto|]. rewrite e. ring. }
  assert (Hsc : forall a' b', a' = safeMin * a -> b' = safeMin * b -> safeMin * mkc (1 / a') (- (1) / b') = 1 / alpha).
  { intros a' b' -> ->. replace (1 / (safeMin * a)) with (safeMax / a).
    2: { transitivity (safeMin * safeMax / (safeMin * a)); [field; auto|rewrite Hs; auto]. }
    replace (- (1) / (safeMin * b)) with (- safeMax / b).
    2: { transitivity (- (safeMin * safeMax) / (safeMin * b)); [field; auto|rewrite Hs; auto]. }
    rewrite Hz by auto. transitivity (safeMin * safeMax * (1 / alpha)); [ring|]. rewrite Hs. field. auto. }
  destruct (_ || _).
  { apply scal2; auto. rewrite Hz by auto. transitivity (safeMin * safeMax * (1 / alpha)); [ring|]. rewrite Hs. field. auto. }
  destruct (_ || _).
  - destruct (_ || _).
    + apply scal1; auto. rewrite Hz by apply real_1. field. auto.
    + destruct (_ || _); [destruct (negb _)|]; apply scal2; auto.
      * apply Hsc; unfold a, b; field; auto.
      * apply Hsc; unfold a, b; field; auto.
      * rewrite Hz by auto. transitivity (safeMin * safeMax * (1 / alpha)); [ring|]. rewrite Hs. field. auto.
  - apply scal1; auto. rewrite Hz by apply real_1. field. auto.
Qed.
End C.
