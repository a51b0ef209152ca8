(** Consequences of the ordered-field laws *)
From Coq Require Import Bool Arith Lia Ring Field.
From Verif.Core Require Import Scalar.
From Verif.Spec Require Import LinAlg PosDef.
From Verif.Proof Require Import SumLemmas.
Local Open Scope T_scope.

Section Ord.
Context {E : Env} {FL : FieldLaws E} {CL : ConjLaws E} {OL : ROrdLaws E} {QL : EqbLaws E}.
Add Field Tf : fth.
Implicit Types a b c : T.

Lemma one_neq_0 : one <> zero.
Proof. apply (F_1_neq_0 fth). Qed.
Lemma mul_0_inv a b : a * b = 0 -> a = 0 \/ b = 0.
Proof.
  intros H. destruct (eqb a 0) eqn:e; [left; apply eqb_spec; auto|right].
  assert (a <> 0) by (intros ->; rewrite (proj2 (eqb_spec 0 0)) in e; congruence || auto).
  transitivity (a * b / a); [field; auto|]. rewrite H. field; auto.
Qed.
Lemma mul_neq_0 a b : a <> 0 -> b <> 0 -> a * b <> 0.
Proof. intros Ha Hb H. apply mul_0_inv in H. tauto. Qed.
Lemma eq0_dec a : {a = 0} + {a <> 0}.
Proof.
  destruct (eqb a 0) eqn:e; [left; apply eqb_spec; auto|right]. intros ->.
  rewrite (proj2 (eqb_spec 0 0)) in e; congruence || auto.
Qed.
Lemma conj_neq_0 a : a <> 0 -> conj a <> 0.
Proof. intros H e. apply H. rewrite <- (conj_conj a), e. apply conj_0. Qed.
Lemma real_add a b : conj a = a -> conj b = b -> conj (a + b) = a + b.
Proof. intros; rewrite conj_add; congruence. Qed.
Lemma real_mul a b : conj a = a -> conj b = b -> conj (a * b) = a * b.
Proof. intros; rewrite conj_mul; congruence. Qed.
Lemma real_sub a b : conj a = a -> conj b = b -> conj (a - b) = a - b.
Proof. intros; rewrite conj_sub; congruence. Qed.
Lemma real_norm a : conj (a * conj a) = a * conj a.
Proof. rewrite conj_mul, conj_conj. ring. Qed.
Lemma conj_div a b : b <> 0 -> conj (a / b) = conj a / conj b.
Proof.
  intros Hb. assert (Hc := conj_neq_0 b Hb).
  transitivity (conj (a / b) * conj b / conj b); [field; auto|]. rewrite <- conj_mul. do 2 f_equal. field; auto.
Qed.
Lemma real_div a b : b <> 0 -> conj a = a -> conj b = b -> conj (a / b) = a / b.
Proof. intros. rewrite conj_div by auto. congruence. Qed.
Lemma real_sum n f : (forall k, (k < n)%nat -> conj (f k) = f k) -> conj (sum n f) = sum n f.
Proof. intros H. rewrite sum_conj. apply sum_ext; auto. Qed.

Lemma pos_neq_0 a : ltb 0 a = true -> a <> 0.
Proof. intros H ->. rewrite lt_irr in H. discriminate. Qed.
Lemma lt_le a b : ltb a b = true -> ltb b a = false.
Proof. intros H. destruct (ltb b a) eqn:e; auto. rewrite (lt_irr a) || idtac. assert (K := lt_trans _ _ _ H e). rewrite lt_irr in K. discriminate. Qed.
Lemma one_pos : ltb 0 1 = true.
Proof. assert (H := norm_pos 1 one_neq_0). rewrite conj_1 in H. replace (1 * 1) with 1 in H by ring. exact H. Qed.
Lemma pos_add a b : ltb 0 a = true -> ltb 0 b = true -> ltb 0 (a + b) = true.
Proof. intros Ha Hb. eapply lt_trans; [exact Hb|]. assert (H := lt_add 0 a b Ha). replace (0 + b) with b in H by ring. exact H. Qed.
(** non-negative: not below zero *)
Definition nonneg a : Prop := conj a = a /\ ltb a 0 = false.
Lemma nonneg_cases a : nonneg a -> a = 0 \/ ltb 0 a = true.
Proof. intros [Hr Hn]. destruct (lt_tot a 0 Hr conj_0) as [H|[H|H]]; auto. congruence. Qed.
Lemma nonneg_pos a : conj a = a -> ltb 0 a = true -> nonneg a.
Proof. intros Hr H. split; auto using lt_le. Qed.
Lemma nonneg_0 : nonneg 0.
Proof. split; [apply conj_0|apply lt_irr]. Qed.
Lemma nonneg_norm a : nonneg (a * conj a).
Proof.
  split; [apply real_norm|]. destruct (eq0_dec a) as [->|H].
  - replace (0 * conj 0) with 0 by ring. apply lt_irr.
  - apply lt_le, norm_pos; auto.
Qed.
Lemma nonneg_add a b : nonneg a -> nonneg b -> nonneg (a + b).
Proof.
  intros Ha Hb. destruct (nonneg_cases a Ha) as [->|Pa].
  - replace (0 + b) with b by ring. auto.
  - destruct (nonneg_cases b Hb) as [->|Pb].
    + replace (a + 0) with a by ring. auto.
    + apply nonneg_pos; [apply real_add; [apply Ha|apply Hb]|apply pos_add; auto].
Qed.
Lemma nonneg_mul a b : nonneg a -> nonneg b -> nonneg (a * b).
Proof.
  intros Ha Hb. destruct (nonneg_cases a Ha) as [->|Pa].
  - replace (0 * b) with 0 by ring. apply nonneg_0.
  - destruct (nonneg_cases b Hb) as [->|Pb].
    + replace (a * 0) with 0 by ring. apply nonneg_0.
    + apply nonneg_pos; [apply real_mul; [apply Ha|apply Hb]|apply lt_mul; auto; apply Ha || apply Hb].
Qed.
Lemma nonneg_sum n f : (forall k, (k < n)%nat -> nonneg (f k)) -> nonneg (sum n f).
Proof. induction n as [|n IH]; intros H; cbn [sum]; [apply nonneg_0|]. apply nonneg_add; auto. Qed.
Lemma pos_nonneg_add a b : ltb 0 a = true -> nonneg b -> ltb 0 (a + b) = true.
Proof.
  intros Ha Hb. destruct (nonneg_cases b Hb) as [->|Pb]; [|apply pos_add; auto].
  replace (a + 0) with a by ring; auto.
Qed.
Lemma pos_sum n f k : (k < n)%nat -> (forall i, (i < n)%nat -> nonneg (f i)) -> ltb 0 (f k) = true -> ltb 0 (sum n f) = true.
Proof.
  intros Hk Hn Hp. rewrite (sum_split3 k n) by auto.
  replace (sum k f + f k + sumr (S k) n f) with (f k + (sum k f + sumr (S k) n f)) by ring.
  apply pos_nonneg_add; auto. apply nonneg_add; [apply nonneg_sum; intros; apply Hn; lia|].
  apply nonneg_sum. intros; apply Hn; lia.
Qed.
Lemma nonneg_sum_0 n f : (forall i, (i < n)%nat -> nonneg (f i)) -> sum n f = 0 -> forall k, (k < n)%nat -> f k = 0.
Proof.
  intros Hn H0 k Hk. destruct (nonneg_cases (f k) (Hn k Hk)) as [|P]; auto.
  exfalso. apply (pos_neq_0 (sum n f)); auto. apply (pos_sum n f k); auto.
Qed.
Lemma pos_opp a : ltb 0 a = true -> ltb (- a) 0 = true.
Proof. intros H. assert (K := lt_add 0 a (- a) H). replace (0 + - a) with (- a) in K by ring. replace (a + - a) with 0 in K by ring. exact K. Qed.
Lemma neg_opp a : ltb a 0 = true -> ltb 0 (- a) = true.
Proof. intros H. assert (K := lt_add a 0 (- a) H). replace (0 + - a) with (- a) in K by ring. replace (a + - a) with 0 in K by ring. exact K. Qed.
Lemma lt_sub a b : ltb a b = true -> ltb 0 (b - a) = true.
Proof. intros H. assert (K := lt_add a b (- a) H). replace (b + - a) with (b - a) in K by ring. replace (a + - a) with 0 in K by ring. exact K. Qed.
Lemma sub_lt a b : ltb 0 (b - a) = true -> ltb a b = true.
Proof. intros H. assert (K := lt_add 0 (b - a) a H). replace (b - a + a) with b in K by ring. replace (0 + a) with a in K by ring. exact K. Qed.
Lemma sqrt_pos a : conj a = a -> ltb 0 a = true ->
  conj (sqrtv a) = sqrtv a /\ sqrtv a * sqrtv a = a /\ ltb 0 (sqrtv a) = true.
Proof.
  intros Hr Hp. destruct (sqrt_spec a Hr (lt_le _ _ Hp)) as (H1 & H2 & H3). repeat split; auto.
  destruct (nonneg_cases (sqrtv a)) as [e|]; auto; [split; auto|].
  rewrite e in H2. exfalso. apply (pos_neq_0 a Hp). rewrite <- H2. ring.
Qed.
Lemma sq_inj a b : nonneg a -> nonneg b -> a * a = b * b -> a = b.
Proof.
  intros Ha Hb H. assert (K : (a - b) * (a + b) = 0) by (transitivity (a * a - b * b); [ring|rewrite H; ring]).
  apply mul_0_inv in K. destruct K as [K|K].
  - transitivity (a - b + b); [ring|rewrite K; ring].
  - destruct (nonneg_cases a Ha) as [->|Pa].
    + transitivity (0 + b); [|ring]. auto.
    + exfalso. apply (pos_neq_0 (a + b)); auto. apply pos_nonneg_add; auto.
Qed.
End Ord.
