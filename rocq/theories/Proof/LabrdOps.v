(** * labrd: the four groups of statements *)
From Coq Require Import Bool Arith ZArith Lia Ring Field.
From Verif.Core Require Import Scalar Prog View Slice Loops WorkEff.
From Verif.Spec Require Import LinAlg.
From Verif.Model Require Import Gemm Blas1 Blas2 LaAux Householder Gebrd.
From Verif.Proof Require Import SumLemmas Tactics SliceTac LowOps ExactBlas Blas1Proof Blas2Proof LaAuxProof LarfProof LarfgProof QRProof QGenProof QFactProof ReduceProof LarftProof GehrdProof Lahr2Proof.
Local Open Scope T_scope.

Section A.
Context {E : Env} {FL : FieldLaws E} {CL : ConjLaws E} {QL : EqbLaws E}.
Add Field Tf : fth.

(** the matrix brought up to date by p vectors of Y and q vectors of X *)
Definition upd (p q : nat) (a x y : mat) (r c : nat) : T := a r c - sum p (fun l => a r l * conj (y c l)) - sum q (fun l => x r l * a l c).
Lemma upd_dot_r p q a x y m (v : nat -> T) c (g : nat -> nat) :
  sum m (fun r => conj (upd p q a x y (g r) c) * v r) =
  sum m (fun r => conj (a (g r) c) * v r) - sum p (fun l => y c l * sum m (fun r => conj (a (g r) l) * v r)) - sum q (fun l => conj (a l c) * sum m (fun r => conj (x (g r) l) * v r)).
Proof.
  rewrite (sum_ext p _ (fun l => sum m (fun r => y c l * (conj (a (g r) l) * v r)))) by (intros; symmetry; apply sum_scal_l).
  rewrite (sum_ext q _ (fun l => sum m (fun r => conj (a l c) * (conj (x (g r) l) * v r)))) by (intros; symmetry; apply sum_scal_l).
  rewrite (sum_swap p m), (sum_swap q m).
  rewrite (sum_ext m _ (fun r => conj (a (g r) c) * v r + (- one * sum p (fun l => y c l * (conj (a (g r) l) * v r)) + - one * sum q (fun l => conj (a l c) * (conj (x (g r) l) * v r))))).
  - rewrite !sum_plus, !sum_scal_l. ring.
  - intros r Hr. unfold upd. transitivity (conj (a (g r) c + - one * sum p (fun l => a (g r) l * conj (y c l)) + - one * sum q (fun l => x (g r) l * a l c)) * v r); [f_equal; f_equal; ring|].
    rewrite !conj_add, !conj_mul, !conj_opp, !conj_1, !sum_conj.
    rewrite (sum_ext p (fun l => y c l * _) (fun l => conj (a (g r) l * conj (y c l)) * v r)) by (intros; rewrite conj_mul, conj_conj; ring).
    rewrite (sum_ext q (fun l => conj (a l c) * _) (fun l => conj (x (g r) l * a l c) * v r)) by (intros; rewrite conj_mul; ring).
    rewrite !sum_scal_r. ring.
Qed.
Lemma upd_dot_c p q a x y n (w : nat -> T) r (g : nat -> nat) :
  sum n (fun c => upd p q a x y r (g c) * w c) =
  sum n (fun c => a r (g c) * w c) - sum p (fun l => a r l * sum n (fun c => conj (y (g c) l) * w c)) - sum q (fun l => x r l * sum n (fun c => a l (g c) * w c)).
Proof.
  rewrite (sum_ext p _ (fun l => sum n (fun c => a r l * (conj (y (g c) l) * w c)))) by (intros; symmetry; apply sum_scal_l).
  rewrite (sum_ext q _ (fun l => sum n (fun c => x r l * (a l (g c) * w c)))) by (intros; symmetry; apply sum_scal_l).
  rewrite (sum_swap p n), (sum_swap q n).
  rewrite (sum_ext n _ (fun c => a r (g c) * w c + (- one * sum p (fun l => a r l * (conj (y (g c) l) * w c)) + - one * sum q (fun l => x r l * (a l (g c) * w c))))).
  - rewrite !sum_plus, !sum_scal_l. ring.
  - intros c Hc. unfold upd.
    rewrite (sum_ext p (fun l => a r l * (conj (y (g c) l) * w c)) (fun l => (a r l * conj (y (g c) l)) * w c)) by (intros; ring).
    rewrite (sum_ext q (fun l => x r l * (a l (g c) * w c)) (fun l => (x r l * a l (g c)) * w c)) by (intros; ring).
    rewrite !sum_scal_r. ring.
Qed.

(** ** Products *)
Lemma gv o alpha V x beta y s m n (fM : mat) (fx fy : nat -> T) :
  (if notransb o then nr V = m /\ nc V = n else nr V = n /\ nc V = m) -> nc x = 1%nat -> nc y = 1%nat -> nr x = n -> nr y = m -> (0 < n \/ beta = Sc 1)%nat ->
  vinj y -> disj V y -> disj x y ->
  (forall r c, (r < nr V)%nat -> (c < nc V)%nat -> val V s r c = fM r c) -> (forall j, (j < n)%nat -> vval x s j = fx j) -> (forall i, (i < m)%nat -> vval y s i = fy i) ->
  runs (gemv o alpha V x beta y) s (fun _ s' => veff y (fun i => cval beta * fy i + alpha * sum n (fun j => opm o fM i j * fx j)) s s').
Proof.
  intros HV Hx Hy Hxn Hym Hn Iy D1 D2 EM Ex Ey. destruct (Nat.eq_dec n 0) as [Hz|Hz].
  - assert (Hb : beta = Sc 1) by (destruct Hn; [lia|auto]). unfold runs, gemv. assert (En : (if notransb o then nc V else nr V) = 0%nat) by (destruct (notransb o); lia). assert (Em : (if notransb o then nr V else nc V) = m) by (destruct (notransb o); lia).
    rewrite En, Em. cbv zeta. apply wp_bind, wp_check; [apply Nat.eqb_eq; lia|]. apply wp_bind, wp_check; [apply Nat.eqb_eq; lia|]. rewrite Nat.eqb_refl, orb_true_r. apply wp_ret.
    split; [|split; auto]. intros i Hi. rewrite Ey by lia. subst beta n. rewrite Hz. cbn [cval sum]. ring.
  - eapply wp_conseq; [apply (gemv_run o alpha V x beta y s m n); auto; lia| |auto]. intros u0 s' (V1 & V2 & V3). split; [|split; auto].
    intros i Hi. rewrite V1 by auto. rewrite gemv_val_exact. rewrite Ey by lia. unfold mvmul.
    rewrite (sum_ext n _ (fun j => opm o fM i j * fx j)); [ring|]. intros j Hj. rewrite Ex by auto. f_equal.
    destruct o; cbn [notransb] in HV; cbn [opm]; rewrite EM by lia; auto.
Qed.

Lemma sub_dj V x a c : disj V x -> (c <= nr x)%nat -> nc x = 1%nat -> disj V (Slice.vsub x a c).
Proof. intros H Hc Hn p q r t K1 K2 K3 K4. cbn [nr nc ad Slice.vsub] in *. apply H; auto; lia. Qed.
Lemma sub_dj' V x a c : disj x V -> (c <= nr x)%nat -> nc x = 1%nat -> disj (Slice.vsub x a c) V.
Proof. intros H Hc Hn p q r t K1 K2 K3 K4. cbn [nr nc ad Slice.vsub] in *. apply H; auto; lia. Qed.
(** b and (parts of) t are computed from what does not change *)
Section F.
Variables (t b : view) (s0 : state).
Hypothesis Ht : nc t = 1%nat.
Hypothesis Hb : nc b = 1%nat.
Hypothesis It : vinj t.
Hypothesis Ib : vinj b.
Hypothesis Dtb : disj t b.
Let S2' := S2 t b s0.
Lemma step_t o V v p n ft fb s (B : Type) (K : M B) (Q : B -> state -> Prop) : (p <= nr t)%nat -> (0 < n)%nat ->
  (if notransb o then nr V = p /\ nc V = n else nr V = n /\ nc V = p) -> nc v = 1%nat -> nr v = n -> disj V t -> disj V b -> disj v t -> disj v b -> S2' ft fb s ->
  (forall s', S2' (fun l => if (l <? p)%nat then sum n (fun j => opm o (val V s0) l j * vval v s0 j) else ft l) fb s' -> wp K Q noX s') ->
  wp (gemv o 1 V v (Sc 0) (Slice.vsub t 0 p);; K) Q noX s.
Proof.
  intros Hp Hn HV Hv Hvn D1 D2 D3 D4 HS HQ. apply wp_bind.
  eapply wp_use; [apply (gv o 1 V v (Sc 0) (Slice.vsub t 0 p) s p n (val V s0) (vval v s0) (vval (Slice.vsub t 0 p) s)); auto|].
  - cbn. lia.
  - apply vinj_vsub; auto; lia.
  - apply sub_dj; auto; lia.
  - apply sub_dj; auto; lia.
  - intros r c Hr Hc. apply (S2_fr t b s0 ft fb s V HS D1 D2); auto.
  - intros j Hj. apply (S2_fr t b s0 ft fb s v HS D3 D4); lia.
  - intros u0 s' HL. cbv beta in HL. apply HQ. apply (S2_bs t b s0 Ht Hb It Dtb ft fb 0 p _ s s' HS) in HL; auto. eapply S2_ext; [| |exact HL]; auto.
    intros r Hr. cbv beta. destruct (Nat.ltb_spec r p); cbn [andb Nat.leb]; auto. rewrite Nat.sub_0_r. cbn [cval]. ring.
Qed.
Lemma step_b o V p m ft fb s (B : Type) (K : M B) (Q : B -> state -> Prop) : (p <= nr t)%nat -> nr b = m ->
  (if notransb o then nr V = m /\ nc V = p else nr V = p /\ nc V = m) -> disj V t -> disj V b -> S2' ft fb s ->
  (forall s', S2' ft (fun i => fb i - sum p (fun l => opm o (val V s0) i l * ft l)) s' -> wp K Q noX s') ->
  wp (gemv o (- one) V (Slice.vsub t 0 p) (Sc 1) b;; K) Q noX s.
Proof.
  intros Hp Hm HV D1 D2 HS HQ. assert (HS' := HS). destruct HS' as (H1 & H2 & _). apply wp_bind.
  eapply wp_use; [apply (gv o (- one) V (Slice.vsub t 0 p) (Sc 1) b s m p (val V s0) ft fb); auto|].
  - cbn. lia.
  - apply sub_dj'; auto; lia.
  - intros r c Hr Hc. apply (S2_fr t b s0 ft fb s V HS D1 D2); auto.
  - intros j Hj. apply H1. lia.
  - intros i Hi. apply H2. lia.
  - intros u0 s' HL. cbv beta in HL. apply HQ. apply (S2_w t b s0 Ht Hb Dtb ft fb _ s s' HS) in HL. eapply S2_ext; [| |exact HL]; auto.
    intros r Hr. cbv beta. cbn [cval]. ring.
Qed.
Lemma step_0 o V v m n ft fb s (B : Type) (K : M B) (Q : B -> state -> Prop) : (0 < n)%nat -> nr b = m ->
  (if notransb o then nr V = m /\ nc V = n else nr V = n /\ nc V = m) -> nc v = 1%nat -> nr v = n -> disj V t -> disj V b -> disj v t -> disj v b -> S2' ft fb s ->
  (forall s', S2' ft (fun i => sum n (fun j => opm o (val V s0) i j * vval v s0 j)) s' -> wp K Q noX s') ->
  wp (gemv o 1 V v (Sc 0) b;; K) Q noX s.
Proof.
  intros Hn Hm HV Hv Hvn D1 D2 D3 D4 HS HQ. apply wp_bind.
  eapply wp_use; [apply (gv o 1 V v (Sc 0) b s m n (val V s0) (vval v s0) (vval b s)); auto|].
  - intros r c Hr Hc. apply (S2_fr t b s0 ft fb s V HS D1 D2); auto.
  - intros j Hj. apply (S2_fr t b s0 ft fb s v HS D3 D4); lia.
  - intros u0 s' HL. cbv beta in HL. apply HQ. apply (S2_w t b s0 Ht Hb Dtb ft fb _ s s' HS) in HL. eapply S2_ext; [| |exact HL]; auto.
    intros r Hr. cbv beta. cbn [cval]. ring.
Qed.
Lemma step_scal al ft fb s (B : Type) (K : M B) (Q : B -> state -> Prop) : S2' ft fb s ->
  (forall s', S2' ft (fun i => al * fb i) s' -> wp K Q noX s') -> wp (scal al b;; K) Q noX s.
Proof.
  intros HS HQ. apply wp_bind. eapply wp_use; [apply (scal_run al b s); auto|]. intros u0 s' HL. cbv beta in HL. apply HQ. apply (S2_w t b s0 Ht Hb Dtb ft fb _ s s' HS) in HL. eapply S2_ext; [| |exact HL]; auto.
  destruct HS as (_ & H2 & _). intros r Hr. cbv beta. rewrite H2 by auto. ring.
Qed.
End F.

(** ** The state: three matrices and two vectors *)
Section S.
Variables (A X Y tq tp : view) (s0 : state).
Variables m n nb : nat.
Hypothesis HA : nr A = m /\ nc A = n.
Hypothesis HX : nr X = m /\ nc X = nb.
Hypothesis HY : nr Y = n /\ nc Y = nb.
Hypothesis Htq : nc tq = 1%nat /\ (nb <= nr tq)%nat.
Hypothesis Htp : nc tp = 1%nat /\ (nb <= nr tp)%nat.
Hypothesis IA : vinj A.
Hypothesis IX : vinj X.
Hypothesis IY : vinj Y.
Hypothesis Iq : vinj tq.
Hypothesis Ip : vinj tp.
Hypothesis DAX : disj A X.
Hypothesis DAY : disj A Y.
Hypothesis DXY : disj X Y.
Hypothesis DAq : disj A tq.
Hypothesis DAp : disj A tp.
Hypothesis DXq : disj X tq.
Hypothesis DXp : disj X tp.
Hypothesis DYq : disj Y tq.
Hypothesis DYp : disj Y tp.
Hypothesis Dqp : disj tq tp.
Record ST (a x y : mat) (q p : nat -> T) (s : state) : Prop := {
  st_A : forall r c, (r < m)%nat -> (c < n)%nat -> val A s r c = a r c;
  st_X : forall r l, (r < m)%nat -> (l < nb)%nat -> val X s r l = x r l;
  st_Y : forall c l, (c < n)%nat -> (l < nb)%nat -> val Y s c l = y c l;
  st_q : forall k, (k < nr tq)%nat -> vval tq s k = q k;
  st_p : forall k, (k < nr tp)%nat -> vval tp s k = p k;
  st_f : forall l, ~ inview A l -> ~ inview X l -> ~ inview Y l -> ~ inview tq l -> ~ inview tp l -> mem s l = mem s0 l;
  st_i : imem s = imem s0 }.
Lemma ST_ext a x y q p a' x' y' q' p' s : ST a x y q p s ->
  (forall r c, (r < m)%nat -> (c < n)%nat -> a r c = a' r c) -> (forall r l, (r < m)%nat -> (l < nb)%nat -> x r l = x' r l) -> (forall c l, (c < n)%nat -> (l < nb)%nat -> y c l = y' c l) ->
  (forall k, (k < nr tq)%nat -> q k = q' k) -> (forall k, (k < nr tp)%nat -> p k = p' k) -> ST a' x' y' q' p' s.
Proof.
  intros [H1 H2 H3 H4 H5 H6 H7] K1 K2 K3 K4 K5. constructor; auto; intros.
  - rewrite H1, K1; auto.
  - rewrite H2, K2; auto.
  - rewrite H3, K3; auto.
  - rewrite H4, K4; auto.
  - rewrite H5, K5; auto.
Qed.
(** a change of cells of A / X / Y only *)
Lemma ST_A a x y q p a' s s' : ST a x y q p s -> (forall l, ~ inview A l -> mem s' l = mem s l) -> imem s' = imem s -> (forall r c, (r < m)%nat -> (c < n)%nat -> val A s' r c = a' r c) -> ST a' x y q p s'.
Proof.
  intros [H1 H2 H3 H4 H5 H6 H7] K1 K2 K3. destruct HA, HX, HY, Htq, Htp. constructor; auto; intros.
  - rewrite <- H2 by auto. apply K1. apply nin; [apply disj_sym; auto|lia|lia].
  - rewrite <- H3 by auto. apply K1. apply nin; [apply disj_sym; auto|lia|lia].
  - rewrite <- H4 by auto. apply K1. apply nin; [apply disj_sym; auto|lia|lia].
  - rewrite <- H5 by auto. apply K1. apply nin; [apply disj_sym; auto|lia|lia].
  - rewrite K1 by auto. auto.
  - congruence.
Qed.
Lemma ST_X a x y q p x' s s' : ST a x y q p s -> (forall l, ~ inview X l -> mem s' l = mem s l) -> imem s' = imem s -> (forall r c, (r < m)%nat -> (c < nb)%nat -> val X s' r c = x' r c) -> ST a x' y q p s'.
Proof.
  intros [H1 H2 H3 H4 H5 H6 H7] K1 K2 K3. destruct HA, HX, HY, Htq, Htp. constructor; auto; intros.
  - rewrite <- H1 by auto. apply K1. apply nin; [auto|lia|lia].
  - rewrite <- H3 by auto. apply K1. apply nin; [apply disj_sym; auto|lia|lia].
  - rewrite <- H4 by auto. apply K1. apply nin; [apply disj_sym; auto|lia|lia].
  - rewrite <- H5 by auto. apply K1. apply nin; [apply disj_sym; auto|lia|lia].
  - rewrite K1 by auto. auto.
  - congruence.
Qed.
Lemma ST_Y a x y q p y' s s' : ST a x y q p s -> (forall l, ~ inview Y l -> mem s' l = mem s l) -> imem s' = imem s -> (forall r c, (r < n)%nat -> (c < nb)%nat -> val Y s' r c = y' r c) -> ST a x y' q p s'.
Proof.
  intros [H1 H2 H3 H4 H5 H6 H7] K1 K2 K3. destruct HA, HX, HY, Htq, Htp. constructor; auto; intros.
  - rewrite <- H1 by auto. apply K1. apply nin; [auto|lia|lia].
  - rewrite <- H2 by auto. apply K1. apply nin; [auto|lia|lia].
  - rewrite <- H4 by auto. apply K1. apply nin; [apply disj_sym; auto|lia|lia].
  - rewrite <- H5 by auto. apply K1. apply nin; [apply disj_sym; auto|lia|lia].
  - rewrite K1 by auto. auto.
  - congruence.
Qed.
Lemma ST_tq a x y q p i t s : ST a x y q p s -> (i < nr tq)%nat -> ST a x y (fun k => if (k =? i)%nat then t else q k) p (setm s (ad tq i 0) t).
Proof.
  intros [H1 H2 H3 H4 H5 H6 H7] Hi. destruct HA, HX, HY, Htq, Htp. constructor; auto; intros.
  - rewrite <- H1 by auto. unfold val, setm; cbn [mem]. destruct (Z.eqb_spec (ad A r c) (ad tq i 0)) as [e|]; auto. exfalso. revert e. apply DAq; lia.
  - rewrite <- H2 by auto. unfold val, setm; cbn [mem]. destruct (Z.eqb_spec (ad X r l) (ad tq i 0)) as [e|]; auto. exfalso. revert e. apply DXq; lia.
  - rewrite <- H3 by auto. unfold val, setm; cbn [mem]. destruct (Z.eqb_spec (ad Y c l) (ad tq i 0)) as [e|]; auto. exfalso. revert e. apply DYq; lia.
  - unfold vval, val, setm; cbn [mem]. destruct (Z.eqb_spec (ad tq k 0) (ad tq i 0)) as [e|e].
    + apply Iq in e; try lia. destruct e as [-> _]. rewrite Nat.eqb_refl. auto.
    + destruct (Nat.eqb_spec k i) as [->|]; [congruence|]. apply H4; auto.
  - rewrite <- H5 by auto. unfold vval, val, setm; cbn [mem]. destruct (Z.eqb_spec (ad tp k 0) (ad tq i 0)) as [e|]; auto. exfalso. symmetry in e. revert e. apply Dqp; lia.
  - unfold setm; cbn [mem]. destruct (Z.eqb_spec l (ad tq i 0)) as [e|]; auto. exfalso. match goal with K : ~ inview tq l |- _ => apply K end. exists i, 0%nat. repeat split; auto; lia.
Qed.
Lemma ST_tp a x y q p i t s : ST a x y q p s -> (i < nr tp)%nat -> ST a x y q (fun k => if (k =? i)%nat then t else p k) (setm s (ad tp i 0) t).
Proof.
  intros [H1 H2 H3 H4 H5 H6 H7] Hi. destruct HA, HX, HY, Htq, Htp. constructor; auto; intros.
  - rewrite <- H1 by auto. unfold val, setm; cbn [mem]. destruct (Z.eqb_spec (ad A r c) (ad tp i 0)) as [e|]; auto. exfalso. revert e. apply DAp; lia.
  - rewrite <- H2 by auto. unfold val, setm; cbn [mem]. destruct (Z.eqb_spec (ad X r l) (ad tp i 0)) as [e|]; auto. exfalso. revert e. apply DXp; lia.
  - rewrite <- H3 by auto. unfold val, setm; cbn [mem]. destruct (Z.eqb_spec (ad Y c l) (ad tp i 0)) as [e|]; auto. exfalso. revert e. apply DYp; lia.
  - rewrite <- H4 by auto. unfold vval, val, setm; cbn [mem]. destruct (Z.eqb_spec (ad tq k 0) (ad tp i 0)) as [e|]; auto. exfalso. revert e. apply Dqp; lia.
  - unfold vval, val, setm; cbn [mem]. destruct (Z.eqb_spec (ad tp k 0) (ad tp i 0)) as [e|e].
    + apply Ip in e; try lia. destruct e as [-> _]. rewrite Nat.eqb_refl. auto.
    + destruct (Nat.eqb_spec k i) as [->|]; [congruence|]. apply H5; auto.
  - unfold setm; cbn [mem]. destruct (Z.eqb_spec l (ad tp i 0)) as [e|]; auto. exfalso. match goal with K : ~ inview tp l |- _ => apply K end. exists i, 0%nat. repeat split; auto; lia.
Qed.
Lemma MV_col V i0 i1 j f g s s' : vinj V -> (i1 <= nr V)%nat -> (j < nc V)%nat -> (forall r c, (r < nr V)%nat -> (c < nc V)%nat -> val V s r c = f r c) -> veff (vcol V i0 i1 j) g s s' ->
  (forall l, ~ inview V l -> mem s' l = mem s l) /\ imem s' = imem s /\
  forall r c, (r < nr V)%nat -> (c < nc V)%nat -> val V s' r c = if ((c =? j) && (i0 <=? r) && (r <? i1))%nat then g (r - i0)%nat else f r c.
Proof.
  intros HI Hi Hj Hf HG. apply veff_eff in HG; [|reflexivity]. apply (eff_vcol V i0 i1 j (val V s) _ s s s' HI Hi Hj (eff_refl V s)) in HG. destruct HG as (G1 & G2 & G3).
  repeat apply Logic.conj; auto. intros r c Hr Hc. rewrite G1 by auto. unfold inbox.
  destruct (Nat.leb_spec i0 r), (Nat.ltb_spec r i1), (Nat.leb_spec j c), (Nat.ltb_spec c (S j)), (Nat.eqb_spec c j); cbn [andb]; auto; lia.
Qed.
Lemma MV_row V i j0 j1 f g s s' : vinj V -> (i < nr V)%nat -> (j1 <= nc V)%nat -> (forall r c, (r < nr V)%nat -> (c < nc V)%nat -> val V s r c = f r c) -> veff (vrow V i j0 j1) g s s' ->
  (forall l, ~ inview V l -> mem s' l = mem s l) /\ imem s' = imem s /\
  forall r c, (r < nr V)%nat -> (c < nc V)%nat -> val V s' r c = if ((r =? i) && (j0 <=? c) && (c <? j1))%nat then g (c - j0)%nat else f r c.
Proof.
  intros HI Hi Hj Hf HG. apply veff_eff in HG; [|reflexivity]. apply (eff_vrow V i j0 j1 (val V s) _ s s s' HI Hi Hj (eff_refl V s)) in HG. destruct HG as (G1 & G2 & G3).
  repeat apply Logic.conj; auto. intros r c Hr Hc. rewrite G1 by auto. unfold inbox.
  destruct (Nat.leb_spec i r), (Nat.ltb_spec r (S i)), (Nat.leb_spec j0 c), (Nat.ltb_spec c j1), (Nat.eqb_spec r i); cbn [andb]; auto; lia.
Qed.
Lemma ST_Acol a x y q p s s' i0 i1 j g : ST a x y q p s -> (i1 <= m)%nat -> (j < n)%nat -> veff (vcol A i0 i1 j) g s s' ->
  ST (fun r c => if ((c =? j) && (i0 <=? r) && (r <? i1))%nat then g (r - i0)%nat else a r c) x y q p s'.
Proof.
  intros HS Hi Hj HG. destruct HA as [HA1 HA2]. apply (MV_col A i0 i1 j a) in HG; auto; try lia; [|intros; apply (st_A _ _ _ _ _ _ HS); lia]. destruct HG as (G1 & G2 & G3).
  apply (ST_A a x y q p _ s s' HS); auto. intros r c Hr Hc. apply G3; lia.
Qed.
Lemma ST_Arow a x y q p s s' i j0 j1 g : ST a x y q p s -> (i < m)%nat -> (j1 <= n)%nat -> veff (vrow A i j0 j1) g s s' ->
  ST (fun r c => if ((r =? i) && (j0 <=? c) && (c <? j1))%nat then g (c - j0)%nat else a r c) x y q p s'.
Proof.
  intros HS Hi Hj HG. destruct HA as [HA1 HA2]. apply (MV_row A i j0 j1 a) in HG; auto; try lia; [|intros; apply (st_A _ _ _ _ _ _ HS); lia]. destruct HG as (G1 & G2 & G3).
  apply (ST_A a x y q p _ s s' HS); auto. intros r c Hr Hc. apply G3; lia.
Qed.
Lemma ST_A1 a x y q p s i j v : ST a x y q p s -> (i < m)%nat -> (j < n)%nat -> ST (fun r c => if ((r =? i) && (c =? j))%nat then v else a r c) x y q p (setm s (ad A i j) v).
Proof.
  intros HS Hi Hj. destruct HA as [HA1 HA2]. apply (ST_A a x y q p _ s _ HS); auto.
  - intros l Hl. unfold setm; cbn [mem]. destruct (Z.eqb_spec l (ad A i j)) as [e|]; auto. exfalso. apply Hl. exists i, j. repeat split; auto; lia.
  - intros r c Hr Hc. unfold val, setm; cbn [mem]. destruct (Z.eqb_spec (ad A r c) (ad A i j)) as [e|e].
    + apply IA in e; try lia. destruct e as [-> ->]. rewrite !Nat.eqb_refl. auto.
    + destruct (Nat.eqb_spec r i), (Nat.eqb_spec c j); cbn [andb]; try (apply (st_A _ _ _ _ _ _ HS); auto). subst. congruence.
Qed.
Lemma ST_Xrow a x y q p s s' i j0 j1 g : ST a x y q p s -> (i < m)%nat -> (j1 <= nb)%nat -> veff (vrow X i j0 j1) g s s' ->
  ST a (fun r c => if ((r =? i) && (j0 <=? c) && (c <? j1))%nat then g (c - j0)%nat else x r c) y q p s'.
Proof.
  intros HS Hi Hj HG. destruct HX as [HX1 HX2]. apply (MV_row X i j0 j1 x) in HG; auto; try lia; [|intros; apply (st_X _ _ _ _ _ _ HS); lia]. destruct HG as (G1 & G2 & G3).
  apply (ST_X a x y q p _ s s' HS); auto. intros r c Hr Hc. apply G3; lia.
Qed.
Lemma ST_Yrow a x y q p s s' i j0 j1 g : ST a x y q p s -> (i < n)%nat -> (j1 <= nb)%nat -> veff (vrow Y i j0 j1) g s s' ->
  ST a x (fun r c => if ((r =? i) && (j0 <=? c) && (c <? j1))%nat then g (c - j0)%nat else y r c) q p s'.
Proof.
  intros HS Hi Hj HG. destruct HY as [HY1 HY2]. apply (MV_row Y i j0 j1 y) in HG; auto; try lia; [|intros; apply (st_Y _ _ _ _ _ _ HS); lia]. destruct HG as (G1 & G2 & G3).
  apply (ST_Y a x y q p _ s s' HS); auto. intros r c Hr Hc. apply G3; lia.
Qed.
Ltac dj := let e := fresh "e" in intros ? ? ? ? ? ? ? ? e; cbn [nr nc ad vcol vrow subv Slice.vsub] in *;
  first [ (apply IA in e; lia) | (apply IX in e; lia) | (apply IY in e; lia)
        | (revert e; apply DAX; lia) | (revert e; apply DAY; lia) | (revert e; apply DXY; lia) | (revert e; apply DAq; lia) | (revert e; apply DAp; lia)
        | (symmetry in e; revert e; apply DAX; lia) | (symmetry in e; revert e; apply DAY; lia) | (symmetry in e; revert e; apply DXY; lia) ].
Ltac ij := let e := fresh "e" in intros ? ? ? ? ? ? ? ? e; cbn [nr nc ad vcol vrow subv Slice.vsub] in *; first [ (apply IA in e; lia) | (apply IX in e; lia) | (apply IY in e; lia) ].

(** ** Column update *)
Lemma col_run one1 r0 c p k a x y q t s (B : Type) (K : M B) (Q : B -> state -> Prop) :
  (k <= r0 <= m)%nat -> (c < n)%nat -> (p <= c)%nat -> (p <= nb)%nat -> (k <= nb)%nat ->
  (one1 = true -> (0 < k)%nat /\ conj (a (k - 1)%nat c) = a (k - 1)%nat c) ->
  let a1 := fun r d => if one1 && ((r =? k - 1) && (d =? c))%nat then 1 else a r d in
  ST a x y q t s ->
  (forall s', ST (fun r d => if ((d =? c) && (r0 <=? r))%nat then upd p k a1 x y r c else a r d) x y q t s' -> wp K Q noX s') ->
  wp (labrd_col one1 r0 c p k A X Y;; K) Q noX s.
Proof.
  intros Hr0 Hc Hpc Hp Hk H1 a1 HS HQ. destruct HA as [HA1 HA2], HX as [HX1 HX2], HY as [HY1 HY2]. unfold labrd_col. rewrite HA1. cbv zeta.
  apply wp_bind. apply wp_bind, wp_slrow; [lia..|]. apply wp_bind, wp_slc; [lia..|]. apply wp_bind, wp_slcol; [lia..|].
  apply wp_bind. eapply wp_use; [apply (conjugate_run (vrow Y c 0 p) s); [reflexivity|ij]|]. intros u0 s1 HL. cbv beta in HL. clear u0.
  assert (EL : forall l, (l < p)%nat -> vval (vrow Y c 0 p) s1 l = conj (y c l)).
  { intros l Hl. destruct HL as (HL & _). rewrite HL by (cbn; lia). f_equal. apply (st_Y _ _ _ _ _ _ HS); lia. }
  apply (ST_Yrow a x y q t s s1 c 0 p) in HL; auto. set (y1 := fun r l => _) in HL. rename HL into S1.
  apply wp_bind. eapply wp_use; [apply (gv NoTrans (- one) (subv A r0 m 0 p) (vrow Y c 0 p) (Sc 1) (vcol A r0 m c) s1 (m - r0) p (fun r l => a (r0 + r)%nat l) (fun l => conj (y c l)) (fun r => a (r0 + r)%nat c)); auto|].
  { cbn. lia. } { cbn. lia. } { ij. } { dj. } { dj. }
  { intros r l Hr Hl. cbn [nr nc subv] in *. apply (st_A _ _ _ _ _ _ S1); lia. }
  { intros r Hr. apply (st_A _ _ _ _ _ _ S1); lia. }
  intros u0 s2 HL. cbv beta in HL. clear u0. cbn [cval opm] in HL. apply (ST_Acol a x y1 q t s1 s2 r0 m c) in HL; auto. set (a2 := fun r d => _) in HL. rename HL into S2.
  apply wp_bind. eapply wp_use; [apply (conjugate_run (vrow Y c 0 p) s2); [reflexivity|ij]|]. intros u0 s3 HL. cbv beta in HL. clear u0.
  apply (ST_Yrow a2 x y1 q t s2 s3 c 0 p) in HL; auto.
  assert (S3 : ST a2 x y q t s3).
  { eapply ST_ext; [exact HL|auto|auto| |auto|auto]. intros d l Hd Hl. cbv beta. destruct (Nat.eqb_spec d c) as [->|Hne], (Nat.leb_spec 0 l), (Nat.ltb_spec l p); cbn [andb]; try lia.
    - change (vval (vrow Y c 0 p) s2 (l - 0)%nat) with (val Y s2 c (0 + (l - 0))%nat). rewrite (st_Y _ _ _ _ _ _ S2) by lia. unfold y1. rewrite Nat.eqb_refl. destruct (Nat.leb_spec 0 (0 + (l - 0))), (Nat.ltb_spec (0 + (l - 0)) p); try lia. cbn [andb].
      change (vval (vrow Y c 0 p) s (0 + (l - 0) - 0)%nat) with (val Y s c (0 + (0 + (l - 0) - 0))%nat). rewrite conj_conj. rewrite (st_Y _ _ _ _ _ _ HS) by lia. f_equal. lia.
    - unfold y1. destruct (Nat.eqb_spec c c), (Nat.leb_spec 0 l), (Nat.ltb_spec l p); cbn [andb]; auto; lia.
    - unfold y1. destruct (Nat.eqb_spec d c); cbn [andb]; auto; lia.
    - unfold y1. destruct (Nat.eqb_spec d c); cbn [andb]; auto; lia. }
  clear HL. apply wp_bind, wp_slc; [lia..|]. apply wp_bind, wp_slcol; [lia..|].
  assert (G : forall s4, ST (fun r d => if one1 && ((r =? k - 1) && (d =? c))%nat then 1 else a2 r d) x y q t s4 ->
    runs (gemv NoTrans (- one) (subv X r0 m 0 k) (vcol A 0 k c) (Sc 1) (vcol A r0 m c)) s4 (fun _ s5 =>
      ST (fun r d => if ((d =? c) && (r0 <=? r))%nat then upd p k a1 x y r c else if one1 && ((r =? k - 1) && (d =? c))%nat then 1 else a r d) x y q t s5)).
  { intros s4 S4. eapply wp_conseq; [apply (gv NoTrans (- one) (subv X r0 m 0 k) (vcol A 0 k c) (Sc 1) (vcol A r0 m c) s4 (m - r0) k (fun r l => x (r0 + r)%nat l) (fun l => a1 l c) (fun r => a2 (r0 + r)%nat c)); auto| |auto].
    { cbn. lia. } { cbn. lia. } { ij. } { dj. } { dj. }
    { intros r l Hr Hl. cbn [nr nc subv] in *. apply (st_X _ _ _ _ _ _ S4); lia. }
    { intros l Hl. change (vval (vcol A 0 k c) s4 l) with (val A s4 (0 + l)%nat c). rewrite (st_A _ _ _ _ _ _ S4) by lia. cbn [plus]. unfold a1, a2. rewrite Nat.eqb_refl. destruct (Nat.leb_spec r0 l); [lia|]. cbn [andb]. reflexivity. }
    { intros r Hr. change (vval (vcol A r0 m c) s4 r) with (val A s4 (r0 + r)%nat c). rewrite (st_A _ _ _ _ _ _ S4) by lia. destruct (Nat.eqb_spec (r0 + r) (k - 1)); cbn [andb]; rewrite ?andb_false_r; auto.
      destruct one1; [|auto]. destruct (H1 eq_refl). lia. }
    intros u0 s5 HL. cbv beta in HL. cbn [cval opm] in HL. apply (ST_Acol _ x y q t s4 s5 r0 m c _ S4) in HL; auto. eapply ST_ext; [exact HL| |auto..]. intros r d Hr Hd. cbv beta.
    destruct (Nat.eqb_spec d c) as [->|Hne], (Nat.leb_spec r0 r), (Nat.ltb_spec r m); cbn [andb]; try lia.
    - replace (r0 + (r - r0))%nat with r by lia. unfold a2. rewrite Nat.eqb_refl. destruct (Nat.leb_spec r0 r), (Nat.ltb_spec r m); try lia. cbn [andb]. replace (r0 + (r - r0))%nat with r by lia. unfold upd.
      assert (Ea : forall d, a1 r d = a r d). { intros d. unfold a1. destruct (Nat.eqb_spec r (k - 1)); cbn [andb]; rewrite ?andb_false_r; auto. destruct one1; [|auto]. destruct (H1 eq_refl). lia. }
      rewrite !Ea. rewrite (sum_ext p (fun l => a1 r l * conj (y c l)) (fun l => a r l * conj (y c l))) by (intros; rewrite Ea; auto). ring.
    - destruct (one1 && _)%bool; auto. unfold a2. destruct (Nat.leb_spec r0 r); [lia|]. rewrite andb_false_r. reflexivity.
    - destruct (one1 && _)%bool; auto. unfold a2. destruct (Nat.eqb_spec d c); [lia|]. reflexivity.
    - destruct (one1 && _)%bool; auto. unfold a2. destruct (Nat.eqb_spec d c); [lia|]. reflexivity. }
  destruct one1.
  - destruct (H1 eq_refl) as [Hk0 Hre]. apply wp_bind, wp_rd; [lia|lia|]. apply wp_bind, wp_wr; [lia|lia|]. apply wp_bind.
    assert (Ev : val A s3 (k - 1)%nat c = a (k - 1)%nat c).
    { rewrite (st_A _ _ _ _ _ _ S3) by lia. unfold a2. rewrite Nat.eqb_refl. destruct (Nat.leb_spec r0 (k - 1)); [lia|]. reflexivity. }
    eapply wp_use; [apply G|].
    { apply (ST_A1 a2 x y q t s3 (k - 1) c 1 S3); lia. }
    intros u0 s5 S5. cbv beta in S5. apply wp_wr; [lia|lia|]. apply HQ. apply (ST_A1 _ x y q t s5 (k - 1) c (re (val A s3 (k - 1)%nat c))) in S5; [|lia|lia]. eapply ST_ext; [exact S5| |auto..].
    intros r d Hr Hd. cbv beta. rewrite Ev, re_idem by auto. destruct (Nat.eqb_spec r (k - 1)) as [->|], (Nat.eqb_spec d c) as [->|]; cbn [andb]; auto. destruct (Nat.leb_spec r0 (k - 1)); [lia|]. reflexivity.
  - eapply wp_conseq; [apply G; exact S3| |auto]. intros u0 s5 S5. cbv beta in S5. apply HQ. exact S5.
Qed.

(** ** Row update *)
Lemma row_run one1 r c0 p k a x y q t s (B : Type) (K : M B) (Q : B -> state -> Prop) :
  (p <= c0 <= n)%nat -> (r < m)%nat -> (k <= r)%nat -> (p <= nb)%nat -> (k <= nb)%nat ->
  (one1 = true -> (0 < p)%nat /\ conj (a r (p - 1)%nat) = a r (p - 1)%nat) ->
  let a1 := fun r' d => if one1 && ((r' =? r) && (d =? p - 1))%nat then 1 else a r' d in
  ST a x y q t s ->
  (forall s', ST (fun r' d => if ((r' =? r) && (c0 <=? d))%nat then a r d - sum p (fun l => y d l * conj (a1 r l)) - sum k (fun l => conj (a l d) * conj (x r l)) else a r' d) x y q t s' -> wp K Q noX s') ->
  wp (labrd_row one1 r c0 p k (vrow A r c0 n) A X Y;; K) Q noX s.
Proof.
  intros Hc0 Hr Hkr Hp Hk H1 a1 HS HQ. destruct HA as [HA1 HA2], HX as [HX1 HX2], HY as [HY1 HY2]. unfold labrd_row. rewrite HA2. cbv zeta.
  apply wp_bind. apply wp_bind, wp_slrow; [lia..|].
  apply wp_bind. eapply wp_use; [apply (conjugate_run (vrow A r 0 p) s); [reflexivity|ij]|]. intros u0 s1 HL. cbv beta in HL. clear u0.
  apply (ST_Arow a x y q t s s1 r 0 p) in HL; auto; [|lia].
  assert (S1 : ST (fun r' d => if ((r' =? r) && (d <? p))%nat then conj (a r d) else a r' d) x y q t s1).
  { eapply ST_ext; [exact HL| |auto..]. intros r' d Hr' Hd. cbv beta. cbn [Nat.leb]. rewrite andb_true_r. destruct (Nat.eqb_spec r' r), (Nat.ltb_spec d p); cbn [andb]; auto. f_equal. rewrite Nat.sub_0_r. apply (st_A _ _ _ _ _ _ HS); lia. }
  clear HL. set (b1 := fun r' d => if ((r' =? r) && (d <? p))%nat then _ else _) in S1.
  apply wp_bind, wp_slc; [lia..|].
  set (g := fun d => a r d - sum p (fun l => y d l * conj (a1 r l))).
  apply wp_bind. match goal with |- wp ?P ?R noX s1 => assert (WU : wp P (fun _ s2 => ST (fun r' d => if ((r' =? r) && (c0 <=? d))%nat then g d else b1 r' d) x y q t s2) noX s1) end.
  { assert (G : forall s2, ST (fun r' d => if one1 && ((r' =? r) && (d =? p - 1))%nat then 1 else b1 r' d) x y q t s2 ->
    runs (gemv NoTrans (- one) (subv Y c0 n 0 p) (vrow A r 0 p) (Sc 1) (vrow A r c0 n)) s2 (fun _ s3 => ST (fun r' d => if ((r' =? r) && (c0 <=? d))%nat then g d else if one1 && ((r' =? r) && (d =? p - 1))%nat then 1 else b1 r' d) x y q t s3)).
    { intros s2 S2. eapply wp_conseq; [apply (gv NoTrans (- one) (subv Y c0 n 0 p) (vrow A r 0 p) (Sc 1) (vrow A r c0 n) s2 (n - c0) p (fun d l => y (c0 + d)%nat l) (fun l => conj (a1 r l)) (fun d => a r (c0 + d)%nat)); auto| |auto].
      { cbn. lia. } { cbn. lia. } { ij. } { dj. } { dj. }
      { intros d l Hd Hl. cbn [nr nc subv] in *. apply (st_Y _ _ _ _ _ _ S2); lia. }
      { intros l Hl. change (vval (vrow A r 0 p) s2 l) with (val A s2 r (0 + l)%nat). rewrite (st_A _ _ _ _ _ _ S2) by lia. cbn [plus]. unfold a1, b1. rewrite Nat.eqb_refl. destruct (Nat.ltb_spec l p); [|lia]. cbn [andb]. destruct (one1 && _)%bool; auto. rewrite conj_1. auto. }
      { intros d Hd. change (vval (vrow A r c0 n) s2 d) with (val A s2 r (c0 + d)%nat). rewrite (st_A _ _ _ _ _ _ S2) by lia. unfold b1. rewrite Nat.eqb_refl. destruct (Nat.ltb_spec (c0 + d) p); [lia|]. cbn [andb].
        destruct one1; cbn [andb]; auto. destruct (H1 eq_refl). destruct (Nat.eqb_spec (c0 + d) (p - 1)); [lia|]. reflexivity. }
      intros u0 s3 HL. cbv beta in HL. cbn [cval opm] in HL. apply (ST_Arow _ x y q t s2 s3 r c0 n _ S2) in HL; auto. eapply ST_ext; [exact HL| |auto..]. intros r' d Hr' Hd. cbv beta.
      destruct (Nat.eqb_spec r' r), (Nat.leb_spec c0 d), (Nat.ltb_spec d n); cbn [andb]; auto; try lia. replace (c0 + (d - c0))%nat with d by lia. unfold g. ring. }
    destruct one1.
    - destruct (H1 eq_refl) as [Hk0 Hre]. apply wp_bind, wp_rd; [lia|lia|]. apply wp_bind, wp_wr; [lia|lia|]. apply wp_bind.
      assert (Ev : val A s1 r (p - 1)%nat = a r (p - 1)%nat).
      { rewrite (st_A _ _ _ _ _ _ S1) by lia. unfold b1. rewrite Nat.eqb_refl. destruct (Nat.ltb_spec (p - 1) p); [|lia]. cbn [andb]. auto. }
      eapply wp_use; [apply G|].
      { apply (ST_A1 b1 x y q t s1 r (p - 1) 1 S1); lia. }
      intros u0 s3 S3. cbv beta in S3. apply wp_wr; [lia|lia|]. apply (ST_A1 _ x y q t s3 r (p - 1) (re (val A s1 r (p - 1)%nat))) in S3; [|lia|lia]. eapply ST_ext; [exact S3| |auto..].
      intros r' d Hr' Hd. cbv beta. rewrite Ev, re_idem by auto. unfold b1. destruct (Nat.eqb_spec r' r), (Nat.eqb_spec d (p - 1)); cbn [andb]; auto. destruct (Nat.leb_spec c0 d), (Nat.ltb_spec d p); try lia. subst. auto.
    - apply G. exact S1. }
  eapply wp_use; [exact WU|]. clear WU. intros u0 s3 S3. cbv beta in S3. clear u0. apply wp_bind. eapply wp_use; [apply (conjugate_run (vrow A r 0 p) s3); [reflexivity|ij]|]. intros u0 s4 HL. cbv beta in HL. clear u0.
  apply (ST_Arow _ x y q t s3 s4 r 0 p _ S3) in HL; auto; [|lia].
  assert (S4 : ST (fun r' d => if ((r' =? r) && (c0 <=? d))%nat then g d else a r' d) x y q t s4).
  { eapply ST_ext; [exact HL| |auto..]. intros r' d Hr' Hd. cbv beta. cbn [Nat.leb]. rewrite andb_true_r. destruct (Nat.eqb_spec r' r) as [->|], (Nat.ltb_spec d p), (Nat.leb_spec c0 d); cbn [andb]; auto; try lia.
    - change (vval (vrow A r 0 p) s3 (d - 0)%nat) with (val A s3 r (0 + (d - 0))%nat). rewrite (st_A _ _ _ _ _ _ S3) by lia. rewrite Nat.eqb_refl. destruct (Nat.leb_spec c0 (0 + (d - 0))); [lia|]. cbn [andb]. unfold b1. rewrite Nat.eqb_refl. destruct (Nat.ltb_spec (0 + (d - 0)) p); [|lia]. cbn [andb]. rewrite conj_conj. f_equal. lia.
    - unfold b1. rewrite Nat.eqb_refl. destruct (Nat.ltb_spec d p); [lia|]. reflexivity.
    - unfold b1. destruct (Nat.eqb_spec r' r); [lia|]. reflexivity.
    - unfold b1. destruct (Nat.eqb_spec r' r); [lia|]. reflexivity.
    - unfold b1. destruct (Nat.eqb_spec r' r); [lia|]. reflexivity. }
  clear HL S3. apply wp_bind, wp_slc; [lia..|]. apply wp_bind, wp_slrow; [lia..|].
  apply wp_bind. eapply wp_use; [apply (conjugate_run (vrow X r 0 k) s4); [reflexivity|ij]|]. intros u0 s5 HL. cbv beta in HL. clear u0.
  assert (EL : forall l, (l < k)%nat -> vval (vrow X r 0 k) s5 l = conj (x r l)).
  { intros l Hl. destruct HL as (HL & _). rewrite HL by (cbn; lia). f_equal. apply (st_X _ _ _ _ _ _ S4); lia. }
  apply (ST_Xrow _ x y q t s4 s5 r 0 k _ S4) in HL; auto. set (x1 := fun r' l => if ((r' =? r) && (0 <=? l) && (l <? k))%nat then _ else x r' l) in HL. rename HL into S5.
  apply wp_bind. eapply wp_use; [apply (gv ConjTrans (- one) (subv A 0 k c0 n) (vrow X r 0 k) (Sc 1) (vrow A r c0 n) s5 (n - c0) k (fun l d => a l (c0 + d)%nat) (fun l => conj (x r l)) (fun d => g (c0 + d)%nat)); auto|].
  { cbn. lia. } { cbn. lia. } { ij. } { dj. } { dj. }
  { intros l d Hl Hd. cbn [nr nc subv] in *. change (val (subv A 0 k c0 n) s5 l d) with (val A s5 (0 + l)%nat (c0 + d)%nat). rewrite (st_A _ _ _ _ _ _ S5) by lia. destruct (Nat.eqb_spec (0 + l) r); [lia|]. reflexivity. }
  { intros d Hd. change (vval (vrow A r c0 n) s5 d) with (val A s5 r (c0 + d)%nat). rewrite (st_A _ _ _ _ _ _ S5) by lia. rewrite Nat.eqb_refl. destruct (Nat.leb_spec c0 (c0 + d)); [|lia]. reflexivity. }
  intros u0 s6 HL. cbv beta in HL. clear u0. cbn [cval opm] in HL. apply (ST_Arow _ x1 y q t s5 s6 r c0 n _ S5) in HL; auto. set (a6 := fun r' d => if ((r' =? r) && (c0 <=? d) && (d <? n))%nat then _ else _) in HL. rename HL into S6.
  eapply wp_use; [apply (conjugate_run (vrow X r 0 k) s6); [reflexivity|ij]|]. intros u0 s7 HL. cbv beta in HL. clear u0.
  apply (ST_Xrow a6 x1 y q t s6 s7 r 0 k) in HL; auto. apply HQ. eapply ST_ext; [exact HL| | |auto..].
  - intros r' d Hr' Hd. unfold a6. destruct (Nat.eqb_spec r' r), (Nat.leb_spec c0 d), (Nat.ltb_spec d n); cbn [andb]; auto; try lia. unfold g. replace (c0 + (d - c0))%nat with d by lia. ring.
  - intros d l Hd Hl. cbv beta. destruct (Nat.eqb_spec d r) as [->|Hne], (Nat.leb_spec 0 l), (Nat.ltb_spec l k); cbn [andb]; try lia.
    + change (vval (vrow X r 0 k) s6 (l - 0)%nat) with (val X s6 r (0 + (l - 0))%nat). rewrite (st_X _ _ _ _ _ _ S6) by lia. unfold x1. rewrite Nat.eqb_refl. destruct (Nat.leb_spec 0 (0 + (l - 0))), (Nat.ltb_spec (0 + (l - 0)) k); try lia. cbn [andb].
      change (vval (vrow X r 0 k) s4 (0 + (l - 0) - 0)%nat) with (val X s4 r (0 + (0 + (l - 0) - 0))%nat). rewrite conj_conj. rewrite (st_X _ _ _ _ _ _ S4) by lia. f_equal. lia.
    + unfold x1. destruct (Nat.eqb_spec r r), (Nat.leb_spec 0 l), (Nat.ltb_spec l k); cbn [andb]; auto; lia.
    + unfold x1. destruct (Nat.eqb_spec d r); cbn [andb]; auto; lia.
    + unfold x1. destruct (Nat.eqb_spec d r); cbn [andb]; auto; lia.
Qed.

(** ** Column i of Y *)
Lemma y_run r0 c0 p k i a x y q t s (B : Type) (K : M B) (Q : B -> state -> Prop) :
  (r0 < m)%nat -> (c0 < n)%nat -> (i < nb)%nat -> (i < c0)%nat -> (k <= r0)%nat -> (p <= i)%nat -> (p <= k <= i + 1)%nat -> (k <= c0)%nat -> (k <= nb)%nat ->
  ST a x y q t s ->
  (forall s' y', ST a x y' q t s' -> (forall c l, (c < n)%nat -> (l < nb)%nat -> l <> i -> y' c l = y c l) ->
    (forall c, (c0 <= c < n)%nat -> y' c i = q i * sum (m - r0) (fun r => conj (upd p k a x y (r0 + r)%nat c) * a (r0 + r)%nat i)) -> wp K Q noX s') ->
  wp (labrd_y r0 c0 p k i (vcol A r0 m i) A tq X Y;; K) Q noX s.
Proof.
  intros Hr0 Hc0 Hi Hic Hkr Hpi Hpk Hkc Hkb HS HQ. destruct HA as [HA1 HA2], HX as [HX1 HX2], HY as [HY1 HY2], Htq as [Hq1 Hq2]. unfold labrd_y. rewrite HA1, HA2. cbv zeta.
  set (tc := vcol Y 0 k i). set (b := vcol Y c0 n i). set (v := vcol A r0 m i).
  assert (Itc : vinj tc) by (unfold tc; ij). assert (Ib : vinj b) by (unfold b; ij). assert (Dtb : disj tc b) by (unfold tc, b; dj).
  apply wp_bind. apply wp_bind, wp_slcol; [lia..|]. apply wp_bind, wp_slc; [lia..|].
  apply (step_0 tc b s eq_refl eq_refl Ib Dtb ConjTrans (subv A r0 m c0 n) v (n - c0) (m - r0) (vval tc s) (vval b s) s); auto; try (unfold tc, b, v; cbn; lia); try (unfold tc, b, v; dj).
  { apply S2_0. }
  intros s1 S1. apply wp_bind, wp_slc; [lia..|]. apply wp_bind, wp_slcol; [lia..|].
  change (vcol Y 0 p i) with (Slice.vsub tc 0 p).
  eapply (step_t tc b s eq_refl eq_refl Itc Dtb ConjTrans (subv A r0 m 0 p) v p (m - r0)); try exact S1; auto; try (unfold tc, b, v; cbn; lia); try (unfold tc, b, v; dj).
  clear s1 S1. intros s1 S1. apply wp_bind, wp_slc; [lia..|].
  eapply (step_b tc b s eq_refl eq_refl Ib Dtb NoTrans (subv Y c0 n 0 p) p (n - c0)); try exact S1; auto; try (unfold tc, b, v; cbn; lia); try (unfold tc, b, v; dj).
  clear s1 S1. intros s1 S1. apply wp_bind, wp_slcol; [lia..|]. apply wp_bind, wp_slc; [lia..|].
  change (vcol Y 0 k i) with (Slice.vsub tc 0 k).
  eapply (step_t tc b s eq_refl eq_refl Itc Dtb ConjTrans (subv X r0 m 0 k) v k (m - r0)); try exact S1; auto; try (unfold tc, b, v; cbn; lia); try (unfold tc, b, v; dj).
  clear s1 S1. intros s1 S1. apply wp_bind, wp_slc; [lia..|].
  eapply (step_b tc b s eq_refl eq_refl Ib Dtb ConjTrans (subv A 0 k c0 n) k (n - c0)); try exact S1; auto; try (unfold tc, b, v; cbn; lia); try (unfold tc, b, v; dj).
  clear s1 S1. intros s1 S1. apply wp_bind. unfold rdv at 1. apply wp_rd; [lia|lia|].
  assert (Eq : val tq s1 i 0 = q i).
  { transitivity (val tq s i 0); [|apply (st_q _ _ _ _ _ _ HS); lia]. destruct S1 as (_ & _ & F & _). apply F; apply nin; try lia; unfold tc, b; intros ? ? ? ? ? ? ? ? e; cbn [nr nc ad vcol] in *; symmetry in e; revert e; apply DYq; lia. }
  rewrite Eq. eapply wp_conseq; [apply (scal_run (q i) b s1); auto| |auto]. intros u0 s2 HL. cbv beta in HL. clear u0. assert (F1 := S1). destruct F1 as (_ & F1b & _).
  apply (S2_w tc b s eq_refl eq_refl Dtb _ _ _ s1 s2 S1) in HL. destruct HL as (_ & H2 & H3 & H4).
  apply (HQ s2 (val Y s2)).
  - apply (ST_Y a x y q t _ s s2 HS); auto. intros l Hl. apply H3; intros KK; apply Hl; revert KK; apply inview_vcol; lia.
  - intros c l Hc Hl Hne. rewrite <- (st_Y _ _ _ _ _ _ HS) by auto. apply H3; apply nin_col; auto; lia.
  - intros c Hc. specialize (H2 (c - c0)%nat ltac:(cbn; lia)). change (vval b s2 (c - c0)%nat) with (val Y s2 (c0 + (c - c0))%nat i) in H2. replace (c0 + (c - c0))%nat with c in H2 by lia. rewrite H2.
    rewrite F1b by (cbn; lia). rewrite (upd_dot_r p k a x y (m - r0) (fun r => a (r0 + r)%nat i) c (fun r => (r0 + r)%nat)).
    assert (Ev : forall r, (r < m - r0)%nat -> vval v s r = a (r0 + r)%nat i) by (intros r Hr; apply (st_A _ _ _ _ _ _ HS); lia).
    set (e0 := sum (m - r0) _). set (e1 := sum p _). set (e2 := sum k _). set (g0 := sum (m - r0) _). set (g1 := sum p _). set (g2 := sum k _).
    assert (K0 : e0 = g0). { apply sum_ext. intros r Hr. cbn [opm]. rewrite Ev by auto. f_equal. f_equal. change (val (subv A r0 m c0 n) s r (c - c0)) with (val A s (r0 + r)%nat (c0 + (c - c0))%nat). rewrite (st_A _ _ _ _ _ _ HS) by lia. f_equal. lia. }
    assert (K1 : e1 = g1). { apply sum_ext. intros l Hl. cbn [opm]. destruct (Nat.ltb_spec l p); [|lia]. f_equal.
      - change (val (subv Y c0 n 0 p) s (c - c0) l) with (val Y s (c0 + (c - c0))%nat (0 + l)%nat). rewrite (st_Y _ _ _ _ _ _ HS) by lia. f_equal. lia.
      - apply sum_ext. intros r Hr. cbn [opm]. rewrite Ev by auto. f_equal. f_equal. apply (st_A _ _ _ _ _ _ HS); lia. }
    assert (K2 : e2 = g2). { apply sum_ext. intros l Hl. cbn [opm]. destruct (Nat.ltb_spec l k); [|lia]. f_equal.
      - f_equal. change (val (subv A 0 k c0 n) s l (c - c0)) with (val A s (0 + l)%nat (c0 + (c - c0))%nat). rewrite (st_A _ _ _ _ _ _ HS) by lia. f_equal; lia.
      - apply sum_ext. intros r Hr. cbn [opm]. rewrite Ev by auto. f_equal. f_equal. apply (st_X _ _ _ _ _ _ HS); lia. }
    rewrite K0, K1, K2. ring.
Qed.

(** ** Column i of X *)
Lemma x_run all c0 p k i a x y q t s (B : Type) (K : M B) (Q : B -> state -> Prop) :
  (i + 1 < m)%nat -> (c0 < n)%nat -> (i < nb)%nat -> (i <= c0)%nat -> (k <= i)%nat -> (k <= p <= i + 1)%nat -> (p <= c0)%nat -> (p <= nb)%nat ->
  (all = false -> p = 0%nat) ->
  ST a x y q t s ->
  (forall s' x', ST (fun r c => if ((r =? i) && (c0 <=? c))%nat then conj (a r c) else a r c) x' y q t s' -> (forall r l, (r < m)%nat -> (l < nb)%nat -> l <> i -> x' r l = x r l) ->
    (forall r, (i + 1 <= r < m)%nat -> x' r i = t i * sum (n - c0) (fun c => upd p k a x y r (c0 + c)%nat * a i (c0 + c)%nat)) -> wp K Q noX s') ->
  wp (labrd_x all c0 p k i (vrow A i c0 n) A tp X Y;; K) Q noX s.
Proof.
  intros Hm Hc0 Hi Hic Hki Hkp Hpc Hpb Hall HS HQ. destruct HA as [HA1 HA2], HX as [HX1 HX2], HY as [HY1 HY2], Htp as [Hq1 Hq2]. unfold labrd_x. rewrite HA1, HA2. cbv zeta.
  set (tc := vcol X 0 p i). set (b := vcol X (i + 1) m i). set (w := vrow A i c0 n).
  assert (Itc : vinj tc) by (unfold tc; ij). assert (Ib : vinj b) by (unfold b; ij). assert (Dtb : disj tc b) by (unfold tc, b; dj).
  apply wp_bind. apply wp_bind, wp_slcol; [lia..|]. apply wp_bind, wp_slc; [lia..|].
  apply (step_0 tc b s eq_refl eq_refl Ib Dtb NoTrans (subv A (i + 1) m c0 n) w (m - (i + 1)) (n - c0) (vval tc s) (vval b s) s); auto; try (unfold tc, b, w; cbn; lia); try (unfold tc, b, w; dj).
  { apply S2_0. }
  intros s1 S1. apply wp_bind.
  set (d0 := fun r => sum (n - c0) (fun c => opm NoTrans (val (subv A (i + 1) m c0 n) s) r c * vval w s c)) in S1.
  set (d1 := fun r => sum p (fun l => val A s (i + 1 + r)%nat l * sum (n - c0) (fun c => conj (val Y s (c0 + c)%nat l) * vval w s c))).
  set (d2 := fun r => sum k (fun l => val X s (i + 1 + r)%nat l * sum (n - c0) (fun c => val A s l (c0 + c)%nat * vval w s c))).
  match goal with |- wp ?P ?R noX s1 => assert (WU : wp P (fun _ s2 => exists ft, S2 tc b s ft (fun r => d0 r - d1 r - d2 r) s2) noX s1) end.
  { destruct all.
    - apply wp_bind, wp_slc; [lia..|]. apply wp_bind, wp_slcol; [lia..|].
      change (vcol X 0 p i) with (Slice.vsub tc 0 p).
      eapply (step_t tc b s eq_refl eq_refl Itc Dtb ConjTrans (subv Y c0 n 0 p) w p (n - c0)); try exact S1; auto; try (unfold tc, b, w; cbn; lia); try (unfold tc, b, w; dj).
      clear s1 S1. intros s1 S1. apply wp_bind, wp_slc; [lia..|].
      eapply (step_b tc b s eq_refl eq_refl Ib Dtb NoTrans (subv A (i + 1) m 0 p) p (m - (i + 1))); try exact S1; auto; try (unfold tc, b, w; cbn; lia); try (unfold tc, b, w; dj).
      clear s1 S1. intros s1 S1. apply wp_bind, wp_slc; [lia..|]. apply wp_bind, wp_slcol; [lia..|].
      change (vcol X 0 k i) with (Slice.vsub tc 0 k).
      eapply (step_t tc b s eq_refl eq_refl Itc Dtb NoTrans (subv A 0 k c0 n) w k (n - c0)); try exact S1; auto; try (unfold tc, b, w; cbn; lia); try (unfold tc, b, w; dj).
      clear s1 S1. intros s1 S1. apply wp_bind, wp_slc; [lia..|].
      assert (F1 := S1). destruct F1 as (F1t & F1b & _).
      eapply wp_conseq; [apply (gv NoTrans (- one) (subv X (i + 1) m 0 k) (Slice.vsub tc 0 k) (Sc 1) b s1 (m - (i + 1)) k (val (subv X (i + 1) m 0 k) s) (fun l => sum (n - c0) (fun c => val A s l (c0 + c)%nat * vval w s c)) (fun r => d0 r - d1 r)); auto| |auto].
      + cbn; lia.
      + cbn. lia.
      + unfold b; dj.
      + unfold tc, b; dj.
      + intros r c Hr Hc. cbn [nr nc subv] in *. apply (S2_fr tc b s _ _ s1 (subv X (i + 1) m 0 k) S1); cbn [nr nc subv]; try lia; unfold tc, b; dj.
      + intros l Hl. change (vval (Slice.vsub tc 0 k) s1 l) with (vval tc s1 l). rewrite F1t by (cbn; lia). destruct (Nat.ltb_spec l k); [|lia]. reflexivity.
      + intros r Hr. rewrite F1b by (cbn; lia). f_equal. unfold d1. apply sum_ext. intros l Hl. destruct (Nat.ltb_spec l p); [|lia]. reflexivity.
      + intros u0 s2 HL. cbv beta in HL. eexists. apply (S2_w tc b s eq_refl eq_refl Dtb _ _ _ s1 s2 S1) in HL. eapply S2_ext; [| |exact HL]; [intros; reflexivity|]. intros r Hr. cbv beta. cbn [cval opm]. unfold d2.
        change (fun j => val (subv X (i + 1) m 0 k) s r j * sum (n - c0) (fun c => val A s j (c0 + c)%nat * vval w s c)) with (fun l => val X s (i + 1 + r)%nat l * sum (n - c0) (fun c => val A s l (c0 + c)%nat * vval w s c)). ring.
    - specialize (Hall eq_refl). apply wp_ret. exists (vval tc s). eapply S2_ext; [| |exact S1]; auto. intros r Hr. unfold d1, d2. rewrite Hall. replace k with 0%nat by lia. cbn [sum]. ring. }
  eapply wp_use; [exact WU|]. clear WU. intros u0 s2 [ft S2']. clear u0 s1 S1. apply wp_bind. unfold rdv at 1. apply wp_rd; [lia|lia|].
  assert (Eq : val tp s2 i 0 = t i).
  { transitivity (val tp s i 0); [|apply (st_p _ _ _ _ _ _ HS); lia]. destruct S2' as (_ & _ & F & _). apply F; apply nin; try lia; unfold tc, b; intros ? ? ? ? ? ? ? ? e; cbn [nr nc ad vcol] in *; symmetry in e; revert e; apply DXp; lia. }
  rewrite Eq. apply (step_scal tc b s eq_refl eq_refl Ib Dtb (t i) ft _ s2 _ _ _ S2'). clear s2 S2' Eq. intros s2 (_ & H2 & H3 & H4).
  assert (SX : ST a (val X s2) y q t s2).
  { apply (ST_X a x y q t _ s s2 HS); auto. intros l Hl. apply H3; intros KK; apply Hl; revert KK; apply inview_vcol; lia. }
  eapply wp_conseq; [apply (conjugate_run w s2); [reflexivity|unfold w; ij]| |auto]. intros u0 s3 HL. cbv beta in HL. clear u0.
  apply (ST_Arow a (val X s2) y q t s2 s3 i c0 n) in HL; auto; [|lia].
  apply (HQ s3 (val X s2)).
  - eapply ST_ext; [exact HL| |auto..]. intros r c Hr Hc. cbv beta. destruct (Nat.eqb_spec r i), (Nat.leb_spec c0 c), (Nat.ltb_spec c n); cbn [andb]; auto; try lia. f_equal. change (vval w s2 (c - c0)%nat) with (val A s2 i (c0 + (c - c0))%nat). rewrite (st_A _ _ _ _ _ _ SX) by lia. f_equal; lia.
  - intros r l Hr Hl Hne. rewrite <- (st_X _ _ _ _ _ _ HS) by auto. apply H3; apply nin_col; auto; lia.
  - intros r Hr. specialize (H2 (r - (i + 1))%nat ltac:(cbn; lia)). change (vval b s2 (r - (i + 1))%nat) with (val X s2 (i + 1 + (r - (i + 1)))%nat i) in H2. replace (i + 1 + (r - (i + 1)))%nat with r in H2 by lia. rewrite H2.
    rewrite (upd_dot_c p k a x y (n - c0) (fun c => a i (c0 + c)%nat) r (fun c => (c0 + c)%nat)).
    assert (Ew : forall c, (c < n - c0)%nat -> vval w s c = a i (c0 + c)%nat) by (intros c Hc; apply (st_A _ _ _ _ _ _ HS); lia).
    f_equal. unfold d0, d1, d2. replace (i + 1 + (r - (i + 1)))%nat with r by lia. f_equal; [f_equal|].
    + apply sum_ext. intros c Hc. cbn [opm]. rewrite Ew by auto. f_equal. change (val (subv A (i + 1) m c0 n) s (r - (i + 1)) c) with (val A s (i + 1 + (r - (i + 1)))%nat (c0 + c)%nat). rewrite (st_A _ _ _ _ _ _ HS) by lia. f_equal. lia.
    + apply sum_ext. intros l Hl. rewrite (st_A _ _ _ _ _ _ HS) by lia. f_equal. apply sum_ext. intros c Hc. rewrite Ew by auto. rewrite (st_Y _ _ _ _ _ _ HS) by lia. auto.
    + apply sum_ext. intros l Hl. rewrite (st_X _ _ _ _ _ _ HS) by lia. f_equal. apply sum_ext. intros c Hc. rewrite Ew by auto. rewrite (st_A _ _ _ _ _ _ HS) by lia. auto.
Qed.
End S.
End A.
