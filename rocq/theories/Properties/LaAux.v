(** * C25, C26, C28: lacpy, laset, transpose, conjugate, lascl, rscl, hasnan, hasinf *)
From Coq Require Import Bool Arith ZArith Lia Reals Lra.
From Verif.Core Require Import Scalar Prog View Rel Slice Loops Instances.
From Verif.Spec Require Import LinAlg Outcome Parts.
From Verif.Model Require Import Blas1 LaAux Legacy.
From Verif.Proof Require Import LaAuxProof LaAuxProof2 RsclProof Blas1Proof Tactics.
From Verif.Properties Require Import ExTac Blas2.
Local Open Scope T_scope.

Section S.
Context {E : Env}.
Implicit Types (A B : view) (s : state).

(** ** C25: exactly the selected part is written (any arithmetic) *)
Theorem lacpy_correct u A B s m n : u = Upper \/ u = Lower \/ u = General -> shape A m n ->
  (m <= nr B)%nat -> (n <= nc B)%nat -> vinj B -> disj A B ->
  returns (lacpy u A B) s (fun _ s' =>
    sets B (fun i j => (i < m)%nat /\ (j < n)%nat /\ selected u i j) (val A s) s s').
Proof.
  intros Hu [<- <-] Hr Hc HI HD. apply runs_inv. apply lacpy_run; auto. destruct Hu as [->|[->| ->]]; reflexivity.
Qed.
Theorem laset_correct u alpha beta A s : u = Upper \/ u = Lower \/ u = General -> vinj A ->
  returns (laset u alpha beta A) s (fun _ s' => sets A (selected u) (fun i j => if (i =? j)%nat then beta else alpha) s s').
Proof. intros Hu HI. apply runs_inv. apply laset_run; auto. destruct Hu as [->|[->| ->]]; reflexivity. Qed.
Theorem lacpy_laset_reject u A B alpha beta s : check_input = true -> ~ (u = Upper \/ u = Lower \/ u = General) ->
  rejects (lacpy u A B) s /\ rejects (laset u alpha beta A) s.
Proof.
  intros Hc Hu. unfold rejects, lacpy, laset, check, bind. rewrite Hc.
  destruct u; cbn; auto; exfalso; apply Hu; auto.
Qed.
Theorem transpose_correct nx A B s m n : (2 <= nx)%nat -> shape A m n -> shape B n m -> vinj B -> disj A B ->
  returns (transpose nx A B) s (fun _ s' => eff B (fun i j => val A s j i) s s').
Proof. intros Hx [H1 H2] [H3 H4] HI HD. apply runs_inv. apply (transpose_f_run (S (nr A)) (fun a => a) nx); auto; lia. Qed.
Theorem conjtranspose_correct nx A B s m n : (2 <= nx)%nat -> shape A m n -> shape B n m -> vinj B -> disj A B ->
  returns (conjtranspose nx A B) s (fun _ s' => eff B (fun i j => conj (val A s j i)) s s').
Proof. intros Hx [H1 H2] [H3 H4] HI HD. apply runs_inv. apply (transpose_f_run (S (nr A)) conj nx); auto; lia. Qed.
Theorem transpose_rejects nx A B s : check_input = true -> ~ ((2 <= nx)%nat /\ nc B = nr A /\ nr B = nc A) ->
  rejects (transpose nx A B) s /\ rejects (conjtranspose nx A B) s.
Proof.
  intros Hc H. unfold rejects, transpose, conjtranspose. cbn [transpose_f]. unfold check, bind, ret. rewrite Hc.
  destruct (Nat.eqb_spec (nr A) (nc B)); cbn; auto. destruct (Nat.eqb_spec (nc A) (nr B)); cbn; auto.
  destruct nx as [|[|nx]]; cbn; auto. exfalso. apply H. repeat split; auto. lia.
Qed.
Theorem conjugate_correct x s n : isvec x n -> vinj x ->
  returns (conjugate x) s (fun _ s' => veff x (fun i => conj (vval x s i)) s s').
Proof. intros [H1 H2] HI. apply runs_inv, conjugate_run; auto. Qed.

(** ** C28: hasnan and hasinf are exact (any arithmetic), except for UpperHessenberg with n >= m > 0 *)
Theorem hasnan_correct_partial u A s m n : shape A m n -> (u = UpperHessenberg -> (n < m)%nat) ->
  returns (hasnan u A) s (fun r s' => s' = s /\
    (r = true <-> exists i j, (i < m)%nat /\ (j < n)%nat /\ selected u i j /\ isnan (val A s i j) = true)).
Proof.
  intros [<- <-] Hu. apply runs_inv. eapply wp_conseq; [apply scan_run; intros j Hj; apply (phi_le u _ _ _ Hu Hj)| |auto].
  intros r s' [-> Hr]. split; auto. rewrite Hr. split.
  - intros (i & j & Hj & Hi & Hp). pose proof (phi_le u _ _ _ Hu Hj). exists i, j. repeat split; auto; try lia.
    apply (part_bounds_all u (nr A) (nc A)); auto; lia.
  - intros (i & j & Hi & Hj & Hs & Hp). exists i, j. split; auto. split; auto. apply (part_bounds_all u (nr A) (nc A)); auto.
Qed.
Theorem hasinf_correct_partial u A s m n : shape A m n -> (u = UpperHessenberg -> (n < m)%nat) ->
  returns (hasinf u A) s (fun r s' => s' = s /\
    (r = true <-> exists i j, (i < m)%nat /\ (j < n)%nat /\ selected u i j /\ isinf (val A s i j) = true)).
Proof.
  intros [<- <-] Hu. apply runs_inv. eapply wp_conseq; [apply scan_run; intros j Hj; apply (phi_le u _ _ _ Hu Hj)| |auto].
  intros r s' [-> Hr]. split; auto. rewrite Hr. split.
  - intros (i & j & Hj & Hi & Hp). pose proof (phi_le u _ _ _ Hu Hj). exists i, j. repeat split; auto; try lia.
    apply (part_bounds_all u (nr A) (nc A)); auto; lia.
  - intros (i & j & Hi & Hj & Hs & Hp). exists i, j. split; auto. split; auto. apply (part_bounds_all u (nr A) (nc A)); auto.
Qed.
Theorem hasnan_hasinf_band_correct kl ku A s m n : shape A m n ->
  returns (hasnan_band kl ku A) s (fun r s' => s' = s /\
    (r = true <-> exists i j, (i < m)%nat /\ (j < n)%nat /\ in_band kl ku i j /\ isnan (val A s i j) = true)) /\
  returns (hasinf_band kl ku A) s (fun r s' => s' = s /\
    (r = true <-> exists i j, (i < m)%nat /\ (j < n)%nat /\ in_band kl ku i j /\ isinf (val A s i j) = true)).
Proof.
  intros [<- <-]. split; apply runs_inv; (eapply wp_conseq; [apply scan_run; intros j Hj; unfold bhi; lia| |auto]);
  intros r s' [-> Hr]; (split; auto); rewrite Hr; split.
  1,3: intros (i & j & Hj & Hi & Hp); (assert (i < nr A)%nat by (unfold bhi in Hi; lia)); exists i, j; (repeat split; auto); apply (band_bounds kl ku (nr A)); auto.
  all: intros (i & j & Hi & Hj & Hs & Hp); exists i, j; repeat split; auto; apply (band_bounds kl ku (nr A)); auto.
Qed.
Theorem hasnan_hasinf_vec_correct x s n : isvec x n ->
  returns (hasnan_vec x) s (fun r s' => s' = s /\ (r = true <-> exists i, (i < n)%nat /\ isnan (vval x s i) = true)) /\
  returns (hasinf_vec x) s (fun r s' => s' = s /\ (r = true <-> exists i, (i < n)%nat /\ isinf (vval x s i) = true)).
Proof. intros [<- H2]. split; apply runs_inv; apply scanv_run; auto. Qed.

(** the two claims fail for UpperHessenberg when the matrix has at least as many columns as rows: unless an
    element satisfying the test comes earlier, the loop reads A(m, m-1), outside the matrix
    (hasnan.hpp:57, hasinf.hpp:57) *)
Lemma scan_ub p A s m : nr A = m -> (0 < m)%nat -> (m <= nc A)%nat ->
  (forall i j, (i < m)%nat -> (j < m)%nat -> p (val A s i j) = false) ->
  scan p (plo UpperHessenberg) (phi UpperHessenberg (nr A)) A s = UB.
Proof.
  intros <- Hm Hn Hp. unfold scan.
  assert (Hin : forall j k i, (j < nr A)%nat -> (i + k <= nr A)%nat ->
     fornr k i (fun i => bind (rd A i j) (fun a => ret (if p a then Some true else None))) s = Ok None s).
  { intros j. induction k as [|k IH]; intros i Hj Hi; cbn [fornr]; auto.
    unfold bind at 1 2. unfold rd. rewrite inb_true by lia. rewrite Hp by lia. cbn [ret]. apply IH; lia. }
  assert (Hout : forall k j, (j + k = nr A)%nat -> (0 < k)%nat -> forall r, 
     fornr (k + r) j (fun j => forret (plo UpperHessenberg j) (phi UpperHessenberg (nr A) j) (fun i => bind (rd A i j) (fun a => ret (if p a then Some true else None)))) s = UB).
  { induction k as [|k IH]; intros j Hk Hk0 r; [lia|]. cbn [fornr Nat.add]. unfold bind at 1. unfold forret at 1.
    cbn [plo phi]. replace (j <? nr A)%nat with true by (symmetry; apply Nat.ltb_lt; lia). rewrite Nat.sub_0_r.
    destruct k as [|k].
    - replace (j + 2)%nat with (S j + 1)%nat by lia.
      assert (Hub : forall q i, (i + q = nr A)%nat -> fornr (q + 1) i (fun i => bind (rd A i j) (fun a => ret (if p a then Some true else None))) s = UB).
      { induction q as [|q IHq]; intros i Hi; cbn [fornr Nat.add]; unfold bind at 1 2; unfold rd.
        - replace (inb A i j) with false; auto. symmetry. unfold inb. replace (i <? nr A)%nat with false; auto. symmetry. apply Nat.ltb_ge. lia.
        - rewrite inb_true by lia. rewrite Hp by lia. cbn [ret]. apply IHq. lia. }
      rewrite Hub by lia. reflexivity.
    - rewrite Hin by lia. apply IH; lia. }
  unfold bind at 1. unfold forret at 1. rewrite Nat.sub_0_r.
  replace (nc A) with (nr A + (nc A - nr A))%nat by lia. rewrite Hout; auto.
Qed.
Theorem hasnan_hessenberg_refuted A s m : nr A = m -> (0 < m)%nat -> (m <= nc A)%nat ->
  (forall i j, (i < m)%nat -> (j < m)%nat -> isnan (val A s i j) = false) -> hasnan UpperHessenberg A s = UB.
Proof. apply scan_ub. Qed.
Theorem hasinf_hessenberg_refuted A s m : nr A = m -> (0 < m)%nat -> (m <= nc A)%nat ->
  (forall i j, (i < m)%nat -> (j < m)%nat -> isinf (val A s i j) = false) -> hasinf UpperHessenberg A s = UB.
Proof. apply scan_ub. Qed.

(** ** C26 lascl *)
(** b = 0, b = NaN and a = NaN are rejected before A is touched *)
Theorem lascl_rejects fuel small big u kl ku b a A s : check_input = true ->
  eqb b zero = true \/ isnan b = true \/ isnan a = true ->
  rejects (lascl fuel small big u b a A) s /\ rejects (lascl_band fuel small big kl ku b a A) s.
Proof.
  intros Hc H. unfold rejects, lascl, lascl_band, check, bind, ret. rewrite Hc. cbn [andb]. cbv zeta.
  destruct (eqb b zero) eqn:E1; cbn [orb negb]; [split; auto; destruct ((nr A <=? kl)%nat || (nc A <=? ku)%nat); auto|].
  destruct (isnan b) eqn:E2; cbn [orb negb]; [split; auto; destruct ((nr A <=? kl)%nat || (nc A <=? ku)%nat); auto|].
  destruct (isnan a) eqn:E3; cbn [orb negb]; [split; auto; destruct ((nr A <=? kl)%nat || (nc A <=? ku)%nat); auto|].
  destruct H as [|[|]]; discriminate.
Qed.
(** whatever the arithmetic: if lascl returns, nothing but the selected part has changed *)
Lemma only_changes_trans P s1 s2 s3 : only_changes P s1 s2 -> only_changes P s2 s3 -> only_changes P s1 s3.
Proof. intros [H1 H2] [H3 H4]. split; [intros l Hl; rewrite H3, H1; auto|congruence]. Qed.
Lemma scale_only lo hi c A (P : nat -> nat -> Prop) s : (forall j, (j < nc A)%nat -> (hi j <= nr A)%nat) ->
  (forall i j, (i < nr A)%nat -> (j < nc A)%nat -> ((lo j <= i < hi j)%nat <-> P i j)) ->
  runs (scale_part lo hi c A) s (fun _ s' => only_changes (cells A P) s s').
Proof.
  intros Hh HP. unfold runs, scale_part. 
  apply (wp_forup (fun _ s' => only_changes (cells A P) s s')); [lia|split; auto| |auto].
  intros j s1 Hj H1. destruct (Nat.le_gt_cases (lo j) (hi j)) as [Hl|Hl].
  - apply (wp_forup (fun _ s' => only_changes (cells A P) s s')); [lia|auto| |auto].
    intros i s2 Hi H2. specialize (Hh j ltac:(lia)). apply wp_bind, wp_rd; [lia|lia|]. apply wp_wr; [lia|lia|].
    apply (only_changes_trans _ _ _ _ H2). split; auto. intros l Hl'. unfold setm; cbn [mem].
    destruct (Z.eqb_spec l (ad A i j)) as [->|]; auto. exfalso. apply Hl'. exists i, j. repeat split; try lia. apply HP; lia.
  - unfold forup, foldup. replace (hi j - lo j)%nat with 0%nat by lia. exact H1.
Qed.
Lemma lascl_loop_only lo hi A (P : nat -> nat -> Prop) small big b : (forall j, (j < nc A)%nat -> (hi j <= nr A)%nat) ->
  (forall i j, (i < nr A)%nat -> (j < nc A)%nat -> ((lo j <= i < hi j)%nat <-> P i j)) ->
  forall fuel a_ b_ s, (exists s', lascl_loop fuel small big lo hi b a_ b_ A s = Ok tt s' /\ only_changes (cells A P) s s') \/
    lascl_loop fuel small big lo hi b a_ b_ A s = OutOfFuel.
Proof.
  intros Hh HP. induction fuel as [|fu IH]; intros a_ b_ s; [right; reflexivity|].
  assert (Sc : forall c s, exists s', scale_part lo hi c A s = Ok tt s' /\ only_changes (cells A P) s s').
  { intros c s1. destruct (runs_inv _ _ _ _ (scale_only lo hi c A P s1 Hh HP)) as ([] & s' & H1 & H2). eauto. }
  assert (Rec2 : forall c a1 b1 s, (exists s', bind (scale_part lo hi c A) (fun _ => lascl_loop fu small big lo hi b a1 b1 A) s = Ok tt s' /\ only_changes (cells A P) s s') \/
     bind (scale_part lo hi c A) (fun _ => lascl_loop fu small big lo hi b a1 b1 A) s = OutOfFuel).
  { intros c a1 b1 s1. unfold bind. destruct (Sc c s1) as (s2 & -> & H2). destruct (IH a1 b1 s2) as [(s3 & -> & H3)| ->]; auto.
    left. exists s3. split; auto. eapply only_changes_trans; eauto. }
  cbn [lascl_loop]. cbv zeta. destruct (eqb (b * small) b_); [left; apply Sc|]. destruct (eqb (a_ / big) a_); [left; apply Sc|].
  destruct (ltb (absv a_) (absv (b * small)) && negb (eqb a_ 0)); [apply Rec2|].
  destruct (ltb (absv b_) (absv (a_ / big))); [apply Rec2|]. left; apply Sc.
Qed.
Theorem lascl_safe_partial fuel small big u b a A s m n : shape A m n -> (u = UpperHessenberg -> (n < m)%nat) ->
  eqb b zero = false -> isnan b = false -> isnan a = false ->
  returns (lascl fuel small big u b a A) s (fun r s' => r = 0%Z /\ only_changes (cells A (selected u)) s s') \/
  lascl fuel small big u b a A s = OutOfFuel.
Proof.
  intros [<- <-] Hu H1 H2 H3. unfold lascl, check. rewrite H1, H2, H3. cbn [orb negb]. rewrite andb_false_r. cbv zeta. unfold returns, bind, ret.
  destruct ((nr A <=? 0)%nat || (nc A <=? 0)%nat) eqn:Ez.
  - left. exists 0%Z, s. split; [reflexivity|]. split; auto. split; auto.
  - destruct (lascl_loop_only (plo u) (phi u (nr A)) A (selected u) small big b) with (fuel := fuel) (a_ := a) (b_ := b) (s := s) as [(s' & -> & H)| ->].
    + intros j Hj. apply (phi_le u _ _ _ Hu Hj).
    + intros i j Hi Hj. apply (part_bounds_all u (nr A) (nc A)); auto.
    + left. exists 0%Z, s'. auto.
    + right. reflexivity.
Qed.
(** with UpperHessenberg and n >= m > 0 the first pass accesses A(m, m-1) (lascl.hpp:133) *)
Lemma scale_ub c A s : (0 < nr A)%nat -> (nr A <= nc A)%nat -> scale_part (plo UpperHessenberg) (phi UpperHessenberg (nr A)) c A s = UB.
Proof.
  intros Hm Hn. unfold scale_part.
  assert (Hin : forall j k i s, (j < nr A)%nat -> (i + k <= nr A)%nat ->
     exists s', forn k i tt (fun i _ => bind (rd A i j) (fun a => wr A i j (a * c))) s = Ok tt s').
  { intros j. induction k as [|k IH]; intros i s1 Hj Hi; cbn [forn]; [eexists; reflexivity|].
    unfold bind at 1 2. unfold rd. rewrite inb_true by lia. unfold wr. rewrite inb_true by lia. apply IH; lia. }
  assert (Hub : forall j q i s, (j < nr A)%nat -> (i + q = nr A)%nat -> forn (q + 1) i tt (fun i _ => bind (rd A i j) (fun a => wr A i j (a * c))) s = UB).
  { intros j. induction q as [|q IHq]; intros i s1 Hj Hi; cbn [forn Nat.add]; unfold bind at 1 2; unfold rd.
    - replace (inb A i j) with false; auto. symmetry. unfold inb. replace (i <? nr A)%nat with false; auto. symmetry. apply Nat.ltb_ge. lia.
    - rewrite inb_true by lia. unfold wr. rewrite inb_true by lia. apply IHq; lia. }
  assert (Hout : forall k j, (j + k = nr A)%nat -> (0 < k)%nat -> forall r s,
     forn (k + r) j tt (fun j _ => forup (plo UpperHessenberg j) (phi UpperHessenberg (nr A) j) (fun i => bind (rd A i j) (fun a => wr A i j (a * c)))) s = UB).
  { induction k as [|k IH]; intros j Hk Hk0 r s1; [lia|]. cbn [forn Nat.add]. unfold bind at 1. unfold forup at 1, foldup at 1.
    cbn [plo phi]. replace (j <? nr A)%nat with true by (symmetry; apply Nat.ltb_lt; lia). rewrite Nat.sub_0_r.
    destruct k as [|k].
    - replace (j + 2)%nat with (nr A + 1)%nat by lia. rewrite Hub by lia. reflexivity.
    - destruct (Hin j (j + 2)%nat 0%nat s1) as [s2 ->]; try lia. apply IH; lia. }
  unfold forup at 1, foldup at 1. rewrite Nat.sub_0_r. replace (nc A) with (nr A + (nc A - nr A))%nat by lia. apply Hout; lia.
Qed.
Theorem lascl_hessenberg_refuted fuel small big b a A s : (0 < nr A)%nat -> (nr A <= nc A)%nat ->
  eqb b zero = false -> isnan b = false -> isnan a = false -> (0 < fuel)%nat ->
  lascl fuel small big UpperHessenberg b a A s = UB.
Proof.
  intros Hm Hn H1 H2 H3 Hf. unfold lascl, check. rewrite H1, H2, H3. cbn [orb negb]. rewrite andb_false_r. cbv zeta.
  unfold bind at 1 2, ret at 1 2.
  destruct (Nat.leb_spec (nr A) 0); [lia|]. destruct (Nat.leb_spec (nc A) 0); [lia|]. cbn [orb]. unfold bind at 1.
  replace (lascl_loop fuel small big (plo UpperHessenberg) (phi UpperHessenberg (nr A)) b a b A s) with (@UB E unit); [reflexivity|].
  symmetry. destruct fuel as [|fuel]; [lia|]. cbn [lascl_loop]. cbv zeta.
  repeat match goal with |- (if ?c then _ else _) _ = _ => destruct c end; unfold bind; rewrite scale_ub; auto.
Qed.

(** exact arithmetic: the selected part is multiplied by a/b, whenever the number of rescalings is finite;
    [safe_max <> 0, 1]; [K] bounds the number of divisions of [a] by [big] *)
Section Exact.
Context {FL : FieldLaws E} {EL : EqbLaws E}.
Theorem lascl_correct_partial small big u b a A s m n K : shape A m n -> (u = UpperHessenberg -> (n < m)%nat) -> vinj A ->
  small <> 0 -> big <> 0 -> big <> 1 -> b <> 0 -> isnan b = false -> isnan a = false ->
  ltb (absv b) (absv (a / tpow big (S K))) = false ->
  forall fuel, (K + 3 <= fuel)%nat ->
  returns (lascl fuel small big u b a A) s (fun r s' => r = 0%Z /\ sets A (selected u) (fun i j => val A s i j * (a / b)) s s').
Proof.
  intros [<- <-] Hu HI Hsm Hb Hb1 Hb0 N1 N2 Hst fuel Hf. apply runs_inv. unfold runs, lascl. cbv zeta.
  assert (Eb : eqb b 0 = false). { destruct (eqb b 0) eqn:e; auto. apply eqb_spec in e. congruence. }
  apply wp_bind, wp_check; [rewrite Eb, N1; reflexivity|]. apply wp_bind, wp_check; [rewrite N2; reflexivity|].
  destruct (Nat.leb_spec (nr A) 0) as [Z1|Z1]; cbn [orb].
  { apply wp_ret. split; auto. split; [intros; lia|split; auto]. }
  destruct (Nat.leb_spec (nc A) 0) as [Z2|Z2].
  { apply wp_ret. split; auto. split; [intros; lia|split; auto]. }
  apply wp_bind. eapply wp_conseq; [apply (lascl_loop_run small big (plo u) (phi u (nr A)) b A HI) with (K := K) (k := 1) (s0 := s); auto| |auto].
  - intros j Hj. apply (phi_le u _ _ _ Hu Hj).
  - apply (eff_ext _ _ _ _ _ (eff_refl A s)). intros i j Hi Hj. destruct (_ && _); auto. symmetry. rewrite (Rmul_comm (F_R fth)). apply (Rmul_1_l (F_R fth)).
  - intros x s' He. cbv beta in He. apply wp_ret. split; auto.
    apply (eff_sets A (fun i j => (plo u j <=? i)%nat && (i <? phi u (nr A) j)%nat)).
    + intros i j Hi Hj. rewrite andb_true_iff, Nat.leb_le, Nat.ltb_lt. apply (part_bounds_all u (nr A) (nc A)); auto.
    + apply (eff_ext _ _ _ _ _ He). intros i j Hi Hj. destruct (_ && _); auto. f_equal. apply (Rmul_1_l (F_R fth)).
Qed.
Theorem lascl_band_correct small big kl ku b a A s m n K : shape A m n -> (kl < m)%nat -> (ku < n)%nat -> vinj A ->
  small <> 0 -> big <> 0 -> big <> 1 -> b <> 0 -> isnan b = false -> isnan a = false ->
  ltb (absv b) (absv (a / tpow big (S K))) = false ->
  forall fuel, (K + 3 <= fuel)%nat ->
  returns (lascl_band fuel small big kl ku b a A) s (fun r s' => r = 0%Z /\ sets A (in_band kl ku) (fun i j => val A s i j * (a / b)) s s').
Proof.
  intros [<- <-] Hkl Hku HI Hsm Hb Hb1 Hb0 N1 N2 Hst fuel Hf. apply runs_inv. unfold runs, lascl_band. cbv zeta.
  assert (Eb : eqb b 0 = false). { destruct (eqb b 0) eqn:e; auto. apply eqb_spec in e. congruence. }
  apply wp_bind, wp_check; [destruct (Nat.leb_spec (nr A) kl), (Nat.leb_spec (nc A) ku); auto; lia|].
  apply wp_bind, wp_check; [rewrite Eb, N1; reflexivity|]. apply wp_bind, wp_check; [rewrite N2; reflexivity|].
  destruct (Nat.leb_spec (nr A) 0) as [Z1|Z1]; [lia|]. destruct (Nat.leb_spec (nc A) 0) as [Z2|Z2]; [lia|]. cbn [orb].
  apply wp_bind. eapply wp_conseq; [apply (lascl_loop_run small big (blo ku) (bhi kl (nr A)) b A HI) with (K := K) (k := 1) (s0 := s); auto| |auto].
  - intros j Hj. unfold bhi. lia.
  - apply (eff_ext _ _ _ _ _ (eff_refl A s)). intros i j Hi Hj. destruct (_ && _); auto. symmetry. rewrite (Rmul_comm (F_R fth)). apply (Rmul_1_l (F_R fth)).
  - intros x s' He. cbv beta in He. apply wp_ret. split; auto.
    apply (eff_sets A (fun i j => (blo ku j <=? i)%nat && (i <? bhi kl (nr A) j)%nat)).
    + intros i j Hi Hj. rewrite andb_true_iff, Nat.leb_le, Nat.ltb_lt. apply band_bounds; auto.
    + apply (eff_ext _ _ _ _ _ He). intros i j Hi Hj. destruct (_ && _); auto. f_equal. apply (Rmul_1_l (F_R fth)).
Qed.
End Exact.
(** rscl divides every entry by alpha, for real and complex scalar types, through whichever scaling branch *)
Section R.
Context {FL : FieldLaws E} {CL : ConjLaws E} {QL : EqbLaws E} {RL : ROrdLaws E} {XL : CplxLaws E}.
Theorem rscl_correct safeMin safeMax alpha x s n : isvec x n -> vinj x -> alpha <> zero ->
  conj safeMin = safeMin -> conj safeMax = safeMax -> safeMin * safeMax = one ->
  returns (rscl safeMin safeMax alpha x) s (fun _ s' => veff x (fun i => vval x s i / alpha) s s').
Proof. intros [H1 H2] HI Ha R1 R2 Hs. apply runs_inv, rscl_run; auto. Qed.
End R.
End S.

(** the number of rescalings is finite over the reals and (for real a, b) over the complex numbers *)
Lemma tpow_R big k : tpow (E:=RE) big k = (big ^ k)%R.
Proof. induction k as [|k IH]; cbn [tpow pow]; [reflexivity|]. rewrite IH. reflexivity. Qed.
Lemma arch_R (a b big : R) : (b <> 0)%R -> (1 < big)%R -> exists K, (Rabs (a / big ^ (S K)) <= Rabs b)%R.
Proof.
  intros Hb Hbig. destruct (Pow_x_infinity big) with (b := (Rabs a / Rabs b)%R) as [N HN].
  - rewrite Rabs_right; lra.
  - exists N. specialize (HN (S N) ltac:(lia)). assert (Hp : (0 < big ^ S N)%R) by (apply pow_lt; lra).
    assert (Hb' : (0 < Rabs b)%R) by (apply Rabs_pos_lt; auto).
    rewrite Rabs_right in HN by lra. unfold Rdiv at 1. rewrite Rabs_mult, (Rabs_right (/ big ^ S N)) by (left; apply Rinv_0_lt_compat; auto).
    apply (Rmult_le_reg_r (big ^ S N)); auto. rewrite Rmult_assoc, Rinv_l by lra. rewrite Rmult_1_r.
    apply Rge_le in HN. apply (Rmult_le_compat_l (Rabs b)) in HN; [|lra].
    replace (Rabs b * (Rabs a / Rabs b))%R with (Rabs a) in HN by (field; lra). exact HN.
Qed.
Theorem lascl_terminates_real_partial (small big a b : R) u A (s : @state RE) m n : shape A m n -> (u = UpperHessenberg -> (n < m)%nat) -> vinj A ->
  (small <> 0)%R -> (1 < big)%R -> (b <> 0)%R ->
  exists N, forall fuel, (N <= fuel)%nat ->
  returns (lascl (E:=RE) fuel small big u b a A) s (fun r s' => r = 0%Z /\ sets (E:=RE) A (selected u) (fun i j => (val A s i j * (a / b))%R) s s').
Proof.
  intros HA Hu HI Hs Hb H0. destruct (arch_R a b big H0 Hb) as [K HK]. exists (K + 3)%nat. intros fuel Hf.
  apply (lascl_correct_partial (E:=RE) small big u b a A s m n K); auto; cbn [ltb RE absv div zero one T]; try lra.
  apply Rltb_f. rewrite tpow_R. exact HK.
Qed.
Lemma tpow_C big k : tpow (E:=CE) (big, 0%R) k = ((big ^ k)%R, 0%R).
Proof. induction k as [|k IH]; cbn [tpow pow]; [reflexivity|]. rewrite IH. cbn. unfold Cmul; cbn. f_equal; ring. Qed.
Theorem lascl_terminates_complex_partial (small big a b : R) u A (s : @state CE) m n : shape A m n -> (u = UpperHessenberg -> (n < m)%nat) -> vinj A ->
  (small <> 0)%R -> (1 < big)%R -> (b <> 0)%R ->
  exists N, forall fuel, (N <= fuel)%nat ->
  returns (lascl (E:=CE) fuel (small, 0%R) (big, 0%R) u (b, 0%R) (a, 0%R) A) s (fun r s' => r = 0%Z /\
    sets (E:=CE) A (selected u) (fun i j => ((fst (val A s i j) * (a / b))%R, (snd (val A s i j) * (a / b))%R)) s s').
Proof.
  intros HA Hu HI Hs Hb H0. destruct (arch_R a b big H0 Hb) as [K HK]. exists (K + 3)%nat. intros fuel Hf.
  assert (Hp : (0 < big ^ S K)%R) by (apply pow_lt; lra).
  destruct (lascl_correct_partial (E:=CE) (small, 0%R) (big, 0%R) u (b, 0%R) (a, 0%R) A s m n K HA Hu HI) with (fuel := fuel) as (r & s' & H1 & H2 & H3 & H4); auto; try (cbn; intros e; injection e; lra).
  - rewrite tpow_C. remember (big ^ S K)%R as p eqn:Ep. cbn. apply Rltb_f. unfold Cmul, Cinv, Cnorm2; cbn [fst snd].
    match goal with |- (sqrt ?x <= sqrt ?y)%R => replace x with (Rsqr (a / p)); [replace y with (Rsqr b)|] end.
    + rewrite !sqrt_Rsqr_abs. exact HK.
    + unfold Rsqr. ring.
    + unfold Rsqr. field. lra.
  - exists r, s'. split; auto. split; auto. split; auto. intros i j Hi Hj Hsel. rewrite H3 by auto. cbn. unfold Cmul, Cinv, Cnorm2; cbn [fst snd]. f_equal; field; lra.
Qed.

(** ** Concrete cases *)
Example lacpy_example {E : Env} (s : state) : returns (lacpy Lower exA exAr) s (fun _ s' =>
  sets exAr (fun i j => (i < 3)%nat /\ (j < 3)%nat /\ selected Lower i j) (val exA s) s s').
Proof. apply (lacpy_correct Lower exA exAr s 3 3); auto; try exv; cbn; lia. Qed.
Example laset_example {E : Env} (s : state) : returns (laset Upper zero one exA) s (fun _ s' =>
  sets exA (selected Upper) (fun i j => if (i =? j)%nat then one else zero) s s').
Proof. apply laset_correct; auto; exv. Qed.
Example transpose_example {E : Env} (s : state) : returns (conjtranspose 2 exA exAr) s (fun _ s' => eff exAr (fun i j => conj (val exA s j i)) s s').
Proof. apply (conjtranspose_correct 2 exA exAr s 3 3); auto; try exv. Qed.
(** a 4 x 2 matrix: UpperHessenberg is admissible *)
Definition exT : view := lview (mklmat 4 2 100 5 ColMajor).
#[global] Hint Unfold exT : exv.
Example hasnan_example {E : Env} (s : state) : returns (hasnan UpperHessenberg exT) s (fun r s' => s' = s /\
  (r = true <-> exists i j, (i < 4)%nat /\ (j < 2)%nat /\ selected UpperHessenberg i j /\ isnan (val exT s i j) = true)).
Proof. apply hasnan_correct_partial; try exv; lia. Qed.
Example lascl_example (s : @state RE) : exists N, forall fuel, (N <= fuel)%nat ->
  returns (lascl (E:=RE) fuel (1/8)%R 8%R UpperHessenberg (3/100)%R 1000%R exT) s (fun r s' => r = 0%Z /\
    sets (E:=RE) exT (selected UpperHessenberg) (fun i j => (val exT s i j * (1000 / (3/100)))%R) s s').
Proof. apply (lascl_terminates_real_partial _ _ _ _ _ exT s 4 2); try exv; try lra; lia. Qed.
(** a square matrix without NaN: the UpperHessenberg scan leaves the matrix *)
Example hasnan_hessenberg_refuted_example (s : @state RE) : hasnan (E:=RE) UpperHessenberg exA s = UB.
Proof. apply (hasnan_hessenberg_refuted (E:=RE) exA s 3); cbn; auto; lia. Qed.
Definition exV3 : view := lview (mklmat 3 1 50 3 ColMajor).
#[global] Hint Unfold exV3 : exv.
Example rscl_example (s : @state CE) :
  returns (rscl (E:=CE) ((1/8)%R, 0%R) (8%R, 0%R) (30%R, 40%R) exV3) s (fun _ s' => veff (E:=CE) exV3 (fun i => div (Env:=CE) (vval exV3 s i) (30%R, 40%R)) s s').
Proof.
  apply (rscl_correct (E:=CE)) with (n := 3%nat); try exv; cbn; try (intros e; injection e; lra); try (f_equal; lra).
  unfold Cmul; cbn. f_equal; lra.
Qed.
