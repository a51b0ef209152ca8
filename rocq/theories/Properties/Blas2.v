(** * C06-C10: level-2 BLAS *)
From Coq Require Import Bool Arith ZArith Lia Reals Ring Field.
From Verif.Core Require Import Scalar Prog View Instances.
From Verif.Spec Require Import LinAlg Outcome.
From Verif.Model Require Import Gemm Blas1 Blas2 Legacy.
From Verif.Proof Require Import SumLemmas Blas2Proof HemvProof TrmvProof ExactBlas.
From Verif.Properties Require Import ExTac.
Local Open Scope T_scope.

Section S.
Context {E : Env} {FL : FieldLaws E}.
Add Field Tf : fth.
Implicit Types (A x y : view) (s : state).

(** op(A) is m-by-n *)
Definition opshape (o : op_t) (A : view) (m n : nat) : Prop :=
  match o with NoTrans | Conj => shape A m n | Trans | ConjTrans => shape A n m end.

(** ** C06 *)
(** y := alpha*op(A)*x + beta*y.  Excluded: n = 0 with m > 0, see [gemv_empty_sum_refuted] *)
Theorem gemv_correct_partial o alpha A x beta y s m n :
  opshape o A m n -> isvec x n -> isvec y m -> vinj y -> disj A y -> disj x y -> (0 < n \/ m = 0)%nat ->
  returns (gemv o alpha A x beta y) s
    (fun _ s' => veff y (fun i => alpha * mvmul n (opm o (val A s)) (vval x s) i + cval beta * vval y s i) s s').
Proof.
  intros HA [Hx1 Hx2] [Hy1 Hy2] HI HDA HDx Hn. apply runs_inv.
  assert (HA' : if notransb o then nr A = m /\ nc A = n else nr A = n /\ nc A = m) by (destruct o; exact HA).
  destruct (Nat.eq_dec n 0) as [Hn0|Hn0].
  - assert (Hm : m = 0%nat) by lia. unfold runs, gemv, wp, bind, check. cbv zeta.
    assert (Em : (if notransb o then nr A else nc A) = m) by (destruct (notransb o); tauto).
    assert (En : (if notransb o then nc A else nr A) = n) by (destruct (notransb o); tauto).
    rewrite Em, En, Hx1, Hy1, !Nat.eqb_refl, !andb_false_r. rewrite Hm. cbn. repeat split; auto. intros i Hi; lia.
  - eapply wp_conseq; [apply (gemv_run o alpha A x beta y s m n); try exact HA'; auto; lia| |auto].
    intros ? s' (H1 & H2). split; auto. intros i Hi. rewrite H1, gemv_val_exact by auto. reflexivity.
Qed.
(** With no columns, gemv returns before scaling y (gemv.hpp:82): the claim y = alpha*A*x + beta*y fails *)
Theorem gemv_empty_sum_refuted : forall o alpha A x (b : T) y s m,
  opshape o A m 0 -> isvec x 0 -> isvec y m ->
  (* y is left unchanged ... *)
  gemv o alpha A x (Sc b) y s = Ok tt s /\
  (* ... although alpha*op(A)*x + beta*y is beta*y *)
  forall i, alpha * mvmul 0 (opm o (val A s)) (vval x s) i + b * vval y s i = b * vval y s i.
Proof.
  intros o alpha A x b y s m HA [Hx1 Hx2] [Hy1 Hy2]. split.
  - assert (HA' : if notransb o then nr A = m /\ nc A = 0%nat else nr A = 0%nat /\ nc A = m) by (destruct o; exact HA).
    unfold gemv, bind, check. cbv zeta.
    assert (Em : (if notransb o then nr A else nc A) = m) by (destruct (notransb o); tauto).
    assert (En : (if notransb o then nc A else nr A) = 0%nat) by (destruct (notransb o); tauto).
    rewrite Em, En, Hx1, Hy1, !Nat.eqb_refl, !andb_false_r. cbn. rewrite orb_true_r. reflexivity.
  - intros i. unfold mvmul. cbn. ring.
Qed.

(** ** C07 *)
Theorem ger_correct alpha x y A s m n : shape A m n -> isvec x m -> isvec y n -> vinj A -> disj x A -> disj y A ->
  returns (ger alpha x y A) s (fun _ s' => eff A (fun i j => val A s i j + alpha * vval x s i * conj (vval y s j)) s s').
Proof.
  intros [H1 H2] [H3 H4] [H5 H6] HI HD HD'. apply runs_inv. eapply wp_conseq; [apply ger_run; auto; lia| |auto].
  intros ? s' He. eapply eff_ext; [exact He|]. intros; cbn. ring.
Qed.
Theorem geru_correct alpha x y A s m n : shape A m n -> isvec x m -> isvec y n -> vinj A -> disj x A -> disj y A ->
  returns (geru alpha x y A) s (fun _ s' => eff A (fun i j => val A s i j + alpha * vval x s i * vval y s j) s s').
Proof.
  intros [H1 H2] [H3 H4] [H5 H6] HI HD HD'. apply runs_inv. eapply wp_conseq; [apply geru_run; auto; lia| |auto].
  intros ? s' He. eapply eff_ext; [exact He|]. intros; cbn. ring.
Qed.
(** the selected triangle is updated, the rest of A is unchanged *)
Theorem syr_correct u alpha x A s n : u = Upper \/ u = Lower -> shape A n n -> isvec x n -> vinj A -> disj x A ->
  returns (syr u alpha x A) s (fun _ s' => eff A (fun i j =>
    if intri u i j then val A s i j + alpha * vval x s i * vval x s j else val A s i j) s s').
Proof.
  intros Hu [H1 H2] [H3 H4] HI HD. apply runs_inv. eapply wp_conseq; [apply syr_run; auto; try lia|  |auto].
  - destruct Hu; subst; auto.
  - intros ? s' He. eapply eff_ext; [exact He|]. intros; cbn. destruct (intri u i j); ring.
Qed.
Theorem syr2_correct u alpha x y A s n : u = Upper \/ u = Lower -> shape A n n -> isvec x n -> isvec y n ->
  vinj A -> disj x A -> disj y A ->
  returns (syr2 u alpha x y A) s (fun _ s' => eff A (fun i j =>
    if intri u i j then val A s i j + alpha * vval x s i * vval y s j + alpha * vval y s i * vval x s j
    else val A s i j) s s').
Proof.
  intros Hu [H1 H2] [H3 H4] [H5 H6] HI HD HD'. apply runs_inv. eapply wp_conseq; [apply syr2_run; auto; try lia|  |auto].
  - destruct Hu; subst; auto.
  - intros ? s' He. eapply eff_ext; [exact He|]. intros; cbn. destruct (intri u i j); ring.
Qed.
(** [her]: alpha is real; the Hermitian matrix stored in the triangle gets alpha*x*x^H added *)
Theorem her_correct {CL : ConjLaws E} u alpha x A s n : u = Upper \/ u = Lower -> conj alpha = alpha ->
  shape A n n -> isvec x n -> vinj A -> disj x A ->
  returns (her u alpha x A) s (fun _ s' => eff A (fun i j =>
    if intri u i j then herm u (val A s) i j + alpha * vval x s i * conj (vval x s j) else val A s i j) s s').
Proof.
  intros Hu Ha [H1 H2] [H3 H4] HI HD. apply runs_inv. eapply wp_conseq; [apply her_run; auto; try lia|  |auto].
  - destruct Hu; subst; auto.
  - intros ? s' He. eapply eff_ext; [exact He|]. intros i j Hi Hj; cbn. unfold her_val, herm. cbv zeta.
    destruct (intri u i j) eqn:Ht; [|auto]. destruct (Nat.eqb_spec i j) as [->|]; [|ring].
    replace (re (val A s j j) + re (vval x s j) * re (alpha * conj (vval x s j)) - im (vval x s j) * im (alpha * conj (vval x s j)))
      with (re (val A s j j) + (re (vval x s j) * re (alpha * conj (vval x s j)) - im (vval x s j) * im (alpha * conj (vval x s j)))) by ring.
    rewrite <- re_mul. f_equal. rewrite re_idem; [ring|]. rewrite !conj_mul, Ha, conj_conj. ring.
Qed.
Theorem her2_correct {CL : ConjLaws E} u alpha x y A s n : u = Upper \/ u = Lower ->
  shape A n n -> isvec x n -> isvec y n -> vinj A -> disj x A -> disj y A ->
  returns (her2 u alpha x y A) s (fun _ s' => eff A (fun i j =>
    if intri u i j then herm u (val A s) i j + alpha * vval x s i * conj (vval y s j) + conj alpha * vval y s i * conj (vval x s j)
    else val A s i j) s s').
Proof.
  intros Hu [H1 H2] [H3 H4] [H5 H6] HI HD HD'. apply runs_inv. eapply wp_conseq; [apply her2_run; auto; try lia|  |auto].
  - destruct Hu; subst; auto.
  - intros ? s' He. eapply eff_ext; [exact He|]. intros i j Hi Hj; cbn. unfold her2_val, herm. cbv zeta.
    destruct (intri u i j) eqn:Ht; [|auto]. destruct (Nat.eqb_spec i j) as [->|]; [|rewrite conj_mul; ring].
    set (X := vval x s j). set (Y := vval y s j).
    replace (re (val A s j j) + re X * re (alpha * conj Y) - im X * im (alpha * conj Y) + re Y * re (conj (alpha * X)) - im Y * im (conj (alpha * X)))
      with (re (val A s j j) + (re X * re (alpha * conj Y) - im X * im (alpha * conj Y)) + (re Y * re (conj (alpha * X)) - im Y * im (conj (alpha * X)))) by ring.
    rewrite <- !re_mul.
    assert (Hc : Y * conj (alpha * X) = conj (X * (alpha * conj Y))) by (rewrite !conj_mul, conj_conj; ring).
    rewrite Hc, re_conj.
    replace (re (val A s j j) + re (X * (alpha * conj Y)) + re (X * (alpha * conj Y)))
      with (re (val A s j j) + (re (X * (alpha * conj Y)) + re (X * (alpha * conj Y)))) by ring.
    rewrite <- conj_re2, !conj_mul, conj_conj. ring.
Qed.

(** ** C08 *)
Theorem hemv_correct {CL : ConjLaws E} u alpha A x beta y s n : u = Upper \/ u = Lower ->
  shape A n n -> isvec x n -> isvec y n -> vinj y -> disj A y -> disj x y ->
  returns (hemv u alpha A x beta y) s
    (fun _ s' => veff y (fun i => alpha * mvmul n (herm u (val A s)) (vval x s) i + cval beta * vval y s i) s s').
Proof.
  intros Hu [H1 H2] [H3 H4] [H5 H6] HI HD HD'. apply runs_inv. apply hemv_run; auto. destruct Hu; subst; auto.
Qed.
Theorem symv_correct u alpha A x beta y s n : u = Upper \/ u = Lower ->
  shape A n n -> isvec x n -> isvec y n -> vinj y -> disj A y -> disj x y ->
  returns (symv u alpha A x beta y) s
    (fun _ s' => veff y (fun i => alpha * mvmul n (symm_ u (val A s)) (vval x s) i + cval beta * vval y s i) s s').
Proof.
  intros Hu [H1 H2] [H3 H4] [H5 H6] HI HD HD'. apply runs_inv. apply symv_run; auto. destruct Hu; subst; auto.
Qed.

(** ** C09, C10 *)
Theorem trmv_correct {CL : ConjLaws E} u o d A x s n : u = Upper \/ u = Lower -> shape A n n -> isvec x n ->
  vinj x -> disj A x ->
  returns (trmv u o d A x) s (fun _ s' => veff x (mvmul n (opm o (trim u d (val A s))) (vval x s)) s s').
Proof. intros Hu [H1 H2] [H3 H4] HI HD. apply runs_inv. apply trmv_run; auto. destruct Hu; subst; auto. Qed.
(** the final x satisfies op(A)*x = b, where b is the initial x *)
Theorem trsv_correct {CL : ConjLaws E} u o d A x s n : u = Upper \/ u = Lower -> shape A n n -> isvec x n ->
  vinj x -> disj A x ->
  (d = NonUnit -> forall j, (j < n)%nat -> val A s j j <> zero) ->
  returns (trsv u o d A x) s (fun _ s' =>
    (forall i, (i < n)%nat -> mvmul n (opm o (trim u d (val A s))) (vval x s') i = vval x s i) /\
    (forall l, ~ inview x l -> mem s' l = mem s l) /\ imem s' = imem s).
Proof.
  intros Hu [H1 H2] [H3 H4] HI HD Hnz. apply runs_inv.
  eapply wp_conseq; [apply (trsv_run u o d A x s n); auto; destruct Hu; subst; auto| |auto].
  intros ? s' (F & (K1 & K2 & K3) & HF). repeat split; auto.
  intros i Hi. rewrite <- HF by auto. unfold mvmul. apply sum_ext. intros k Hk. rewrite K1 by lia. reflexivity.
Qed.
End S.

(** ** Concrete instances: 3-by-3 matrices in both layouts with padding, strided vectors *)
Definition exA : view := lview (mklmat 3 3 100 5 ColMajor).
Definition exAr : view := lview (mklmat 3 3 200 4 RowMajor).
Definition exx : view := vview (mklvec 3 0 2 Forward).
Definition exy : view := vview (mklvec 3 20 1 Backward).
#[global] Hint Unfold opshape exA exAr exx exy : exv.
Definition c (a b : R) : @T CE := (a, b).

Example gemv_example (s : @state CE) : returns (gemv (E:=CE) ConjTrans (c 2 1) exAr exx (Sc (c 1 (-1))) exy) s
  (fun _ s' => veff exy (fun i => c 2 1 * mvmul 3 (opm ConjTrans (val exAr s)) (vval exx s) i + c 1 (-1) * vval exy s i) s s').
Proof. apply (gemv_correct_partial (E:=CE) ConjTrans (c 2 1) exAr exx (Sc (c 1 (-1))) exy s 3 3); exv. Qed.
Example her2_example (s : @state CE) : returns (her2 (E:=CE) Lower (c 2 1) exx exy exAr) s
  (fun _ s' => eff exAr (fun i j => if intri Lower i j then
       herm Lower (val exAr s) i j + c 2 1 * vval exx s i * conj (vval exy s j) + conj (c 2 1) * vval exy s i * conj (vval exx s j)
       else val exAr s i j) s s').
Proof. apply (her2_correct (E:=CE) Lower (c 2 1) exx exy exAr s 3); try exv; auto. Qed.
Example hemv_example (s : @state CE) : returns (hemv (E:=CE) Upper (c 2 1) exA exx SZ exy) s
  (fun _ s' => veff exy (fun i => c 2 1 * mvmul 3 (herm Upper (val exA s)) (vval exx s) i + cval SZ * vval exy s i) s s').
Proof. apply (hemv_correct (E:=CE) Upper (c 2 1) exA exx SZ exy s 3); try exv; auto. Qed.
(** a concrete memory whose upper triangle of exA is invertible *)
Definition ex_s : @state CE := mkst CE (fun _ => (1%R, 2%R)) (fun _ => 0%Z).
Example trsv_example : returns (trsv (E:=CE) Upper ConjTrans NonUnit exA exx) ex_s (fun _ s' =>
    (forall i, (i < 3)%nat -> mvmul 3 (opm ConjTrans (trim Upper NonUnit (val exA ex_s))) (vval exx s') i = vval exx ex_s i) /\
    (forall l, ~ inview exx l -> mem s' l = mem ex_s l) /\ imem s' = imem ex_s).
Proof.
  apply (trsv_correct (E:=CE) Upper ConjTrans NonUnit exA exx ex_s 3); try exv; auto.
  intros _ j Hj e. cbn in e. injection e. intros. Lra.lra.
Qed.
