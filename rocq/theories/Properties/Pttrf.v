(** * C24: pttrf, the L D L^H factorization of a Hermitian positive definite tridiagonal matrix *)
From Coq Require Import Bool Arith ZArith Lia Reals Lra Ring Field.
From Verif.Core Require Import Scalar Prog View Slice Loops Instances Quiet.
From Verif.Spec Require Import LinAlg Outcome PosDef Cholesky Tridiag.
From Verif.Model Require Import Gemm Blas1 Blas2 Blas3 Legacy Cholesky Triangular.
From Verif.Proof Require Import SumLemmas Tactics OrdLemmas CholMath LegacyProof.
From Verif.Properties Require Import ExTac Blas2.
Local Open Scope T_scope.

Section S.
Context {E : Env} {FL : FieldLaws E} {CL : ConjLaws E} {OL : ROrdLaws E} {QL : EqbLaws E}.
Add Field Tf : fth.
Implicit Types (D Ev : view) (s : state) (d e : nat -> T).

(** the pivots *)
Fixpoint dd d e (i : nat) : T := match i with O => d O | S i' => d i - re (e i' / re (dd d e i') * conj (e i')) end.
Lemma dd_real d e i : (forall j, (j <= i)%nat -> conj (d j) = d j) -> conj (dd d e i) = dd d e i.
Proof. intros H. destruct i; cbn [dd]; [auto|]. apply real_sub; auto. apply re_real. Qed.
Lemma dd_S d e i : conj (dd d e i) = dd d e i -> dd d e i <> 0 -> dd d e (S i) = d (S i) - e i / dd d e i * conj (e i).
Proof.
  intros Hr Hn. cbn [dd]. rewrite (re_idem (dd d e i) Hr). f_equal. apply re_idem.
  replace (e i / dd d e i * conj (e i)) with (e i * conj (e i) / dd d e i) by (field; auto). apply real_div; auto. apply real_norm.
Qed.
(** the Cholesky factor L sqrt(D) *)
Definition cf d e : mat := fun i l => bidiag (fun j => e j / dd d e j) i l * sqrtv (dd d e l).
Lemma cf_bi d e i l : cf d e i l = (if (i =? l)%nat then 1 else if (i =? S l)%nat then e l / dd d e l else 0) * sqrtv (dd d e l).
Proof. reflexivity. Qed.

Section Fix.
Context (d e : nat -> T) (k n : nat) (Hn : (k <= n)%nat) (Hr : forall j, (j < n)%nat -> conj (d j) = d j) (Hp : forall j, (j < k)%nat -> ltb 0 (dd d e j) = true).
Lemma ddr j : (j < n)%nat -> conj (dd d e j) = dd d e j.
Proof. intros Hj. apply dd_real. intros; apply Hr; lia. Qed.
Lemma ddp j : (j < k)%nat -> conj (sqrtv (dd d e j)) = sqrtv (dd d e j) /\ sqrtv (dd d e j) * sqrtv (dd d e j) = dd d e j /\ ltb 0 (sqrtv (dd d e j)) = true /\ dd d e j <> 0.
Proof. intros Hj. destruct (sqrt_pos (dd d e j)) as (K1 & K2 & K3); [apply ddr; lia|auto|]. repeat split; auto. apply pos_neq_0; auto. Qed.
(** sums of products of rows *)
Lemma cf_sum_below i j : (j <= k)%nat -> (j <= i < n)%nat ->
  sum j (fun l => cf d e i l * conj (cf d e j l)) = if (i =? j)%nat then match j with O => 0 | S l => e l / dd d e l * conj (e l) end else 0.
Proof.
  intros Hj Hi. destruct j as [|j].
  - cbn [sum]. destruct (i =? 0)%nat; auto.
  - rewrite (sum_single (S j) j); [|lia|].
    + rewrite !cf_bi. destruct (ddp j) as (K1 & K2 & _ & K4); [lia|]. destruct (Nat.eqb_spec i j); [lia|]. destruct (Nat.eqb_spec (S j) j); [lia|]. rewrite (Nat.eqb_refl (S j)).
      destruct (Nat.eqb_spec i (S j)) as [->|]; [|ring]. rewrite conj_mul, K1, conj_div by auto. rewrite (ddr j) by lia.
      transitivity (e j / dd d e j * (conj (e j) / dd d e j) * (sqrtv (dd d e j) * sqrtv (dd d e j))); [ring|]. rewrite K2. field. auto.
    + intros l Hl Hl'. rewrite !cf_bi. destruct (Nat.eqb_spec i l), (Nat.eqb_spec i (S l)); try lia. ring.
Qed.
Lemma tri_pchol : pchol k n (cf d e) (tridiag d e).
Proof.
  intros j Hj. destruct (ddp j Hj) as (K1 & K2 & K3 & K4).
  assert (Ec : cf d e j j = sqrtv (dd d e j)) by (rewrite cf_bi, Nat.eqb_refl; ring).
  rewrite Ec. split; auto. split; auto. intros i Hi. cbn [sum]. rewrite cf_sum_below by lia. rewrite Ec, K1. rewrite cf_bi.
  unfold tridiag. destruct (Nat.eqb_spec i j) as [->|].
  - transitivity ((match j with O => 0 | S l => e l / dd d e l * conj (e l) end) + sqrtv (dd d e j) * sqrtv (dd d e j)); [|ring]. rewrite K2.
    destruct j as [|j]; [cbn; ring|]. destruct (ddp j) as (_ & _ & _ & K4'); [lia|]. rewrite dd_S; [ring|apply ddr; lia|auto].
  - destruct (Nat.eqb_spec i (S j)) as [->|].
    + transitivity (e j / dd d e j * (sqrtv (dd d e j) * sqrtv (dd d e j))); [rewrite K2; field; auto|ring].
    + destruct (Nat.eqb_spec j (S i)); [lia|ring].
Qed.
Lemma tri_pivot : (k < n)%nat -> tridiag d e k k - sum k (fun l => cf d e k l * conj (cf d e k l)) = dd d e k.
Proof.
  intros Hk. rewrite cf_sum_below by lia. unfold tridiag. rewrite !Nat.eqb_refl. 
  assert (G : forall q, (q <= k)%nat -> (q < n)%nat -> d q - (match q with O => 0 | S l => e l / dd d e l * conj (e l) end) = dd d e q); [|apply G; lia].
  intros q Hq Hq'. destruct q as [|j]; [cbn; ring|]. destruct (ddp j) as (_ & _ & _ & K4); [lia|]. rewrite dd_S; auto. apply ddr; lia.
Qed.
Lemma tri_herm m : (m <= n)%nat -> hermitian m (tridiag d e).
Proof.
  intros Hm i j Hi Hj. unfold tridiag. destruct (Nat.eqb_spec i j) as [->|]; [rewrite Nat.eqb_refl; symmetry; apply Hr; lia|].
  destruct (Nat.eqb_spec j i); [lia|]. destruct (Nat.eqb_spec i (S j)), (Nat.eqb_spec j (S i)); try lia; rewrite ?conj_conj, ?conj_0; auto.
Qed.
End Fix.

Lemma ldl_sum n d e i j : (i < n)%nat -> mmul n (mmul n (bidiag e) (diagm d)) (ctr (bidiag e)) i j = sum n (fun l => bidiag e i l * d l * conj (bidiag e j l)).
Proof.
  intros Hi. unfold mmul at 1. apply sum_ext. intros l Hl. unfold ctr. f_equal. unfold mmul. rewrite (sum_single n l); auto.
  - unfold diagm. rewrite Nat.eqb_refl. auto.
  - intros m Hm Hn. unfold diagm. destruct (Nat.eqb_spec m l); [lia|ring].
Qed.
Lemma ldl_full n d e : (forall j, (j < n)%nat -> conj (d j) = d j) -> (forall j, (j < n)%nat -> ltb 0 (dd d e j) = true) ->
  forall i j, (i < n)%nat -> (j < n)%nat -> mmul n (mmul n (bidiag (fun l => e l / dd d e l)) (diagm (dd d e))) (ctr (bidiag (fun l => e l / dd d e l))) i j = tridiag d e i j.
Proof.
  intros Hr Hp. assert (Lo : forall i j, (j <= i < n)%nat -> sum n (fun l => bidiag (fun l => e l / dd d e l) i l * dd d e l * conj (bidiag (fun l => e l / dd d e l) j l)) = tridiag d e i j).
  { intros i j Hij. destruct (tri_pchol d e n n ltac:(lia) Hr Hp j ltac:(lia)) as (_ & _ & K). rewrite (K i Hij).
    rewrite (sum_trunc (S j) n); [|lia|intros l Hl; replace (bidiag (fun l => e l / dd d e l) j l) with 0; [rewrite conj_0; ring|]; unfold bidiag; destruct (Nat.eqb_spec j l), (Nat.eqb_spec j (S l)); auto; lia].
    apply sum_ext. intros l Hl. unfold cf. destruct (ddp d e n n ltac:(lia) Hr Hp l) as (K1 & K2 & _); [lia|]. rewrite conj_mul, K1.
    match goal with |- ?x * _ * ?y = _ => transitivity (x * (sqrtv (dd d e l) * sqrtv (dd d e l)) * y); [rewrite K2; auto|ring] end. }
  intros i j Hi Hj. rewrite ldl_sum by auto. destruct (Nat.le_ge_cases j i).
  - apply Lo; auto.
  - rewrite (tri_herm d e n n (le_n n) Hr n) by auto. rewrite <- Lo by auto. rewrite sum_conj. apply sum_ext. intros l Hl. rewrite !conj_mul, conj_conj. rewrite (ddr d e n n (le_n n) Hr l) by auto. ring.
Qed.

Lemma le0_spec x : conj x = x -> le0 x = negb (ltb 0 x).
Proof.
  intros Hr. unfold le0. destruct (lt_tot x 0 Hr conj_0) as [H|[H|H]].
  - rewrite H, (lt_le _ _ H). auto.
  - subst. rewrite lt_irr. rewrite (proj2 (eqb_spec 0 0) eq_refl). auto.
  - rewrite H, (lt_le _ _ H). destruct (eqb x 0) eqn:e; auto. apply eqb_spec in e. subst. rewrite lt_irr in H. discriminate.
Qed.

(** the end of a run *)
Definition pt_out D Ev n s0 (info : Z) s' : Prop :=
  only_changes (fun l => cells D anywhere l \/ cells Ev anywhere l) s0 s' /\
  ((info = 0%Z /\ (forall i, (i < n)%nat -> ltb 0 (dd (vval D s0) (vval Ev s0) i) = true /\ vval D s' i = dd (vval D s0) (vval Ev s0) i) /\
      (forall i, (i < n - 1)%nat -> vval Ev s' i = vval Ev s0 i / dd (vval D s0) (vval Ev s0) i)) \/
   (exists k, info = Z.of_nat (S k) /\ (k < n)%nat /\ (forall i, (i < k)%nat -> ltb 0 (dd (vval D s0) (vval Ev s0) i) = true) /\ ltb 0 (dd (vval D s0) (vval Ev s0) k) = false)).
Lemma pttrf_run ec D Ev s0 n : isvec D n -> isvec Ev (n - 1) -> (0 < n)%nat -> vinj D -> vinj Ev -> disj D Ev ->
  (forall i, (i < n)%nat -> conj (vval D s0 i) = vval D s0 i) ->
  wp (pttrf ec D Ev) (fun info s' => pt_out D Ev n s0 info s' /\ (info = 0%Z \/ throw_errors && ec = false))
    (fun x s' => exists k, x = RuntimeError k /\ (k <> 0)%Z /\ throw_errors && ec = true /\ pt_out D Ev n s0 k s') s0.
Proof.
  intros [H1 H2] [H3 H4] Hn HI HJ HD Hr. unfold pttrf. cbv zeta. rewrite H1, H3.
  apply wp_bind, wp_check; [apply Nat.eqb_eq; lia|]. destruct (Nat.eqb_spec n 0); [lia|].
  set (d := vval D s0) in *. set (e := vval Ev s0). set (p := dd d e).
  assert (Rp : forall i, (i < n)%nat -> conj (p i) = p i) by (intros i Hi; apply dd_real; intros; apply Hr; lia).
  set (Inv := fun i s' => eff2 D (fun j _ => if (j <=? i)%nat then p j else d j) Ev (fun j _ => if (j <? i)%nat then e j / p j else e j) s0 s' /\ forall j, (j < i)%nat -> ltb 0 (p j) = true).
  assert (Fr : forall F G s', eff2 D F Ev G s0 s' -> only_changes (fun l => cells D anywhere l \/ cells Ev anywhere l) s0 s').
  { intros F G s' (_ & _ & K & K'). split; auto. intros l Hl. apply K; intros (i & j & Hi & Hj & el); apply Hl; [left|right]; exists i, j; repeat split; auto. }
  assert (Hfail : forall i s' B (r : B) (Q : B -> state -> Prop), (i < n)%nat -> Inv i s' -> ltb 0 (p i) = false ->
    (throw_errors && ec = false -> pt_out D Ev n s0 (Z.of_nat i + 1) s' -> Q r s') ->
    wp (error_if ec (Z.of_nat i + 1);; ret r) Q (fun x s' => exists k, x = RuntimeError k /\ (k <> 0)%Z /\ throw_errors && ec = true /\ pt_out D Ev n s0 k s') s').
  { intros i s' B r Q Hi [He Hpos] Hz HQ. assert (Ho : pt_out D Ev n s0 (Z.of_nat i + 1) s').
    { split; [eapply Fr; eauto|]. right. exists i. repeat split; auto. lia. }
    apply wp_bind. unfold error_if. destruct ec; [|apply wp_ret, wp_ret; apply HQ; auto; apply andb_false_r].
    unfold error. destruct throw_errors eqn:et.
    - apply wp_throw. exists (Z.of_nat i + 1)%Z. (split; [reflexivity|split; [lia|split; [reflexivity|exact Ho]]]).
    - apply wp_ret, wp_ret. apply HQ; auto. }
  apply wp_bind. apply (wp_forret _ Inv); [lia| | |].
  - split; [|intros; lia]. apply (eff2_ext _ _ _ _ _ _ _ _ (eff2_refl D Ev s0)).
    + intros i j Hi Hj. replace j with 0%nat by lia. destruct (Nat.leb_spec i 0); auto. replace i with 0%nat by lia. reflexivity.
    + intros i j Hi Hj. replace j with 0%nat by lia. destruct (Nat.ltb_spec i 0); auto. lia.
  - intros i s' Hi HInv. assert (HInv' := HInv). destruct HInv' as [He Hpos]. unfold pttrf_step. apply wp_bind. unfold rdv. rd1. rewrite (proj2 (Nat.leb_le i i)) by lia.
    assert (Er : re (p i) = p i) by (apply re_idem, Rp; lia). rewrite Er, le0_spec by (apply Rp; lia). destruct (ltb 0 (p i)) eqn:Hz; cbn [negb].
    + assert (Pn : p i <> 0) by (apply pos_neq_0; auto).
      apply wp_bind. unfold rdv. rd1. rewrite (proj2 (Nat.ltb_ge i i)) by lia. apply wp_bind. unfold wrv. wr1. apply wp_bind. unfold rdv. rd1.
      apply wp_bind. unfold rdv. rd1. apply wp_bind. unfold wrv. wr1. apply wp_ret. split.
      * match goal with H : eff2 _ _ _ _ _ ?t |- eff2 _ _ _ _ _ ?t => apply (eff2_ext _ _ _ _ _ _ _ _ H) end.
        -- intros a b Ha Hb. unfold fupd. replace b with 0%nat by lia. rewrite Nat.eqb_refl. rewrite andb_true_r. destruct (Nat.eqb_spec a (S i)) as [->|].
           ++ rewrite (proj2 (Nat.leb_gt (S i) i)) by lia. rewrite (proj2 (Nat.leb_le (S i) (S i))) by lia. rewrite Nat.eqb_refl. cbn [andb]. unfold p at 2. cbn [dd]. change (dd d e i) with (p i). rewrite Er. auto.
           ++ destruct (Nat.leb_spec a i), (Nat.leb_spec a (S i)); auto; lia.
        -- intros a b Ha Hb. unfold fupd. replace b with 0%nat by lia. rewrite Nat.eqb_refl. rewrite andb_true_r. destruct (Nat.eqb_spec a i) as [->|].
           ++ rewrite (proj2 (Nat.ltb_lt i (S i))) by lia. auto.
           ++ destruct (Nat.ltb_spec a i), (Nat.ltb_spec a (S i)); auto; lia.
      * intros j Hj. destruct (Nat.eq_dec j i) as [->|]; auto. apply Hpos; lia.
    + apply (Hfail i s' _ (Some (Z.of_nat i + 1)%Z)); auto; [lia|]. intros Ht Ho. apply wp_ret. split; auto.
  - intros s' HInv. assert (HInv' := HInv). destruct HInv' as [He Hpos]. apply wp_bind. unfold rdv. rd1. rewrite (proj2 (Nat.leb_le (n - 1) (n - 1))) by lia.
    rewrite (re_idem (p (n - 1)%nat)) by (apply Rp; lia). rewrite le0_spec by (apply Rp; lia). destruct (ltb 0 (p (n - 1)%nat)) eqn:Hz; cbn [negb].
    + apply wp_ret. split; [|auto]. split; [eapply Fr; eauto|]. left. split; auto. destruct He as (E1 & E2 & _). split.
      * intros i Hi. split; [destruct (Nat.eq_dec i (n - 1)) as [->|]; auto; apply Hpos; lia|]. unfold vval. rewrite E1 by lia. destruct (Nat.leb_spec i (n - 1)); auto; lia.
      * intros i Hi. unfold vval. rewrite E2 by lia. destruct (Nat.ltb_spec i (n - 1)); auto; lia.
    + replace (Z.of_nat n) with (Z.of_nat (n - 1) + 1)%Z by lia. apply (Hfail (n - 1)%nat s'); auto; lia.
Qed.

(** the possible ends of a run of pttrf on the Hermitian tridiagonal matrix with (real) diagonal D and
    subdiagonal Ev *)
Lemma pttrf_cases ec D Ev s n : isvec D n -> isvec Ev (n - 1) -> (0 < n)%nat -> vinj D -> vinj Ev -> disj D Ev ->
  (forall i, (i < n)%nat -> conj (vval D s i) = vval D s i) ->
  let H := tridiag (vval D s) (vval Ev s) in
  exists info s', pttrf ec D Ev s = (if Z.eqb info 0 then Ok 0%Z s' else if throw_errors && ec then Exn (RuntimeError info) s' else Ok info s') /\
    only_changes (fun l => cells D anywhere l \/ cells Ev anywhere l) s s' /\
    ((info = 0%Z /\ posdef n H /\ (forall i, (i < n)%nat -> conj (vval D s' i) = vval D s' i /\ ltb 0 (vval D s' i) = true) /\
       forall i j, (i < n)%nat -> (j < n)%nat ->
         mmul n (mmul n (bidiag (vval Ev s')) (diagm (vval D s'))) (ctr (bidiag (vval Ev s'))) i j = H i j) \/
     (exists k, info = Z.of_nat k /\ first_not_posdef n k H)).
Proof.
  intros HD HE Hn HI HJ HDE Hr H. set (d := vval D s) in *. set (e := vval Ev s) in *.
  assert (Out : forall info s', pt_out D Ev n s info s' -> only_changes (fun l => cells D anywhere l \/ cells Ev anywhere l) s s' /\
    ((info = 0%Z /\ posdef n H /\ (forall i, (i < n)%nat -> conj (vval D s' i) = vval D s' i /\ ltb 0 (vval D s' i) = true) /\
       forall i j, (i < n)%nat -> (j < n)%nat ->
         mmul n (mmul n (bidiag (vval Ev s')) (diagm (vval D s'))) (ctr (bidiag (vval Ev s'))) i j = H i j) \/
     (exists k, info = Z.of_nat k /\ first_not_posdef n k H))).
  { intros info s' [Hc [(-> & Hp & He)|(k & -> & Hk & Hp & Hz)]]; (split; [exact Hc|]); [left|right].
    - split; auto. assert (Hp' : forall j, (j < n)%nat -> ltb 0 (dd d e j) = true) by (intros j Hj; apply Hp; auto). split; [|split].
      + apply (pchol_posdef n (cf d e)); [apply (tri_herm d e n n (le_n n) Hr); auto|apply tri_pchol; auto].
      + intros i Hi. destruct (Hp i Hi) as [K1 K2]. rewrite K2. split; auto. apply (ddr d e n n (le_n n) Hr). auto.
      + intros i j Hi Hj. unfold H. rewrite <- (ldl_full n d e Hr Hp' i j Hi Hj). rewrite !ldl_sum by auto.
        assert (EB : forall a l, (a < n)%nat -> (l < n)%nat -> bidiag (vval Ev s') a l = bidiag (fun l => e l / dd d e l) a l).
        { intros a l Ha Hl. unfold bidiag. destruct (Nat.eqb_spec a l); auto. destruct (Nat.eqb_spec a (S l)); auto. apply He. lia. }
        apply sum_ext. intros l Hl. rewrite !EB by auto. destruct (Hp l Hl) as [_ ->]. auto.
    - exists (S k). split; auto. split; [lia|]. replace (S k - 1)%nat with k by lia.
      assert (HF : chfail k H). { exists (cf d e). split; [apply (tri_pchol d e k (S k)); auto; intros; apply Hr; lia|]. unfold H. rewrite (tri_pivot d e k n); auto; lia. }
      assert (Hh : hermitian (S k) H) by (apply (tri_herm d e n n (le_n n) Hr); lia).
      split; [apply chfail_posdef; auto|apply chfail_not_posdef; auto]. }
  assert (K := pttrf_run ec D Ev s n HD HE Hn HI HJ HDE Hr). unfold wp in K. destruct (pttrf ec D Ev s) as [info s'|x s'| |]; [| |tauto|tauto].
  - destruct K as [Ho Hi]. exists info, s'. split; [|apply Out; auto]. destruct (Z.eqb_spec info 0) as [->|]; auto. destruct Hi as [|Hi]; [lia|]. rewrite Hi. auto.
  - destruct K as (k & -> & Hk & Ht & Ho). exists k, s'. split; [|apply Out; auto]. destruct (Z.eqb_spec k 0); [lia|]. rewrite Ht. auto.
Qed.

(** a positive definite matrix is factorized as L D L^H *)
Theorem pttrf_factorizes ec D Ev s n : isvec D n -> isvec Ev (n - 1) -> (0 < n)%nat -> vinj D -> vinj Ev -> disj D Ev ->
  (forall i, (i < n)%nat -> conj (vval D s i) = vval D s i) ->
  let H := tridiag (vval D s) (vval Ev s) in posdef n H ->
  returns (pttrf ec D Ev) s (fun info s' => info = 0%Z /\
    only_changes (fun l => cells D anywhere l \/ cells Ev anywhere l) s s' /\
    (forall i, (i < n)%nat -> conj (vval D s' i) = vval D s' i /\ ltb 0 (vval D s' i) = true) /\
    forall i j, (i < n)%nat -> (j < n)%nat ->
      mmul n (mmul n (bidiag (vval Ev s')) (diagm (vval D s'))) (ctr (bidiag (vval Ev s'))) i j = H i j).
Proof.
  intros HD HE Hn HI HJ HDE Hr H HP. destruct (pttrf_cases ec D Ev s n HD HE Hn HI HJ HDE Hr) as (info & s' & K & Hc & [(-> & _ & K1 & K2)|(k & -> & (Hk & _ & Hf))]).
  - exists 0%Z, s'. auto.
  - exfalso. apply Hf. eapply posdef_le; eauto. lia.
Qed.
(** otherwise the order of the first leading principal submatrix that is not positive definite is reported,
    by an exception when errors are thrown and by the return value when not; a return value 0 implies
    that the matrix is positive definite *)
Theorem pttrf_detects ec D Ev s n : isvec D n -> isvec Ev (n - 1) -> (0 < n)%nat -> vinj D -> vinj Ev -> disj D Ev ->
  (forall i, (i < n)%nat -> conj (vval D s i) = vval D s i) ->
  let H := tridiag (vval D s) (vval Ev s) in
  exists s', only_changes (fun l => cells D anywhere l \/ cells Ev anywhere l) s s' /\
    ((posdef n H /\ pttrf ec D Ev s = Ok 0%Z s') \/
     (exists k, first_not_posdef n k H /\ pttrf ec D Ev s = if throw_errors && ec then Exn (RuntimeError (Z.of_nat k)) s' else Ok (Z.of_nat k) s')).
Proof.
  intros HD HE Hn HI HJ HDE Hr H. destruct (pttrf_cases ec D Ev s n HD HE Hn HI HJ HDE Hr) as (info & s' & K & Hc & [(-> & HP & K1 & K2)|(k & -> & Hf)]); exists s'; (split; [exact Hc|]).
  - left. auto.
  - right. exists k. split; auto. assert (Hf' := Hf). destruct Hf' as [Hk _]. destruct (Z.eqb_spec (Z.of_nat k) 0); [lia|]. auto.
Qed.
(** an empty diagonal can never satisfy the size check: the quick return for n = 0 is unreachable *)
Theorem pttrf_empty_rejected ec D Ev s : check_input = true -> nr D = 0%nat -> rejects (pttrf ec D Ev) s.
Proof. intros Hc H0. unfold rejects, pttrf, bind, check. rewrite Hc, H0. destruct (Nat.eqb_spec 0 (nr Ev + 1)); [lia|]. reflexivity. Qed.
End S.

(** diagonal (2, 2, 2), subdiagonal (1, 1), with strides *)
Definition exPD : view := vview (mklvec 3 10 2 Forward).
Definition exPE : view := vview (mklvec 2 40 1 Forward).
#[global] Hint Unfold exPD exPE : exv.
Definition exPD_s : @state RE := mkst RE (fun l => if (l <? 40)%Z then 2%R else 1%R) (fun _ => 0%Z).
Example pttrf_example ec : returns (pttrf (E:=RE) ec exPD exPE) exPD_s (fun info s' => info = 0%Z /\
    forall i j, (i < 3)%nat -> (j < 3)%nat ->
      mmul (E:=RE) 3 (mmul 3 (bidiag (vval exPE s')) (diagm (vval exPD s'))) (ctr (bidiag (vval exPE s'))) i j = tridiag (E:=RE) (vval exPD exPD_s) (vval exPE exPD_s) i j).
Proof.
  destruct (pttrf_factorizes (E:=RE) ec exPD exPE exPD_s 3) as (info & s' & K & H1 & _ & _ & H2); try exv; try reflexivity.
  - intros x (i & Hi & Hx). cbn in x, Hx. cbn. apply Rltb_t. cut (0 < x 0%nat * x 0%nat + (x 0%nat + x 1%nat) * (x 0%nat + x 1%nat) + (x 1%nat + x 2%nat) * (x 1%nat + x 2%nat) + x 2%nat * x 2%nat)%R; [intros; nra|].
    assert (Q := fun a : R => Rle_0_sqr a). unfold Rsqr in Q. assert (Q0 := Q (x 0%nat)). assert (Q1 := Q (x 0%nat + x 1%nat)%R). assert (Q2 := Q (x 1%nat + x 2%nat)%R). assert (Q3 := Q (x 2%nat)).
    match goal with |- (0 < ?a)%R => destruct (Rle_lt_dec a 0) as [Hle|]; auto end. exfalso. apply Hx.
    assert (Z0 : x 0%nat = 0%R) by (apply Rsqr_0_uniq; unfold Rsqr; lra). assert (Z2 : x 2%nat = 0%R) by (apply Rsqr_0_uniq; unfold Rsqr; lra).
    assert (Z1 : (x 0%nat + x 1%nat)%R = 0%R) by (apply Rsqr_0_uniq; unfold Rsqr; lra). destruct i as [|[|[|]]]; try lia; lra.
  - exists info, s'. auto.
Qed.
