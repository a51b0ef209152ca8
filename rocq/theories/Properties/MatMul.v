(** * C47: out-of-place and structured matrix products (gemmtr, hemm2, mult_hehe, trmm_out) and the triangular solve
    with a triangular right-hand side (trsm_tri) *)
From Coq Require Import Bool Arith ZArith Lia Reals Lra Ring Field.
From Verif.Core Require Import Scalar Prog View Slice Loops Instances Quiet.
From Verif.Spec Require Import LinAlg Outcome.
From Verif.Model Require Import Gemm Blas1 Blas2 Blas3 Legacy MatMul.
From Verif.Proof Require Import SumLemmas GemmProof ExactBlas MatMulProof MatMulRec TrsmTriProof.
From Verif.Properties Require Import ExTac Blas2 Blas3 BlockQ.
Local Open Scope T_scope.

(** the triangle of A that hemm2 reads: with uplo = General it is the lower one on the left, but on the right it
    depends on transB *)
Definition hemm2_half (sd : side_t) (o : op_t) (u : uplo_t) : uplo_t :=
  match u with
  | General => match sd, o with Right, NoTrans => Upper | _, _ => Lower end
  | _ => u
  end.

Section S.
Context {E : Env} {FL : FieldLaws E} {CL : ConjLaws E}.
Add Field Tf : fth.
Implicit Types (A B C : view) (s : state).

Lemma op3_ok o : o <> Conj -> op3 o = true.
Proof. destruct o; auto; congruence. Qed.
Lemma opsh o A m n : o <> Conj -> opshape o A m n -> if is_nt o then nr A = m /\ nc A = n else nr A = n /\ nc A = m.
Proof. destruct o; auto; congruence. Qed.

(** C := alpha op(A) op(B) + beta C on one triangle of C; the rest of C is left alone *)
Theorem gemmtr_correct u ta tb alpha A B beta C s n k : u = Upper \/ u = Lower -> ta <> Conj -> tb <> Conj ->
  opshape ta A n k -> opshape tb B k n -> shape C n n -> vinj C -> disj A C -> disj B C ->
  returns (gemmtr u ta tb alpha A B beta C) s (fun _ s' =>
    (forall i j, (i < n)%nat -> (j < n)%nat -> in_triangle u i j ->
       val C s' i j = alpha * mmul k (opm ta (val A s)) (opm tb (val B s)) i j + cval beta * val C s i j) /\
    only_changes (cells C (in_triangle u)) s s').
Proof.
  intros Hu Ha Hb HA HB [HC1 HC2] HI HDA HDB. apply runs_inv.
  eapply wp_conseq; [apply (gemmtr_run u ta tb alpha A B beta C s n k); auto using op3_ok; [destruct Hu; subst; auto|apply opsh; auto|apply opsh; auto]| |auto].
  intros r s' (K1 & K2 & K3).
  assert (Hd : forall i j, in_triangle u i j \/ intri u i j = false).
  { intros i j. destruct Hu as [-> | ->]; cbn [in_triangle intri]; [destruct (Nat.leb_spec i j)|destruct (Nat.leb_spec j i)]; auto. }
  split; [|split]; auto.
  - intros i j Hi Hj Ht. rewrite K1 by lia. rewrite gemm_val_exact by auto using op3_ok.
    destruct (intri u i j) eqn:e; auto. exfalso. destruct Hu as [-> | ->]; cbn [in_triangle intri] in *; apply Nat.leb_gt in e; lia.
  - intros l Hl. destruct (inview_dec C l) as [(i & j & Hi & Hj & e)|Hn]; [|auto].
    destruct (Hd i j) as [Ht|Ht]; [exfalso; apply Hl; exists i, j; auto|]. rewrite e. 
    change (val C s' i j = val C s i j). rewrite K1 by auto. rewrite Ht. auto.
Qed.

(** C := alpha A op(B) + beta C or C := alpha op(B) A + beta C with A Hermitian, one triangle of it stored *)
Theorem hemm2_correct sd u o alpha A B beta C s m n : u = Upper \/ u = Lower \/ u = General -> o <> Conj ->
  opshape o B m n -> shape C m n -> (match sd with Left => shape A m m | Right => shape A n n end) ->
  vinj C -> disj A C -> disj B C ->
  returns (hemm2 sd u o alpha A B beta C) s (fun _ s' => eff C (fun i j => alpha *
     match sd with
     | Left => mmul m (herm (hemm2_half sd o u) (val A s)) (opm o (val B s)) i j
     | Right => mmul n (opm o (val B s)) (herm (hemm2_half sd o u) (val A s)) i j
     end + cval beta * val C s i j) s s').
Proof.
  intros Hu Ho HB [HC1 HC2] HA HI HDA HDB. apply runs_inv.
  assert (Eh : tri2 sd o u = hemm2_half sd o u) by (destruct Hu as [-> |[-> | ->]]; destruct sd, o; reflexivity).
  assert (HA' : nr A = sel sd m n /\ nc A = nr A) by (destruct sd, HA as [-> ->]; auto). destruct HA' as [HA1 HA2].
  assert (HR : runs (hemm2 sd u o alpha A B beta C) s (fun _ s' => eff C (fun i j => alpha *
         match sd with
         | Left => mmul (nr A) (herm (tri2 sd o u) (val A s)) (opm o (val B s)) i j
         | Right => mmul (nr A) (opm o (val B s)) (herm (tri2 sd o u) (val A s)) i j
         end + cval beta * val C s i j) s s')).
  { destruct o; try congruence; destruct HB as [HB1 HB2].
    - apply (hemm2_run sd u NoTrans alpha A B beta C s m n); auto; destruct Hu as [-> |[-> | ->]]; auto; split; auto.
    - apply (hemm2_run sd u Trans alpha A B beta C s n m); auto; destruct Hu as [-> |[-> | ->]]; auto; split; auto.
    - apply (hemm2_run sd u ConjTrans alpha A B beta C s n m); auto; destruct Hu as [-> |[-> | ->]]; auto; split; auto. }
  eapply wp_conseq; [exact HR| |auto]. intros r s' He. rewrite Eh in He. destruct sd; cbn [sel] in HA1; rewrite HA1 in He; exact He.
Qed.
(** if A as a whole is Hermitian, uplo = General gives the product with A whatever the side *)
Theorem hemm2_general_hermitian sd o alpha A B beta C s m n : o <> Conj ->
  opshape o B m n -> shape C m n -> (match sd with Left => shape A m m | Right => shape A n n end) ->
  vinj C -> disj A C -> disj B C ->
  (forall i j, (i < nr A)%nat -> (j < nr A)%nat -> val A s i j = conj (val A s j i)) ->
  returns (hemm2 sd General o alpha A B beta C) s (fun _ s' => eff C (fun i j => alpha *
     match sd with
     | Left => mmul m (val A s) (opm o (val B s)) i j
     | Right => mmul n (opm o (val B s)) (val A s) i j
     end + cval beta * val C s i j) s s').
Proof.
  intros Ho HB HC HA HI HDA HDB HH.
  destruct (hemm2_correct sd General o alpha A B beta C s m n) as (r & s' & K & He); auto.
  exists r, s'. split; auto. apply (eff_ext _ _ _ _ _ He). intros i j Hi Hj. destruct HC as [HC1 HC2].
  assert (KH : forall h a b, h = Upper \/ h = Lower -> (a < nr A)%nat -> (b < nr A)%nat -> herm h (val A s) a b = val A s a b).
  { intros h a b Hh Ha Hb. unfold herm. destruct (Nat.eqb_spec a b) as [<-|Hab].
    - apply re_idem. symmetry. apply HH; auto.
    - destruct (intri h a b); auto. symmetry. apply HH; auto. }
  assert (Hh : hemm2_half sd o General = Upper \/ hemm2_half sd o General = Lower) by (destruct sd, o; cbn; auto).
  destruct sd, HA as [HA1 HA2]; match goal with |- alpha * ?x + _ = alpha * ?y + _ => assert (e : x = y); [|rewrite e; reflexivity] end;
    apply sum_ext; intros l Hl; rewrite KH by (auto; lia); reflexivity.
Qed.

(** C := alpha A B + beta C with A and B Hermitian, one triangle of each stored *)
Theorem mult_hehe_correct u alpha A B beta C s n : u = Upper \/ u = Lower ->
  shape A n n -> shape B n n -> shape C n n -> vinj C -> disj A C -> disj B C -> (0 < n)%nat ->
  returns (mult_hehe u alpha A B beta C) s (fun _ s' =>
    eff C (fun i j => alpha * mmul n (herm u (val A s)) (herm u (val B s)) i j + cval beta * val C s i j) s s').
Proof.
  intros Hu [HA1 HA2] [HB1 HB2] [HC1 HC2] HI HDA HDB Hn. apply runs_inv. unfold mult_hehe.
  apply (mult_hehe_f_run alpha u Hu); auto; lia.
Qed.
(** ... and without the beta argument *)
Theorem mult_hehe_nobeta_correct u alpha A B C s n : u = Upper \/ u = Lower ->
  shape A n n -> shape B n n -> shape C n n -> vinj C -> disj A C -> disj B C -> (0 < n)%nat ->
  returns (mult_hehe_nobeta u alpha A B C) s (fun _ s' =>
    eff C (fun i j => alpha * mmul n (herm u (val A s)) (herm u (val B s)) i j) s s').
Proof.
  intros Hu HA HB HC HI HDA HDB Hn. destruct (mult_hehe_correct u alpha A B SZ C s n) as (r & s' & K & He); auto.
  exists r, s'. split; auto. eapply eff_ext; [exact He|]. intros; cbn. ring.
Qed.

(** C := alpha A op(B) + beta C or C := alpha op(B) A + beta C with A triangular (op(A) = A only) *)
Theorem trmm_out_correct sd u d o alpha A B beta C s m n : u = Upper \/ u = Lower -> o <> Conj ->
  opshape o B m n -> shape C m n -> (match sd with Left => shape A m m | Right => shape A n n end) -> (0 < nr A)%nat ->
  vinj C -> disj A C -> disj B C ->
  returns (trmm_out sd u NoTrans d o alpha A B beta C) s (fun _ s' => eff C (fun i j => alpha *
     match sd with
     | Left => mmul m (trim u d (val A s)) (opm o (val B s)) i j
     | Right => mmul n (opm o (val B s)) (trim u d (val A s)) i j
     end + cval beta * val C s i j) s s').
Proof.
  intros Hu Ho HB [HC1 HC2] HA Hn HI HDA HDB. apply runs_inv. unfold trmm_out.
  destruct sd, HA as [HA1 HA2].
  - apply (trmm_out_l_run alpha u d o Hu (op3_ok o Ho) _ _ _ _ _ _ m n); try lia; try apply opsh; auto.
  - apply (trmm_out_r_run alpha u d o Hu (op3_ok o Ho) _ _ _ _ _ _ m n); try lia; try apply opsh; auto.
Qed.

(** op(A) X = alpha B or X op(A) = alpha B with op(A), B and X triangular of the same shape: the triangle of B is
    overwritten by X, the other triangle is left alone *)
Definition flip (o : op_t) (u : uplo_t) : uplo_t :=
  match o with NoTrans => u | _ => match u with Upper => Lower | _ => Upper end end.
Theorem trsm_tri_correct sd u o d alpha A B s n : u = Upper \/ u = Lower -> o <> Conj ->
  shape A n n -> shape B n n -> vinj B -> disj A B -> (0 < n)%nat ->
  (d = NonUnit -> forall j, (j < n)%nat -> val A s j j <> 0) ->
  returns (trsm_tri sd u o d alpha A B) s (fun _ s' =>
    let opA := opm o (trim (flip o u) d (val A s)) in
    let X := trim u NonUnit (val B s') in
    let B0 := trim u NonUnit (val B s) in
    (forall i j, (i < n)%nat -> (j < n)%nat ->
       match sd with Left => mmul n opA X i j | Right => mmul n X opA i j end = alpha * B0 i j) /\
    only_changes (cells B (in_triangle u)) s s').
Proof.
  intros Hu Ho [HA1 HA2] [HB1 HB2] HI HD Hn Hd. apply runs_inv. unfold trsm_tri.
  eapply wp_conseq; [apply (trsm_tri_f_run sd u o d Hu (op3_ok o Ho) (S (nr A)) A B alpha s n); auto; lia| |auto].
  intros r s' (F & (K1 & K2 & K3) & KF & KE). cbv zeta.
  assert (Eu : uplA o u = flip o u) by (destruct o; try congruence; reflexivity). rewrite Eu in KE.
  split; [|split]; auto.
  - intros i j Hi Hj. rewrite <- KE by auto. 
    assert (KT : forall a b, (a < n)%nat -> (b < n)%nat -> trim u NonUnit (val B s') a b = trim u NonUnit F a b).
    { intros a b Ha Hb. unfold trim. rewrite !K1 by lia. reflexivity. }
    destruct sd; apply sum_ext; intros l Hl; rewrite KT by auto; reflexivity.
  - intros l Hl. destruct (inview_dec B l) as [(i & j & Hi & Hj & e)|Hn']; [|auto]. rewrite e.
    change (val B s' i j = val B s i j). rewrite K1 by auto. apply KF; try lia.
    destruct (intri u i j) eqn:Ei; auto. exfalso. apply Hl. exists i, j. repeat split; auto.
    destruct Hu as [-> | ->]; cbn [in_triangle intri] in *; apply Nat.leb_le; auto.
Qed.
End S.

(** ** What the code does outside those domains *)
Section Bad.
Context {E : Env}.
Implicit Types (A B C : view) (s : state).
(** invalid arguments of gemmtr are rejected, except for the dimensions of C, where one of the two suffices *)
Theorem gemmtr_rejects u ta tb alpha A B beta C s : check_input = true ->
  ~ ((u = Upper \/ u = Lower) /\ ta <> Conj /\ tb <> Conj /\
     exists n k, opshape ta A n k /\ opshape tb B k n /\ (nr C = n \/ nc C = n)) ->
  rejects (gemmtr u ta tb alpha A B beta C) s.
Proof.
  intros Hc Hn. unfold gemmtr, rejects. cbv zeta.
  assert (KC : forall b (p : M unit), (b = true -> p s = Exn DomainError s) -> (check b;; p) s = Exn DomainError s).
  { intros b p Hp. unfold check, bind. rewrite Hc. destruct b; cbn [negb andb]; auto. }
  repeat (apply KC; let H := fresh "H" in intro H). exfalso. apply Hn.
  split; [destruct u; try discriminate; auto|]. split; [destruct ta; discriminate|]. split; [destruct tb; discriminate|].
  apply orb_true_iff in H2. rewrite !Nat.eqb_eq in *.
  destruct ta; try discriminate H0; destruct tb; try discriminate H1; cbn [is_nt op_eqb opshape] in *;
    eexists _, _; unfold shape; repeat apply Logic.conj; try reflexivity; try lia.
Qed.
(** gemmtr accepts a C whose number of columns is right but which has too few rows, and then accesses elements
    outside of it *)
Theorem gemmtr_dims_refuted :
  exists (A B C : view), shape A 2 1 /\ shape B 1 2 /\ shape C 1 2 /\ disj A C /\ disj B C /\
    forall alpha beta s, gemmtr Lower NoTrans NoTrans alpha A B beta C s = UB.
Proof.
  exists (lview (mklmat 2 1 0 2 ColMajor)), (lview (mklmat 1 2 10 1 ColMajor)), (lview (mklmat 1 2 20 1 ColMajor)).
  repeat (split; [exv|]). intros alpha beta s.
  unfold gemmtr, check, bind, ret. cbn. rewrite ?andb_false_r. cbn. reflexivity.
Qed.
(** mult_hehe accesses element (0,0) of empty matrices *)
Theorem mult_hehe_empty_refuted u alpha A B beta C s : shape A 0 0 -> mult_hehe u alpha A B beta C s = UB.
Proof.
  intros [H1 H2]. unfold mult_hehe. cbn [mult_hehe_f]. cbv zeta. rewrite H1, H2. cbn [Nat.eqb negb Nat.leb]. apply ub_first.
  unfold rd, inb. rewrite H1. reflexivity.
Qed.
(** a non-square A makes mult_hehe return without doing anything *)
Theorem mult_hehe_nonsquare_silent u alpha A B beta C s : nr A <> nc A -> mult_hehe u alpha A B beta C s = Ok tt s.
Proof. intros H. unfold mult_hehe. cbn [mult_hehe_f]. cbv zeta. rewrite (proj2 (Nat.eqb_neq _ _) H). reflexivity. Qed.
(** an empty triangular matrix makes trmm_out and trsm_tri recurse forever, whatever the recursion depth allowed *)
Theorem trmm_out_empty_diverges fuel sd u ta d o alpha A B beta C s m n : o <> Conj ->
  opshape o B m n -> shape C m n -> (match sd with Left => shape A m m | Right => shape A n n end) -> nr A = 0%nat ->
  trmm_out_f fuel sd u ta d o alpha A B beta C s = OutOfFuel.
Proof.
  intros Ho. revert A B C m n s. induction fuel as [|fu IH]; intros A B C m n s HB [HC1 HC2] HA H0; [reflexivity|].
  cbn [trmm_out_f]. cbv zeta. destruct sd, HA as [HA1 HA2].
  - assert (Hm : m = 0%nat) by congruence. clear H0. rewrite Hm in *. clear m Hm.
    destruct o; try congruence; destruct HB as [HB1 HB2]; cbn [is_nt op_eqb]; rewrite HB1, HB2; cbn [Nat.eqb]; change (Nat.div2 0) with 0%nat;
      rewrite !slc_ret by lia; unfold bind, ret; destruct u; rewrite ?slc_ret by lia; (erewrite IH; [reflexivity|split; reflexivity|split; reflexivity|split; reflexivity|reflexivity]).
  - assert (Hm : n = 0%nat) by congruence. clear H0. rewrite Hm in *. clear n Hm.
    destruct o; try congruence; destruct HB as [HB1 HB2]; cbn [is_nt op_eqb]; rewrite HB1, HB2; cbn [Nat.eqb]; change (Nat.div2 0) with 0%nat;
      rewrite !slc_ret by lia; unfold bind, ret; destruct u; rewrite ?slc_ret by lia; (erewrite IH; [reflexivity|split; reflexivity|split; reflexivity|split; reflexivity|reflexivity]).
Qed.
Theorem trsm_tri_empty_diverges fuel sd u o d alpha A B s : shape A 0 0 -> shape B 0 0 ->
  trsm_tri_f fuel sd u o d alpha A B s = OutOfFuel.
Proof.
  revert alpha A B s. induction fuel as [|fu IH]; intros alpha A B s HA HB; [reflexivity|].
  cbn [trsm_tri_f]. cbv zeta. destruct HA as [HA1 HA2], HB as [HB1 HB2]. rewrite HA1. cbn [Nat.eqb]. change (Nat.div2 0) with 0%nat.
  destruct u; cbn [forup foldup forn Nat.sub]; unfold bind at 1, ret at 1; cbv beta iota;
    rewrite !slc_ret by lia; unfold bind, ret; destruct sd, o; rewrite IH by (split; reflexivity); reflexivity.
Qed.
End Bad.

(** ** Examples *)
Definition exC3 : view := lview (mklmat 3 3 700 4 RowMajor).
Definition exC23 : view := lview (mklmat 2 3 500 2 ColMajor).
#[local] Hint Unfold exA exM23 exC3 exC23 : exv.
Example gemmtr_example (s : @state CE) : returns (gemmtr (E:=CE) Lower ConjTrans NoTrans (c 2 1) exM23 exC23 (Sc (c 3 0)) exA) s (fun _ s' =>
  (forall i j, (i < 3)%nat -> (j < 3)%nat -> in_triangle Lower i j ->
     val exA s' i j = c 2 1 * mmul 2 (opm ConjTrans (val exM23 s)) (opm NoTrans (val exC23 s)) i j + c 3 0 * val exA s i j) /\
  only_changes (cells exA (in_triangle Lower)) s s').
Proof. apply (gemmtr_correct (E:=CE) Lower ConjTrans NoTrans (c 2 1) exM23 exC23 (Sc (c 3 0)) exA s 3 2); try exv; auto; try discriminate; cbn [opshape]; exv. Qed.
Example hemm2_example (s : @state CE) : returns (hemm2 (E:=CE) Left Upper ConjTrans (c 2 1) exA exM23 SZ (lview (mklmat 3 2 500 3 ColMajor))) s
  (fun _ s' => eff (lview (mklmat 3 2 500 3 ColMajor)) (fun i j => c 2 1 * mmul 3 (herm Upper (val exA s)) (opm ConjTrans (val exM23 s)) i j
      + cval SZ * val (lview (mklmat 3 2 500 3 ColMajor)) s i j) s s').
Proof. apply (hemm2_correct (E:=CE) Left Upper ConjTrans (c 2 1) exA exM23 SZ (lview (mklmat 3 2 500 3 ColMajor)) s 3 2); try exv; auto; try discriminate; cbn [opshape]; exv. Qed.
Example hemm2_general_example : returns (hemm2 (E:=RE) Right General NoTrans 2%R exA exM23 SZ exC23) (mkst RE (fun _ => 1%R) (fun _ => 0%Z)) (fun _ s' => val exC23 s' 1%nat 2%nat = 6%R).
Proof.
  destruct (hemm2_general_hermitian (E:=RE) Right NoTrans 2%R exA exM23 SZ exC23 (mkst RE (fun _ => 1%R) (fun _ => 0%Z)) 2 3) as (r & s' & K & K1 & _); [discriminate|exv|exv|exv|exv|exv|exv|reflexivity|].
  exists r, s'. split; [exact K|]. clear K. rewrite K1; [|cbn; lia|cbn; lia]. clear K1. cbn. lra.
Qed.
Example mult_hehe_example : returns (mult_hehe (E:=RE) Upper 2%R exA exC3 (Sc (E:=RE) 5%R) (lview (mklmat 3 3 300 3 ColMajor))) (mkst RE (fun l => if (l =? 101)%Z then 77%R else 1%R) (fun _ => 0%Z))
  (fun _ s' => val (lview (mklmat 3 3 300 3 ColMajor)) s' 1%nat 0%nat = 11%R).
Proof.
  destruct (mult_hehe_correct (E:=RE) Upper 2%R exA exC3 (Sc (E:=RE) 5%R) (lview (mklmat 3 3 300 3 ColMajor)) (mkst RE (fun l => if (l =? 101)%Z then 77%R else 1%R) (fun _ => 0%Z)) 3) as (r & s' & K & K1 & _); try exv; auto.
  exists r, s'. split; [exact K|]. clear K. rewrite K1; [|cbn; lia|cbn; lia]. clear K1. cbn. lra.
Qed.
Example trmm_out_example (s : @state CE) : returns (trmm_out (E:=CE) Right Lower NoTrans Unit NoTrans (c 2 1) exA exM23 (Sc (c 3 0)) exC23) s
  (fun _ s' => eff exC23 (fun i j => c 2 1 * mmul 3 (opm NoTrans (val exM23 s)) (trim Lower Unit (val exA s)) i j + c 3 0 * val exC23 s i j) s s').
Proof. apply (trmm_out_correct (E:=CE) Right Lower Unit NoTrans (c 2 1) exA exM23 (Sc (c 3 0)) exC23 s 2 3); try exv; auto; try discriminate; cbn [opshape]; exv. Qed.
(** A upper triangular with ones, transposed; B lower triangular with ones: A^T X = 2 B gives X = 2 I *)
Example trsm_tri_example : returns (trsm_tri (E:=RE) Left Lower Trans NonUnit 2%R exA exC3) (mkst RE (fun l => if (l =? 701)%Z then 77%R else 1%R) (fun _ => 0%Z))
  (fun _ s' => val exC3 s' 0%nat 0%nat = 2%R /\ val exC3 s' 1%nat 0%nat = 0%R /\ val exC3 s' 0%nat 1%nat = 77%R).
Proof.
  destruct (trsm_tri_correct (E:=RE) Left Lower Trans NonUnit 2%R exA exC3 (mkst RE (fun l => if (l =? 701)%Z then 77%R else 1%R) (fun _ => 0%Z)) 3) as (r & s' & K & K1 & K2 & _); [auto|discriminate|exv|exv|exv|exv|lia| |].
  { intros _ j Hj. destruct j as [|[|[|]]]; [| | |lia]; cbn; lra. }
  exists r, s'. split; [exact K|]. clear K.
  assert (E0 := K1 0%nat 0%nat ltac:(lia) ltac:(lia)). assert (E1 := K1 1%nat 0%nat ltac:(lia) ltac:(lia)). cbn in E0, E1.
  assert (E2 : val exC3 s' 0%nat 1%nat = 77%R). { unfold val. rewrite K2; [reflexivity|]. intros (i & j & Hi & Hj & Ht & e). cbn [in_triangle] in Ht. revert e. cbn in Hi, Hj. exv. }
  clear K1 K2. unfold val in *. cbn in *. lra.
Qed.
