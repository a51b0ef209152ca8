(** * C01, C11-C14: level-3 BLAS *)
From Coq Require Import Bool Arith ZArith Lia Reals Ring Field.
From Verif.Core Require Import Scalar Prog View Instances.
From Verif.Spec Require Import LinAlg Outcome.
From Verif.Model Require Import Gemm Blas1 Blas2 Blas3 Legacy.
From Verif.Proof Require Import SumLemmas ExactBlas GemmProof TrsmProof TrmmProof HemmProof HerkProof Her2kProof LegacyProof.
From Verif.Properties Require Import ExTac Blas2.
Local Open Scope T_scope.

Section S.
Context {E : Env} {FL : FieldLaws E} {CL : ConjLaws E}.
Add Field Tf : fth.
Implicit Types (A B C : view) (s : state).

(** ** C01 *)
Theorem gemm_correct ta tb alpha A B beta C s m n k : ta <> Conj -> tb <> Conj ->
  opshape ta A m k -> opshape tb B k n -> shape C m n -> vinj C -> disj A C -> disj B C ->
  returns (gemm ta tb alpha A B beta C) s (fun _ s' =>
    eff C (fun i j => alpha * mmul k (opm ta (val A s)) (opm tb (val B s)) i j + cval beta * val C s i j) s s').
Proof.
  intros Hta Htb HA HB [HC1 HC2] HI HDA HDB. apply runs_inv.
  assert (Ha : op3 ta = true) by (destruct ta; auto; congruence).
  assert (Hb : op3 tb = true) by (destruct tb; auto; congruence).
  eapply wp_conseq; [apply (gemm_run ta tb alpha A B beta C s m n k); auto| |auto].
  - destruct ta; auto; congruence.
  - destruct tb; auto; congruence.
  - intros ? s' He. eapply eff_ext; [exact He|]. intros i j Hi Hj. apply gemm_val_exact; auto.
Qed.
(** the overload without beta *)
Theorem gemm_nobeta_correct ta tb alpha A B C s m n k : ta <> Conj -> tb <> Conj ->
  opshape ta A m k -> opshape tb B k n -> shape C m n -> vinj C -> disj A C -> disj B C ->
  returns (gemm_nobeta ta tb alpha A B C) s (fun _ s' =>
    eff C (fun i j => alpha * mmul k (opm ta (val A s)) (opm tb (val B s)) i j) s s').
Proof.
  intros. destruct (gemm_correct ta tb alpha A B SZ C s m n k) as (a & s' & H7 & H8); auto.
  exists a, s'. split; auto. eapply eff_ext; [exact H8|]. intros; cbn. ring.
Qed.
(** ... and for LegacyMatrix objects in any layout and leading dimension on non-overlapping buffers;
    the padding between columns (rows) is not modified *)
Theorem gemm_legacy_correct ta tb alpha (A B C : lmat) beta s m n k : ta <> Conj -> tb <> Conj ->
  lok A -> lok B -> lok C ->
  opshape ta (lview A) m k -> opshape tb (lview B) k n -> shape (lview C) m n ->
  (lptr A + lspan A <= lptr C \/ lptr C + lspan C <= lptr A)%Z ->
  (lptr B + lspan B <= lptr C \/ lptr C + lspan C <= lptr B)%Z ->
  returns (gemm ta tb alpha (lview A) (lview B) beta (lview C)) s (fun _ s' =>
    eff (lview C) (fun i j => alpha * mmul k (opm ta (val (lview A) s)) (opm tb (val (lview B) s)) i j
                              + cval beta * val (lview C) s i j) s s').
Proof. intros. apply gemm_correct with m n; auto using lview_inj, lview_disj. Qed.

(** ** C11 *)
Theorem trsm_correct sd u o d alpha A B s m n : u = Upper \/ u = Lower -> o <> Conj ->
  shape B m n -> (match sd with Left => shape A m m | Right => shape A n n end) -> vinj B -> disj A B ->
  (d = NonUnit -> forall j, (j < nr A)%nat -> val A s j j <> zero) ->
  returns (trsm sd u o d alpha A B) s (fun _ s' =>
    let X := val B s' in
    (forall i j, (i < m)%nat -> (j < n)%nat ->
       match sd with
       | Left => mmul m (opm o (trim u d (val A s))) X i j = alpha * val B s i j
       | Right => mmul n X (opm o (trim u d (val A s))) i j = alpha * val B s i j
       end) /\
    (forall l, ~ inview B l -> mem s' l = mem s l) /\ imem s' = imem s).
Proof.
  intros Hu Ho [H1 H2] HA HI HD Hnz. apply runs_inv.
  assert (HA' : nr A = sel sd m n /\ nc A = sel sd m n) by (destruct sd; exact HA).
  destruct HA' as [HA1 HA2].
  eapply wp_conseq; [apply (trsm_run sd u o d alpha A B s m n); auto; [destruct Hu; subst; auto|destruct o; auto; congruence|rewrite <- HA1; auto]| |auto].
  intros ? s' (X & (K1 & K2 & K3) & HX). cbv zeta. repeat split; auto.
  intros i j Hi Hj. specialize (HX i j Hi Hj).
  destruct sd; rewrite <- HX; unfold mmul; apply sum_ext; intros l Hl; rewrite K1 by lia; reflexivity.
Qed.
(** ** C12 *)
Theorem trmm_correct sd u o d alpha A B s m n : u = Upper \/ u = Lower -> o <> Conj ->
  shape B m n -> (match sd with Left => shape A m m | Right => shape A n n end) -> vinj B -> disj A B ->
  returns (trmm sd u o d alpha A B) s (fun _ s' => eff B (fun i j => alpha *
         match sd with
         | Left => mmul m (opm o (trim u d (val A s))) (val B s) i j
         | Right => mmul n (val B s) (opm o (trim u d (val A s))) i j
         end) s s').
Proof.
  intros Hu Ho [H1 H2] HA HI HD. apply runs_inv.
  assert (HA' : nr A = sel sd m n /\ nc A = sel sd m n) by (destruct sd; exact HA).
  destruct HA' as [HA1 HA2].
  apply trmm_run; auto; [destruct Hu; subst; auto|destruct o; auto; congruence].
Qed.
(** ** C13.  uplo = General is accepted; the upper triangle is then used *)
Definition stored (u : uplo_t) : uplo_t := match u with Lower => Lower | _ => Upper end.
Theorem hemm_correct sd u alpha A B beta C s m n : u = Upper \/ u = Lower \/ u = General ->
  shape B m n -> shape C m n -> (match sd with Left => shape A m m | Right => shape A n n end) ->
  vinj C -> disj A C -> disj B C ->
  returns (hemm sd u alpha A B beta C) s (fun _ s' => eff C (fun i j => alpha *
         match sd with
         | Left => mmul m (herm (stored u) (val A s)) (val B s) i j
         | Right => mmul n (val B s) (herm (stored u) (val A s)) i j
         end + cval beta * val C s i j) s s').
Proof.
  intros Hu [H1 H2] [H3 H4] HA HI HD HD'. apply runs_inv.
  assert (HA' : nr A = sel sd m n /\ nc A = sel sd m n) by (destruct sd; exact HA).
  destruct HA' as [HA1 HA2].
  apply (hemm_run sd u alpha A B beta C s m n); auto. destruct Hu as [|[|]]; subst; auto.
Qed.
Theorem symm_correct sd u alpha A B beta C s m n : u = Upper \/ u = Lower \/ u = General ->
  shape B m n -> shape C m n -> (match sd with Left => shape A m m | Right => shape A n n end) ->
  vinj C -> disj A C -> disj B C ->
  returns (symm sd u alpha A B beta C) s (fun _ s' => eff C (fun i j => alpha *
         match sd with
         | Left => mmul m (symm_ (stored u) (val A s)) (val B s) i j
         | Right => mmul n (val B s) (symm_ (stored u) (val A s)) i j
         end + cval beta * val C s i j) s s').
Proof.
  intros Hu [H1 H2] [H3 H4] HA HI HD HD'. apply runs_inv.
  assert (HA' : nr A = sel sd m n /\ nc A = sel sd m n) by (destruct sd; exact HA).
  destruct HA' as [HA1 HA2].
  apply (symm_run sd u alpha A B beta C s m n); auto. destruct Hu as [|[|]]; subst; auto.
Qed.

(** ** C14.  With uplo = General the whole matrix is written ([intri General] is everywhere true) *)
Definition updating (u : uplo_t) (C : mat) (F : mat) : mat := fun i j => if intri u i j then F i j else C i j.
Theorem herk_correct u o alpha A beta C s n k : u = Upper \/ u = Lower \/ u = General ->
  o = NoTrans \/ o = ConjTrans -> conj alpha = alpha -> conj (cval beta) = cval beta ->
  opshape o A n k -> shape C n n -> vinj C -> disj A C ->
  returns (herk u o alpha A beta C) s (fun _ s' => eff C (updating u (val C s) (fun i j =>
     alpha * mmul k (opm o (val A s)) (ctr (opm o (val A s))) i j + cval beta * herm (stored u) (val C s) i j)) s s').
Proof.
  intros Hu Ho Ha Hb HA [H1 H2] HI HD. apply runs_inv.
  apply (herk_run u o alpha A beta C s n k); auto.
  - destruct Hu as [|[|]]; subst; auto.
  - destruct Ho; subst; apply HA.
  - destruct Ho; subst; apply HA.
Qed.
Theorem syrk_correct u o alpha A beta C s n k : u = Upper \/ u = Lower \/ u = General ->
  o = NoTrans \/ o = Trans -> opshape o A n k -> shape C n n -> vinj C -> disj A C ->
  returns (syrk u o alpha A beta C) s (fun _ s' => eff C (updating u (val C s) (fun i j =>
     alpha * mmul k (opm o (val A s)) (tr (opm o (val A s))) i j + cval beta * symm_ (stored u) (val C s) i j)) s s').
Proof.
  intros Hu Ho HA [H1 H2] HI HD. apply runs_inv.
  apply (syrk_run u o alpha A beta C s n k); auto.
  - destruct Hu as [|[|]]; subst; auto.
  - destruct Ho; subst; apply HA.
  - destruct Ho; subst; apply HA.
Qed.
Theorem her2k_correct u o alpha A B beta C s n k : u = Upper \/ u = Lower \/ u = General ->
  o = NoTrans \/ o = ConjTrans -> conj (cval beta) = cval beta ->
  opshape o A n k -> opshape o B n k -> shape C n n -> vinj C -> disj A C -> disj B C ->
  returns (her2k u o alpha A B beta C) s (fun _ s' => eff C (updating u (val C s) (fun i j =>
     alpha * mmul k (opm o (val A s)) (ctr (opm o (val B s))) i j
     + conj alpha * mmul k (opm o (val B s)) (ctr (opm o (val A s))) i j
     + cval beta * herm (stored u) (val C s) i j)) s s').
Proof.
  intros Hu Ho Hb HA HB [H1 H2] HI HD HD'. apply runs_inv.
  apply (her2k_run u o alpha A B beta C s n k); auto.
  - destruct Hu as [|[|]]; subst; auto.
  - destruct Ho; subst; apply HA.
  - destruct Ho; subst; apply HA.
  - destruct Ho; subst; destruct HA, HB; congruence.
  - destruct Ho; subst; destruct HA, HB; congruence.
Qed.
Theorem syr2k_correct u o alpha A B beta C s n k : u = Upper \/ u = Lower \/ u = General ->
  o = NoTrans \/ o = Trans ->
  opshape o A n k -> opshape o B n k -> shape C n n -> vinj C -> disj A C -> disj B C ->
  returns (syr2k u o alpha A B beta C) s (fun _ s' => eff C (updating u (val C s) (fun i j =>
     alpha * mmul k (opm o (val A s)) (tr (opm o (val B s))) i j
     + alpha * mmul k (opm o (val B s)) (tr (opm o (val A s))) i j
     + cval beta * symm_ (stored u) (val C s) i j)) s s').
Proof.
  intros Hu Ho HA HB [H1 H2] HI HD HD'. apply runs_inv.
  apply (syr2k_run u o alpha A B beta C s n k); auto.
  - destruct Hu as [|[|]]; subst; auto.
  - destruct Ho; subst; apply HA.
  - destruct Ho; subst; apply HA.
  - destruct Ho; subst; destruct HA, HB; congruence.
  - destruct Ho; subst; destruct HA, HB; congruence.
Qed.
End S.

(** ** Concrete instances *)
Definition exM23 : view := lview (mklmat 2 3 300 4 RowMajor).
Definition exM32 : view := lview (mklmat 3 2 400 3 ColMajor).
#[global] Hint Unfold exM23 exM32 : exv.
Example gemm_example (s : @state CE) : returns (gemm (E:=CE) ConjTrans Trans (c 2 1) exM23 exM32 (Sc (c 0 1)) exA) s
  (fun _ s' => eff exA (fun i j => c 2 1 * mmul 2 (opm ConjTrans (val exM23 s)) (opm Trans (val exM32 s)) i j
                                   + c 0 1 * val exA s i j) s s').
Proof. apply (gemm_correct (E:=CE) ConjTrans Trans (c 2 1) exM23 exM32 (Sc (c 0 1)) exA s 3 3 2); try discriminate; cbn [opshape]; exv. Qed.
Example trsm_example : returns (trsm (E:=CE) Right Lower ConjTrans NonUnit (c 2 1) exA exM23) ex_s (fun _ s' =>
    (forall i j, (i < 2)%nat -> (j < 3)%nat ->
       mmul 3 (val exM23 s') (opm ConjTrans (trim Lower NonUnit (val exA ex_s))) i j = c 2 1 * val exM23 ex_s i j) /\
    (forall l, ~ inview exM23 l -> mem s' l = mem ex_s l) /\ imem s' = imem ex_s).
Proof.
  apply (trsm_correct (E:=CE) Right Lower ConjTrans NonUnit (c 2 1) exA exM23 ex_s 2 3); try exv; auto; try discriminate.
  intros _ j Hj e. cbn in e. injection e. intros. Lra.lra.
Qed.
Example her2k_example (s : @state CE) : returns (her2k (E:=CE) Lower ConjTrans (c 2 1) exM23 (lview (mklmat 2 3 500 2 ColMajor)) (Sc (c 3 0)) exA) s
  (fun _ s' => eff exA (updating Lower (val exA s) (fun i j =>
     c 2 1 * mmul 2 (opm ConjTrans (val exM23 s)) (ctr (opm ConjTrans (val (lview (mklmat 2 3 500 2 ColMajor)) s))) i j
     + conj (c 2 1) * mmul 2 (opm ConjTrans (val (lview (mklmat 2 3 500 2 ColMajor)) s)) (ctr (opm ConjTrans (val exM23 s))) i j
     + c 3 0 * herm Lower (val exA s) i j)) s s').
Proof.
  apply (her2k_correct (E:=CE) Lower ConjTrans (c 2 1) exM23 (lview (mklmat 2 3 500 2 ColMajor)) (Sc (c 3 0)) exA s 3 2); try exv; auto.
  - cbn. unfold c. apply f_equal. apply Ropp_0.
Qed.
Example hemm_example (s : @state CE) : returns (hemm (E:=CE) Right Lower (c 2 1) exA exM23 SZ (lview (mklmat 2 3 500 2 ColMajor))) s
  (fun _ s' => eff (lview (mklmat 2 3 500 2 ColMajor)) (fun i j => c 2 1 * mmul 3 (val exM23 s) (herm Lower (val exA s)) i j
      + cval SZ * val (lview (mklmat 2 3 500 2 ColMajor)) s i j) s s').
Proof. apply (hemm_correct (E:=CE) Right Lower (c 2 1) exA exM23 SZ (lview (mklmat 2 3 500 2 ColMajor)) s 2 3); try exv; auto. Qed.
