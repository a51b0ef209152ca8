(** gemmtr, hemm2 *)
From Coq Require Import Bool Arith ZArith Lia Ring Field.
From Verif.Core Require Import Scalar Prog View.
From Verif.Spec Require Import LinAlg.
From Verif.Model Require Import Gemm Blas2 Blas3 MatMul.
From Verif.Proof Require Import SumLemmas Tactics Blas2Proof HemvProof HemmProof GemmProof HerkProof.
Local Open Scope T_scope.

Ltac updl ff jj :=
  lazymatch goal with He : eff ?C ?F ?s0 ?s, HI : vinj ?C, H1 : nr ?C = ?n, H2 : nc ?C = ?n |- wp (forup _ _ _) _ _ ?s =>
    eapply (upd_loop C s0 n) with (f := ff) (j := jj); [exact H1|exact H2|lia|lia|exact He| |]
  end.

Section Gemmtr.
Context {E : Env}.

Section Body.
Variables (u : uplo_t) (C : view) (s0 : state) (n : nat).
Hypotheses (Hu : uplo2 u = true) (HI : vinj C) (Hm : nr C = n) (Hn : nc C = n).
Let lo (j : nat) := match u with Upper => 0%nat | _ => j end.
Let hi (j : nat) := match u with Upper => S j | _ => n end.

Lemma tri_rng j : (j < n)%nat -> (lo j <= hi j <= n)%nat.
Proof. unfold lo, hi. destruct u; lia. Qed.
Lemma tri_mem i j : (i < n)%nat -> (j < n)%nat -> ((lo j <=? i) && (i <? hi j))%nat = intri u i j.
Proof. intros. unfold lo, hi, intri. destruct u; try discriminate Hu; cases. Qed.

Lemma gemmtr_nt_body (A : view) beta (fb : nat -> nat -> M T) (bv : nat -> nat -> T) (h : T -> T) k :
  disj A C -> nr A = n -> nc A = k ->
  (forall l j F s (Q : T -> state -> Prop) X, l < k -> j < n -> eff C F s0 s -> Q (bv l j) s -> wp (fb l j) Q X s)%nat ->
  wp (for_ j in 0 upto n do (
            (for_ i in (lo j) upto (hi j) do (c <- rd C i j;; wr C i j (mulc c beta)));;
            for_ l in 0 upto k do (
              b <- fb l j;;
              for_ i in (lo j) upto (hi j) do (
                c <- rd C i j;; a <- rd A i l;; wr C i j (c + a * h b)))))
    (fun _ s' => eff C (fun i j => if intri u i j then facc k (fun l => val A s0 i l * h (bv l j)) (mulc (val C s0 i j) beta) else val C s0 i j) s0 s') noX s0.
Proof.
  intros HD Hm' Hk Hb.
  set (G := fun l i j => facc l (fun l => val A s0 i l * h (bv l j)) (mulc (val C s0 i j) beta)).
  change (wp (for_ j in 0 upto n do (
            (for_ i in (lo j) upto (hi j) do (c <- rd C i j;; wr C i j (mulc c beta)));;
            for_ l in 0 upto k do (
              b <- fb l j;;
              for_ i in (lo j) upto (hi j) do (
                c <- rd C i j;; a <- rd A i l;; wr C i j (c + a * h b)))))
    (fun _ s' => eff C (fun i j => if intri u i j then G k i j else val C s0 i j) s0 s') noX s0).
  apply rk_cols; auto. intros j F s Hj He HF.
  assert (HR := tri_rng j Hj). apply wp_bind.
  updl (fun i => mulc (val C s0 i j) beta) j.
  { intros i F' s' Q' X' Hi He' HF' HQ. steps. eapply HQ; [eassumption|]. rewrite HF', HF by lia. reflexivity. }
  intros s1 He1. cbv beta in He1.
  loop (fun l s => eff C (fun i' j' => if ((j' =? j) && intri u i' j')%nat then G l i' j' else F i' j') s0 s) as l s8.
  - apply (eff_ext _ _ _ _ _ He1). intros i' j' Hi' Hj'. rewrite <- andb_assoc. destruct (Nat.eqb_spec j' j) as [->|]; cbn [andb]; auto.
    rewrite tri_mem by lia. reflexivity.
  - apply wp_bind. eapply Hb; [lia|lia|eassumption|]. updl (fun i => G (S l) i j) j.
    { intros i F' s' Q' X' Hi He' HF' HQ. steps. eapply HQ; [eassumption|]. rewrite HF'. rewrite Nat.eqb_refl. cbn [andb].
      assert (K := tri_mem i j ltac:(lia) Hj). replace ((lo j <=? i) && (i <? hi j))%nat with true in K by (symmetry; apply andb_true_iff; split; [apply Nat.leb_le|apply Nat.ltb_lt]; lia).
      rewrite <- K. unfold G. reflexivity. }
    intros s3 He3. cbv beta in He3. apply (eff_ext _ _ _ _ _ He3). intros i' j' Hi' Hj'. rewrite <- andb_assoc. destruct (Nat.eqb_spec j' j) as [->|]; cbn [andb]; auto.
    rewrite tri_mem by lia. destruct (intri u i' j); auto.
  - assumption.
Qed.

Lemma gemmtr_t_body (g : T -> T -> T) (body : nat -> nat -> M T) (v : nat -> nat -> T) :
  (forall i j F s (Q : T -> state -> Prop) X, i < n -> j < n -> eff C F s0 s -> Q (v i j) s -> wp (body i j) Q X s)%nat ->
  wp (for_ j in 0 upto n do for_ i in (lo j) upto (hi j) do (
            sum <- body i j;;
            c <- rd C i j;; wr C i j (g sum c)))
    (fun _ s' => eff C (fun i j => if intri u i j then g (v i j) (val C s0 i j) else val C s0 i j) s0 s') noX s0.
Proof.
  intros Hb. set (G := fun i j => g (v i j) (val C s0 i j)).
  change (wp (for_ j in 0 upto n do for_ i in (lo j) upto (hi j) do (
            sum <- body i j;;
            c <- rd C i j;; wr C i j (g sum c)))
    (fun _ s' => eff C (fun i j => if intri u i j then G i j else val C s0 i j) s0 s') noX s0).
  apply rk_cols; auto. intros j F s Hj He HF. assert (HR := tri_rng j Hj).
  updl (fun i => G i j) j.
  { intros i F' s' Q' X' Hi He' HF' HQ. apply wp_bind. eapply Hb; [lia|lia|eassumption|]. steps. eapply HQ; [eassumption|]. rewrite HF', HF by lia. reflexivity. }
  intros s1 He1. cbv beta in He1. apply (eff_ext _ _ _ _ _ He1). intros i' j' Hi' Hj'. rewrite <- andb_assoc. destruct (Nat.eqb_spec j' j) as [->|]; cbn [andb]; auto.
    rewrite tri_mem by lia. reflexivity.
Qed.
End Body.

Lemma gemmtr_run u ta tb alpha A B beta C s0 n k :
  uplo2 u = true -> op3 ta = true -> op3 tb = true ->
  (if is_nt ta then nr A = n /\ nc A = k else nr A = k /\ nc A = n) ->
  (if is_nt tb then nr B = k /\ nc B = n else nr B = n /\ nc B = k) ->
  nr C = n -> nc C = n -> vinj C -> disj A C -> disj B C ->
  runs (gemmtr u ta tb alpha A B beta C) s0
    (fun _ s' => eff C (fun i j => if intri u i j then gemm_val ta tb k alpha (val A s0) (val B s0) beta (val C s0 i j) i j else val C s0 i j) s0 s').
Proof.
  intros Hu Hta Htb HA HB Hm Hn HI HDA HDB. unfold gemmtr.
  assert (Em : (if is_nt ta then nr A else nc A) = n) by (destruct (is_nt ta); tauto).
  assert (En : (if is_nt tb then nc B else nr B) = n) by (destruct (is_nt tb); tauto).
  assert (Ek : (if is_nt ta then nc A else nr A) = k) by (destruct (is_nt ta); tauto).
  assert (Ek' : (if is_nt tb then nr B else nc B) = k) by (destruct (is_nt tb); tauto).
  rewrite Em, En, Ek, Ek'. unfold runs. cbv zeta.
  do 6 (apply wp_bind; apply wp_check; [first [assumption | apply Nat.eqb_eq; congruence | apply orb_true_iff; left; apply Nat.eqb_eq; congruence]|]).
  destruct ta; try discriminate Hta; destruct tb; try discriminate Htb; cbn [is_nt op_eqb] in *;
    destruct HA as [HA1 HA2], HB as [HB1 HB2]; unfold gemm_val, opm.
  - apply (gemmtr_nt_body u C s0 n Hu HI Hm Hn A beta (fun l j => rd B l j) (fun l j => val B s0 l j) (fun b => alpha * b)); auto.
    intros. steps. assumption.
  - apply (gemmtr_nt_body u C s0 n Hu HI Hm Hn A beta (fun l j => rd B j l) (fun l j => val B s0 j l) (fun b => alpha * b)); auto.
    intros. steps. assumption.
  - apply (gemmtr_nt_body u C s0 n Hu HI Hm Hn A beta (fun l j => rd B j l) (fun l j => val B s0 j l) (fun b => alpha * conj b)); auto.
    intros. steps. assumption.
  - apply (gemmtr_t_body u C s0 n Hu HI Hm Hn (fun sum c => addc (alpha * sum) beta c) _
             (fun i j => sum k (fun l => val A s0 l i * val B s0 l j))); auto; dotloop.
  - apply (gemmtr_t_body u C s0 n Hu HI Hm Hn (fun sum c => addc (alpha * sum) beta c) _
             (fun i j => sum k (fun l => val A s0 l i * val B s0 j l))); auto; dotloop.
  - apply (gemmtr_t_body u C s0 n Hu HI Hm Hn (fun sum c => addc (alpha * sum) beta c) _
             (fun i j => sum k (fun l => val A s0 l i * conj (val B s0 j l)))); auto; dotloop.
  - apply (gemmtr_t_body u C s0 n Hu HI Hm Hn (fun sum c => addc (alpha * sum) beta c) _
             (fun i j => sum k (fun l => conj (val A s0 l i) * val B s0 l j))); auto; dotloop.
  - apply (gemmtr_t_body u C s0 n Hu HI Hm Hn (fun sum c => addc (alpha * sum) beta c) _
             (fun i j => sum k (fun l => conj (val A s0 l i) * val B s0 j l))); auto; dotloop.
  - apply (gemmtr_t_body u C s0 n Hu HI Hm Hn (fun sum c => addc (alpha * conj sum) beta c) _
             (fun i j => sum k (fun l => val A s0 l i * val B s0 j l))); auto; dotloop.
Qed.
End Gemmtr.

Section Hemm2.
Context {E : Env} {FL : FieldLaws E} {CL : ConjLaws E}.
Add Field Tf : fth.

(** C(j,k) := G j k, row by row *)
Lemma row_body (C : view) s0 (body : nat -> nat -> M unit) (G : mat) m n :
  nr C = n -> nc C = m ->
  (forall j k F s (Q : unit -> state -> Prop) X, j < n -> k < m -> eff C F s0 s -> F j k = val C s0 j k ->
     (forall s' v, eff C (fupd F j k v) s0 s' -> v = G j k -> Q tt s') -> wp (body j k) Q X s)%nat ->
  wp (for_ j in 0 upto n do for_ k in 0 upto m do body j k) (fun _ s' => eff C G s0 s') noX s0.
Proof.
  intros Hm Hn Hb.
  loop (fun j s => eff C (fun i' j' => if i' <? j then G i' j' else val C s0 i' j')%nat s0 s) as j s.
  { apply (eff_ext _ _ _ _ _ (eff_refl C s0)). intros; cases. }
  2: { effext. }
  loop (fun i s => eff C (fun i' j' => if i' <? j then G i' j' else
                                       if (i' =? j) && (j' <? i) then G i' j' else val C s0 i' j')%nat s0 s) as i s1.
  { effext. }
  { eapply Hb; [lia|lia|eassumption| |]. { cases. } intros s' v He' ->. effext. }
  { effext. }
Qed.

Lemma fold_sum lo hi a0 (x : nat -> T -> M T) (f : nat -> T) s (Q : T -> state -> Prop) X :
  (lo <= hi)%nat -> a0 = sum lo f ->
  (forall i a (Q' : T -> state -> Prop), (lo <= i < hi)%nat -> Q' (a + f i) s -> wp (x i a) Q' X s) ->
  Q (sum hi f) s -> wp (foldup lo hi a0 x) Q X s.
Proof.
  intros Hd H0 H1 HQ.
  fold (fun k a s' => a = sum k f /\ s' = s) as k a s'.
  - split; auto.
  - destruct He as [-> ->]. apply H1; [lia|]. split; reflexivity.
  - destruct He as [-> ->]. exact HQ.
Qed.
Ltac trs ff := eapply (fold_sum _ _ _ _ ff);
   [lia
   |first [reflexivity | cbn [sum]; f_equal; unfold herm; rewrite Nat.eqb_refl; rewrite ?re_conj; reflexivity]
   |let i := fresh "i" in let a := fresh "a" in let Q' := fresh "Q'" in let Hi := fresh "Hi" in let HQ' := fresh "HQ'" in
    intros i a Q' Hi HQ'; steps; refine (eq_ind _ (fun z => Q' (a + z) _) HQ' _ _); unfold herm, intri, opm; cases
   |].
Ltac trb sd o A B C s0 n j k :=
  match goal with HQ : forall s' v, eff C _ s0 s' -> v = cval _ * _ + _ * mmul _ ?X ?Y _ _ -> _ |- _ =>
    apply wp_bind; trs (fun i => X j i * Y i k); steps; trs (fun i => X j i * Y i k); steps;
    eapply HQ; [eassumption|rewrite addc_cval; match goal with HF : ?F j k = val C s0 j k |- _ => rewrite HF end; unfold mmul; ring] end.

(** the triangle of A that is read; General is not handled alike on the two sides *)
Definition tri2 (sd : side_t) (o : op_t) (u : uplo_t) : uplo_t :=
  match sd, o, u with
  | _, _, Upper => Upper
  | _, _, Lower => Lower
  | Right, NoTrans, _ => Upper
  | _, _, _ => Lower
  end.

Lemma hemm2_run sd u o alpha A B beta C s0 m n : uplo3 u = true -> op3 o = true ->
  nr B = m -> nc B = n ->
  (if is_nt o then nr C = m /\ nc C = n else nr C = n /\ nc C = m) ->
  nr A = sel sd (if is_nt o then m else n) (if is_nt o then n else m) ->
  nc A = nr A ->
  vinj C -> disj A C -> disj B C ->
  runs (hemm2 sd u o alpha A B beta C) s0
    (fun _ s' => eff C (fun i j => alpha *
         match sd with
         | Left => mmul (nr A) (herm (tri2 sd o u) (val A s0)) (opm o (val B s0)) i j
         | Right => mmul (nr A) (opm o (val B s0)) (herm (tri2 sd o u) (val A s0)) i j
         end + cval beta * val C s0 i j) s0 s').
Proof.
  intros Hu Ho HB1 HB2 HC HA1 HA2 HI HDA HDB. unfold runs, hemm2. rewrite HB1, HB2. cbv zeta.
  assert (HR : forall (P : M unit), (wp P (fun _ s' => eff C (fun i j => cval beta * val C s0 i j + alpha *
         match sd with
         | Left => mmul (nr A) (herm (tri2 sd o u) (val A s0)) (opm o (val B s0)) i j
         | Right => mmul (nr A) (opm o (val B s0)) (herm (tri2 sd o u) (val A s0)) i j
         end) s0 s') noX s0) -> (wp P (fun _ s' => eff C (fun i j => alpha *
         match sd with
         | Left => mmul (nr A) (herm (tri2 sd o u) (val A s0)) (opm o (val B s0)) i j
         | Right => mmul (nr A) (opm o (val B s0)) (herm (tri2 sd o u) (val A s0)) i j
         end + cval beta * val C s0 i j) s0 s') noX s0)).
  { intros P H. eapply wp_conseq; [exact H| |auto]. intros r s' He. cbv beta in He. apply (eff_ext _ _ _ _ _ He). intros. apply (Radd_comm (F_R fth)). }
  apply HR. clear HR.
  apply wp_bind, wp_check; [exact Hu|]. apply wp_bind, wp_check; [apply Nat.eqb_eq; congruence|].
  destruct o; try discriminate Ho; cbn [is_nt op_eqb] in *; destruct HC as [HC1 HC2];
  (apply wp_bind; destruct sd; cbn [sel] in HA1; (apply wp_check; [apply Nat.eqb_eq; congruence|]));
  (apply wp_bind, wp_bind, wp_check; [apply Nat.eqb_eq; congruence|]; apply wp_check; [apply Nat.eqb_eq; congruence|]);
  rewrite HA1; rewrite HA1 in HA2.
  - destruct u; try discriminate Hu; cbn [tri2]; rewrite herm_hgen.
    + eapply hemm_l_up; auto.
    + eapply hemm_l_lo; auto.
    + eapply hemm_l_lo; auto.
  - destruct u; try discriminate Hu; cbn [tri2]; rewrite herm_hgen.
    + apply (hemm_r_gen conj re alpha beta A B C s0 m n) with (rdL := fun j k => rd A k j) (rdU := fun j k => rd A j k) (hL := fun a => a) (hU := conj); auto;
      intros j k Q X F s Hk He HQ; steps; apply HQ; unfold hgen, intri; cases.
    + apply (hemm_r_gen conj re alpha beta A B C s0 m n) with (rdL := fun j k => rd A j k) (rdU := fun j k => rd A k j) (hL := conj) (hU := fun a => a); auto;
      intros j k Q X F s Hk He HQ; steps; apply HQ; unfold hgen, intri; cases.
    + apply (hemm_r_gen conj re alpha beta A B C s0 m n) with (rdL := fun j k => rd A k j) (rdU := fun j k => rd A j k) (hL := fun a => a) (hU := conj); auto;
      intros j k Q X F s Hk He HQ; steps; apply HQ; unfold hgen, intri; cases.
  - destruct u; try discriminate Hu; cbn [tri2].
    all: apply (row_body C s0 _ _ m n); auto; intros j k F s Q X Hj Hk He HF HQ.
    all: trb Left Trans A B C s0 n j k.
  - destruct u; try discriminate Hu; cbn [tri2].
    all: apply (row_body C s0 _ _ m n); auto; intros j k F s Q X Hj Hk He HF HQ.
    all: trb Right Trans A B C s0 n j k.
  - destruct u; try discriminate Hu; cbn [tri2].
    all: apply (row_body C s0 _ _ m n); auto; intros j k F s Q X Hj Hk He HF HQ.
    all: trb Left Trans A B C s0 n j k.
  - destruct u; try discriminate Hu; cbn [tri2].
    all: apply (row_body C s0 _ _ m n); auto; intros j k F s Q X Hj Hk He HF HQ.
    all: trb Right Trans A B C s0 n j k.
Qed.
End Hemm2.
