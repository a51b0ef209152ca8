From Coq Require Import Bool Arith ZArith Lia Ring Field.
From Verif.Core Require Import Scalar Prog View.
From Verif.Spec Require Import LinAlg.
From Verif.Model Require Import Gemm.
From Verif.Proof Require Import SumLemmas Tactics.
Local Open Scope T_scope.

Section Gemm.
Context {E : Env}.

(** Value computed by gemm for element (i,j), valid in any arithmetic *)
Definition gemm_val (ta tb : op_t) (k : nat) (alpha : T) (A B : mat) (beta : coef) (c : T) (i j : nat) : T :=
  match ta with
  | NoTrans => facc k (fun l => A i l * (alpha * opm tb B l j)) (mulc c beta)
  | Trans => addc (alpha * sum k (fun l => A l i * opm tb B l j)) beta c
  | _ => match tb with
         | NoTrans | Trans => addc (alpha * sum k (fun l => conj (A l i) * opm tb B l j)) beta c
         | _ => addc (alpha * conj (sum k (fun l => A l i * B j l))) beta c
         end
  end.

Lemma gemm_nt_body (A C : view) beta s0 (fb : nat -> nat -> M T) (bv : nat -> nat -> T) (h : T -> T) m n k :
  vinj C -> disj A C -> nr C = m -> nc C = n -> nr A = m -> nc A = k ->
  (forall l j F s (Q : T -> state -> Prop) X, l < k -> j < n -> eff C F s0 s -> Q (bv l j) s -> wp (fb l j) Q X s)%nat ->
  runs (for_ j in 0 upto n do (
            (for_ i in 0 upto m do (c <- rd C i j;; wr C i j (mulc c beta)));;
            for_ l in 0 upto k do (
              b <- fb l j;;
              for_ i in 0 upto m do (
                c <- rd C i j;; a <- rd A i l;; wr C i j (c + a * h b))))) s0
    (fun _ s' => eff C (fun i j => facc k (fun l => val A s0 i l * h (bv l j)) (mulc (val C s0 i j) beta)) s0 s').
Proof.
  intros HI HD Hm Hn Hm' Hk Hb.
  set (G := fun l i j => facc l (fun l => val A s0 i l * h (bv l j)) (mulc (val C s0 i j) beta)).
  unfold runs.
  loop (fun j s => eff C (fun i' j' => if j' <? j then G k i' j' else val C s0 i' j')%nat s0 s) as j s.
  { apply (eff_ext _ _ _ _ _ (eff_refl C s0)). intros; cases. }
  2: { effext. }
  steps.
  loop (fun i s => eff C (fun i' j' => if j' <? j then G k i' j' else
                                       if (j' =? j) && (i' <? i) then G 0 i' j' else val C s0 i' j')%nat s0 s) as i s1.
  { effext. }
  { steps. effext. }
  loop (fun l s => eff C (fun i' j' => if j' <? j then G k i' j' else
                                       if (j' =? j) then G l i' j' else val C s0 i' j')%nat s0 s) as l s2.
  { effext. }
  2: { effext. }
  steps. eapply Hb; [lia|lia|eassumption|].
  loop (fun i s => eff C (fun i' j' => if j' <? j then G k i' j' else
                          if (j' =? j) then if i' <? i then G (S l) i' j' else G l i' j' else val C s0 i' j')%nat s0 s) as i s3.
  { effext. }
  { steps. effext. }
  { effext. }
Qed.

Lemma gemm_t_body (C : view) (g : T -> T -> T) s0 (body : nat -> nat -> M T) (v : nat -> nat -> T) m n :
  vinj C -> nr C = m -> nc C = n ->
  (forall i j F s (Q : T -> state -> Prop) X, i < m -> j < n -> eff C F s0 s -> Q (v i j) s -> wp (body i j) Q X s)%nat ->
  runs (for_ j in 0 upto n do for_ i in 0 upto m do (
            sum <- body i j;;
            c <- rd C i j;; wr C i j (g sum c))) s0
    (fun _ s' => eff C (fun i j => g (v i j) (val C s0 i j)) s0 s').
Proof.
  intros HI Hm Hn Hb.
  set (G := fun i j => g (v i j) (val C s0 i j)). unfold runs.
  loop (fun j s => eff C (fun i' j' => if j' <? j then G i' j' else val C s0 i' j')%nat s0 s) as j s.
  { apply (eff_ext _ _ _ _ _ (eff_refl C s0)). intros; cases. }
  2: { effext. }
  loop (fun i s => eff C (fun i' j' => if j' <? j then G i' j' else
                                       if (j' =? j) && (i' <? i) then G i' j' else val C s0 i' j')%nat s0 s) as i s1.
  { effext. }
  { steps. eapply Hb; [lia|lia|eassumption|]. steps. effext. }
  { effext. }
Qed.

Lemma gemm_run ta tb alpha A B beta C s0 m n k :
  op3 ta = true -> op3 tb = true ->
  (if is_nt ta then nr A = m /\ nc A = k else nr A = k /\ nc A = m) ->
  (if is_nt tb then nr B = k /\ nc B = n else nr B = n /\ nc B = k) ->
  nr C = m -> nc C = n -> vinj C -> disj A C -> disj B C ->
  runs (gemm ta tb alpha A B beta C) s0
    (fun _ s' => eff C (fun i j => gemm_val ta tb k alpha (val A s0) (val B s0) beta (val C s0 i j) i j) s0 s').
Proof.
  intros Hta Htb HA HB Hm Hn HI HDA HDB. unfold gemm.
  assert (Em : (if is_nt ta then nr A else nc A) = m) by (destruct (is_nt ta); tauto).
  assert (En : (if is_nt tb then nc B else nr B) = n) by (destruct (is_nt tb); tauto).
  assert (Ek : (if is_nt ta then nc A else nr A) = k) by (destruct (is_nt ta); tauto).
  assert (Ek' : (if is_nt tb then nr B else nc B) = k) by (destruct (is_nt tb); tauto).
  rewrite Em, En, Ek, Ek'. unfold runs. cbv zeta.
  do 5 (apply wp_bind; apply wp_check; [solve [assumption | apply Nat.eqb_eq; congruence]|]).
  destruct ta; try discriminate Hta; destruct tb; try discriminate Htb; cbn [is_nt op_eqb] in *;
    destruct HA as [HA1 HA2], HB as [HB1 HB2]; unfold gemm_val, opm.
  - apply (gemm_nt_body A C beta s0 (fun l j => rd B l j) (fun l j => val B s0 l j) (fun b => alpha * b)); auto.
    intros. steps. assumption.
  - apply (gemm_nt_body A C beta s0 (fun l j => rd B j l) (fun l j => val B s0 j l) (fun b => alpha * b)); auto.
    intros. steps. assumption.
  - apply (gemm_nt_body A C beta s0 (fun l j => rd B j l) (fun l j => val B s0 j l) (fun b => alpha * conj b)); auto.
    intros. steps. assumption.
  - apply (gemm_t_body C (fun sum c => addc (alpha * sum) beta c) s0 _
             (fun i j => sum k (fun l => val A s0 l i * val B s0 l j))); auto; dotloop.
  - apply (gemm_t_body C (fun sum c => addc (alpha * sum) beta c) s0 _
             (fun i j => sum k (fun l => val A s0 l i * val B s0 j l))); auto; dotloop.
  - apply (gemm_t_body C (fun sum c => addc (alpha * sum) beta c) s0 _
             (fun i j => sum k (fun l => val A s0 l i * conj (val B s0 j l)))); auto; dotloop.
  - apply (gemm_t_body C (fun sum c => addc (alpha * sum) beta c) s0 _
             (fun i j => sum k (fun l => conj (val A s0 l i) * val B s0 l j))); auto; dotloop.
  - apply (gemm_t_body C (fun sum c => addc (alpha * sum) beta c) s0 _
             (fun i j => sum k (fun l => conj (val A s0 l i) * val B s0 j l))); auto; dotloop.
  - apply (gemm_t_body C (fun sum c => addc (alpha * conj sum) beta c) s0 _
             (fun i j => sum k (fun l => val A s0 l i * val B s0 j l))); auto; dotloop.
Qed.
End Gemm.
