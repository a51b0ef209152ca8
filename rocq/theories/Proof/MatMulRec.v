(** mult_hehe, trmm_out, trsm_tri *)
From Coq Require Import Bool Arith ZArith Lia Ring Field.
From Verif.Core Require Import Scalar Prog View Rel Slice Loops.
From Verif.Spec Require Import LinAlg.
From Verif.Model Require Import Gemm Blas1 Blas2 Blas3 MatMul.
From Verif.Proof Require Import SumLemmas Tactics SliceTac GemmProof TrsmProof ExactBlas LowOps BlockAlg MatMulProof.
Local Open Scope T_scope.

Section Rec.
Context {E : Env} {FL : FieldLaws E} {CL : ConjLaws E}.
Add Field Tf : fth.
Implicit Types (F G X Y HA HB : mat).

Lemma disj_sub2 A C a b c d r t p q : disj A C -> (b <= nr A)%nat -> (d <= nc A)%nat -> (t <= nr C)%nat -> (q <= nc C)%nat ->
  disj (subv A a b c d) (subv C r t p q).
Proof. intros H H1 H2 H3 H4 i j i' j'. cbn [nr nc subv ad]. intros. apply H; lia. Qed.
Lemma disj_subl A C a b c d : disj A C -> (b <= nr A)%nat -> (d <= nc A)%nat -> disj (subv A a b c d) C.
Proof. intros H H1 H2 i j i' j'. cbn [nr nc subv ad]. intros. apply H; lia. Qed.

(** one product accumulated into a block of C: C(r..t, p..q) := al X Y + b C(r..t, p..q), where X and Y are the
    columns, resp. rows, [a, a+k) of HA and HB *)
Lemma bstep (P : M unit) C F s0 s r t p q k k' a X Y HA HB al b F' Xc :
  vinj C -> eff C F s0 s -> (t <= nr C)%nat -> (q <= nc C)%nat ->
  wp P (fun _ s' => eff (subv C r t p q) (fun i j => al * mmul k' X Y i j + b * val (subv C r t p q) s i j) s s') noX s -> k' = k ->
  (forall i l, (r <= i < t)%nat -> (l < k)%nat -> X (i - r)%nat l = HA i (a + l)%nat) ->
  (forall l j, (p <= j < q)%nat -> (l < k)%nat -> Y l (j - p)%nat = HB (a + l)%nat j) ->
  (forall i j, (r <= i < t)%nat -> (p <= j < q)%nat -> F' i j = al * sum k (fun l => HA i (a + l)%nat * HB (a + l)%nat j) + b * F i j) ->
  (forall i j, (i < nr C)%nat -> (j < nc C)%nat -> ~ ((r <= i < t)%nat /\ (p <= j < q)%nat) -> F' i j = F i j) ->
  wp P (fun _ s' => eff C F' s0 s') Xc s.
Proof.
  intros HI He Ht Hq HP -> HX HY H1 H2. eapply wp_noX, wp_conseq; [exact HP| |auto].
  intros u s' He'. cbv beta in He'. apply (eff_ext _ _ _ _ _ (eff_sub C r t p q F _ s0 s s' HI Ht Hq He He')).
  intros i j Hi Hj. cbv beta. destruct (inbox_spec r t p q i j).
  - rewrite H1 by lia. rewrite (val_sub C F s0 s) by (auto; lia). replace (r + (i - r))%nat with i by lia. replace (p + (j - p))%nat with j by lia.
    assert (e : mmul k X Y (i - r)%nat (j - p)%nat = sum k (fun l => HA i (a + l)%nat * HB (a + l)%nat j)); [|rewrite e; reflexivity].
    apply sum_ext. intros l Hl. rewrite HX, HY by lia. reflexivity.
  - symmetry. apply H2; auto.
Qed.
Lemma gemm_e ta tb alpha A B beta C s0 m n k :
  op3 ta = true -> op3 tb = true ->
  (if is_nt ta then nr A = m /\ nc A = k else nr A = k /\ nc A = m) ->
  (if is_nt tb then nr B = k /\ nc B = n else nr B = n /\ nc B = k) ->
  nr C = m -> nc C = n -> vinj C -> disj A C -> disj B C ->
  wp (gemm ta tb alpha A B beta C) (fun _ s' => eff C (fun i j => alpha * mmul k (opm ta (val A s0)) (opm tb (val B s0)) i j + cval beta * val C s0 i j) s0 s') noX s0.
Proof.
  intros. eapply wp_conseq; [apply (gemm_run ta tb alpha A B beta C s0 m n k); auto| |auto]. intros r s' He. cbv beta in He.
  apply (eff_ext _ _ _ _ _ He). intros i j Hi Hj. apply gemm_val_exact; auto.
Qed.

Lemma hemm2_l u o alpha A B beta C s0 m n : uplo3 u = true -> op3 o = true ->
  nr B = m -> nc B = n ->
  (if is_nt o then nr C = m /\ nc C = n else nr C = n /\ nc C = m) ->
  nr A = (if is_nt o then m else n) -> nc A = nr A -> vinj C -> disj A C -> disj B C ->
  wp (hemm2 Left u o alpha A B beta C) (fun _ s' => eff C (fun i j => alpha * mmul (nr A) (herm (tri2 Left o u) (val A s0)) (opm o (val B s0)) i j + cval beta * val C s0 i j) s0 s') noX s0.
Proof. intros. apply (hemm2_run Left u o alpha A B beta C s0 m n); auto. Qed.
Lemma hemm2_r u o alpha A B beta C s0 m n : uplo3 u = true -> op3 o = true ->
  nr B = m -> nc B = n ->
  (if is_nt o then nr C = m /\ nc C = n else nr C = n /\ nc C = m) ->
  nr A = (if is_nt o then n else m) -> nc A = nr A -> vinj C -> disj A C -> disj B C ->
  wp (hemm2 Right u o alpha A B beta C) (fun _ s' => eff C (fun i j => alpha * mmul (nr A) (opm o (val B s0)) (herm (tri2 Right o u) (val A s0)) i j + cval beta * val C s0 i j) s0 s') noX s0.
Proof. intros. apply (hemm2_run Right u o alpha A B beta C s0 m n); auto. Qed.

Lemma herm_blk u A p i j : herm u A (p + i)%nat (p + j)%nat = herm u (blk p p A) i j.
Proof. unfold herm, blk, intri. destruct u; cases. Qed.

Ltac nidx := repeat match goal with |- context [(?a + (?i - ?a))%nat] => replace (a + (i - a))%nat with i by lia end; rewrite ?Nat.sub_0_r; cbn [Nat.add].
(** one block product of mult_hehe; [He] describes the current state *)
Ltac hsd dA dB vC := cbn [nr nc subv is_nt op_eqb sel]; first [reflexivity | lia | apply vC; lia | apply dA; lia | apply dB; lia | split; first [reflexivity | lia]].
Ltac fin1 HR S1 S2 := let i := fresh "i" in let j := fresh "j" in intros i j ? ?; ibx; rewrite ?HR; unfold S1, S2; cbn [Nat.add cval]; ring.
Ltac fin2 := let i := fresh "i" in let j := fresh "j" in intros i j ? ? ?; cbv beta;
  repeat match goal with |- context [inbox ?a ?b ?c ?d ?e ?f] => destruct (inbox_spec a b c d e f); try (exfalso; lia) end; reflexivity.
Ltac hst He IH vA vB dA dB vC HA HB alpha k a r t c d b F' :=
  lazymatch type of He with eff ?C ?F ?s0 ?s =>
   eapply wp_use;
   [ eapply (bstep _ C F s0 s r t c d k _ a _ _ HA HB alpha b F'); [assumption|exact He|lia|lia| | | | | | ];
     [ first [ eapply (IH _ _ _ _ _ (t - r)%nat); hsd dA dB vC
             | eapply gemm_e; hsd dA dB vC
             | eapply hemm2_l; hsd dA dB vC | eapply hemm2_r; hsd dA dB vC ]
     | cbn [nr nc subv]; lia
     | intros ? ? ? ?; unfold HA, HB, herm, opm; cbn [tri2 intri]; rewrite ?(vA F s), ?(vB F s) by (first [exact He | lia]); nidx; cases
     | intros ? ? ? ?; unfold HA, HB, herm, opm; cbn [tri2 intri]; rewrite ?(vA F s), ?(vB F s) by (first [exact He | lia]); nidx; cases
     |
     | ]
   |]
  end.
Section Hehe.
Variables (alpha : T) (u : uplo_t).
Hypothesis Hu : u = Upper \/ u = Lower.

Lemma mult_hehe_f_run : forall fuel A B beta C s0 n, nr A = n -> nc A = n -> nr B = n -> nc B = n -> nr C = n -> nc C = n ->
  vinj C -> disj A C -> disj B C -> (0 < n)%nat -> (n < fuel)%nat ->
  wp (mult_hehe_f fuel u alpha A B beta C)
    (fun _ s' => eff C (fun i j => alpha * mmul n (herm u (val A s0)) (herm u (val B s0)) i j + cval beta * val C s0 i j) s0 s') noX s0.
Proof.
  induction fuel as [|fu IH]; intros A B beta C s0 n HA1 HA2 HB1 HB2 HC1 HC2 HI HDA HDB Hn Hf; [lia|]. cbn [mult_hehe_f]. cbv zeta.
  rewrite HA1, HA2, Nat.eqb_refl. cbn [negb].
  destruct (Nat.leb_spec n 1) as [H1|H1].
  { assert (Hn1 : n = 1%nat) by lia. assert (He := eff_refl C s0). steps.
    match goal with H : eff C _ s0 ?s |- eff C _ s0 ?s => apply (eff_ext _ _ _ _ _ H) end. intros i j Hi Hj.
    replace i with 0%nat by lia. replace j with 0%nat by lia. unfold fupd, mmul, herm. rewrite Hn1. cbn [sum Nat.eqb andb]. rewrite addc_cval'. ring. }
  set (p := Nat.div2 n). assert (Hp : (0 < p /\ p < n)%nat).
  { subst p. assert (K := Nat.div2_odd n). destruct (Nat.odd n); cbn in K; lia. }
  clearbody p.
  set (HA := herm u (val A s0)). set (HB := herm u (val B s0)). set (C0 := val C s0).
  set (S1 := fun i j => sum p (fun l => HA i l * HB l j)).
  set (S2 := fun i j => sum (n - p) (fun l => HA i (p + l)%nat * HB (p + l)%nat j)).
  set (R := fun i j => alpha * mmul n HA HB i j + cval beta * C0 i j).
  assert (HR : forall i j, R i j = alpha * (S1 i j + S2 i j) + cval beta * C0 i j).
  { intros i j. unfold R, S1, S2. unfold mmul. rewrite (sum_split_at p n) by lia. reflexivity. }
  assert (vC : forall r t c d, (t <= n)%nat -> (d <= n)%nat -> vinj (subv C r t c d)) by (intros; apply vinj_subv; auto; lia).
  assert (dA : forall a b c d r t x y, (b <= n)%nat -> (d <= n)%nat -> (t <= n)%nat -> (y <= n)%nat -> disj (subv A a b c d) (subv C r t x y)) by (intros; apply disj_sub2; auto; lia).
  assert (dB : forall a b c d r t x y, (b <= n)%nat -> (d <= n)%nat -> (t <= n)%nat -> (y <= n)%nat -> disj (subv B a b c d) (subv C r t x y)) by (intros; apply disj_sub2; auto; lia).
  assert (vA : forall F s a b c d i j, eff C F s0 s -> (a + i < n)%nat -> (c + j < n)%nat -> val (subv A a b c d) s i j = val A s0 (a + i)%nat (c + j)%nat).
  { intros F s a b c d i j He Hi Hj. change (val A s (a + i)%nat (c + j)%nat = val A s0 (a + i)%nat (c + j)%nat). apply (eff_frame C F s0 s); auto; lia. }
  assert (vB : forall F s a b c d i j, eff C F s0 s -> (a + i < n)%nat -> (c + j < n)%nat -> val (subv B a b c d) s i j = val B s0 (a + i)%nat (c + j)%nat).
  { intros F s a b c d i j He Hi Hj. change (val B s (a + i)%nat (c + j)%nat = val B s0 (a + i)%nat (c + j)%nat). apply (eff_frame C F s0 s); auto; lia. }
  assert (He0 := eff_refl C s0). change (val C s0) with C0 in He0.
  destruct Hu as [-> | ->].
  - do 10 (apply wp_bind; slces).
    apply wp_bind. hst He0 IH vA vB dA dB vC HA HB alpha p 0%nat 0%nat p 0%nat p (cval beta) (fun i j => if inbox 0 p 0 p i j then alpha * S1 i j + cval beta * C0 i j else C0 i j).
    { fin1 HR S1 S2. } { fin2. }
    intros u0 s1 He1. cbv beta in He1.
    apply wp_bind. hst He1 IH vA vB dA dB vC HA HB alpha (n - p)%nat p 0%nat p 0%nat p (cval (Sc 1)) (fun i j => if inbox 0 p 0 p i j then R i j else C0 i j).
    { fin1 HR S1 S2. } { fin2. }
    intros u1 s2 He2. cbv beta in He2.
    apply wp_bind. hst He2 IH vA vB dA dB vC HA HB alpha p 0%nat 0%nat p p n (cval beta) (fun i j => if inbox 0 p 0 p i j then R i j else if inbox 0 p p n i j then alpha * S1 i j + cval beta * C0 i j else C0 i j).
    { fin1 HR S1 S2. } { fin2. }
    intros u2 s3 He3. cbv beta in He3.
    apply wp_bind. hst He3 IH vA vB dA dB vC HA HB alpha (n - p)%nat p 0%nat p p n (cval (Sc 1)) (fun i j => if inbox 0 p 0 n i j then R i j else C0 i j).
    { fin1 HR S1 S2. } { fin2. }
    intros u3 s4 He4. cbv beta in He4.
    apply wp_bind. hst He4 IH vA vB dA dB vC HA HB alpha (n - p)%nat p p n 0%nat p (cval beta) (fun i j => if inbox 0 p 0 n i j then R i j else if inbox p n 0 p i j then alpha * S2 i j + cval beta * C0 i j else C0 i j).
    { fin1 HR S1 S2. } { fin2. }
    intros u4 s5 He5. cbv beta in He5.
    apply wp_bind. hst He5 IH vA vB dA dB vC HA HB alpha p 0%nat p n 0%nat p (cval (Sc 1)) (fun i j => if inbox p n p n i j then C0 i j else R i j).
    { fin1 HR S1 S2. } { fin2. }
    intros u5 s6 He6. cbv beta in He6.
    apply wp_bind. hst He6 IH vA vB dA dB vC HA HB alpha (n - p)%nat p p n p n (cval beta) (fun i j => if inbox p n p n i j then alpha * S2 i j + cval beta * C0 i j else R i j).
    { fin1 HR S1 S2. } { fin2. }
    intros u6 s7 He7. cbv beta in He7.
    hst He7 IH vA vB dA dB vC HA HB alpha p 0%nat p n p n (cval (Sc 1)) (fun i j => R i j).
    { fin1 HR S1 S2. } { fin2. }
    intros u7 s8 He8. cbv beta in He8.
    exact He8.
  - do 10 (apply wp_bind; slces).
    apply wp_bind. hst He0 IH vA vB dA dB vC HA HB alpha p 0%nat 0%nat p 0%nat p (cval beta) (fun i j => if inbox 0 p 0 p i j then alpha * S1 i j + cval beta * C0 i j else C0 i j).
    { fin1 HR S1 S2. } { fin2. }
    intros u0 s1 He1. cbv beta in He1.
    apply wp_bind. hst He1 IH vA vB dA dB vC HA HB alpha (n - p)%nat p 0%nat p 0%nat p (cval (Sc 1)) (fun i j => if inbox 0 p 0 p i j then R i j else C0 i j).
    { fin1 HR S1 S2. } { fin2. }
    intros u1 s2 He2. cbv beta in He2.
    apply wp_bind. hst He2 IH vA vB dA dB vC HA HB alpha p 0%nat p n 0%nat p (cval beta) (fun i j => if inbox 0 p 0 p i j then R i j else if inbox p n 0 p i j then alpha * S1 i j + cval beta * C0 i j else C0 i j).
    { fin1 HR S1 S2. } { fin2. }
    intros u2 s3 He3. cbv beta in He3.
    apply wp_bind. hst He3 IH vA vB dA dB vC HA HB alpha (n - p)%nat p p n 0%nat p (cval (Sc 1)) (fun i j => if inbox 0 n 0 p i j then R i j else C0 i j).
    { fin1 HR S1 S2. } { fin2. }
    intros u3 s4 He4. cbv beta in He4.
    apply wp_bind. hst He4 IH vA vB dA dB vC HA HB alpha p 0%nat 0%nat p p n (cval beta) (fun i j => if inbox 0 n 0 p i j then R i j else if inbox 0 p p n i j then alpha * S1 i j + cval beta * C0 i j else C0 i j).
    { fin1 HR S1 S2. } { fin2. }
    intros u4 s5 He5. cbv beta in He5.
    apply wp_bind. hst He5 IH vA vB dA dB vC HA HB alpha (n - p)%nat p 0%nat p p n (cval (Sc 1)) (fun i j => if inbox p n p n i j then C0 i j else R i j).
    { fin1 HR S1 S2. } { fin2. }
    intros u5 s6 He6. cbv beta in He6.
    apply wp_bind. hst He6 IH vA vB dA dB vC HA HB alpha (n - p)%nat p p n p n (cval beta) (fun i j => if inbox p n p n i j then alpha * S2 i j + cval beta * C0 i j else R i j).
    { fin1 HR S1 S2. } { fin2. }
    intros u6 s7 He7. cbv beta in He7.
    hst He7 IH vA vB dA dB vC HA HB alpha p 0%nat p n p n (cval (Sc 1)) (fun i j => R i j).
    { fin1 HR S1 S2. } { fin2. }
    intros u7 s8 He8. cbv beta in He8.
    exact He8.
Qed.
End Hehe.

Ltac tst He IH vA vB dA dB vC HA HB alpha k a r t c d b F' ih :=
  lazymatch type of He with eff ?C ?F ?s0 ?s =>
   eapply wp_use;
   [ eapply (bstep _ C F s0 s r t c d k _ a _ _ HA HB alpha b F'); [assumption|exact He|lia|lia| | | | | | ];
     [ first [ ih; hsd dA dB vC
             | eapply gemm_e; hsd dA dB vC ]
     | cbn [nr nc subv]; lia
     | intros ? ? ? ?; unfold HA, HB, trim, opm; cbn [intri]; rewrite ?(vA F s), ?(vB F s) by (first [exact He | lia]); nidx; cases
     | intros ? ? ? ?; unfold HA, HB, trim, opm; cbn [intri]; rewrite ?(vA F s), ?(vB F s) by (first [exact He | lia]); nidx; cases
     |
     | ]
   |]
  end.

Section Trmm.
Variables (alpha : T) (u : uplo_t) (d : diag_t) (tb : op_t).
Hypotheses (Hu : u = Upper \/ u = Lower) (Ho : op3 tb = true).

Lemma trmm_out_r_run : forall fuel A B beta C s0 m n,
  (if is_nt tb then nr B = m /\ nc B = n else nr B = n /\ nc B = m) -> nr C = m -> nc C = n -> nr A = n -> nc A = n ->
  vinj C -> disj A C -> disj B C -> (0 < n)%nat -> (n < fuel)%nat ->
  wp (trmm_out_f fuel Right u NoTrans d tb alpha A B beta C)
    (fun _ s' => eff C (fun i j => alpha * mmul n (opm tb (val B s0)) (trim u d (val A s0)) i j + cval beta * val C s0 i j) s0 s') noX s0.
Proof.
  induction fuel as [|fu IH]; intros A B beta C s0 m n HBd HC1 HC2 HA1 HA2 HI HDA HDB Hn Hf; [lia|]. cbn [trmm_out_f]. cbv zeta.
  assert (Em : (if is_nt tb then nr B else nc B) = m) by (destruct (is_nt tb); tauto).
  assert (En : (if is_nt tb then nc B else nr B) = n) by (destruct (is_nt tb); tauto).
  rewrite Em, En.
  destruct (Nat.eqb_spec n 1) as [H1|H1].
  { loop (fun i s => eff C (fun i' j' => if (i' <? i)%nat then alpha * (opm tb (val B s0) i' 0%nat * trim u d (val A s0) 0%nat 0%nat) + cval beta * val C s0 i' j' else val C s0 i' j') s0 s) as i s.
    - apply (eff_ext _ _ _ _ _ (eff_refl C s0)). intros; cases.
    - destruct tb; try discriminate Ho; cbn [is_nt op_eqb opm] in *; destruct HBd as [HB1 HB2]; destruct d; cbn [nonunit] in *; steps;
      match goal with He : eff C _ s0 ?s |- eff C _ s0 ?s => apply (eff_ext _ _ _ _ _ He) end; intros i' j' Hi' Hj';
      replace j' with 0%nat by lia; cases; rewrite ?addc_cval'; unfold trim; cbn [Nat.eqb]; ring.
    - apply (eff_ext _ _ _ _ _ He). intros i j Hi Hj. replace j with 0%nat by lia. rewrite (proj2 (Nat.ltb_lt i m)) by lia. rewrite H1. unfold mmul; cbn [sum]. ring. }
  set (p := Nat.div2 n). assert (Hp : (0 < p /\ p < n)%nat).
  { subst p. assert (K := Nat.div2_odd n). destruct (Nat.odd n); cbn in K; lia. }
  clearbody p.
  set (HA := opm tb (val B s0)). set (HB := trim u d (val A s0)). set (C0 := val C s0).
  set (S1 := fun i j => sum p (fun l => HA i l * HB l j)).
  set (S2 := fun i j => sum (n - p) (fun l => HA i (p + l)%nat * HB (p + l)%nat j)).
  set (R := fun i j => alpha * mmul n HA HB i j + cval beta * C0 i j).
  assert (HR : forall i j, R i j = alpha * (S1 i j + S2 i j) + cval beta * C0 i j).
  { intros i j. unfold R, S1, S2. unfold mmul. rewrite (sum_split_at p n) by lia. reflexivity. }
  assert (vC : forall r t c d, (t <= nr C)%nat -> (d <= nc C)%nat -> vinj (subv C r t c d)) by (intros; apply vinj_subv; auto; lia).
  assert (dA : forall a b c d r t x y, (b <= nr A)%nat -> (d <= nc A)%nat -> (t <= nr C)%nat -> (y <= nc C)%nat -> disj (subv A a b c d) (subv C r t x y)) by (intros; apply disj_sub2; auto; lia).
  assert (dB : forall a b c d r t x y, (b <= nr B)%nat -> (d <= nc B)%nat -> (t <= nr C)%nat -> (y <= nc C)%nat -> disj (subv B a b c d) (subv C r t x y)) by (intros; apply disj_sub2; auto; lia).
  assert (vA : forall F s a b c d i j, eff C F s0 s -> (a + i < nr A)%nat -> (c + j < nc A)%nat -> val (subv A a b c d) s i j = val A s0 (a + i)%nat (c + j)%nat).
  { intros F s a b c d' i j He Hi Hj. change (val A s (a + i)%nat (c + j)%nat = val A s0 (a + i)%nat (c + j)%nat). apply (eff_frame C F s0 s); auto; lia. }
  assert (vB : forall F s a b c d i j, eff C F s0 s -> (a + i < nr B)%nat -> (c + j < nc B)%nat -> val (subv B a b c d) s i j = val B s0 (a + i)%nat (c + j)%nat).
  { intros F s a b c d' i j He Hi Hj. change (val B s (a + i)%nat (c + j)%nat = val B s0 (a + i)%nat (c + j)%nat). apply (eff_frame C F s0 s); auto; lia. }
  assert (He0 := eff_refl C s0). change (val C s0) with C0 in He0.
  clear Em En.
  destruct Hu as [-> | ->].
  - assert (HZ : forall i j, (j < p)%nat -> S2 i j = 0).
    { intros i j Hij. apply sum_0. intros l Hl. unfold HA, HB, trim. cbn [intri]. cases; ring. }
    assert (G : forall B0 B1, (if is_nt tb then B0 = subv B 0 m 0 p /\ B1 = subv B 0 m p n else B0 = subv B 0 p 0 m /\ B1 = subv B p n 0 m) ->
      wp (trmm_out_f fu Right Upper NoTrans d tb alpha (subv A 0 p 0 p) B0 beta (subv C 0 m 0 p);;
          gemm tb NoTrans alpha B0 (subv A 0 p p n) beta (subv C 0 m p n);;
          trmm_out_f fu Right Upper NoTrans d tb alpha (subv A p n p n) B1 (Sc one) (subv C 0 m p n)) (fun _ s' => eff C R s0 s') noX s0).
    { intros B0 B1 HB01. destruct tb; try discriminate Ho; cbn [is_nt op_eqb opm] in *; destruct HBd as [HB1 HB2], HB01 as [-> ->].
      all: apply wp_bind; tst He0 IH vA vB dA dB vC HA HB alpha p 0%nat 0%nat m 0%nat p (cval beta) (fun i j => if inbox 0 m 0 p i j then R i j else C0 i j) ltac:(eapply (IH _ _ _ _ _ (m - 0)%nat (p - 0)%nat));
       [intros i j Hi Hj; ibx; rewrite HR, HZ by lia; unfold S1; cbn [Nat.add]; ring | fin2 |].
      all: intros u1 s1 He1; cbv beta in He1.
      all: apply wp_bind; tst He1 IH vA vB dA dB vC HA HB alpha p 0%nat 0%nat m p n (cval beta) (fun i j => if inbox 0 m 0 p i j then R i j else alpha * S1 i j + cval beta * C0 i j) ltac:(fail);
       [fin1 HR S1 S2 | fin2 |].
      all: intros u2 s2 He2; cbv beta in He2.
      all: tst He2 IH vA vB dA dB vC HA HB alpha (n - p)%nat p 0%nat m p n (cval (Sc 1)) (fun i j => R i j) ltac:(eapply (IH _ _ _ _ _ (m - 0)%nat (n - p)%nat));
       [fin1 HR S1 S2 | fin2 |].
      all: intros u3 s3 He3; exact He3. }
    do 5 (apply wp_bind; slces).
    destruct tb; try discriminate Ho; cbn [is_nt op_eqb] in *; destruct HBd as [HB1 HB2]; do 2 (apply wp_bind; slces); apply G; split; reflexivity.
  - assert (HZ : forall i j, (p <= j)%nat -> S1 i j = 0).
    { intros i j Hij. apply sum_0. intros l Hl. unfold HA, HB, trim. cbn [intri]. cases; ring. }
    assert (G : forall B0 B1, (if is_nt tb then B0 = subv B 0 m 0 p /\ B1 = subv B 0 m p n else B0 = subv B 0 p 0 m /\ B1 = subv B p n 0 m) ->
      wp (trmm_out_f fu Right Lower NoTrans d tb alpha (subv A p n p n) B1 beta (subv C 0 m p n);;
          gemm tb NoTrans alpha B1 (subv A p n 0 p) beta (subv C 0 m 0 p);;
          trmm_out_f fu Right Lower NoTrans d tb alpha (subv A 0 p 0 p) B0 (Sc one) (subv C 0 m 0 p)) (fun _ s' => eff C R s0 s') noX s0).
    { intros B0 B1 HB01. destruct tb; try discriminate Ho; cbn [is_nt op_eqb opm] in *; destruct HBd as [HB1 HB2], HB01 as [-> ->].
      all: apply wp_bind; tst He0 IH vA vB dA dB vC HA HB alpha (n - p)%nat p 0%nat m p n (cval beta) (fun i j => if inbox 0 m p n i j then R i j else C0 i j) ltac:(eapply (IH _ _ _ _ _ (m - 0)%nat (n - p)%nat));
       [intros i j Hi Hj; ibx; rewrite HR, HZ by lia; unfold S2; cbn [Nat.add]; ring | fin2 |].
      all: intros u1 s1 He1; cbv beta in He1.
      all: apply wp_bind; tst He1 IH vA vB dA dB vC HA HB alpha (n - p)%nat p 0%nat m 0%nat p (cval beta) (fun i j => if inbox 0 m p n i j then R i j else alpha * S2 i j + cval beta * C0 i j) ltac:(fail);
       [fin1 HR S1 S2 | fin2 |].
      all: intros u2 s2 He2; cbv beta in He2.
      all: tst He2 IH vA vB dA dB vC HA HB alpha p 0%nat 0%nat m 0%nat p (cval (Sc 1)) (fun i j => R i j) ltac:(eapply (IH _ _ _ _ _ (m - 0)%nat (p - 0)%nat));
       [fin1 HR S1 S2 | fin2 |].
      all: intros u3 s3 He3; exact He3. }
    do 5 (apply wp_bind; slces).
    destruct tb; try discriminate Ho; cbn [is_nt op_eqb] in *; destruct HBd as [HB1 HB2]; do 2 (apply wp_bind; slces); apply G; split; reflexivity.
Qed.

Lemma trmm_out_l_run : forall fuel A B beta C s0 m n,
  (if is_nt tb then nr B = m /\ nc B = n else nr B = n /\ nc B = m) -> nr C = m -> nc C = n -> nr A = m -> nc A = m ->
  vinj C -> disj A C -> disj B C -> (0 < m)%nat -> (m < fuel)%nat ->
  wp (trmm_out_f fuel Left u NoTrans d tb alpha A B beta C)
    (fun _ s' => eff C (fun i j => alpha * mmul m (trim u d (val A s0)) (opm tb (val B s0)) i j + cval beta * val C s0 i j) s0 s') noX s0.
Proof.
  induction fuel as [|fu IH]; intros A B beta C s0 m n HBd HC1 HC2 HA1 HA2 HI HDA HDB Hn Hf; [lia|]. cbn [trmm_out_f]. cbv zeta.
  assert (Em : (if is_nt tb then nr B else nc B) = m) by (destruct (is_nt tb); tauto).
  assert (En : (if is_nt tb then nc B else nr B) = n) by (destruct (is_nt tb); tauto).
  rewrite Em, En.
  destruct (Nat.eqb_spec m 1) as [H1|H1].
  { loop (fun j s => eff C (fun i' j' => if (j' <? j)%nat then alpha * (opm tb (val B s0) 0%nat j' * trim u d (val A s0) 0%nat 0%nat) + cval beta * val C s0 i' j' else val C s0 i' j') s0 s) as i s.
    - apply (eff_ext _ _ _ _ _ (eff_refl C s0)). intros; cases.
    - destruct tb; try discriminate Ho; cbn [is_nt op_eqb opm] in *; destruct HBd as [HB1 HB2]; destruct d; cbn [nonunit] in *; steps;
      match goal with He : eff C _ s0 ?s |- eff C _ s0 ?s => apply (eff_ext _ _ _ _ _ He) end; intros i' j' Hi' Hj';
      replace i' with 0%nat by lia; cases; rewrite ?addc_cval'; unfold trim; cbn [Nat.eqb]; ring.
    - apply (eff_ext _ _ _ _ _ He). intros i j Hi Hj. replace i with 0%nat by lia. rewrite (proj2 (Nat.ltb_lt j n)) by lia. rewrite H1. unfold mmul; cbn [sum]. ring. }
  set (p := Nat.div2 m). assert (Hp : (0 < p /\ p < m)%nat).
  { subst p. assert (K := Nat.div2_odd m). destruct (Nat.odd m); cbn in K; lia. }
  clearbody p.
  set (HA := trim u d (val A s0)). set (HB := opm tb (val B s0)). set (C0 := val C s0).
  set (S1 := fun i j => sum p (fun l => HA i l * HB l j)).
  set (S2 := fun i j => sum (m - p) (fun l => HA i (p + l)%nat * HB (p + l)%nat j)).
  set (R := fun i j => alpha * mmul m HA HB i j + cval beta * C0 i j).
  assert (HR : forall i j, R i j = alpha * (S1 i j + S2 i j) + cval beta * C0 i j).
  { intros i j. unfold R, S1, S2. unfold mmul. rewrite (sum_split_at p m) by lia. reflexivity. }
  assert (vC : forall r t c d, (t <= nr C)%nat -> (d <= nc C)%nat -> vinj (subv C r t c d)) by (intros; apply vinj_subv; auto; lia).
  assert (dA : forall a b c d r t x y, (b <= nr A)%nat -> (d <= nc A)%nat -> (t <= nr C)%nat -> (y <= nc C)%nat -> disj (subv A a b c d) (subv C r t x y)) by (intros; apply disj_sub2; auto; lia).
  assert (dB : forall a b c d r t x y, (b <= nr B)%nat -> (d <= nc B)%nat -> (t <= nr C)%nat -> (y <= nc C)%nat -> disj (subv B a b c d) (subv C r t x y)) by (intros; apply disj_sub2; auto; lia).
  assert (vA : forall F s a b c d i j, eff C F s0 s -> (a + i < nr A)%nat -> (c + j < nc A)%nat -> val (subv A a b c d) s i j = val A s0 (a + i)%nat (c + j)%nat).
  { intros F s a b c d' i j He Hi Hj. change (val A s (a + i)%nat (c + j)%nat = val A s0 (a + i)%nat (c + j)%nat). apply (eff_frame C F s0 s); auto; lia. }
  assert (vB : forall F s a b c d i j, eff C F s0 s -> (a + i < nr B)%nat -> (c + j < nc B)%nat -> val (subv B a b c d) s i j = val B s0 (a + i)%nat (c + j)%nat).
  { intros F s a b c d' i j He Hi Hj. change (val B s (a + i)%nat (c + j)%nat = val B s0 (a + i)%nat (c + j)%nat). apply (eff_frame C F s0 s); auto; lia. }
  assert (He0 := eff_refl C s0). change (val C s0) with C0 in He0.
  clear Em En.
  destruct Hu as [-> | ->].
  - assert (HZ : forall i j, (p <= i)%nat -> S1 i j = 0).
    { intros i j Hij. apply sum_0. intros l Hl. unfold HA, HB, trim. cbn [intri]. cases; ring. }
    assert (G : forall B0 B1, (if is_nt tb then B0 = subv B 0 p 0 n /\ B1 = subv B p m 0 n else B0 = subv B 0 n 0 p /\ B1 = subv B 0 n p m) ->
      wp (trmm_out_f fu Left Upper NoTrans d tb alpha (subv A p m p m) B1 beta (subv C p m 0 n);;
          gemm NoTrans tb alpha (subv A 0 p p m) B1 beta (subv C 0 p 0 n);;
          trmm_out_f fu Left Upper NoTrans d tb alpha (subv A 0 p 0 p) B0 (Sc one) (subv C 0 p 0 n)) (fun _ s' => eff C R s0 s') noX s0).
    { intros B0 B1 HB01. destruct tb; try discriminate Ho; cbn [is_nt op_eqb opm] in *; destruct HBd as [HB1 HB2], HB01 as [-> ->].
      all: apply wp_bind; tst He0 IH vA vB dA dB vC HA HB alpha (m - p)%nat p p m 0%nat n (cval beta) (fun i j => if inbox p m 0 n i j then R i j else C0 i j) ltac:(eapply (IH _ _ _ _ _ (m - p)%nat (n - 0)%nat));
       [intros i j Hi Hj; ibx; rewrite HR, HZ by lia; unfold S2; cbn [Nat.add]; ring | fin2 |].
      all: intros u1 s1 He1; cbv beta in He1.
      all: apply wp_bind; tst He1 IH vA vB dA dB vC HA HB alpha (m - p)%nat p 0%nat p 0%nat n (cval beta) (fun i j => if inbox p m 0 n i j then R i j else alpha * S2 i j + cval beta * C0 i j) ltac:(fail);
       [fin1 HR S1 S2 | fin2 |].
      all: intros u2 s2 He2; cbv beta in He2.
      all: tst He2 IH vA vB dA dB vC HA HB alpha p 0%nat 0%nat p 0%nat n (cval (Sc 1)) (fun i j => R i j) ltac:(eapply (IH _ _ _ _ _ (p - 0)%nat (n - 0)%nat));
       [fin1 HR S1 S2 | fin2 |].
      all: intros u3 s3 He3; exact He3. }
    do 5 (apply wp_bind; slces).
    destruct tb; try discriminate Ho; cbn [is_nt op_eqb] in *; destruct HBd as [HB1 HB2]; do 2 (apply wp_bind; slces); apply G; split; reflexivity.
  - assert (HZ : forall i j, (i < p)%nat -> S2 i j = 0).
    { intros i j Hij. apply sum_0. intros l Hl. unfold HA, HB, trim. cbn [intri]. cases; ring. }
    assert (G : forall B0 B1, (if is_nt tb then B0 = subv B 0 p 0 n /\ B1 = subv B p m 0 n else B0 = subv B 0 n 0 p /\ B1 = subv B 0 n p m) ->
      wp (trmm_out_f fu Left Lower NoTrans d tb alpha (subv A 0 p 0 p) B0 beta (subv C 0 p 0 n);;
          gemm NoTrans tb alpha (subv A p m 0 p) B0 beta (subv C p m 0 n);;
          trmm_out_f fu Left Lower NoTrans d tb alpha (subv A p m p m) B1 (Sc one) (subv C p m 0 n)) (fun _ s' => eff C R s0 s') noX s0).
    { intros B0 B1 HB01. destruct tb; try discriminate Ho; cbn [is_nt op_eqb opm] in *; destruct HBd as [HB1 HB2], HB01 as [-> ->].
      all: apply wp_bind; tst He0 IH vA vB dA dB vC HA HB alpha p 0%nat 0%nat p 0%nat n (cval beta) (fun i j => if inbox 0 p 0 n i j then R i j else C0 i j) ltac:(eapply (IH _ _ _ _ _ (p - 0)%nat (n - 0)%nat));
       [intros i j Hi Hj; ibx; rewrite HR, HZ by lia; unfold S1; cbn [Nat.add]; ring | fin2 |].
      all: intros u1 s1 He1; cbv beta in He1.
      all: apply wp_bind; tst He1 IH vA vB dA dB vC HA HB alpha p 0%nat p m 0%nat n (cval beta) (fun i j => if inbox 0 p 0 n i j then R i j else alpha * S1 i j + cval beta * C0 i j) ltac:(fail);
       [fin1 HR S1 S2 | fin2 |].
      all: intros u2 s2 He2; cbv beta in He2.
      all: tst He2 IH vA vB dA dB vC HA HB alpha (m - p)%nat p p m 0%nat n (cval (Sc 1)) (fun i j => R i j) ltac:(eapply (IH _ _ _ _ _ (m - p)%nat (n - 0)%nat));
       [fin1 HR S1 S2 | fin2 |].
      all: intros u3 s3 He3; exact He3. }
    do 5 (apply wp_bind; slces).
    destruct tb; try discriminate Ho; cbn [is_nt op_eqb] in *; destruct HBd as [HB1 HB2]; do 2 (apply wp_bind; slces); apply G; split; reflexivity.
Qed.
End Trmm.
End Rec.
