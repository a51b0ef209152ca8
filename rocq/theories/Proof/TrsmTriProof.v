(** trsm_tri: triangular solve with a triangular right-hand side *)
From Coq Require Import Bool Arith ZArith Lia Ring Field.
From Verif.Core Require Import Scalar Prog View Rel Slice Loops.
From Verif.Spec Require Import LinAlg.
From Verif.Model Require Import Gemm Blas1 Blas2 Blas3 MatMul.
From Verif.Proof Require Import SumLemmas Tactics SliceTac GemmProof TrmvProof TrsmProof ExactBlas LowOps BlockAlg MatMulProof MatMulRec.
Local Open Scope T_scope.

Ltac nidx2 := repeat match goal with
  | |- context [(?a + ?i - ?a)%nat] => replace (a + i - a)%nat with i by lia end; rewrite ?Nat.sub_0_r.
Ltac nidx := repeat match goal with |- context [(?a + (?i - ?a))%nat] => replace (a + (i - a))%nat with i by lia end; rewrite ?Nat.sub_0_r; cbn [Nat.add].
Ltac fin2 := let i := fresh "i" in let j := fresh "j" in intros i j ? ? ?; cbv beta;
  repeat match goal with |- context [inbox ?a ?b ?c ?d ?e ?f] => destruct (inbox_spec a b c d e f); try (exfalso; lia) end; reflexivity.
Section Tri.
Context {E : Env} {FL : FieldLaws E} {CL : ConjLaws E}.
Add Field Tf : fth.
Implicit Types (F G X Y P Q W : mat).

Lemma disj_subr A C r t p q : disj A C -> (t <= nr C)%nat -> (q <= nc C)%nat -> disj A (subv C r t p q).
Proof. intros H H1 H2 i j i' j'. cbn [nr nc subv ad]. intros. apply H; lia. Qed.

(** the product of two triangular matrices of the same kind, block by block *)
Lemma asm u n p P Q W : u = Upper \/ u = Lower -> (p <= n)%nat ->
  (forall i j, intri u i j = false -> P i j = 0) -> (forall i j, intri u i j = false -> Q i j = 0) -> (forall i j, intri u i j = false -> W i j = 0) ->
  (forall i j, (i < p)%nat -> (j < p)%nat -> mmul p P Q i j = W i j) ->
  (forall i j, (i < n - p)%nat -> (j < n - p)%nat -> mmul (n - p) (blk p p P) (blk p p Q) i j = W (p + i)%nat (p + j)%nat) ->
  match u with
  | Upper => forall i j, (i < p)%nat -> (j < n - p)%nat -> mmul p P (blk 0 p Q) i j + mmul (n - p) (blk 0 p P) (blk p p Q) i j = W i (p + j)%nat
  | _ => forall i j, (i < n - p)%nat -> (j < p)%nat -> mmul p (blk p 0 P) Q i j + mmul (n - p) (blk p p P) (blk p 0 Q) i j = W (p + i)%nat j
  end ->
  forall i j, (i < n)%nat -> (j < n)%nat -> mmul n P Q i j = W i j.
Proof.
  intros Hu Hp HP HQ HW E00 E11 Eo i j Hi Hj.
  assert (N : forall a b, intri u a b = false \/ intri u a b = true) by (intros a b; destruct (intri u a b); auto).
  rewrite (mmul_split p n) by auto.
  destruct (Nat.lt_ge_cases i p) as [Hip|Hip], (Nat.lt_ge_cases j p) as [Hjp|Hjp].
  - rewrite E00 by auto. destruct Hu as [-> | ->].
    + rewrite mmul_0_r by (intros l Hl; apply HQ; unfold intri; apply Nat.leb_gt; lia). ring.
    + rewrite mmul_0_l by (intros l Hl; apply HP; unfold intri; apply Nat.leb_gt; lia). ring.
  - destruct Hu as [-> | ->].
    + specialize (Eo i (j - p)%nat ltac:(lia) ltac:(lia)). replace (p + (j - p))%nat with j in Eo by lia. rewrite <- Eo.
      unfold mmul, blk. f_equal; apply sum_ext; intros l Hl; cbn [Nat.add]; do 2 f_equal; lia.
    + rewrite HW by (unfold intri; apply Nat.leb_gt; lia). 
      rewrite mmul_0_r by (intros l Hl; apply HQ; unfold intri; apply Nat.leb_gt; lia). rewrite mmul_0_l by (intros l Hl; apply HP; unfold intri; apply Nat.leb_gt; lia). ring.
  - destruct Hu as [-> | ->].
    + rewrite HW by (unfold intri; apply Nat.leb_gt; lia). 
      rewrite (mmul_0_r (n - p)) by (intros l Hl; apply HQ; unfold intri; apply Nat.leb_gt; lia). rewrite mmul_0_l by (intros l Hl; apply HP; unfold intri; apply Nat.leb_gt; lia). ring.
    + specialize (Eo (i - p)%nat j ltac:(lia) ltac:(lia)). replace (p + (i - p))%nat with i in Eo by lia. rewrite <- Eo.
      unfold mmul, blk. f_equal; apply sum_ext; intros l Hl; cbn [Nat.add]; replace (p + (i - p))%nat with i by lia; reflexivity.
  - specialize (E11 (i - p)%nat (j - p)%nat ltac:(lia) ltac:(lia)). replace (p + (i - p))%nat with i in E11 by lia. replace (p + (j - p))%nat with j in E11 by lia. rewrite <- E11.
    assert (Z : mmul p P Q i j = 0).
    { destruct Hu as [-> | ->]; [apply mmul_0_l; intros l Hl; apply HP|apply mmul_0_r; intros l Hl; apply HQ]; unfold intri; apply Nat.leb_gt; lia. }
    rewrite Z. match goal with |- 0 + ?x = ?y => assert (e : x = y); [|rewrite e; ring] end.
    unfold mmul, blk. apply sum_ext. intros l Hl. replace (p + (i - p))%nat with i by lia. replace (p + (j - p))%nat with j by lia. reflexivity.
Qed.

(** the stored triangle of A when op(A) has the shape [u] *)
Definition uplA (o : op_t) (u : uplo_t) : uplo_t := if is_nt o then u else match u with Upper => Lower | _ => Upper end.

Section Run.
Variables (sd : side_t) (u : uplo_t) (o : op_t) (d : diag_t).
Hypotheses (Hu : u = Upper \/ u = Lower) (Ho : op3 o = true).

Definition tri_post (sd : side_t) (u : uplo_t) (alpha : T) (A B : view) (n : nat) (s0 s' : state) : Prop := exists F,
  eff B F s0 s' /\ (forall i j, (i < n)%nat -> (j < n)%nat -> intri u i j = false -> F i j = val B s0 i j) /\
  forall i j, (i < n)%nat -> (j < n)%nat ->
    match sd with
    | Left => mmul n (opm o (trim (uplA o u) d (val A s0))) (trim u NonUnit F) i j
    | Right => mmul n (trim u NonUnit F) (opm o (trim (uplA o u) d (val A s0))) i j
    end = alpha * trim u NonUnit (val B s0) i j.

Lemma trsm_tri_f_run : forall fuel A B alpha s0 n, nr A = n -> nc A = n -> nr B = n -> nc B = n -> vinj B -> disj A B ->
  (d = NonUnit -> forall j, (j < n)%nat -> val A s0 j j <> 0) -> (0 < n)%nat -> (n < fuel)%nat ->
  wp (trsm_tri_f fuel sd u o d alpha A B) (fun _ s' => tri_post sd u alpha A B n s0 s') noX s0.
Proof.
  assert (Hu' := Hu).
  induction fuel as [|fu IH]; intros A B alpha s0 n HA1 HA2 HB1 HB2 HI HD Hnz Hn Hf; [lia|]. cbn [trsm_tri_f]. cbv zeta. rewrite HA1.
  change (if is_nt o then u else match u with Upper => Lower | _ => Upper end) with (uplA o u).
  set (F0 := fun i j => if intri u i j then val B s0 i j * alpha else val B s0 i j).
  apply wp_bind. eapply wp_use with (Q := fun _ s => eff B F0 s0 s).
  { unfold F0. destruct Hu as [-> | ->]; cbn [intri].
    - loop (fun j s => eff B (fun i' j' => if ((j' <? j) && (i' <=? j'))%nat then val B s0 i' j' * alpha else val B s0 i' j') s0 s) as j s.
      { apply eff_refl. } 2: { effext. }
      loop (fun i s => eff B (fun i' j' => if (((j' <? j) && (i' <=? j')) || ((j' =? j) && (i' <? i)))%nat then val B s0 i' j' * alpha else val B s0 i' j') s0 s) as i s2.
      { effext. } { steps. effext. } { effext. }
    - loop (fun j s => eff B (fun i' j' => if ((j' <? j) && (j' <=? i'))%nat then val B s0 i' j' * alpha else val B s0 i' j') s0 s) as j s.
      { apply eff_refl. } 2: { effext. }
      loop (fun i s => eff B (fun i' j' => if (((j' <? j) && (j' <=? i')) || ((j' =? j) && (j' <=? i') && (i' <? i)))%nat then val B s0 i' j' * alpha else val B s0 i' j') s0 s) as i s2.
      { effext. } { steps. effext. } { effext. } }
  intros r1 s1 He1. cbv beta in He1.
  set (L := opm o (trim (uplA o u) d (val A s0))).
  assert (vA : forall F s a b c e i j, eff B F s0 s -> (a + i < nr A)%nat -> (c + j < nc A)%nat -> val (subv A a b c e) s i j = val A s0 (a + i)%nat (c + j)%nat).
  { intros F s a b c e i j He Hi Hj. change (val A s (a + i)%nat (c + j)%nat = val A s0 (a + i)%nat (c + j)%nat). apply (eff_frame B F s0 s); auto; lia. }
  destruct (Nat.eqb_spec n 1) as [H1|H1].
  { assert (KY : forall Y s', eff B Y s0 s' -> (opm o (trim (uplA o u) d (val A s0))) 0%nat 0%nat * Y 0%nat 0%nat = alpha * val B s0 0%nat 0%nat -> tri_post sd u alpha A B n s0 s').
    { intros Y s' HY HE. exists Y. split; [exact HY|]. split.
      { intros i j Hi Hj. replace i with 0%nat by lia. replace j with 0%nat by lia. destruct Hu as [-> | ->]; discriminate. }
      intros i j Hi Hj. replace i with 0%nat by lia. replace j with 0%nat by lia. rewrite H1. 
      assert (ET : forall X, trim u NonUnit X 0%nat 0%nat = X 0%nat 0%nat) by (intro X; destruct Hu as [-> | ->]; reflexivity).
      unfold mmul. destruct sd; cbn [sum]; rewrite !ET, <- HE; ring. }
    assert (E0 : F0 0%nat 0%nat = alpha * val B s0 0%nat 0%nat) by (unfold F0; destruct Hu as [-> | ->]; cbn; ring).
    assert (EL : forall i j, i = 0%nat -> j = 0%nat -> trim (uplA o u) d (val A s0) i j = if nonunit d then val A s0 0%nat 0%nat else 1).
    { intros i j -> ->. unfold trim, uplA, intri. destruct (is_nt o), Hu as [-> | ->], d; reflexivity. }
    destruct (nonunit d) eqn:Ed.
    - assert (Hnz0 := Hnz ltac:(destruct d; [reflexivity|discriminate]) 0%nat Hn).
      destruct o; try discriminate Ho; steps; (eapply KY; [eassumption|]); unfold opm; rewrite EL by reflexivity; cases; rewrite ?E0; field; auto using TrmvProof.conj_nz.
    - steps. eapply KY; [exact He1|]. destruct o; try discriminate Ho; unfold opm; rewrite EL by reflexivity; rewrite ?conj_1, E0; ring. }
  set (p := Nat.div2 n). assert (Hp : (0 < p /\ p < n)%nat).
  { subst p. assert (K := Nat.div2_odd n). destruct (Nat.odd n); cbn in K; lia. }
  clearbody p.
  assert (LB : forall F s a b, eff B F s0 s -> forall i l, (a + i < n)%nat -> (a + l < n)%nat -> opm o (trim (uplA o u) d (val (subv A a b a b) s)) i l = L (a + i)%nat (a + l)%nat).
  { intros F s a b He i l Hi Hl. unfold L, uplA. destruct o; try discriminate Ho; destruct Hu as [-> | ->]; cbn [is_nt op_eqb opm]; unfold trim, intri; rewrite ?(vA F s) by (first [exact He | lia]); cases. }
  assert (LZ : forall i j, intri u i j = false -> L i j = 0).
  { intros i j Hij. unfold L, uplA. destruct o; try discriminate Ho; destruct Hu as [-> | ->]; cbn [is_nt op_eqb opm]; unfold trim, intri in *; apply Nat.leb_gt in Hij; cases; rewrite ?conj_0; try reflexivity. }
  do 8 (apply wp_bind; slces).
  destruct sd; destruct Hu as [-> | ->].
  - assert (G : forall Aoff, (if is_nt o then nr Aoff = (p - 0)%nat /\ nc Aoff = (n - p)%nat else nr Aoff = (n - p)%nat /\ nc Aoff = (p - 0)%nat) -> disj Aoff B ->
      (forall F s, eff B F s0 s -> forall i l, (i < p - 0)%nat -> (l < n - p)%nat -> opm o (val Aoff s) i l = L (0 + i)%nat (p + l)%nat) ->
      wp (trsm_tri_f fu Left Upper o d one (subv A 0 p 0 p) (subv B 0 p 0 p);;
          trsm_tri_f fu Left Upper o d one (subv A p n p n) (subv B p n p n);;
          trmm_out Right Upper NoTrans NonUnit o (- one) (subv B p n p n) Aoff (Sc one) (subv B 0 p p n);;
          trsm Left (uplA o Upper) o d one (subv A 0 p 0 p) (subv B 0 p p n))
        (fun _ s' => tri_post Left Upper alpha A B n s0 s') noX s1).
    { intros Aoff Hod HoD HoV.
      apply wp_bind. eapply wp_use; [apply (IH (subv A 0 p 0 p) (subv B 0 p 0 p) one s1 p); cbn [nr nc subv]; try lia; [apply vinj_subv; auto; lia | apply disj_subr; [apply disj_subl; auto; lia|lia|lia] | intros Hd j Hj; rewrite vA with (1 := He1) by lia; apply Hnz; auto; lia]|].
      intros r2 s2 (G0 & HX & HG0 & HQ0).
      assert (He2 := eff_sub B 0 p 0 p F0 G0 s0 s1 s2 HI ltac:(lia) ltac:(lia) He1 HX). clear HX.
      set (F1 := fun i j => if inbox 0 p 0 p i j then G0 (i - 0)%nat (j - 0)%nat else F0 i j) in He2.
      apply wp_bind. eapply wp_use; [apply (IH (subv A p n p n) (subv B p n p n) one s2 (n - p)%nat); cbn [nr nc subv]; try lia; [apply vinj_subv; auto; lia | apply disj_subr; [apply disj_subl; auto; lia|lia|lia] | intros Hd j Hj; rewrite vA with (1 := He2) by lia; apply Hnz; auto; lia]|].
      intros r3 s3 (G1 & HX & HG1 & HQ1).
      assert (He3 := eff_sub B p n p n F1 G1 s0 s2 s3 HI ltac:(lia) ltac:(lia) He2 HX). clear HX.
      set (F2 := fun i j => if inbox p n p n i j then G1 (i - p)%nat (j - p)%nat else F1 i j) in He3.
      set (F3 := fun i j => if inbox 0 p p n i j then - one * sum (n - p)%nat (fun l => L i (p + l)%nat * trim Upper NonUnit F2 (p + l)%nat j) + F2 i j else F2 i j).
      apply wp_bind. eapply wp_use.
      { eapply (bstep _ B F2 s0 s3 0%nat p p n (n - p)%nat _ p _ _ L (trim Upper NonUnit F2) (- one) (cval (Sc one)) F3); [assumption|exact He3|lia|lia| | | | | | ].
        - unfold trmm_out. cbn [nr subv]. eapply (trmm_out_r_run (- one) Upper NonUnit o Hu' Ho _ _ _ _ _ _ (p - 0)%nat (n - p)%nat); cbn [nr nc subv]; auto; try lia; try (apply vinj_subv; auto; lia); [vdisj | apply disj_subr; auto; lia].
        - lia.
        - intros i l Hi Hl. rewrite (HoV F2 s3 He3) by lia. nidx. reflexivity.
        - intros l j Hj Hl. unfold trim, intri. rewrite (val_sub B F2 s0 s3) by (auto; lia). nidx. cases.
        - intros i j Hi Hj. unfold F3. ibx. cbn [cval]. ring.
        - unfold F3. fin2. }
      intros r4 s4 He4. cbv beta in He4. clear He3.
      eapply wp_use; [apply (trsm_run Left (uplA o Upper) o d one (subv A 0 p 0 p) (subv B 0 p p n) s4 (p - 0)%nat (n - p)%nat); cbn [nr nc subv sel]; auto; try lia|].
      { destruct (is_nt o) eqn:En; unfold uplA; rewrite En; reflexivity. }
      { apply vinj_subv; auto; lia. }
      { apply disj_subr; [apply disj_subl; auto; lia|lia|lia]. }
      { intros Hd j Hj. rewrite vA with (1 := He4) by lia. apply Hnz; auto; lia. }
      intros r5 s5 (Z & HX & HZ). cbv beta iota in HZ.
      assert (He5 := eff_sub B 0 p p n F3 Z s0 s4 s5 HI ltac:(lia) ltac:(lia) He4 HX). clear HX.
      set (F4 := fun i j => if inbox 0 p p n i j then Z (i - 0)%nat (j - p)%nat else F3 i j) in He5.
      exists F4. split; [exact He5|].
      assert (K00 : forall i j, (i < p)%nat -> (j < p)%nat -> F4 i j = G0 i j).
      { intros i j Hi Hj. unfold F4, F3, F2, F1. ibx. rewrite !Nat.sub_0_r. reflexivity. }
      assert (K11 : forall i j, (p <= i < n)%nat -> (p <= j < n)%nat -> F4 i j = G1 (i - p)%nat (j - p)%nat).
      { intros i j Hi Hj. unfold F4, F3, F2. ibx. reflexivity. }
      assert (Koff : forall i j, (0 <= i < p)%nat -> (p <= j < n)%nat -> F4 i j = Z (i - 0)%nat (j - p)%nat).
      { intros i j Hi Hj. unfold F4. ibx. reflexivity. }
      assert (K2 : forall i j, (p <= i < n)%nat -> (p <= j < n)%nat -> F2 i j = F4 i j).
      { intros i j Hi Hj. unfold F4, F3. ibx. reflexivity. }
      split.
      { intros i j Hi Hj Hij. unfold intri in Hij. apply Nat.leb_gt in Hij.
        destruct (Nat.lt_ge_cases i p), (Nat.lt_ge_cases j p); try lia.
        - rewrite K00, HG0 by (first [lia | unfold intri; apply Nat.leb_gt; lia]). rewrite (val_sub B F0 s0 s1) by (auto; lia). unfold F0, intri. cases.
        - unfold F4, F3, F2, F1, F0, intri. ibx. cases.
        - rewrite K11, HG1 by (first [lia | unfold intri; apply Nat.leb_gt; lia]). rewrite (val_sub B F1 s0 s2) by (auto; lia). unfold F1, F0, intri. nidx. ibx. cases. }
      assert (KE : forall i j, (i < n)%nat -> (j < n)%nat -> mmul n L (trim Upper NonUnit F4) i j = alpha * trim Upper NonUnit (val B s0) i j); [|intros i j Hi Hj; apply KE; auto].
      apply (asm Upper n p); auto; try lia.
      { intros i j Hij. unfold trim. rewrite Hij. unfold intri in Hij. apply Nat.leb_gt in Hij. cases. }
      { intros i j Hij. unfold trim. rewrite Hij. unfold intri in Hij. apply Nat.leb_gt in Hij. cases. ring. }
      { intros i j Hi Hj. specialize (HQ0 i j Hi Hj). cbv beta iota in HQ0.
        etransitivity; [etransitivity; [|exact HQ0]|].
        - apply mmul_ext2; intros l Hl; first [symmetry; apply (LB F0 s1 0%nat p He1); lia | unfold trim; rewrite K00 by lia; reflexivity].
        - unfold trim. rewrite (val_sub B F0 s0 s1) by (auto; lia). cbn [Nat.add]. unfold F0, intri. cases; ring. }
      { intros i j Hi Hj. specialize (HQ1 i j Hi Hj). cbv beta iota in HQ1.
        etransitivity; [etransitivity; [|exact HQ1]|].
        - apply mmul_ext2; intros l Hl; first [symmetry; apply (LB F1 s2 p n He2); lia | unfold blk, trim, intri; rewrite K11 by lia; rewrite !Nat.add_sub_swap, !Nat.sub_diag by lia; cases].
        - unfold trim. rewrite (val_sub B F1 s0 s2) by (auto; lia). unfold F1, F0, intri. ibx. cases; ring. }
      { intros i j Hi Hj. specialize (HZ i j ltac:(lia) ltac:(lia)). 
        rewrite (val_sub B F3 s0 s4) in HZ by (auto; lia). unfold F3 in HZ. destruct (inbox_spec 0 p p n (0 + i)%nat (p + j)%nat) as [_|Hx] in HZ; [|lia].
        assert (EZ : mmul (p - 0)%nat (blk 0 0 L) (blk 0 p (trim Upper NonUnit F4)) i j = - one * mmul (n - p)%nat (blk 0 p L) (blk p p (trim Upper NonUnit F4)) i j + F2 (0 + i)%nat (p + j)%nat).
        { etransitivity; [etransitivity; [|exact HZ]|].
          - apply mmul_ext2; intros l Hl; first [symmetry; apply (LB F3 s4 0%nat p He4); lia | unfold blk, trim, intri; rewrite Koff by lia; nidx2; cases].
          - rewrite (Rmul_1_l (F_R fth)). f_equal. f_equal. apply sum_ext. intros l Hl. unfold blk, trim. rewrite ?K2 by lia. reflexivity. }
        cbn [Nat.add] in EZ. rewrite ?Nat.sub_0_r in EZ. unfold blk in *. cbn [Nat.add] in *.
        assert (EF : F2 (0 + i)%nat (p + j)%nat = alpha * trim Upper NonUnit (val B s0) (0 + i)%nat (p + j)%nat).
        { unfold F2, F1, F0, trim, intri. ibx. cases; ring. }
        cbn [Nat.add] in EF. rewrite EF in EZ. unfold mmul in *. rewrite EZ. ring. } }
    destruct o; try discriminate Ho; cbn [is_nt op_eqb uplA] in *.
    + apply (G (subv A 0 p p n)); [split; cbn [nr nc subv]; lia|apply disj_subl; auto; lia|]. intros F s He i l Hi Hl. cbn [opm]. rewrite vA with (1 := He) by lia. unfold L, opm, trim, intri. cases.
    + apply (G (subv A p n 0 p)); [split; cbn [nr nc subv]; lia|apply disj_subl; auto; lia|]. intros F s He i l Hi Hl. cbn [opm]. rewrite vA with (1 := He) by lia. unfold L, opm, trim, intri. cases.
    + apply (G (subv A p n 0 p)); [split; cbn [nr nc subv]; lia|apply disj_subl; auto; lia|]. intros F s He i l Hi Hl. cbn [opm]. rewrite vA with (1 := He) by lia. unfold L, opm, trim, intri. cases.
  - assert (G : forall Aoff, (if is_nt o then nr Aoff = (n - p)%nat /\ nc Aoff = (p - 0)%nat else nr Aoff = (p - 0)%nat /\ nc Aoff = (n - p)%nat) -> disj Aoff B ->
      (forall F s, eff B F s0 s -> forall i l, (i < n - p)%nat -> (l < p - 0)%nat -> opm o (val Aoff s) i l = L (p + i)%nat (0 + l)%nat) ->
      wp (trsm_tri_f fu Left Lower o d one (subv A 0 p 0 p) (subv B 0 p 0 p);;
          trsm_tri_f fu Left Lower o d one (subv A p n p n) (subv B p n p n);;
          trmm_out Right Lower NoTrans NonUnit o (- one) (subv B 0 p 0 p) Aoff (Sc one) (subv B p n 0 p);;
          trsm Left (uplA o Lower) o d one (subv A p n p n) (subv B p n 0 p))
        (fun _ s' => tri_post Left Lower alpha A B n s0 s') noX s1).
    { intros Aoff Hod HoD HoV.
      apply wp_bind. eapply wp_use; [apply (IH (subv A 0 p 0 p) (subv B 0 p 0 p) one s1 p); cbn [nr nc subv]; try lia; [apply vinj_subv; auto; lia | apply disj_subr; [apply disj_subl; auto; lia|lia|lia] | intros Hd j Hj; rewrite vA with (1 := He1) by lia; apply Hnz; auto; lia]|].
      intros r2 s2 (G0 & HX & HG0 & HQ0).
      assert (He2 := eff_sub B 0 p 0 p F0 G0 s0 s1 s2 HI ltac:(lia) ltac:(lia) He1 HX). clear HX.
      set (F1 := fun i j => if inbox 0 p 0 p i j then G0 (i - 0)%nat (j - 0)%nat else F0 i j) in He2.
      apply wp_bind. eapply wp_use; [apply (IH (subv A p n p n) (subv B p n p n) one s2 (n - p)%nat); cbn [nr nc subv]; try lia; [apply vinj_subv; auto; lia | apply disj_subr; [apply disj_subl; auto; lia|lia|lia] | intros Hd j Hj; rewrite vA with (1 := He2) by lia; apply Hnz; auto; lia]|].
      intros r3 s3 (G1 & HX & HG1 & HQ1).
      assert (He3 := eff_sub B p n p n F1 G1 s0 s2 s3 HI ltac:(lia) ltac:(lia) He2 HX). clear HX.
      set (F2 := fun i j => if inbox p n p n i j then G1 (i - p)%nat (j - p)%nat else F1 i j) in He3.
      set (F3 := fun i j => if inbox p n 0 p i j then - one * sum (p - 0)%nat (fun l => L i (0 + l)%nat * trim Lower NonUnit F2 (0 + l)%nat j) + F2 i j else F2 i j).
      apply wp_bind. eapply wp_use.
      { eapply (bstep _ B F2 s0 s3 p n 0%nat p (p - 0)%nat _ 0%nat _ _ L (trim Lower NonUnit F2) (- one) (cval (Sc one)) F3); [assumption|exact He3|lia|lia| | | | | | ].
        - unfold trmm_out. cbn [nr subv]. eapply (trmm_out_r_run (- one) Lower NonUnit o Hu' Ho _ _ _ _ _ _ (n - p)%nat (p - 0)%nat); cbn [nr nc subv]; auto; try lia; try (apply vinj_subv; auto; lia); [vdisj | apply disj_subr; auto; lia].
        - lia.
        - intros i l Hi Hl. rewrite (HoV F2 s3 He3) by lia. nidx. reflexivity.
        - intros l j Hj Hl. unfold trim, intri. rewrite (val_sub B F2 s0 s3) by (auto; lia). nidx. cases.
        - intros i j Hi Hj. unfold F3. ibx. cbn [cval]. ring.
        - unfold F3. fin2. }
      intros r4 s4 He4. cbv beta in He4. clear He3.
      eapply wp_use; [apply (trsm_run Left (uplA o Lower) o d one (subv A p n p n) (subv B p n 0 p) s4 (n - p)%nat (p - 0)%nat); cbn [nr nc subv sel]; auto; try lia|].
      { destruct (is_nt o) eqn:En; unfold uplA; rewrite En; reflexivity. }
      { apply vinj_subv; auto; lia. }
      { apply disj_subr; [apply disj_subl; auto; lia|lia|lia]. }
      { intros Hd j Hj. rewrite vA with (1 := He4) by lia. apply Hnz; auto; lia. }
      intros r5 s5 (Z & HX & HZ). cbv beta iota in HZ.
      assert (He5 := eff_sub B p n 0 p F3 Z s0 s4 s5 HI ltac:(lia) ltac:(lia) He4 HX). clear HX.
      set (F4 := fun i j => if inbox p n 0 p i j then Z (i - p)%nat (j - 0)%nat else F3 i j) in He5.
      exists F4. split; [exact He5|].
      assert (K00 : forall i j, (i < p)%nat -> (j < p)%nat -> F4 i j = G0 i j).
      { intros i j Hi Hj. unfold F4, F3, F2, F1. ibx. rewrite !Nat.sub_0_r. reflexivity. }
      assert (K11 : forall i j, (p <= i < n)%nat -> (p <= j < n)%nat -> F4 i j = G1 (i - p)%nat (j - p)%nat).
      { intros i j Hi Hj. unfold F4, F3, F2. ibx. reflexivity. }
      assert (Koff : forall i j, (p <= i < n)%nat -> (0 <= j < p)%nat -> F4 i j = Z (i - p)%nat (j - 0)%nat).
      { intros i j Hi Hj. unfold F4. ibx. reflexivity. }
      assert (K2 : forall i j, (0 <= i < p)%nat -> (0 <= j < p)%nat -> F2 i j = F4 i j).
      { intros i j Hi Hj. unfold F4, F3. ibx. reflexivity. }
      split.
      { intros i j Hi Hj Hij. unfold intri in Hij. apply Nat.leb_gt in Hij.
        destruct (Nat.lt_ge_cases i p), (Nat.lt_ge_cases j p); try lia.
        - rewrite K00, HG0 by (first [lia | unfold intri; apply Nat.leb_gt; lia]). rewrite (val_sub B F0 s0 s1) by (auto; lia). unfold F0, intri. cases.
        - unfold F4, F3, F2, F1, F0, intri. ibx. cases.
        - rewrite K11, HG1 by (first [lia | unfold intri; apply Nat.leb_gt; lia]). rewrite (val_sub B F1 s0 s2) by (auto; lia). unfold F1, F0, intri. nidx. ibx. cases. }
      assert (KE : forall i j, (i < n)%nat -> (j < n)%nat -> mmul n L (trim Lower NonUnit F4) i j = alpha * trim Lower NonUnit (val B s0) i j); [|intros i j Hi Hj; apply KE; auto].
      apply (asm Lower n p); auto; try lia.
      { intros i j Hij. unfold trim. rewrite Hij. unfold intri in Hij. apply Nat.leb_gt in Hij. cases. }
      { intros i j Hij. unfold trim. rewrite Hij. unfold intri in Hij. apply Nat.leb_gt in Hij. cases. ring. }
      { intros i j Hi Hj. specialize (HQ0 i j Hi Hj). cbv beta iota in HQ0.
        etransitivity; [etransitivity; [|exact HQ0]|].
        - apply mmul_ext2; intros l Hl; first [symmetry; apply (LB F0 s1 0%nat p He1); lia | unfold trim; rewrite K00 by lia; reflexivity].
        - unfold trim. rewrite (val_sub B F0 s0 s1) by (auto; lia). cbn [Nat.add]. unfold F0, intri. cases; ring. }
      { intros i j Hi Hj. specialize (HQ1 i j Hi Hj). cbv beta iota in HQ1.
        etransitivity; [etransitivity; [|exact HQ1]|].
        - apply mmul_ext2; intros l Hl; first [symmetry; apply (LB F1 s2 p n He2); lia | unfold blk, trim, intri; rewrite K11 by lia; rewrite !Nat.add_sub_swap, !Nat.sub_diag by lia; cases].
        - unfold trim. rewrite (val_sub B F1 s0 s2) by (auto; lia). unfold F1, F0, intri. ibx. cases; ring. }
      { intros i j Hi Hj. specialize (HZ i j ltac:(lia) ltac:(lia)). 
        rewrite (val_sub B F3 s0 s4) in HZ by (auto; lia). unfold F3 in HZ. destruct (inbox_spec p n 0 p (p + i)%nat (0 + j)%nat) as [_|Hx] in HZ; [|lia].
        assert (EZ : mmul (n - p)%nat (blk p p L) (blk p 0 (trim Lower NonUnit F4)) i j = - one * mmul (p - 0)%nat (blk p 0 L) (blk 0 0 (trim Lower NonUnit F4)) i j + F2 (p + i)%nat (0 + j)%nat).
        { etransitivity; [etransitivity; [|exact HZ]|].
          - apply mmul_ext2; intros l Hl; first [symmetry; apply (LB F3 s4 p n He4); lia | unfold blk, trim, intri; rewrite Koff by lia; nidx2; cases].
          - rewrite (Rmul_1_l (F_R fth)). f_equal. f_equal. apply sum_ext. intros l Hl. unfold blk, trim. rewrite ?K2 by lia. reflexivity. }
        cbn [Nat.add] in EZ. rewrite ?Nat.sub_0_r in EZ. unfold blk in *. cbn [Nat.add] in *.
        assert (EF : F2 (p + i)%nat (0 + j)%nat = alpha * trim Lower NonUnit (val B s0) (p + i)%nat (0 + j)%nat).
        { unfold F2, F1, F0, trim, intri. ibx. cases; ring. }
        cbn [Nat.add] in EF. rewrite EF in EZ. unfold mmul in *. rewrite EZ. ring. } }
    destruct o; try discriminate Ho; cbn [is_nt op_eqb uplA] in *.
    + apply (G (subv A p n 0 p)); [split; cbn [nr nc subv]; lia|apply disj_subl; auto; lia|]. intros F s He i l Hi Hl. cbn [opm]. rewrite vA with (1 := He) by lia. unfold L, opm, trim, intri. cases.
    + apply (G (subv A 0 p p n)); [split; cbn [nr nc subv]; lia|apply disj_subl; auto; lia|]. intros F s He i l Hi Hl. cbn [opm]. rewrite vA with (1 := He) by lia. unfold L, opm, trim, intri. cases.
    + apply (G (subv A 0 p p n)); [split; cbn [nr nc subv]; lia|apply disj_subl; auto; lia|]. intros F s He i l Hi Hl. cbn [opm]. rewrite vA with (1 := He) by lia. unfold L, opm, trim, intri. cases.
  - assert (G : forall Aoff, (if is_nt o then nr Aoff = (p - 0)%nat /\ nc Aoff = (n - p)%nat else nr Aoff = (n - p)%nat /\ nc Aoff = (p - 0)%nat) -> disj Aoff B ->
      (forall F s, eff B F s0 s -> forall i l, (i < p - 0)%nat -> (l < n - p)%nat -> opm o (val Aoff s) i l = L (0 + i)%nat (p + l)%nat) ->
      wp (trsm_tri_f fu Right Upper o d one (subv A 0 p 0 p) (subv B 0 p 0 p);;
          trsm_tri_f fu Right Upper o d one (subv A p n p n) (subv B p n p n);;
          trmm_out Left Upper NoTrans NonUnit o (- one) (subv B 0 p 0 p) Aoff (Sc one) (subv B 0 p p n);;
          trsm Right (uplA o Upper) o d one (subv A p n p n) (subv B 0 p p n))
        (fun _ s' => tri_post Right Upper alpha A B n s0 s') noX s1).
    { intros Aoff Hod HoD HoV.
      apply wp_bind. eapply wp_use; [apply (IH (subv A 0 p 0 p) (subv B 0 p 0 p) one s1 p); cbn [nr nc subv]; try lia; [apply vinj_subv; auto; lia | apply disj_subr; [apply disj_subl; auto; lia|lia|lia] | intros Hd j Hj; rewrite vA with (1 := He1) by lia; apply Hnz; auto; lia]|].
      intros r2 s2 (G0 & HX & HG0 & HQ0).
      assert (He2 := eff_sub B 0 p 0 p F0 G0 s0 s1 s2 HI ltac:(lia) ltac:(lia) He1 HX). clear HX.
      set (F1 := fun i j => if inbox 0 p 0 p i j then G0 (i - 0)%nat (j - 0)%nat else F0 i j) in He2.
      apply wp_bind. eapply wp_use; [apply (IH (subv A p n p n) (subv B p n p n) one s2 (n - p)%nat); cbn [nr nc subv]; try lia; [apply vinj_subv; auto; lia | apply disj_subr; [apply disj_subl; auto; lia|lia|lia] | intros Hd j Hj; rewrite vA with (1 := He2) by lia; apply Hnz; auto; lia]|].
      intros r3 s3 (G1 & HX & HG1 & HQ1).
      assert (He3 := eff_sub B p n p n F1 G1 s0 s2 s3 HI ltac:(lia) ltac:(lia) He2 HX). clear HX.
      set (F2 := fun i j => if inbox p n p n i j then G1 (i - p)%nat (j - p)%nat else F1 i j) in He3.
      set (F3 := fun i j => if inbox 0 p p n i j then - one * sum (p - 0)%nat (fun l => trim Upper NonUnit F2 i (0 + l)%nat * L (0 + l)%nat j) + F2 i j else F2 i j).
      apply wp_bind. eapply wp_use.
      { eapply (bstep _ B F2 s0 s3 0%nat p p n (p - 0)%nat _ 0%nat _ _ (trim Upper NonUnit F2) L (- one) (cval (Sc one)) F3); [assumption|exact He3|lia|lia| | | | | | ].
        - unfold trmm_out. cbn [nr subv]. eapply (trmm_out_l_run (- one) Upper NonUnit o Hu' Ho _ _ _ _ _ _ (p - 0)%nat (n - p)%nat); cbn [nr nc subv]; auto; try lia; try (apply vinj_subv; auto; lia); [vdisj | apply disj_subr; auto; lia].
        - lia.
        - intros i l Hi Hl. unfold trim, intri. rewrite (val_sub B F2 s0 s3) by (auto; lia). nidx. cases.
        - intros l j Hj Hl. rewrite (HoV F2 s3 He3) by lia. nidx. reflexivity.
        - intros i j Hi Hj. unfold F3. ibx. cbn [cval]. ring.
        - unfold F3. fin2. }
      intros r4 s4 He4. cbv beta in He4. clear He3.
      eapply wp_use; [apply (trsm_run Right (uplA o Upper) o d one (subv A p n p n) (subv B 0 p p n) s4 (p - 0)%nat (n - p)%nat); cbn [nr nc subv sel]; auto; try lia|].
      { destruct (is_nt o) eqn:En; unfold uplA; rewrite En; reflexivity. }
      { apply vinj_subv; auto; lia. }
      { apply disj_subr; [apply disj_subl; auto; lia|lia|lia]. }
      { intros Hd j Hj. rewrite vA with (1 := He4) by lia. apply Hnz; auto; lia. }
      intros r5 s5 (Z & HX & HZ). cbv beta iota in HZ.
      assert (He5 := eff_sub B 0 p p n F3 Z s0 s4 s5 HI ltac:(lia) ltac:(lia) He4 HX). clear HX.
      set (F4 := fun i j => if inbox 0 p p n i j then Z (i - 0)%nat (j - p)%nat else F3 i j) in He5.
      exists F4. split; [exact He5|].
      assert (K00 : forall i j, (i < p)%nat -> (j < p)%nat -> F4 i j = G0 i j).
      { intros i j Hi Hj. unfold F4, F3, F2, F1. ibx. rewrite !Nat.sub_0_r. reflexivity. }
      assert (K11 : forall i j, (p <= i < n)%nat -> (p <= j < n)%nat -> F4 i j = G1 (i - p)%nat (j - p)%nat).
      { intros i j Hi Hj. unfold F4, F3, F2. ibx. reflexivity. }
      assert (Koff : forall i j, (0 <= i < p)%nat -> (p <= j < n)%nat -> F4 i j = Z (i - 0)%nat (j - p)%nat).
      { intros i j Hi Hj. unfold F4. ibx. reflexivity. }
      assert (K2 : forall i j, (0 <= i < p)%nat -> (0 <= j < p)%nat -> F2 i j = F4 i j).
      { intros i j Hi Hj. unfold F4, F3. ibx. reflexivity. }
      split.
      { intros i j Hi Hj Hij. unfold intri in Hij. apply Nat.leb_gt in Hij.
        destruct (Nat.lt_ge_cases i p), (Nat.lt_ge_cases j p); try lia.
        - rewrite K00, HG0 by (first [lia | unfold intri; apply Nat.leb_gt; lia]). rewrite (val_sub B F0 s0 s1) by (auto; lia). unfold F0, intri. cases.
        - unfold F4, F3, F2, F1, F0, intri. ibx. cases.
        - rewrite K11, HG1 by (first [lia | unfold intri; apply Nat.leb_gt; lia]). rewrite (val_sub B F1 s0 s2) by (auto; lia). unfold F1, F0, intri. nidx. ibx. cases. }
      assert (KE : forall i j, (i < n)%nat -> (j < n)%nat -> mmul n (trim Upper NonUnit F4) L i j = alpha * trim Upper NonUnit (val B s0) i j); [|intros i j Hi Hj; apply KE; auto].
      apply (asm Upper n p); auto; try lia.
      { intros i j Hij. unfold trim. rewrite Hij. unfold intri in Hij. apply Nat.leb_gt in Hij. cases. }
      { intros i j Hij. unfold trim. rewrite Hij. unfold intri in Hij. apply Nat.leb_gt in Hij. cases. ring. }
      { intros i j Hi Hj. specialize (HQ0 i j Hi Hj). cbv beta iota in HQ0.
        etransitivity; [etransitivity; [|exact HQ0]|].
        - apply mmul_ext2; intros l Hl; first [symmetry; apply (LB F0 s1 0%nat p He1); lia | unfold trim; rewrite K00 by lia; reflexivity].
        - unfold trim. rewrite (val_sub B F0 s0 s1) by (auto; lia). cbn [Nat.add]. unfold F0, intri. cases; ring. }
      { intros i j Hi Hj. specialize (HQ1 i j Hi Hj). cbv beta iota in HQ1.
        etransitivity; [etransitivity; [|exact HQ1]|].
        - apply mmul_ext2; intros l Hl; first [symmetry; apply (LB F1 s2 p n He2); lia | unfold blk, trim, intri; rewrite K11 by lia; rewrite !Nat.add_sub_swap, !Nat.sub_diag by lia; cases].
        - unfold trim. rewrite (val_sub B F1 s0 s2) by (auto; lia). unfold F1, F0, intri. ibx. cases; ring. }
      { intros i j Hi Hj. specialize (HZ i j ltac:(lia) ltac:(lia)). 
        rewrite (val_sub B F3 s0 s4) in HZ by (auto; lia). unfold F3 in HZ. destruct (inbox_spec 0 p p n (0 + i)%nat (p + j)%nat) as [_|Hx] in HZ; [|lia].
        assert (EZ : mmul (n - p)%nat (blk 0 p (trim Upper NonUnit F4)) (blk p p L) i j = - one * mmul (p - 0)%nat (blk 0 0 (trim Upper NonUnit F4)) (blk 0 p L) i j + F2 (0 + i)%nat (p + j)%nat).
        { etransitivity; [etransitivity; [|exact HZ]|].
          - apply mmul_ext2; intros l Hl; first [symmetry; apply (LB F3 s4 p n He4); lia | unfold blk, trim, intri; rewrite Koff by lia; nidx2; cases].
          - rewrite (Rmul_1_l (F_R fth)). f_equal. f_equal. apply sum_ext. intros l Hl. unfold blk, trim. rewrite ?K2 by lia. reflexivity. }
        cbn [Nat.add] in EZ. rewrite ?Nat.sub_0_r in EZ. unfold blk in *. cbn [Nat.add] in *.
        assert (EF : F2 (0 + i)%nat (p + j)%nat = alpha * trim Upper NonUnit (val B s0) (0 + i)%nat (p + j)%nat).
        { unfold F2, F1, F0, trim, intri. ibx. cases; ring. }
        cbn [Nat.add] in EF. rewrite EF in EZ. unfold mmul in *. rewrite EZ. ring. } }
    destruct o; try discriminate Ho; cbn [is_nt op_eqb uplA] in *.
    + apply (G (subv A 0 p p n)); [split; cbn [nr nc subv]; lia|apply disj_subl; auto; lia|]. intros F s He i l Hi Hl. cbn [opm]. rewrite vA with (1 := He) by lia. unfold L, opm, trim, intri. cases.
    + apply (G (subv A p n 0 p)); [split; cbn [nr nc subv]; lia|apply disj_subl; auto; lia|]. intros F s He i l Hi Hl. cbn [opm]. rewrite vA with (1 := He) by lia. unfold L, opm, trim, intri. cases.
    + apply (G (subv A p n 0 p)); [split; cbn [nr nc subv]; lia|apply disj_subl; auto; lia|]. intros F s He i l Hi Hl. cbn [opm]. rewrite vA with (1 := He) by lia. unfold L, opm, trim, intri. cases.
  - assert (G : forall Aoff, (if is_nt o then nr Aoff = (n - p)%nat /\ nc Aoff = (p - 0)%nat else nr Aoff = (p - 0)%nat /\ nc Aoff = (n - p)%nat) -> disj Aoff B ->
      (forall F s, eff B F s0 s -> forall i l, (i < n - p)%nat -> (l < p - 0)%nat -> opm o (val Aoff s) i l = L (p + i)%nat (0 + l)%nat) ->
      wp (trsm_tri_f fu Right Lower o d one (subv A 0 p 0 p) (subv B 0 p 0 p);;
          trsm_tri_f fu Right Lower o d one (subv A p n p n) (subv B p n p n);;
          trmm_out Left Lower NoTrans NonUnit o (- one) (subv B p n p n) Aoff (Sc one) (subv B p n 0 p);;
          trsm Right (uplA o Lower) o d one (subv A 0 p 0 p) (subv B p n 0 p))
        (fun _ s' => tri_post Right Lower alpha A B n s0 s') noX s1).
    { intros Aoff Hod HoD HoV.
      apply wp_bind. eapply wp_use; [apply (IH (subv A 0 p 0 p) (subv B 0 p 0 p) one s1 p); cbn [nr nc subv]; try lia; [apply vinj_subv; auto; lia | apply disj_subr; [apply disj_subl; auto; lia|lia|lia] | intros Hd j Hj; rewrite vA with (1 := He1) by lia; apply Hnz; auto; lia]|].
      intros r2 s2 (G0 & HX & HG0 & HQ0).
      assert (He2 := eff_sub B 0 p 0 p F0 G0 s0 s1 s2 HI ltac:(lia) ltac:(lia) He1 HX). clear HX.
      set (F1 := fun i j => if inbox 0 p 0 p i j then G0 (i - 0)%nat (j - 0)%nat else F0 i j) in He2.
      apply wp_bind. eapply wp_use; [apply (IH (subv A p n p n) (subv B p n p n) one s2 (n - p)%nat); cbn [nr nc subv]; try lia; [apply vinj_subv; auto; lia | apply disj_subr; [apply disj_subl; auto; lia|lia|lia] | intros Hd j Hj; rewrite vA with (1 := He2) by lia; apply Hnz; auto; lia]|].
      intros r3 s3 (G1 & HX & HG1 & HQ1).
      assert (He3 := eff_sub B p n p n F1 G1 s0 s2 s3 HI ltac:(lia) ltac:(lia) He2 HX). clear HX.
      set (F2 := fun i j => if inbox p n p n i j then G1 (i - p)%nat (j - p)%nat else F1 i j) in He3.
      set (F3 := fun i j => if inbox p n 0 p i j then - one * sum (n - p)%nat (fun l => trim Lower NonUnit F2 i (p + l)%nat * L (p + l)%nat j) + F2 i j else F2 i j).
      apply wp_bind. eapply wp_use.
      { eapply (bstep _ B F2 s0 s3 p n 0%nat p (n - p)%nat _ p _ _ (trim Lower NonUnit F2) L (- one) (cval (Sc one)) F3); [assumption|exact He3|lia|lia| | | | | | ].
        - unfold trmm_out. cbn [nr subv]. eapply (trmm_out_l_run (- one) Lower NonUnit o Hu' Ho _ _ _ _ _ _ (n - p)%nat (p - 0)%nat); cbn [nr nc subv]; auto; try lia; try (apply vinj_subv; auto; lia); [vdisj | apply disj_subr; auto; lia].
        - lia.
        - intros i l Hi Hl. unfold trim, intri. rewrite (val_sub B F2 s0 s3) by (auto; lia). nidx. cases.
        - intros l j Hj Hl. rewrite (HoV F2 s3 He3) by lia. nidx. reflexivity.
        - intros i j Hi Hj. unfold F3. ibx. cbn [cval]. ring.
        - unfold F3. fin2. }
      intros r4 s4 He4. cbv beta in He4. clear He3.
      eapply wp_use; [apply (trsm_run Right (uplA o Lower) o d one (subv A 0 p 0 p) (subv B p n 0 p) s4 (n - p)%nat (p - 0)%nat); cbn [nr nc subv sel]; auto; try lia|].
      { destruct (is_nt o) eqn:En; unfold uplA; rewrite En; reflexivity. }
      { apply vinj_subv; auto; lia. }
      { apply disj_subr; [apply disj_subl; auto; lia|lia|lia]. }
      { intros Hd j Hj. rewrite vA with (1 := He4) by lia. apply Hnz; auto; lia. }
      intros r5 s5 (Z & HX & HZ). cbv beta iota in HZ.
      assert (He5 := eff_sub B p n 0 p F3 Z s0 s4 s5 HI ltac:(lia) ltac:(lia) He4 HX). clear HX.
      set (F4 := fun i j => if inbox p n 0 p i j then Z (i - p)%nat (j - 0)%nat else F3 i j) in He5.
      exists F4. split; [exact He5|].
      assert (K00 : forall i j, (i < p)%nat -> (j < p)%nat -> F4 i j = G0 i j).
      { intros i j Hi Hj. unfold F4, F3, F2, F1. ibx. rewrite !Nat.sub_0_r. reflexivity. }
      assert (K11 : forall i j, (p <= i < n)%nat -> (p <= j < n)%nat -> F4 i j = G1 (i - p)%nat (j - p)%nat).
      { intros i j Hi Hj. unfold F4, F3, F2. ibx. reflexivity. }
      assert (Koff : forall i j, (p <= i < n)%nat -> (0 <= j < p)%nat -> F4 i j = Z (i - p)%nat (j - 0)%nat).
      { intros i j Hi Hj. unfold F4. ibx. reflexivity. }
      assert (K2 : forall i j, (p <= i < n)%nat -> (p <= j < n)%nat -> F2 i j = F4 i j).
      { intros i j Hi Hj. unfold F4, F3. ibx. reflexivity. }
      split.
      { intros i j Hi Hj Hij. unfold intri in Hij. apply Nat.leb_gt in Hij.
        destruct (Nat.lt_ge_cases i p), (Nat.lt_ge_cases j p); try lia.
        - rewrite K00, HG0 by (first [lia | unfold intri; apply Nat.leb_gt; lia]). rewrite (val_sub B F0 s0 s1) by (auto; lia). unfold F0, intri. cases.
        - unfold F4, F3, F2, F1, F0, intri. ibx. cases.
        - rewrite K11, HG1 by (first [lia | unfold intri; apply Nat.leb_gt; lia]). rewrite (val_sub B F1 s0 s2) by (auto; lia). unfold F1, F0, intri. nidx. ibx. cases. }
      assert (KE : forall i j, (i < n)%nat -> (j < n)%nat -> mmul n (trim Lower NonUnit F4) L i j = alpha * trim Lower NonUnit (val B s0) i j); [|intros i j Hi Hj; apply KE; auto].
      apply (asm Lower n p); auto; try lia.
      { intros i j Hij. unfold trim. rewrite Hij. unfold intri in Hij. apply Nat.leb_gt in Hij. cases. }
      { intros i j Hij. unfold trim. rewrite Hij. unfold intri in Hij. apply Nat.leb_gt in Hij. cases. ring. }
      { intros i j Hi Hj. specialize (HQ0 i j Hi Hj). cbv beta iota in HQ0.
        etransitivity; [etransitivity; [|exact HQ0]|].
        - apply mmul_ext2; intros l Hl; first [symmetry; apply (LB F0 s1 0%nat p He1); lia | unfold trim; rewrite K00 by lia; reflexivity].
        - unfold trim. rewrite (val_sub B F0 s0 s1) by (auto; lia). cbn [Nat.add]. unfold F0, intri. cases; ring. }
      { intros i j Hi Hj. specialize (HQ1 i j Hi Hj). cbv beta iota in HQ1.
        etransitivity; [etransitivity; [|exact HQ1]|].
        - apply mmul_ext2; intros l Hl; first [symmetry; apply (LB F1 s2 p n He2); lia | unfold blk, trim, intri; rewrite K11 by lia; rewrite !Nat.add_sub_swap, !Nat.sub_diag by lia; cases].
        - unfold trim. rewrite (val_sub B F1 s0 s2) by (auto; lia). unfold F1, F0, intri. ibx. cases; ring. }
      { intros i j Hi Hj. specialize (HZ i j ltac:(lia) ltac:(lia)). 
        rewrite (val_sub B F3 s0 s4) in HZ by (auto; lia). unfold F3 in HZ. destruct (inbox_spec p n 0 p (p + i)%nat (0 + j)%nat) as [_|Hx] in HZ; [|lia].
        assert (EZ : mmul (p - 0)%nat (blk p 0 (trim Lower NonUnit F4)) (blk 0 0 L) i j = - one * mmul (n - p)%nat (blk p p (trim Lower NonUnit F4)) (blk p 0 L) i j + F2 (p + i)%nat (0 + j)%nat).
        { etransitivity; [etransitivity; [|exact HZ]|].
          - apply mmul_ext2; intros l Hl; first [symmetry; apply (LB F3 s4 0%nat p He4); lia | unfold blk, trim, intri; rewrite Koff by lia; nidx2; cases].
          - rewrite (Rmul_1_l (F_R fth)). f_equal. f_equal. apply sum_ext. intros l Hl. unfold blk, trim. rewrite ?K2 by lia. reflexivity. }
        cbn [Nat.add] in EZ. rewrite ?Nat.sub_0_r in EZ. unfold blk in *. cbn [Nat.add] in *.
        assert (EF : F2 (p + i)%nat (0 + j)%nat = alpha * trim Lower NonUnit (val B s0) (p + i)%nat (0 + j)%nat).
        { unfold F2, F1, F0, trim, intri. ibx. cases; ring. }
        cbn [Nat.add] in EF. rewrite EF in EZ. unfold mmul in *. rewrite EZ. ring. } }
    destruct o; try discriminate Ho; cbn [is_nt op_eqb uplA] in *.
    + apply (G (subv A p n 0 p)); [split; cbn [nr nc subv]; lia|apply disj_subl; auto; lia|]. intros F s He i l Hi Hl. cbn [opm]. rewrite vA with (1 := He) by lia. unfold L, opm, trim, intri. cases.
    + apply (G (subv A 0 p p n)); [split; cbn [nr nc subv]; lia|apply disj_subl; auto; lia|]. intros F s He i l Hi Hl. cbn [opm]. rewrite vA with (1 := He) by lia. unfold L, opm, trim, intri. cases.
    + apply (G (subv A 0 p p n)); [split; cbn [nr nc subv]; lia|apply disj_subl; auto; lia|]. intros F s He i l Hi Hl. cbn [opm]. rewrite vA with (1 := He) by lia. unfold L, opm, trim, intri. cases.
Qed.
End Run.
End Tri.
