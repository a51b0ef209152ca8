(** Mathematics of Gaussian elimination with row interchanges *)
From Coq Require Import Bool Arith ZArith Lia Ring Field.
From Verif.Core Require Import Scalar.
From Verif.Spec Require Import LinAlg LU.
From Verif.Proof Require Import SumLemmas PotrfProof LowOps BlockAlg LuMultProof.
Local Open Scope T_scope.

(** the transposition of j and p *)
Definition tau (j p i : nat) : nat := if (i =? j)%nat then p else if (i =? p)%nat then j else i.
Lemma tau_inv j p i : tau j p (tau j p i) = i.
Proof.
  unfold tau. destruct (Nat.eqb_spec i j); [subst|].
  - destruct (Nat.eqb_spec p j); [lia|]. rewrite Nat.eqb_refl. auto.
  - destruct (Nat.eqb_spec i p); [subst|].
    + rewrite Nat.eqb_refl. auto.
    + destruct (Nat.eqb_spec i j), (Nat.eqb_spec i p); lia.
Qed.
Lemma tau_lt j p i m : (j < m)%nat -> (p < m)%nat -> (i < m)%nat -> (tau j p i < m)%nat.
Proof. intros. unfold tau. destruct (Nat.eqb_spec i j), (Nat.eqb_spec i p); lia. Qed.
Lemma tau_below j p i : (i < j)%nat -> (j <= p)%nat -> tau j p i = i.
Proof. intros. unfold tau. destruct (Nat.eqb_spec i j), (Nat.eqb_spec i p); lia. Qed.
Lemma tau_above j p i : (j <= i)%nat -> (j <= p)%nat -> (j <= tau j p i)%nat.
Proof. intros. unfold tau. destruct (Nat.eqb_spec i j), (Nat.eqb_spec i p); lia. Qed.
Lemma tau_id j i : tau j j i = i.
Proof. unfold tau. destruct (Nat.eqb_spec i j); lia. Qed.
(** row i after k interchanges was row pidx k ip i *)
Fixpoint pidx (k : nat) (ip : nat -> nat) (i : nat) : nat :=
  match k with O => i | S k' => pidx k' ip (tau k' (ip k') i) end.
Lemma pidx_ext k ip ip' i : (forall j, (j < k)%nat -> ip j = ip' j) -> pidx k ip i = pidx k ip' i.
Proof. revert i. induction k as [|k IH]; intros i H; cbn [pidx]; auto. rewrite IH by auto. rewrite H by lia. auto. Qed.
Lemma pidx_lt k ip i m : (k <= m)%nat -> (forall j, (j < k)%nat -> (ip j < m)%nat) -> (i < m)%nat -> (pidx k ip i < m)%nat.
Proof.
  revert i. induction k as [|k IH]; intros i Hk Hp Hi; cbn [pidx]; auto. apply IH; auto; try lia. apply tau_lt; auto.
Qed.
Lemma pidx_onto k ip i m : (k <= m)%nat -> (forall j, (j < k)%nat -> (ip j < m)%nat) -> (i < m)%nat -> exists i', (i' < m)%nat /\ pidx k ip i' = i.
Proof.
  revert i. induction k as [|k IH]; intros i Hk Hp Hi; cbn [pidx]; [exists i; auto|].
  destruct (IH i) as (i1 & H1 & e); auto; try lia. exists (tau k (ip k) i1). split; [apply tau_lt; auto; lia|]. rewrite tau_inv. auto.
Qed.
Lemma pidx_comp k0 r ip ip1 i : (forall j, (j < r)%nat -> (j <= ip1 j)%nat) ->
  pidx (k0 + r) (fun j => if (j <? k0)%nat then ip j else (k0 + ip1 (j - k0))%nat) i =
  pidx k0 ip (if (i <? k0)%nat then i else (k0 + pidx r ip1 (i - k0))%nat).
Proof.
  revert i. induction r as [|r IH]; intros i Hp.
  - cbn [pidx]. rewrite Nat.add_0_r. replace (if (i <? k0)%nat then i else (k0 + (i - k0))%nat) with i by (destruct (Nat.ltb_spec i k0); lia).
    apply pidx_ext. intros j Hj. destruct (Nat.ltb_spec j k0); auto; lia.
  - rewrite Nat.add_succ_r. cbn [pidx]. rewrite IH by auto. f_equal.
    destruct (Nat.ltb_spec (k0 + r) k0); [lia|]. replace (k0 + r - k0)%nat with r by lia.
    unfold tau. specialize (Hp r ltac:(lia)).
    destruct (Nat.eqb_spec i (k0 + r)), (Nat.ltb_spec i k0); try lia.
    + subst. replace (k0 + r - k0)%nat with r by lia. rewrite Nat.eqb_refl. destruct (Nat.ltb_spec (k0 + ip1 r) k0); [lia|]. f_equal. f_equal. lia.
    + destruct (Nat.eqb_spec i (k0 + ip1 r)); [lia|]. destruct (Nat.ltb_spec i k0); lia.
    + destruct (Nat.eqb_spec (i - k0) r); [lia|]. destruct (Nat.eqb_spec i (k0 + ip1 r)).
      * destruct (Nat.eqb_spec (i - k0) (ip1 r)); [|lia]. destruct (Nat.ltb_spec (k0 + r) k0); [lia|]. f_equal. f_equal. lia.
      * destruct (Nat.eqb_spec (i - k0) (ip1 r)); [lia|]. destruct (Nat.ltb_spec i k0); [lia|]. auto.
Qed.

Section Math.
Context {E : Env} {FL : FieldLaws E}.
Add Field Tf : fth.
Implicit Types (F G : mat).

Lemma interchange_pidx k ip A0 i c : interchange k ip A0 i c = A0 (pidx k ip i) c.
Proof. revert i. induction k as [|k IH]; intros i; cbn [interchange pidx]; auto. unfold exchange. rewrite IH. auto. Qed.

(** [y] is a quotient of two numbers, the numerator being no larger in the sense of [mag] *)
Definition multiplier (mag : T -> T) (y : T) : Prop := exists x p, p <> 0 /\ y = x / p /\ ltb (mag p) (mag x) = false.

(** after j elimination steps *)
Definition lustep (mag : T -> T) (m n j : nat) (ip : nat -> nat) A0 F : Prop :=
  (forall l, (l < j)%nat -> (l <= ip l < m)%nat /\ F l l <> 0) /\
  (forall i c, (i < m)%nat -> (c < n)%nat ->
     interchange j ip A0 i c = mmul j (Lf F) (Uf F) i c + (if (j <=? i)%nat && (j <=? c)%nat then F i c else 0)) /\
  (forall i l, (l < j)%nat -> (l < i < m)%nat -> multiplier mag (F i l)).

Lemma lustep_0 mag m n ip A0 F : (forall i c, (i < m)%nat -> (c < n)%nat -> F i c = A0 i c) -> lustep mag m n 0 ip A0 F.
Proof.
  intros H. split; [|split]; try (intros; lia). intros i c Hi Hc. cbn [interchange]. unfold mmul; cbn [sum]. rewrite H by auto. cbn [Nat.leb andb]. ring.
Qed.
Lemma lustep_ext mag m n j ip ip' A0 A0' F G : (j <= m)%nat -> (j <= n)%nat ->
  (forall l, (l < j)%nat -> ip l = ip' l) -> (forall i c, (i < m)%nat -> (c < n)%nat -> A0 i c = A0' i c) -> (forall i c, (i < m)%nat -> (c < n)%nat -> F i c = G i c) ->
  lustep mag m n j ip A0 F -> lustep mag m n j ip' A0' G.
Proof.
  intros Hm Hn Hp HA HF (H1 & H2 & H3). split; [|split].
  - intros l Hl. rewrite <- Hp, <- HF by lia. auto.
  - intros i c Hi Hc. rewrite <- HF by auto. rewrite interchange_pidx. rewrite <- (pidx_ext j ip ip') by auto.
    rewrite <- HA by (auto; apply pidx_lt; auto; intros l Hl; apply H1; auto). rewrite <- interchange_pidx, H2 by auto. f_equal.
    apply mmul_ext2; intros l Hl; [apply Lf_ext|apply Uf_ext]; apply HF; lia.
  - intros i l Hl Hi. rewrite <- HF by lia. auto.
Qed.
(** fewer columns *)
Lemma lustep_cols mag m n n' j ip A0 F : (n' <= n)%nat -> lustep mag m n j ip A0 F -> lustep mag m n' j ip A0 F.
Proof. intros Hn (H1 & H2 & H3). split; [|split]; auto. intros. apply H2; auto; lia. Qed.

(** k0 steps on the whole matrix, then r steps on the trailing block *)
Definition lucomb (k0 r : nat) (ip1 : nat -> nat) F G : mat := fun i c =>
  if (i <? k0)%nat then F i c
  else if (c <? k0)%nat then F (k0 + pidx r ip1 (i - k0))%nat c
  else G (i - k0)%nat (c - k0)%nat.
Definition ipcomb (k0 : nat) (ip ip1 : nat -> nat) : nat -> nat := fun j => if (j <? k0)%nat then ip j else (k0 + ip1 (j - k0))%nat.
Lemma lustep_comp mag m n k0 r ip ip1 A0 F G : (k0 + r <= m)%nat -> (k0 + r <= n)%nat ->
  lustep mag m n k0 ip A0 F -> lustep mag (m - k0) (n - k0) r ip1 (blk k0 k0 F) G ->
  lustep mag m n (k0 + r) (ipcomb k0 ip ip1) A0 (lucomb k0 r ip1 F G).
Proof.
  intros Hm Hn (H1 & H2 & H3) (K1 & K2 & K3). set (H := lucomb k0 r ip1 F G).
  assert (Hp : forall j, (j < r)%nat -> (j <= ip1 j)%nat) by (intros j Hj; apply K1; auto).
  assert (Hlt : forall i, (i < m - k0)%nat -> (pidx r ip1 i < m - k0)%nat).
  { intros i Hi. apply pidx_lt; try lia. intros j Hj. apply K1; auto. }
  split; [|split].
  - intros l Hl. unfold ipcomb, H, lucomb. destruct (Nat.ltb_spec l k0).
    + apply H1; auto.
    + destruct (K1 (l - k0)%nat) as [A B]; [lia|]. split; [lia|auto].
  - intros i c Hi Hc. rewrite interchange_pidx. unfold ipcomb. rewrite pidx_comp by auto. rewrite <- interchange_pidx.
    assert (Hs : mmul (k0 + r) (Lf H) (Uf H) i c = mmul k0 (Lf H) (Uf H) i c + mmul r (fun a l => Lf H a (k0 + l)%nat) (fun l b => Uf H (k0 + l)%nat b) i c).
    { rewrite (mmul_split k0) by lia. replace (k0 + r - k0)%nat with r by lia. auto. }
    rewrite Hs. destruct (Nat.ltb_spec i k0) as [Hik|Hik].
    + rewrite H2 by auto. destruct (Nat.leb_spec k0 i); [lia|]. destruct (Nat.leb_spec (k0 + r) i); [lia|]. cbn [andb].
      rewrite (mmul_0_l r) by (intros l Hl; apply Lf_up; lia).
      rewrite (mmul_ext2 k0 (Lf H) (Lf F) (Uf H) (Uf F)); [ring| |]; intros l Hl; [apply Lf_ext|apply Uf_ext]; unfold H, lucomb; [destruct (Nat.ltb_spec i k0)|destruct (Nat.ltb_spec l k0)]; auto; lia.
    + set (i1 := (i - k0)%nat). assert (Hi1 : (i1 < m - k0)%nat) by (unfold i1; lia). specialize (Hlt i1 Hi1). set (q := pidx r ip1 i1) in *.
      rewrite H2 by (auto; lia). destruct (Nat.leb_spec k0 (k0 + q)); [|lia].
      assert (e1 : mmul k0 (Lf F) (Uf F) (k0 + q)%nat c = mmul k0 (Lf H) (Uf H) i c).
      { unfold mmul. apply sum_ext. intros l Hl. rewrite !Lf_lo by lia. f_equal.
        - unfold H, lucomb. destruct (Nat.ltb_spec i k0), (Nat.ltb_spec l k0); try lia. auto.
        - apply Uf_ext. unfold H, lucomb. destruct (Nat.ltb_spec l k0); try lia. auto. }
      rewrite e1. cbn [andb]. destruct (Nat.leb_spec k0 c) as [Hkc|Hkc].
      * set (c1 := (c - k0)%nat).
        assert (e2 : F (k0 + q)%nat c = interchange r ip1 (blk k0 k0 F) i1 c1).
        { rewrite interchange_pidx. unfold blk. f_equal. unfold c1. lia. }
        rewrite e2, K2 by (unfold c1; lia).
        assert (e3 : mmul r (fun a l => Lf H a (k0 + l)%nat) (fun l b => Uf H (k0 + l)%nat b) i c = mmul r (Lf G) (Uf G) i1 c1).
        { unfold mmul. apply sum_ext. intros l Hl. replace i with (k0 + i1)%nat by (unfold i1; lia). replace c with (k0 + c1)%nat by (unfold c1; lia).
          rewrite Lf_blk, Uf_blk. f_equal; [apply Lf_ext|apply Uf_ext]; unfold blk, H, lucomb.
          - destruct (Nat.ltb_spec (k0 + i1) k0), (Nat.ltb_spec (k0 + l) k0); try lia. f_equal; lia.
          - destruct (Nat.ltb_spec (k0 + l) k0), (Nat.ltb_spec (k0 + c1) k0); try lia. f_equal; lia. }
        rewrite e3. replace (k0 + r <=? i)%nat with (r <=? i1)%nat by (unfold i1; destruct (Nat.leb_spec r (i - k0)), (Nat.leb_spec (k0 + r) i); auto; lia).
        replace (k0 + r <=? c)%nat with (r <=? c1)%nat by (unfold c1; destruct (Nat.leb_spec r (c - k0)), (Nat.leb_spec (k0 + r) c); auto; lia).
        replace (H i c) with (G i1 c1); [ring|]. unfold H, lucomb. destruct (Nat.ltb_spec i k0), (Nat.ltb_spec c k0); try lia. auto.
      * rewrite (mmul_0_r r) by (intros l Hl; apply Uf_lo; lia). destruct (Nat.leb_spec (k0 + r) c); [lia|]. rewrite andb_false_r. ring.
  - intros i l Hl Hi. unfold H, lucomb. destruct (Nat.ltb_spec i k0); [apply H3; lia|].
    destruct (Nat.ltb_spec l k0); [|apply K3; lia]. specialize (Hlt (i - k0)%nat ltac:(lia)). apply H3; lia.
Qed.

(** one elimination step on a matrix without previous steps *)
Definition elim1 F : mat := fun i c =>
  if (i =? 0)%nat then F 0%nat c else if (c =? 0)%nat then F i 0%nat / F 0%nat 0%nat else F i c - F i 0%nat / F 0%nat 0%nat * F 0%nat c.
Lemma lustep_1 mag m n p A0 : (0 < n)%nat -> (p < m)%nat -> A0 p 0%nat <> 0 -> (forall i, (i < m)%nat -> ltb (mag (A0 p 0%nat)) (mag (A0 i 0%nat)) = false) ->
  lustep mag m n 1 (fun _ => p) A0 (elim1 (exchange 0 p A0)).
Proof.
  intros Hn Hp Hz Hmax. set (B := exchange 0 p A0).
  assert (B00 : B 0%nat 0%nat = A0 p 0%nat) by reflexivity.
  split; [|split].
  - intros l Hl. replace l with 0%nat by lia. split; [lia|]. unfold elim1; cbn [Nat.eqb]. rewrite B00. auto.
  - intros i c Hi Hc. cbn [interchange]. change (exchange 0 p A0 i c) with (B i c). unfold mmul; cbn [sum].
    rewrite (Uf_up _ 0 c) by lia. assert (e0 : elim1 B 0%nat c = B 0%nat c) by reflexivity. rewrite e0.
    destruct (Nat.eqb_spec i 0) as [->|Hi0].
    + rewrite Lf_d. cbn [Nat.leb andb]. ring.
    + rewrite Lf_lo by lia. assert (ei : elim1 B i 0%nat = B i 0%nat / B 0%nat 0%nat). { unfold elim1. destruct (Nat.eqb_spec i 0); [lia|]. auto. }
      rewrite ei. destruct (Nat.leb_spec 1 i); [|lia]. cbn [andb]. destruct (Nat.leb_spec 1 c).
      * unfold elim1. destruct (Nat.eqb_spec i 0), (Nat.eqb_spec c 0); try lia. ring.
      * replace c with 0%nat by lia. field. rewrite B00. auto.
  - intros i l Hl Hi. replace l with 0%nat by lia. exists (B i 0%nat), (B 0%nat 0%nat). split; [rewrite B00; auto|]. split.
    + unfold elim1. destruct (Nat.eqb_spec i 0); [lia|]. auto.
    + rewrite B00. apply Hmax. apply (tau_lt 0 p i m); lia.
Qed.

(** triangular solves exist and are unique *)
Lemma upper_solve j (U : mat) b : (forall l, (l < j)%nat -> U l l <> 0) -> (forall i c, (c < i)%nat -> (i < j)%nat -> U i c = 0) ->
  exists x, forall l, (l < j)%nat -> mvmul j U x l = b l.
Proof.
  revert b. induction j as [|j IH]; intros b Hd Hz; [exists (fun _ => 0); intros; lia|].
  set (y := b j / U j j).
  destruct (IH (fun l => b l - U l j * y)) as [x Hx]; auto.
  exists (fun l => if (l =? j)%nat then y else x l). intros l Hl. unfold mvmul. cbn [sum]. rewrite Nat.eqb_refl.
  destruct (Nat.eq_dec l j) as [->|].
  - rewrite sum_0. 2: { intros c Hc. rewrite Hz by lia. ring. } unfold y. field. apply Hd. lia.
  - transitivity (mvmul j U x l + U l j * y).
    + f_equal. apply sum_ext. intros c Hc. destruct (Nat.eqb_spec c j); [lia|]. auto.
    + rewrite Hx by lia. ring.
Qed.
Lemma upper_uniq j (U : mat) x : (forall l, (l < j)%nat -> U l l <> 0) -> (forall i c, (c < i)%nat -> (i < j)%nat -> U i c = 0) ->
  (forall l, (l < j)%nat -> mvmul j U x l = 0) -> forall l, (l < j)%nat -> x l = 0.
Proof.
  induction j as [|j IH]; intros Hd Hz H l Hl; [lia|].
  assert (Hj : x j = 0).
  { assert (K := H j ltac:(lia)). unfold mvmul in K. cbn [sum] in K. rewrite sum_0 in K by (intros c Hc; rewrite Hz by lia; ring).
    assert (D := Hd j ltac:(lia)). transitivity ((0 + U j j * x j) / U j j); [field; auto|]. rewrite K. field. auto. }
  destruct (Nat.eq_dec l j) as [->|]; auto. apply IH; auto; try lia.
  intros i Hi. assert (K := H i ltac:(lia)). unfold mvmul in *. cbn [sum] in K. rewrite Hj in K.
  transitivity (sum j (fun l => U i l * x l) + U i j * 0); [ring|auto].
Qed.
Lemma lower_uniq j (L : mat) y : (forall l, (l < j)%nat -> L l l = 1) -> (forall i c, (i < c)%nat -> (c < j)%nat -> L i c = 0) ->
  (forall l, (l < j)%nat -> mvmul j L y l = 0) -> forall l, (l < j)%nat -> y l = 0.
Proof.
  intros Hd Hz H l. induction l as [l IH] using lt_wf_ind. intros Hl.
  assert (K := H l Hl). unfold mvmul in K. rewrite (sum_single j l) in K; auto.
  - rewrite Hd in K by auto. transitivity (1 * y l); [ring|auto].
  - intros c Hc Hn. destruct (Nat.lt_ge_cases c l); [rewrite IH by auto; ring|rewrite Hz by lia; ring].
Qed.
Lemma mvmul_mmul m k (L U : mat) x i : mvmul m (mmul k L U) x i = mvmul k L (mvmul m U x) i.
Proof.
  unfold mvmul, mmul. transitivity (sum m (fun c => sum k (fun l => L i l * (U l c * x c)))).
  - apply sum_ext. intros c Hc. rewrite <- sum_scal_r. apply sum_ext. intros; ring.
  - rewrite sum_swap. apply sum_ext. intros l Hl. rewrite <- sum_scal_l. auto.
Qed.

(** the first j columns are independent after j successful steps *)
Lemma lustep_indep mag m n j ip A0 F : (j <= m)%nat -> (j <= n)%nat -> lustep mag m n j ip A0 F -> independent m j A0.
Proof.
  intros Hm Hn (H1 & H2 & H3) x Hx.
  assert (Hy : forall l, (l < j)%nat -> mvmul j (Uf F) x l = 0).
  { apply (lower_uniq j (Lf F)); [intros; apply Lf_d|intros; apply Lf_up; auto|]. intros l Hl. rewrite <- mvmul_mmul.
    rewrite <- (Hx (pidx j ip l)) by (apply pidx_lt; auto; [intros i Hi; apply H1; auto|lia]).
    unfold mvmul. apply sum_ext. intros c Hc. f_equal. rewrite <- interchange_pidx, H2 by lia. destruct (Nat.leb_spec j c); [lia|]. rewrite andb_false_r. ring. }
  apply (upper_uniq j (Uf F)); auto; intros; [rewrite Uf_up by lia; apply H1; auto|apply Uf_lo; auto].
Qed.
(** if moreover the next column is zero from row j on, the first j+1 columns are dependent *)
Lemma lustep_dep mag m n j ip A0 F : (j <= m)%nat -> (j < n)%nat -> lustep mag m n j ip A0 F -> (forall i, (j <= i < m)%nat -> F i j = 0) -> dependent m (S j) A0.
Proof.
  intros Hm Hn (H1 & H2 & H3) Hz.
  destruct (upper_solve j (Uf F) (fun l => - Uf F l j)) as [x Hx].
  { intros l Hl. rewrite Uf_up by lia. apply H1; auto. } { intros; apply Uf_lo; auto. }
  exists (fun c => if (c =? j)%nat then 1 else x c). split.
  - exists j. split; [lia|]. rewrite Nat.eqb_refl. apply (F_1_neq_0 fth).
  - intros i Hi. destruct (pidx_onto j ip i m) as (i1 & Hi1 & <-); auto. { intros l Hl. apply H1; auto. }
    transitivity (mvmul (S j) (mmul j (Lf F) (Uf F)) (fun c => if (c =? j)%nat then 1 else x c) i1).
    + unfold mvmul. apply sum_ext. intros c Hc. f_equal. rewrite <- interchange_pidx, H2 by lia.
      destruct (Nat.leb_spec j i1), (Nat.leb_spec j c); cbn [andb]; try ring. replace c with j by lia. rewrite Hz by lia. ring.
    + rewrite mvmul_mmul. unfold mvmul at 1. apply sum_0. intros l Hl.
      replace (mvmul (S j) (Uf F) (fun c => if (c =? j)%nat then 1 else x c) l) with 0; [ring|].
      unfold mvmul. cbn [sum]. rewrite Nat.eqb_refl. transitivity (mvmul j (Uf F) x l + Uf F l j); [rewrite Hx by auto; ring|].
      unfold mvmul. f_equal; [|ring]. apply sum_ext. intros c Hc. destruct (Nat.eqb_spec c j); [lia|]. auto.
Qed.

(** failure at column c (1-based) *)
Definition lufail (mag : T -> T) (m n c : nat) A0 : Prop :=
  (1 <= c <= n)%nat /\ (c <= m)%nat /\ exists ip F, lustep mag m c (c - 1) ip A0 F /\ forall i, (c - 1 <= i < m)%nat -> F i (c - 1)%nat = 0.
Lemma lufail_dep mag m n c A0 : lufail mag m n c A0 -> dependent m c A0 /\ independent m (c - 1) A0.
Proof.
  intros (Hc & Hm & ip & F & Hl & Hz). split.
  - replace c with (S (c - 1)) by lia. apply (lustep_dep mag m c (c - 1) ip A0 F); auto; lia.
  - apply (lustep_indep mag m c (c - 1) ip A0 F); auto; lia.
Qed.
Lemma lufail_cols mag m n n' c A0 : (n' <= n)%nat -> lufail mag m n' c A0 -> lufail mag m n c A0.
Proof. intros Hn (Hc & Hm & K). split; [lia|]. split; auto. Qed.
Lemma lufail_comp mag m n k0 c ip A0 F : (k0 <= m)%nat -> (k0 <= n)%nat ->
  lustep mag m n k0 ip A0 F -> lufail mag (m - k0) (n - k0) c (blk k0 k0 F) -> lufail mag m n (k0 + c) A0.
Proof.
  intros Hm Hn HS (Hc & Hcm & ip1 & G & HG & Hz). split; [lia|]. split; [lia|].
  exists (ipcomb k0 ip ip1), (lucomb k0 (c - 1) ip1 F G). replace (k0 + c - 1)%nat with (k0 + (c - 1))%nat by lia. split.
  - apply lustep_comp; try lia; [apply (lustep_cols mag m n); auto; lia|]. replace (k0 + c - k0)%nat with c by lia. auto.
  - intros i Hi. unfold lucomb. destruct (Nat.ltb_spec i k0), (Nat.ltb_spec (k0 + (c - 1)) k0); try lia.
    replace (k0 + (c - 1) - k0)%nat with (c - 1)%nat by lia. apply Hz. lia.
Qed.
Lemma lufail_ext mag m n c A0 A0' : (forall i j, (i < m)%nat -> (j < n)%nat -> A0 i j = A0' i j) -> lufail mag m n c A0 -> lufail mag m n c A0'.
Proof.
  intros H (Hc & Hm & ip & F & K & Hz). split; auto. split; auto. exists ip, F. split; auto.
  apply (lustep_ext mag m c (c - 1) ip ip A0 A0' F F); auto; try lia. intros; apply H; auto; lia.
Qed.
End Math.
