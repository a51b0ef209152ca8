(** * Orthogonal similarity transformations of a symmetric tridiagonal matrix *)
From Coq Require Import Bool Arith ZArith Lia Reals Lra Ring Field List Permutation.
From Verif.Core Require Import Scalar RealLaws.
From Verif.Spec Require Import LinAlg Norms Householder Reduce Steqr.
From Verif.Proof Require Import SumLemmas PotrfProof BlockAlg LarfProof LarfgProof QRProof QGenProof QFactProof ReduceMath GivensProof.
Local Open Scope T_scope.

Ltac nats := repeat match goal with
  | |- context [Nat.eqb ?a ?b] => first
      [ rewrite (proj2 (Nat.eqb_eq a b)) by lia | rewrite (proj2 (Nat.eqb_neq a b)) by lia | destruct (Nat.eqb_spec a b); try lia ]
  | |- context [Nat.ltb ?a ?b] => first
      [ rewrite (proj2 (Nat.ltb_lt a b)) by lia | rewrite (proj2 (Nat.ltb_ge a b)) by lia | destruct (Nat.ltb_spec a b); try lia ] end; cbn [andb orb].

(** ** The Frobenius norm *)
Section R2.
Local Open Scope R_scope.
Lemma mink2 a b x y : 0 <= a -> 0 <= b -> 0 <= x -> 0 <= y ->
  (a + b) * (a + b) + (x + y) * (x + y) <= (sqrt (a * a + x * x) + sqrt (b * b + y * y)) * (sqrt (a * a + x * x) + sqrt (b * b + y * y)).
Proof.
  intros Ha Hb Hx Hy. set (p := sqrt (a * a + x * x)). set (q := sqrt (b * b + y * y)).
  assert (P2 : p * p = a * a + x * x) by (apply sqrt_sqrt; nra). assert (Q2 : q * q = b * b + y * y) by (apply sqrt_sqrt; nra).
  assert (P0 : 0 <= p) by apply sqrt_pos. assert (Q0 : 0 <= q) by apply sqrt_pos.
  assert (K : a * b + x * y <= p * q).
  { apply Rsqr_incr_0_var; [|nra]. unfold Rsqr. replace (p * q * (p * q)) with ((p * p) * (q * q)) by ring. rewrite P2, Q2.
    assert (S := Rle_0_sqr (a * y - b * x)). unfold Rsqr in S. nra. }
  nra.
Qed.
(** sums of squares *)
Lemma mink_sum n (f g h : nat -> R) : (forall i, 0 <= f i) -> (forall i, 0 <= g i) -> (forall i, (i < n)%nat -> 0 <= h i <= f i + g i) ->
  sqrt (rsum n (fun i => h i * h i)) <= sqrt (rsum n (fun i => f i * f i)) + sqrt (rsum n (fun i => g i * g i)).
Proof.
  intros Hf Hg. induction n as [|n IH]; intros Hh; cbn [rsum]; [rewrite sqrt_0; lra|].
  specialize (IH ltac:(intros; apply Hh; lia)). destruct (Hh n ltac:(lia)) as [H0 H1].
  assert (NN : forall k (u : nat -> R), 0 <= rsum k (fun i => u i * u i)) by (intros k u; induction k; cbn [rsum]; [lra|nra]).
  set (A := rsum n (fun i => f i * f i)) in *. set (B := rsum n (fun i => g i * g i)) in *. set (C := rsum n (fun i => h i * h i)) in *.
  assert (A0 := NN n f). assert (B0 := NN n g). assert (C0 := NN n h). fold A in A0. fold B in B0. fold C in C0.
  assert (SA := sqrt_pos A). assert (SB := sqrt_pos B). assert (SC := sqrt_pos C).
  assert (M := mink2 (sqrt A) (sqrt B) (f n) (g n) SA SB (Hf n) (Hg n)). rewrite !(sqrt_sqrt A), !(sqrt_sqrt B) in M by auto.
  apply Rsqr_incr_0_var; [|assert (U := sqrt_pos (A + f n * f n)); assert (V := sqrt_pos (B + g n * g n)); lra].
  unfold Rsqr. rewrite sqrt_sqrt by nra. assert (CC : C = sqrt C * sqrt C) by (rewrite sqrt_sqrt; auto).
  eapply Rle_trans; [|exact M]. rewrite CC. assert (Hfn := Hf n). assert (Hgn := Hg n). nra.
Qed.
Lemma rsum_ext n f g : (forall i, (i < n)%nat -> f i = g i) -> rsum n f = rsum n g.
Proof. induction n as [|n IH]; intros H; cbn [rsum]; auto. rewrite IH, H; auto. Qed.
Lemma rsum_le n f g : (forall i, (i < n)%nat -> f i <= g i) -> rsum n f <= rsum n g.
Proof. induction n as [|n IH]; intros H; cbn [rsum]; [lra|]. assert (K := H n ltac:(lia)). specialize (IH ltac:(auto)). lra. Qed.
Lemma rsum_ge2 n f i j : (i < n)%nat -> (j < n)%nat -> i <> j -> (forall k, (k < n)%nat -> 0 <= f k) -> f i + f j <= rsum n f.
Proof.
  assert (G0 : forall n, (forall k, (k < n)%nat -> 0 <= f k) -> 0 <= rsum n f).
  { induction n0 as [|m IH]; intros H; cbn [rsum]; [lra|]. assert (K := H m ltac:(lia)). specialize (IH ltac:(auto)). lra. }
  assert (G1 : forall n i, (i < n)%nat -> (forall k, (k < n)%nat -> 0 <= f k) -> f i <= rsum n f).
  { induction n0 as [|m IH]; intros q Hq H; [lia|]. cbn [rsum]. assert (K := H m ltac:(lia)). destruct (Nat.eq_dec q m) as [->|].
    - assert (G := G0 m ltac:(auto)). lra.
    - specialize (IH q ltac:(lia) ltac:(auto)). lra. }
  induction n as [|n IH]; intros Hi Hj Hn H; [lia|]. cbn [rsum]. assert (K := H n ltac:(lia)).
  destruct (Nat.eq_dec i n) as [->|Ni]; [|destruct (Nat.eq_dec j n) as [->|Nj]].
  - assert (G := G1 n j ltac:(lia) ltac:(auto)). lra.
  - assert (G := G1 n i ltac:(lia) ltac:(auto)). lra.
  - specialize (IH ltac:(lia) ltac:(lia) Hn ltac:(auto)). lra.
Qed.
End R2.

Section P.
Context {E : Env} {FL : FieldLaws E} {CL : ConjLaws E} {OL : ROrdLaws E} {QL : EqbLaws E} {XL : CplxLaws E} {RL : RLaws E} {NL : FinLaws E}.
Add Field Tf : fth.

Lemma modulus_reim a : modulus a = sqrt (toR (re a) * toR (re a) + toR (im a) * toR (im a)).
Proof.
  assert (K : (modulus a * modulus a = toR (re a) * toR (re a) + toR (im a) * toR (im a))%R).
  { rewrite modulus_sq, norm_re_im, toR_add, !toR_mul; auto using re_real, im_real; rewrite conj_mul, ?re_real, ?im_real; auto. }
  rewrite <- K. rewrite sqrt_square; auto. apply modulus_pos.
Qed.
Lemma modulus_tri a b : (modulus (a + b) <= modulus a + modulus b)%R.
Proof.
  rewrite !modulus_reim. rewrite re_add, im_add, !toR_add by auto using re_real, im_real.
  set (x := toR (re a)). set (y := toR (im a)). set (u := toR (re b)). set (v := toR (im b)).
  apply Rsqr_incr_0_var; [|assert (U := sqrt_pos (x * x + y * y)); assert (V := sqrt_pos (u * u + v * v)); lra].
  assert (M := mink2 (Rabs x) (Rabs u) (Rabs y) (Rabs v) (Rabs_pos _) (Rabs_pos _) (Rabs_pos _) (Rabs_pos _)).
  assert (Sq : forall z, (Rabs z * Rabs z = z * z)%R) by (intros z; unfold Rabs; destruct (Rcase_abs z); ring). rewrite !Sq in M.
  assert (S1 := Rle_0_sqr (x + u)). assert (S2 := Rle_0_sqr (y + v)). unfold Rsqr in *. rewrite sqrt_sqrt by lra. eapply Rle_trans; [|exact M].
  assert (J : forall s t, ((s + t) * (s + t) <= (Rabs s + Rabs t) * (Rabs s + Rabs t))%R).
  { intros s t. assert (Hs := Rle_abs s). assert (Ht := Rle_abs t). assert (Hs' := Rle_abs (- s)). assert (Ht' := Rle_abs (- t)). rewrite !Rabs_Ropp in *.
    rewrite <- (Sq (s + t)%R). assert (L := Rabs_triang s t). assert (L0 := Rabs_pos (s + t)). nra. }
  assert (J1 := J x u). assert (J2 := J y v). lra.
Qed.
Lemma modulus_opp a : modulus (- a) = modulus a.
Proof.
  apply Rsqr_inj; try apply modulus_pos. unfold Rsqr. rewrite !modulus_sq, conj_opp. f_equal. ring.
Qed.
Lemma vsq_tri n f g : (sqrt (vsq n (fun i => (f i + g i)%T)) <= sqrt (vsq n f) + sqrt (vsq n g))%R.
Proof.
  unfold vsq. apply (mink_sum n (fun i => modulus (f i)) (fun i => modulus (g i)) (fun i => modulus (f i + g i)));
  intros; try split; try apply modulus_pos. apply modulus_tri.
Qed.
Lemma fro_tri m n A B : (fro m n (fun i j => (A i j + B i j)%T) <= fro m n A + fro m n B)%R.
Proof.
  unfold fro, fro2.
  assert (K : forall C, rsum n (fun j => vsq m (fun i => C i j)) = rsum n (fun j => (sqrt (vsq m (fun i => C i j)) * sqrt (vsq m (fun i => C i j))))%R).
  { intros C. apply rsum_ext. intros j Hj. rewrite sqrt_sqrt; auto. apply vsq_nonneg. }
  rewrite (K A), (K B), (K (fun i j => A i j + B i j)).
  apply (mink_sum n (fun j => sqrt (vsq m (fun i => A i j))) (fun j => sqrt (vsq m (fun i => B i j))) (fun j => sqrt (vsq m (fun i => (A i j + B i j)%T))));
  intros; try split; try apply sqrt_pos. apply vsq_tri.
Qed.
Lemma fro_ext m n A B : (forall i j, (i < m)%nat -> (j < n)%nat -> A i j = B i j) -> fro m n A = fro m n B.
Proof. intros H. unfold fro. f_equal. apply fro2_ext; auto. Qed.
Lemma fro2_le m n A B : (forall i j, (i < m)%nat -> (j < n)%nat -> (modulus (A i j) <= modulus (B i j))%R) -> (fro2 m n A <= fro2 m n B)%R.
Proof.
  intros H. unfold fro2, vsq. apply rsum_le. intros j Hj. apply rsum_le. intros i Hi. specialize (H i j Hi Hj). assert (K := modulus_pos (A i j)). nra.
Qed.
Lemma fro_le m n A B : (forall i j, (i < m)%nat -> (j < n)%nat -> (modulus (A i j) <= modulus (B i j))%R) -> (fro m n A <= fro m n B)%R.
Proof. intros H. unfold fro. apply sqrt_le_1; auto using fro2_nonneg, fro2_le. Qed.
Lemma fro_pos m n A : (0 <= fro m n A)%R.
Proof. apply sqrt_pos. Qed.
Lemma fro_sqr m n A : (fro m n A * fro m n A = fro2 m n A)%R.
Proof. apply sqrt_sqrt, fro2_nonneg. Qed.
Lemma fro_conj n W M : unitary n W -> fro n n (mmul n (mmul n W M) (ctr W)) = fro n n M.
Proof. intros U. unfold fro. f_equal. rewrite fro2_uni_r by (apply unitary_ctr; auto). apply fro2_uni; auto. Qed.
Lemma fro2_diag2 n A i j : (i < n)%nat -> (j < n)%nat -> i <> j -> (modulus (A i i) * modulus (A i i) + modulus (A j j) * modulus (A j j) <= fro2 n n A)%R.
Proof.
  intros Hi Hj Hn. assert (K : forall k, (k < n)%nat -> (modulus (A k k) * modulus (A k k) <= vsq n (fun r => A r k))%R).
  { intros k Hk. unfold vsq. assert (G : forall m, (k < m)%nat -> (modulus (A k k) * modulus (A k k) <= rsum m (fun r => modulus (A r k) * modulus (A r k)))%R).
    { assert (NN : forall m, (0 <= rsum m (fun r => modulus (A r k) * modulus (A r k)))%R) by (induction m; cbn [rsum]; [lra|nra]).
      induction m as [|m IH]; intros Hm; [lia|]. cbn [rsum]. assert (N := NN m). assert (N2 : (0 <= modulus (A m k) * modulus (A m k))%R) by nra.
      destruct (Nat.eq_dec k m) as [->|]; [lra|]. specialize (IH ltac:(lia)). lra. } apply G; auto. }
  assert (G := rsum_ge2 n (fun k => vsq n (fun r => A r k)) i j Hi Hj Hn ltac:(intros; apply vsq_nonneg)). cbv beta in G.
  assert (K1 := K i Hi). assert (K2 := K j Hj). unfold fro2. lra.
Qed.
(** a matrix with two nonzero elements *)
Lemma fro2_pair n i (x : T) : (i + 1 < n)%nat ->
  fro2 n n (fun r q => if ((r =? i) && (q =? i + 1))%nat then x else if ((r =? i + 1) && (q =? i))%nat then x else 0) = (2 * (modulus x * modulus x))%R.
Proof.
  intros Hi. apply ofR_inj. rewrite fro2_sum. rewrite (sum_two' n i (i + 1)) by (try lia; intros q Hq Q1 Q2; apply sum_0; intros r Hr;
    destruct (Nat.eqb_spec q i), (Nat.eqb_spec q (i + 1)); try lia; rewrite !andb_false_r; ring).
  rewrite (sum_single n (i + 1)), (sum_single n i); try lia.
  - rewrite !Nat.eqb_refl. destruct (Nat.eqb_spec i (i + 1)); [lia|]. destruct (Nat.eqb_spec (i + 1) i); [lia|]. cbn [andb].
    rewrite !modulus_ofR_sq, <- !ofR_add. f_equal. lra.
  - intros r Hr N. destruct (Nat.eqb_spec r i), (Nat.eqb_spec r (i + 1)), (Nat.eqb_spec (i + 1) (i + 1)), (Nat.eqb_spec (i + 1) i); try lia; cbn [andb]; ring.
  - intros r Hr N. destruct (Nat.eqb_spec r i), (Nat.eqb_spec r (i + 1)), (Nat.eqb_spec i (i + 1)), (Nat.eqb_spec i i); try lia; cbn [andb]; ring.
Qed.

(** ** Similarity up to k perturbations of norm delta *)
Section Sim.
Context (n : nat) (T0 : mat) (delta : R) (Hd0 : (0 <= delta)%R).
Definition Sim (k : nat) (M W : mat) : Prop :=
  unitary n W /\ (fro n n (fun i j => (T0 i j - mmul n (mmul n W M) (ctr W) i j)%T) <= INR k * delta)%R /\ (fro n n M <= fro n n T0)%R.
Lemma wmw_ext M M' W W' i j : (forall r q, (r < n)%nat -> (q < n)%nat -> M r q = M' r q) -> (forall r q, (r < n)%nat -> (q < n)%nat -> W r q = W' r q) -> (i < n)%nat -> (j < n)%nat ->
  mmul n (mmul n W M) (ctr W) i j = mmul n (mmul n W' M') (ctr W') i j.
Proof.
  intros H HW Hi Hj. unfold mmul, ctr. apply sum_ext. intros l Hl. f_equal; [|rewrite HW; auto]. apply sum_ext. intros k Hk. rewrite HW, H by auto. auto.
Qed.
Lemma Sim_ext k M M' W : (forall r q, (r < n)%nat -> (q < n)%nat -> M r q = M' r q) -> Sim k M W -> Sim k M' W.
Proof.
  intros H (U & K1 & K2). split; auto. split.
  - erewrite fro_ext; [exact K1|]. intros i j Hi Hj. cbv beta. f_equal. apply wmw_ext; auto. intros; symmetry; auto.
  - erewrite fro_ext; [exact K2|]. intros; symmetry; auto.
Qed.
Lemma Sim_init : Sim 0 T0 idm.
Proof.
  split; [apply unitary_id|]. split; [|lra]. cbn [INR]. rewrite Rmult_0_l. right. unfold fro. replace (fro2 n n _) with 0%R; [apply sqrt_0|].
  symmetry. apply ofR_inj. rewrite fro2_sum, ofR_0. apply sum_0. intros j Hj. apply sum_0. intros i Hi.
  assert (K : mmul n (mmul n idm T0) (ctr idm) i j = T0 i j).
  { transitivity (mmul n (mmul n idm T0) idm i j); [apply mmul_ext; auto; intros; apply ctr_idm|]. rewrite mmul_id_r by auto. apply mmul_id_l; auto. }
  rewrite K. replace (T0 i j - T0 i j) with 0 by ring. rewrite conj_0. ring.
Qed.
Lemma Sim_uni k M M' W G : unitary n G -> (forall r q, (r < n)%nat -> (q < n)%nat -> M' r q = mmul n (ctr G) (mmul n M G) r q) ->
  Sim k M W -> Sim k M' (mmul n W G).
Proof.
  intros UG H (U & K1 & K2). split; [apply unitary_mul; auto|]. split.
  - erewrite fro_ext; [exact K1|]. intros i j Hi Hj. cbv beta. f_equal. symmetry.
    apply (two_sided n n W W G G M M' (fun i j => mmul n (mmul n W M) (ctr W) i j)); auto. intros r c Hr Hc. rewrite H by auto. apply mmul_assoc.
  - replace (fro n n M') with (fro n n M); auto. unfold fro. f_equal. rewrite (fro2_ext n n M' _ H).
    rewrite fro2_uni by (apply unitary_ctr; auto). symmetry. apply fro2_uni_r; auto.
Qed.
Lemma Sim_drop k M M' W : (fro n n (fun i j => (M i j - M' i j)%T) <= delta)%R -> (fro n n M' <= fro n n M)%R -> Sim k M W -> Sim (S k) M' W.
Proof.
  intros H1 H2 (U & K1 & K2). split; auto. split; [|lra]. rewrite S_INR.
  eapply Rle_trans; [|eapply Rle_trans; [apply (Rplus_le_compat _ _ _ _ K1 H1)|right; ring]].
  rewrite <- (fro_conj n W (fun i j => M i j - M' i j) U). eapply Rle_trans; [|apply fro_tri]. right. apply fro_ext. intros i j Hi Hj.
  assert (K : mmul n (mmul n W (fun i j => M i j - M' i j)) (ctr W) i j = mmul n (mmul n W M) (ctr W) i j - mmul n (mmul n W M') (ctr W) i j).
  { unfold mmul. rewrite <- sum_minus. apply sum_ext. intros l Hl. rewrite (sum_ext n _ (fun q => W i q * M q l - W i q * M' q l)) by (intros; ring). rewrite sum_minus. ring. }
  rewrite K. ring.
Qed.
Lemma Sim_perm k dv dv' W p : Permutation (map p (seq 0 n)) (seq 0 n) -> (forall i, (i < n)%nat -> dv' i = dv (p i)) ->
  Sim k (diagm dv) W -> Sim k (diagm dv') (fun i j => W i (p j)).
Proof.
  intros Hp Hv (U & K1 & K2). assert (L := perm_lt n p Hp). split; [apply unitary_perm; auto|].
  assert (D : forall (V : mat) d i j, (j < n)%nat -> mmul n V (diagm d) i j = V i j * d j).
  { intros V d i j Hj. unfold mmul, diagm. rewrite (sum_single n j); auto; [rewrite Nat.eqb_refl; auto|]. intros q Hq N. destruct (Nat.eqb_spec q j); [lia|ring]. }
  split.
  - erewrite fro_ext; [exact K1|]. intros i j Hi Hj. cbv beta. f_equal. unfold mmul at 1 3.
    rewrite (sum_ext n _ (fun l => (fun q => W i q * dv q * conj (W j q)) (p l))) by (intros l Hl; rewrite D by auto; unfold ctr; cbv beta; rewrite Hv by auto; auto).
    rewrite (sum_perm n p (fun q => W i q * dv q * conj (W j q)) Hp). apply sum_ext. intros l Hl. rewrite D by auto. auto.
  - replace (fro n n (diagm dv')) with (fro n n (diagm dv)); auto. unfold fro. f_equal. apply ofR_inj. rewrite !fro2_sum.
    assert (S : forall d, sum n (fun j => sum n (fun i => diagm d i j * conj (diagm d i j))) = sum n (fun j => d j * conj (d j))).
    { intros d. apply sum_ext. intros j Hj. rewrite (sum_single n j); auto; [unfold diagm; rewrite Nat.eqb_refl; auto|].
      intros i Hi N. unfold diagm. destruct (Nat.eqb_spec i j); [lia|ring]. }
    rewrite !S. rewrite <- (sum_perm n p (fun j => dv j * conj (dv j)) Hp). apply sum_ext. intros j Hj. rewrite Hv by auto. auto.
Qed.
End Sim.

(** ** Tridiagonal matrices with a bulge *)
Definition upd (f : nat -> T) (i : nat) (v : T) : nat -> T := fun k => if (k =? i)%nat then v else f k.
(** [f] at (i-1,i+1) and (i+1,i-1), for i > 0 *)
Definition bulge (i : nat) (f : T) (M : mat) : mat := fun r q =>
  if (0 <? i)%nat && ((r + 1 =? i) && (q =? i + 1) || (q + 1 =? i) && (r =? i + 1))%nat then f else M r q.
(** chasing downwards: rotation of the coordinates i, i+1 *)
Lemma chase_dn n (dv ev dv' ev' : nat -> T) i f f' c s : conj s = s -> c * c + s * s = 1 -> (i + 1 < n)%nat ->
  let a := dv i in let d1 := dv (i + 1)%nat in let b := ev i in let w := (d1 - a) * s + (1 + 1) * c * b in
  dv' i = a + s * w -> dv' (i + 1)%nat = d1 - s * w -> (forall k, (k < n)%nat -> k <> i -> k <> (i + 1)%nat -> dv' k = dv k) ->
  ev' i = c * w - b -> ((i + 2 < n)%nat -> ev' (i + 1)%nat = c * ev (i + 1)%nat /\ f' = s * ev (i + 1)%nat) ->
  ((0 < i)%nat -> ev' (i - 1)%nat = c * ev (i - 1)%nat + s * f /\ c * f - s * ev (i - 1)%nat = 0) ->
  (forall k, (k + 1 < n)%nat -> k <> i -> k <> (i + 1)%nat -> (k + 1)%nat <> i -> ev' k = ev k) ->
  forall r q, (r < n)%nat -> (q < n)%nat -> bulge (i + 1) f' (symtri dv' ev') r q = grot i (i + 1) c s (bulge i f (symtri dv ev)) r q.
Proof.
  intros Hs Hcs Hi a d1 b w D1 D2 D3 E1 E2 E3 E4 r q Hr Hq. unfold grot, grow, gcol. rewrite Hs.
  assert (K : forall r, r = i \/ r = (i + 1)%nat \/ (i + 2 <= r)%nat \/ (r < i)%nat) by (intros; lia).
  assert (E3' : forall k, (k + 1 = i)%nat -> ev' k = c * ev k + s * f /\ c * f - s * ev k = 0) by (intros k Hk; replace k with (i - 1)%nat by lia; apply E3; lia).
  assert (Hcc : c * c = 1 - s * s) by (rewrite <- Hcs; ring).
  destruct (K r) as [->|[->|[Kr|Kr]]], (K q) as [->|[->|[Kq|Kq]]]; unfold bulge, symtri; nats; subst;
  try ring; try (apply D3; lia); try (apply E4; lia).
  all: first [rewrite D1; unfold w, a, b, d1; ring [Hcc] | rewrite D2; unfold w, a, b, d1; ring [Hcc] | rewrite E1; unfold w, a, b, d1; ring [Hcc]
    | destruct (E3' q ltac:(lia)) as [X Y]; rewrite ?X, <- ?Y; ring | destruct (E3' r ltac:(lia)) as [X Y]; rewrite ?X, <- ?Y; ring
    | destruct (E2 ltac:(lia)) as [X Y]; rewrite ?X, ?Y; ring].
Qed.
(** chasing upwards: rotation of the coordinates i, i-1.  [bulge i f] again is at (i-1,i+1). *)
Lemma chase_up n (dv ev dv' ev' : nat -> T) i f f' c s : conj s = s -> c * c + s * s = 1 -> (0 < i)%nat -> (i < n)%nat ->
  let a := dv i in let d1 := dv (i - 1)%nat in let b := ev (i - 1)%nat in let w := (d1 - a) * s + (1 + 1) * c * b in
  dv' i = a + s * w -> dv' (i - 1)%nat = d1 - s * w -> (forall k, (k < n)%nat -> k <> i -> k <> (i - 1)%nat -> dv' k = dv k) ->
  ev' (i - 1)%nat = c * w - b -> ((1 < i)%nat -> ev' (i - 2)%nat = c * ev (i - 2)%nat /\ f' = s * ev (i - 2)%nat) ->
  ((i + 1 < n)%nat -> ev' i = c * ev i + s * f /\ c * f - s * ev i = 0) ->
  (forall k, (k + 1 < n)%nat -> k <> i -> (k + 1)%nat <> i -> (k + 2)%nat <> i -> ev' k = ev k) ->
  forall r q, (r < n)%nat -> (q < n)%nat -> bulge (i - 1) f' (symtri dv' ev') r q = grot i (i - 1) c s (bulge i f (symtri dv ev)) r q.
Proof.
  intros Hs Hcs Hi Hn a d1 b w D1 D2 D3 E1 E2 E3 E4 r q Hr Hq. unfold grot, grow, gcol. rewrite Hs.
  assert (Hcc : c * c = 1 - s * s) by (rewrite <- Hcs; ring).
  unfold w, a, b, d1 in *. clear w a b d1. destruct i as [|i]; [lia|]. replace (S i - 1)%nat with i in * by lia. replace (S i - 2)%nat with (i - 1)%nat in * by lia.
  assert (K : forall r, r = i \/ r = S i \/ (i + 2 <= r)%nat \/ (r < i)%nat) by (intros; lia).
  assert (E2' : forall k, (k + 1 = i)%nat -> ev' k = c * ev k /\ f' = s * ev k) by (intros k Hk; replace k with (i - 1)%nat by lia; apply E2; lia).
  destruct (K r) as [->|[->|[Kr|Kr]]], (K q) as [->|[->|[Kq|Kq]]]; unfold bulge, symtri; nats; subst;
  try ring; try (apply D3; lia); try (apply E4; lia).
  all: first [rewrite D1; ring [Hcc] | rewrite D2; ring [Hcc] | rewrite E1; ring [Hcc]
    | destruct (E2' q ltac:(lia)) as [X Y]; rewrite ?X, ?Y; ring | destruct (E2' r ltac:(lia)) as [X Y]; rewrite ?X, ?Y; ring
    | destruct (E3 ltac:(lia)) as [X Y]; rewrite ?X, <- ?Y; ring].
Qed.

Lemma bulge_0 n i M : (forall r q, (r < n)%nat -> (q < n)%nat -> (q = r + 2 \/ r = q + 2)%nat -> M r q = 0) ->
  forall r q, (r < n)%nat -> (q < n)%nat -> bulge i 0 M r q = M r q.
Proof. intros H r q Hr Hq. unfold bulge. nats; auto; symmetry; apply H; auto; lia. Qed.
Lemma symtri_far dv ev r q : (q = r + 2 \/ r = q + 2)%nat -> symtri dv ev r q = 0.
Proof. intros H. unfold symtri. nats; auto. Qed.
(** diagonalization of a 2-by-2 block that is decoupled from the rest *)
Lemma block2 n (dv ev dv' ev' : nat -> T) i c s s1 s2 : conj s = s -> c * c + s * s = 1 -> (i + 1 < n)%nat ->
  let a := dv i in let d1 := dv (i + 1)%nat in let b := ev i in
  a * c + b * s = s1 * c -> b * c + d1 * s = s1 * s -> s1 + s2 = a + d1 ->
  ((0 < i)%nat -> ev (i - 1)%nat = 0) -> ((i + 2 < n)%nat -> ev (i + 1)%nat = 0) ->
  dv' i = s1 -> dv' (i + 1)%nat = s2 -> (forall k, (k < n)%nat -> k <> i -> k <> (i + 1)%nat -> dv' k = dv k) ->
  ev' i = 0 -> (forall k, (k + 1 < n)%nat -> k <> i -> ev' k = ev k) ->
  forall r q, (r < n)%nat -> (q < n)%nat -> symtri dv' ev' r q = grot i (i + 1) c s (symtri dv ev) r q.
Proof.
  intros Hs Hcs Hi a d1 b A1 A2 A3 Z1 Z2 D1 D2 D3 E1 E2 r q Hr Hq.
  assert (Hcc : c * c = 1 - s * s) by (rewrite <- Hcs; ring).
  assert (S1 : s1 = a + s * ((d1 - a) * s + (1 + 1) * c * b)).
  { transitivity (c * (s1 * c) + s * (s1 * s)); [|rewrite <- A1, <- A2; ring [Hcc]]. ring [Hcc]. }
  assert (S2 : 0 = c * ((d1 - a) * s + (1 + 1) * c * b) - b).
  { transitivity (c * (s1 * s) - s * (s1 * c)); [ring|]. rewrite <- A1, <- A2. ring [Hcc]. }
  assert (FAR : forall r q, (r < n)%nat -> (q < n)%nat -> bulge i 0 (symtri dv ev) r q = symtri dv ev r q)
    by (apply bulge_0; intros; apply symtri_far; auto).
  rewrite <- (bulge_0 n (i + 1) (symtri dv' ev')) by (auto; intros; apply symtri_far; auto).
  assert (G : grot i (i + 1) c s (bulge i 0 (symtri dv ev)) r q = grot i (i + 1) c s (symtri dv ev) r q).
  { unfold grot, grow, gcol. nats; rewrite ?FAR by lia; auto. }
  rewrite <- G. apply (chase_dn n dv ev); auto.
  - rewrite D1. exact S1.
  - rewrite D2. replace s2 with (a + d1 - s1) by (rewrite <- A3; ring). rewrite S1 at 1. fold d1 a b. ring.
  - rewrite E1. exact S2.
  - intros H. rewrite E2, Z2 by lia. split; ring.
  - intros H. rewrite E2, Z1 by lia. split; ring.
Qed.
(** one neglected element *)
Lemma Sim_deflate n T0 k dv ev W i ep sf : (0 <= ep)%R -> (0 <= sf)%R -> (i + 1 < n)%nat ->
  (modulus (ev i) * modulus (ev i) <= ep * ep * modulus (dv i) * modulus (dv (i + 1)%nat) + sf)%R ->
  let delta := sqrt (ep * ep * fro2 n n T0 + 2 * sf) in
  Sim n T0 delta k (symtri dv ev) W -> Sim n T0 delta (S k) (symtri dv (upd ev i 0)) W.
Proof.
  intros He Hf Hi Hm delta HS. assert (K2 := proj2 (proj2 HS)). apply (Sim_drop n T0 delta k (symtri dv ev)); auto.
  - rewrite (fro_ext n n _ (fun r q => if ((r =? i) && (q =? i + 1))%nat then ev i else if ((r =? i + 1) && (q =? i))%nat then ev i else 0)).
    2:{ intros r q Hr Hq. unfold symtri, upd. nats; subst; try ring; try (replace r with i by lia; ring); try (replace q with i by lia; ring). }
    unfold fro. rewrite fro2_pair by auto. unfold delta. apply sqrt_le_1.
    + assert (K := modulus_pos (ev i)). nra.
    + assert (K := fro2_nonneg n n T0). nra.
    + assert (D := fro2_diag2 n (symtri dv ev) i (i + 1) ltac:(lia) Hi ltac:(lia)).
      assert (DI : forall k0, symtri dv ev k0 k0 = dv k0) by (intros k0; unfold symtri; rewrite Nat.eqb_refl; auto). rewrite !DI in D.
      assert (F : (fro2 n n (symtri dv ev) <= fro2 n n T0)%R).
      { rewrite <- !fro_sqr. assert (P := fro_pos n n (symtri dv ev)). nra. }
      set (x := modulus (dv i)) in *. set (y := modulus (dv (i + 1)%nat)) in *. set (z := modulus (ev i)) in *.
      assert (XY : (2 * (x * y) <= fro2 n n T0)%R) by (assert (S := Rle_0_sqr (x - y)); unfold Rsqr in S; lra).
      assert (E2 : (0 <= ep * ep)%R) by nra. assert (M := Rmult_le_compat_l _ _ _ E2 XY). nra.
  - apply fro_le. intros r q Hr Hq. unfold symtri, upd. assert (M0 : (modulus 0 = 0)%R) by (apply modulus_0_iff; auto).
    nats; subst; try lra; rewrite M0; apply modulus_pos.
Qed.
End P.
