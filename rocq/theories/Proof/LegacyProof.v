(** Layout facts for the legacy containers *)
From Coq Require Import Bool Arith ZArith Lia Psatz.
From Verif.Core Require Import Scalar Prog View.
From Verif.Model Require Import Legacy.

Lemma div_unique_addr (ld i j i' j' : Z) :
  (0 <= i < ld -> 0 <= i' < ld -> i + j * ld = i' + j' * ld -> i = i' /\ j = j')%Z.
Proof. intros. assert (j = j') by nia. subst. lia. Qed.

(** distinct elements of a well-formed matrix have distinct addresses *)
Lemma lview_inj A : lok A -> vinj (lview A).
Proof.
  unfold lok, vinj, lview; cbn. unfold laddr. intros Hok i j i' j' Hi Hj Hi' Hj' e.
  destruct (is_col (lay A)).
  - destruct (div_unique_addr (Z.of_nat (ldim A)) (Z.of_nat i) (Z.of_nat j) (Z.of_nat i') (Z.of_nat j')); lia.
  - destruct (div_unique_addr (Z.of_nat (ldim A)) (Z.of_nat j) (Z.of_nat i) (Z.of_nat j') (Z.of_nat i')); lia.
Qed.
(** all elements lie in the memory block the matrix was created on *)
Definition lspan (A : lmat) : Z :=
  (if is_col (lay A) then Z.of_nat (ln A) * Z.of_nat (ldim A) else Z.of_nat (lm A) * Z.of_nat (ldim A))%Z.
Lemma lview_range A l : lok A -> inview (lview A) l -> (lptr A <= l < lptr A + lspan A)%Z.
Proof.
  unfold lok, inview, lview, lspan; cbn. unfold laddr. intros Hok (i & j & Hi & Hj & ->).
  destruct (is_col (lay A)); nia.
Qed.
Lemma lview_disj A B : lok A -> lok B ->
  (lptr A + lspan A <= lptr B \/ lptr B + lspan B <= lptr A)%Z -> disj (lview A) (lview B).
Proof.
  intros HA HB H i j i' j' Hi Hj Hi' Hj' e.
  assert (H1 : inview (lview A) (ad (lview A) i j)) by (exists i, j; auto).
  assert (H2 : inview (lview B) (ad (lview A) i j)) by (exists i', j'; auto).
  apply lview_range in H1; auto. apply lview_range in H2; auto. lia.
Qed.
Lemma vview_inj v : (vinc v <> 0)%Z -> vinj (vview v).
Proof.
  unfold vinj, vview; cbn. unfold vaddr. intros H i j i' j' Hi Hj Hi' Hj' e. split; [|lia].
  destruct (vdir v).
  - assert ((Z.of_nat i - Z.of_nat i') * vinc v = 0)%Z by lia. nia.
  - assert ((Z.of_nat i - Z.of_nat i') * vinc v = 0)%Z by lia. nia.
Qed.

(** ** element identities *)
Lemma slice_elem A r0 r1 c0 c1 i j : laddr (slice A r0 r1 c0 c1) i j = laddr A (r0 + i) (c0 + j).
Proof. unfold laddr, slice; cbn. destruct (is_col (lay A)); lia. Qed.
Lemma rows_elem A r0 r1 i j : laddr (rows A r0 r1) i j = laddr A (r0 + i) j.
Proof. unfold laddr, rows; cbn. destruct (is_col (lay A)); lia. Qed.
Lemma cols_elem A c0 c1 i j : laddr (cols A c0 c1) i j = laddr A i (c0 + j).
Proof. unfold laddr, cols; cbn. destruct (is_col (lay A)); lia. Qed.
Lemma slice_row_elem A r c0 c1 j : vaddr (slice_row A r c0 c1) j = laddr A r (c0 + j).
Proof. unfold laddr, vaddr, slice_row; cbn. destruct (is_col (lay A)); lia. Qed.
Lemma slice_col_elem A r0 r1 c i : vaddr (slice_col A r0 r1 c) i = laddr A (r0 + i) c.
Proof. unfold laddr, vaddr, slice_col; cbn. destruct (is_col (lay A)); lia. Qed.
Lemma row_elem A r j : vaddr (row A r) j = laddr A r j.
Proof. unfold laddr, vaddr, row. destruct (is_col (lay A)); cbn; lia. Qed.
Lemma col_elem A c i : vaddr (col A c) i = laddr A i c.
Proof. unfold laddr, vaddr, col. destruct (is_col (lay A)); cbn; lia. Qed.
Lemma diag_elem A d i : vaddr (diag_ A d) i = laddr A (Z.to_nat (- d) + i) (Z.to_nat d + i).
Proof.
  unfold laddr, vaddr, diag_; cbn. destruct (Z.leb_spec 0 d); destruct (is_col (lay A)).
  - replace (Z.to_nat (-d)) with 0 by lia. rewrite !Nat2Z.inj_add, Z2Nat.id by lia. lia.
  - replace (Z.to_nat (-d)) with 0 by lia. rewrite !Nat2Z.inj_add, Z2Nat.id by lia. lia.
  - replace (Z.to_nat d) with 0 by lia. rewrite !Nat2Z.inj_add, Z2Nat.id by lia. lia.
  - replace (Z.to_nat d) with 0 by lia. rewrite !Nat2Z.inj_add, Z2Nat.id by lia. lia.
Qed.
(** the length of the diagonal: [i] is a valid index iff the diagonal position is inside [A] *)
Lemma diag_len A d i : diag_ok A d = true ->
  (i < vn (diag_ A d) <-> Z.to_nat (- d) + i < lm A /\ Z.to_nat d + i < ln A).
Proof.
  unfold diag_ok, diag_; cbn. intros H. apply andb_prop in H as [H1 H2].
  apply orb_prop in H1. apply orb_prop in H2. rewrite Z.leb_le, Z.ltb_lt in *.
  destruct (Z.leb_spec 0 d); lia.
Qed.
Lemma transpose_elem A i j : laddr (transpose_view A) i j = laddr A j i.
Proof. unfold laddr, transpose_view; cbn. destruct (is_col (lay A)); cbn; lia. Qed.
Lemma vslice_elem v a b i : vdir v = Forward -> vaddr (vslice v a b) i = vaddr v (a + i).
Proof. unfold vaddr, vslice; cbn. intros ->. lia. Qed.
(** backward vectors: the slice agrees with the documented element iff the range is symmetric *)
Lemma vslice_backward v a b i : vdir v = Backward -> (vinc v <> 0)%Z -> a <= b ->
  (vaddr (vslice v a b) i = vaddr v (a + i) <-> a + b = vn v).
Proof.
  unfold vaddr, vslice; cbn. intros -> Hi Hab.
  rewrite !Nat2Z.inj_add, Nat2Z.inj_sub by auto. split; [|intros; nia].
  intros e. assert ((Z.of_nat a + Z.of_nat b - Z.of_nat (vn v)) * vinc v = 0)%Z by lia. nia.
Qed.

Lemma lok_slice A r0 r1 c0 c1 : lok A -> r1 <= lm A -> c1 <= ln A -> lok (slice A r0 r1 c0 c1).
Proof. unfold lok, slice; cbn. destruct (is_col (lay A)); lia. Qed.
Lemma lok_rows A r0 r1 : lok A -> r1 <= lm A -> lok (rows A r0 r1).
Proof. unfold lok, rows; cbn. destruct (is_col (lay A)); lia. Qed.
Lemma lok_cols A c0 c1 : lok A -> c1 <= ln A -> lok (cols A c0 c1).
Proof. unfold lok, cols; cbn. destruct (is_col (lay A)); lia. Qed.
Lemma lok_transpose A : lok A -> lok (transpose_view A).
Proof. unfold lok, transpose_view; cbn. destruct (is_col (lay A)); cbn; lia. Qed.
Lemma lok_new0 m n p l : lok (new_lmat0 m n p l).
Proof. unfold lok, new_lmat0; cbn. destruct l; cbn; lia. Qed.

(** [P] is contained in [A] *)
Definition vsub (P A : view) : Prop := forall l, inview P l -> inview A l.
Lemma slice_sub A r0 r1 c0 c1 : r1 <= lm A -> c1 <= ln A -> vsub (lview (slice A r0 r1 c0 c1)) (lview A).
Proof.
  intros Hr Hc l (i & j & Hi & Hj & ->). cbn in *. exists (r0 + i), (c0 + j). rewrite slice_elem. cbn. repeat split; lia.
Qed.
Lemma slice_disj A r0 r1 c0 c1 r0' r1' c0' c1' : lok A ->
  r1 <= lm A -> c1 <= ln A -> r1' <= lm A -> c1' <= ln A ->
  (r1 <= r0' \/ r1' <= r0 \/ c1 <= c0' \/ c1' <= c0) ->
  disj (lview (slice A r0 r1 c0 c1)) (lview (slice A r0' r1' c0' c1')).
Proof.
  intros Hok H1 H2 H3 H4 H i j i' j' Hi Hj Hi' Hj' e. cbn in *. rewrite !slice_elem in e.
  destruct (lview_inj A Hok (r0 + i) (c0 + j) (r0' + i') (c0' + j')); cbn; auto; lia.
Qed.

(** ** reshape *)
Lemma contig_linear A i j : lok A -> contiguous A = true -> i < lm A -> j < ln A ->
  (laddr A i j = lptr A + Z.of_nat (if is_col (lay A) then i + j * lm A else i * ln A + j)%nat)%Z.
Proof.
  unfold lok, contiguous, laddr. intros Hok Hc Hi Hj.
  apply orb_prop in Hc as [Hc|Hc]; [apply orb_prop in Hc as [Hc|Hc]|].
  - apply Nat.leb_le in Hc. assert (lm A = 1 /\ ln A = 1) by nia. replace i with 0 by lia. replace j with 0 by lia.
    destruct (is_col (lay A)); cbn; lia.
  - apply andb_prop in Hc as [-> Hc]. apply orb_prop in Hc as [Hc|Hc].
    + apply Nat.eqb_eq in Hc. rewrite Hc. lia.
    + apply Nat.leb_le in Hc. replace j with 0 by lia. lia.
  - apply andb_prop in Hc as [Hl Hc]. destruct (is_col (lay A)); [discriminate|]. apply orb_prop in Hc as [Hc|Hc].
    + apply Nat.eqb_eq in Hc. rewrite Hc. lia.
    + apply Nat.leb_le in Hc. replace i with 0 by lia. lia.
Qed.
(** the memory of a contiguous matrix is exactly the block of m*n cells *)
Lemma contig_inview A l : lok A -> contiguous A = true ->
  (inview (lview A) l <-> (lptr A <= l < lptr A + Z.of_nat (lm A * ln A))%Z).
Proof.
  intros Hok Hc. split.
  - intros (i & j & Hi & Hj & ->). cbn in *. rewrite contig_linear by auto. destruct (is_col (lay A)); nia.
  - intros Hl. set (k := Z.to_nat (l - lptr A)). assert (Hk : k < lm A * ln A) by lia.
    assert (Hm : lm A <> 0) by (intro e; rewrite e in Hk; lia). assert (Hn : ln A <> 0) by (intro e; rewrite e in Hk; lia).
    destruct (is_col (lay A)) eqn:Hcol.
    + exists (k mod lm A), (k / lm A).
      assert (Hi : k mod lm A < lm A) by (apply Nat.mod_upper_bound; auto).
      assert (Hj : k / lm A < ln A) by (apply Nat.div_lt_upper_bound; auto).
      cbn. repeat split; auto. rewrite contig_linear by auto. rewrite Hcol.
      assert (e := Nat.div_mod k (lm A) Hm). lia.
    + exists (k / ln A), (k mod ln A).
      assert (Hi : k mod ln A < ln A) by (apply Nat.mod_upper_bound; auto).
      assert (Hj : k / ln A < lm A) by (apply Nat.div_lt_upper_bound; auto; lia).
      cbn. repeat split; auto. rewrite contig_linear by auto. rewrite Hcol.
      assert (e := Nat.div_mod k (ln A) Hn). lia.
Qed.
Lemma contig_new0 m n p l : contiguous (new_lmat0 m n p l) = true.
Proof. unfold contiguous, new_lmat0; destruct l; cbn; rewrite Nat.eqb_refl; cbn; rewrite ?orb_true_r; auto. Qed.

(** A successful reshape gives two non-overlapping well-formed matrices inside [A] that together
    cover exactly [A]; the first has the requested dimensions unless [A] is non-contiguous and one
    requested dimension is 0. *)
Lemma reshape_ok A m n P R : lok A -> reshape A m n = Some (P, R) ->
  lok P /\ lok R /\ disj (lview P) (lview R) /\
  (forall l, inview (lview A) l <-> inview (lview P) l \/ inview (lview R) l) /\
  ((contiguous A = true \/ (m <> 0 /\ n <> 0)) -> lm P = m /\ ln P = n) /\
  lm P * ln P = m * n.
Proof.
  unfold reshape. intros Hok. destruct (Nat.ltb_spec (lm A * ln A) (m * n)) as [|Hsz]; [discriminate|].
  destruct (contiguous A) eqn:Hc.
  - intros [= <- HR]. set (p := new_lmat0 m n (lptr A) (lay A)) in *.
    assert (HRok : lok R) by (subst R; destruct (is_col (lay A)); apply lok_new0).
    assert (HRc : contiguous R = true) by (subst R; destruct (is_col (lay A)); apply contig_new0).
    assert (HRs : lm R * ln R = lm A * ln A - m * n /\ lptr R = (lptr A + Z.of_nat (m * n))%Z).
    { subst R; destruct (is_col (lay A)); cbn; lia. }
    assert (Hp := lok_new0 m n (lptr A) (lay A)). fold p in Hp.
    assert (Hpc : contiguous p = true) by apply contig_new0.
    assert (Hps : lm p * ln p = m * n /\ lptr p = lptr A) by (cbn; auto).
    split; [auto|]. split; [auto|]. split; [|split; [|split; [cbn; auto|exact (proj1 Hps)]]].
    + intros i j i' j' Hi Hj Hi' Hj' e.
      assert (H1 : inview (lview p) (ad (lview p) i j)) by (exists i, j; auto).
      assert (H2 : inview (lview R) (ad (lview p) i j)) by (exists i', j'; auto).
      rewrite contig_inview in H1, H2 by auto. lia.
    + intros l. rewrite !contig_inview by auto. lia.
  - assert (Hbig : 2 <= lm A * ln A).
    { unfold contiguous in Hc. destruct (Nat.leb_spec (lm A * ln A) 1); [discriminate|lia]. }
    destruct (Nat.eqb_spec m (lm A)) as [Hm|Hm]; [|destruct (Nat.eqb_spec n 0) as [Hn|Hn]].
    1,2: cbn [orb]; intros [= <- <-].
    1,2: assert (Hn' : n <= ln A) by nia.
    1,2: split; [apply lok_cols; auto|]; split; [apply lok_cols; auto|]; split; [|split; [|cbn; split; lia]].
    1,3: intros i j i' j' Hi Hj Hi' Hj' e; cbn in *; rewrite !cols_elem in e;
      destruct (lview_inj A Hok i (0 + j) i' (n + j')); cbn; auto; lia.
    1,2: intros l; split;
      [ intros (i & j & Hi & Hj & ->); cbn in *; destruct (Nat.lt_ge_cases j n);
        [left; exists i, j; cbn; rewrite cols_elem; repeat split; auto; lia
        |right; exists i, (j - n); cbn; rewrite cols_elem; repeat split; auto; try lia; f_equal; lia]
      | intros [(i & j & Hi & Hj & ->)|(i & j & Hi & Hj & ->)]; cbn in *; rewrite cols_elem;
        [exists i, (0 + j)|exists i, (n + j)]; cbn; repeat split; auto; lia ].
    cbn [orb]. destruct (Nat.eqb_spec n (ln A)) as [Hn'|Hn']; [|destruct (Nat.eqb_spec m 0) as [Hm'|Hm']; [|discriminate]].
    all: cbn [orb]; intros [= <- <-].
    all: assert (Hm'' : m <= lm A) by nia.
    all: split; [apply lok_rows; auto|]; split; [apply lok_rows; auto|]; split; [|split; [|cbn; split; nia]].
    1,3: intros i j i' j' Hi Hj Hi' Hj' e; cbn in *; rewrite !rows_elem in e;
      destruct (lview_inj A Hok (0 + i) j (m + i') j'); cbn; auto; lia.
    1,2: intros l; split;
      [ intros (i & j & Hi & Hj & ->); cbn in *; destruct (Nat.lt_ge_cases i m);
        [left; exists i, j; cbn; rewrite rows_elem; repeat split; auto; lia
        |right; exists (i - m), j; cbn; rewrite rows_elem; repeat split; auto; try lia; f_equal; lia]
      | intros [(i & j & Hi & Hj & ->)|(i & j & Hi & Hj & ->)]; cbn in *; rewrite rows_elem;
        [exists (0 + i), j|exists (m + i), j]; cbn; repeat split; auto; lia ].
Qed.

(** vector reshaping *)
Lemma vsub_cover1 v a : vdir v = Forward -> a <= vn v ->
  (forall l, inview (vview v) l <-> inview (vview (vslice v 0 a)) l \/ inview (vview (vslice v a (vn v))) l).
Proof.
  intros Hd Ha l. split.
  - intros (i & j & Hi & Hj & ->). cbn in *. destruct (Nat.lt_ge_cases i a).
    + left. exists i, 0. cbn. rewrite vslice_elem by auto. repeat split; auto; lia.
    + right. exists (i - a), 0. cbn. rewrite vslice_elem by auto. repeat split; auto; try lia. f_equal; lia.
  - intros [(i & j & Hi & Hj & ->)|(i & j & Hi & Hj & ->)]; cbn in *; rewrite vslice_elem by auto.
    + exists (0 + i), 0. cbn. repeat split; lia.
    + exists (a + i), 0. cbn. repeat split; lia.
Qed.
Lemma vreshape_v_ok v n P R : vdir v = Forward -> (vinc v <> 0)%Z -> vreshape_v v n = Some (P, R) ->
  vn P = n /\ vn R = vn v - n /\ n <= vn v /\
  (forall i, vaddr P i = vaddr v i) /\ (forall i, vaddr R i = vaddr v (n + i)) /\
  disj (vview P) (vview R) /\
  (forall l, inview (vview v) l <-> inview (vview P) l \/ inview (vview R) l).
Proof.
  unfold vreshape_v. intros Hd Hi. destruct (Nat.ltb_spec (vn v) n) as [|Hn]; [discriminate|]. intros [= <- <-].
  repeat split; try (cbn; lia); auto.
  - intros i. rewrite vslice_elem by auto. reflexivity.
  - intros i. apply vslice_elem; auto.
  - intros i j i' j' Hi' Hj Hi'' Hj' e. cbn in *. rewrite !vslice_elem in e by auto.
    destruct (vview_inj v Hi (0 + i) 0 (n + i') 0); cbn; auto; lia.
  - apply vsub_cover1; auto.
  - apply vsub_cover1; auto.
Qed.
(** element k of the vector is element (k mod m, k / m) of the reshaped matrix *)
Lemma vreshape_ok v m n P R : vdir v = Forward -> (1 <= vinc v)%Z -> vreshape v m n = Some (P, R) ->
  lok P /\ lm P = m /\ ln P = n /\ vn R = vn v - m * n /\ m * n <= vn v /\
  (forall i j, i < m -> j < n -> laddr P i j = vaddr v (i + j * m)) /\
  (forall i, i < vn R -> vaddr R i = vaddr v (m * n + i)) /\
  disj (lview P) (vview R).
Proof.
  unfold vreshape. intros Hd Hi. destruct (Nat.ltb_spec (vn v) (m * n)) as [|Hn]; [discriminate|].
  destruct (_ || _) eqn:Hc; cbn [negb andb].
  - intros [= <- <-]. 
    assert (H1 : forall i j, i < m -> j < n -> laddr (new_lmat0 m n (vptr v) ColMajor) i j = vaddr v (i + j * m)).
    { intros i j Hi' Hj. unfold laddr, vaddr; cbn. rewrite Hd. apply orb_prop in Hc as [Hc|Hc].
      - apply Z.eqb_eq in Hc. rewrite Hc. lia.
      - apply Nat.leb_le in Hc. assert (m = 1 /\ n = 1) by nia. replace i with 0 by lia. replace j with 0 by lia. lia. }
    assert (H2 : forall i, i < vn v - m * n -> vaddr {| vn := vn v - m * n; vptr := vptr v + Z.of_nat (m * n); vinc := 1; vdir := vdir v |} i = vaddr v (m * n + i)).
    { intros i Hi'. unfold vaddr; cbn. rewrite Hd. apply orb_prop in Hc as [Hc|Hc].
      - apply Z.eqb_eq in Hc. rewrite Hc. lia.
      - apply Nat.leb_le in Hc. replace i with 0 by lia. replace (m * n) with 0 by lia. lia. }
    split; [apply lok_new0|]. repeat split; auto.
    intros i j i' j' Hi' Hj Hi'' Hj' e. cbn in *. rewrite H1, H2 in e by auto.
    destruct (vview_inj v ltac:(lia) (i + j * m) 0 (m * n + i') 0); cbn; auto; nia.
  - destruct (Nat.ltb_spec 1 m); [discriminate|]. intros [= <- <-].
    assert (H1 : forall i j, i < m -> j < n -> laddr {| lm := m; ln := n; lptr := vptr v; ldim := Z.to_nat (vinc v); lay := ColMajor |} i j = vaddr v (i + j * m)).
    { intros i j Hi' Hj. unfold laddr, vaddr; cbn. rewrite Hd. assert (m = 1) by lia. subst m. replace i with 0 by lia. rewrite Z2Nat.id by lia. lia. }
    assert (H2 : forall i, i < vn v - m * n -> vaddr {| vn := vn v - m * n; vptr := vptr v + Z.of_nat (m * n) * vinc v; vinc := vinc v; vdir := vdir v |} i = vaddr v (m * n + i)).
    { intros i Hi'. unfold vaddr; cbn. rewrite Hd. lia. }
    split; [unfold lok; cbn; lia|]. repeat split; auto.
    intros i j i' j' Hi' Hj Hi'' Hj' e. cbn in *. rewrite H1, H2 in e by auto.
    destruct (vview_inj v ltac:(lia) (i + j * m) 0 (m * n + i') 0); cbn; auto; nia.
Qed.

(** a matrix reshaped to a vector plus the rest *)
Lemma reshape_v_ok A n P R : lok A -> reshape_v A n = Some (P, R) ->
  vn P = n /\ lok R /\ disj (vview P) (lview R) /\ vinj (vview P) /\
  (forall l, inview (lview A) l <-> inview (vview P) l \/ inview (lview R) l).
Proof.
  unfold reshape_v. intros Hok. destruct (Nat.ltb_spec (lm A * ln A) n) as [|Hsz]; [discriminate|].
  destruct (contiguous A) eqn:Hc.
  - intros [= <- HR].
    assert (HRok : lok R) by (subst R; destruct (is_col (lay A)); apply lok_new0).
    assert (HRc : contiguous R = true) by (subst R; destruct (is_col (lay A)); apply contig_new0).
    assert (HRs : lm R * ln R = lm A * ln A - n /\ lptr R = (lptr A + Z.of_nat n)%Z).
    { subst R; destruct (is_col (lay A)); cbn; lia. }
    assert (HP : forall l, inview (vview (mklvec n (lptr A) 1 Forward)) l <-> (lptr A <= l < lptr A + Z.of_nat n)%Z).
    { intros l. split.
      - intros (i & j & Hi & Hj & ->). cbn in *. unfold vaddr; cbn. lia.
      - intros Hl. exists (Z.to_nat (l - lptr A)), 0. cbn. unfold vaddr; cbn. lia. }
    repeat split; auto.
    + intros i j i' j' Hi Hj Hi' Hj' e.
      assert (H1 : inview (vview (mklvec n (lptr A) 1 Forward)) (ad (vview (mklvec n (lptr A) 1 Forward)) i j)) by (exists i, j; auto).
      assert (H2 : inview (lview R) (ad (vview (mklvec n (lptr A) 1 Forward)) i j)) by (exists i', j'; auto).
      rewrite HP in H1. rewrite contig_inview in H2 by auto. lia.
    + revert i j i' j' H H0 H1 H2 H3. cbn. unfold vaddr; cbn. lia.
    + revert i j i' j' H H0 H1 H2 H3. cbn. unfold vaddr; cbn. lia.
    + rewrite HP, !contig_inview by auto. lia.
    + rewrite HP, !contig_inview by auto. lia.
  - assert (Hbig : 2 <= lm A * ln A).
    { unfold contiguous in Hc. destruct (Nat.leb_spec (lm A * ln A) 1); [discriminate|lia]. }
    assert (Hld : 1 <= ldim A) by (unfold lok in Hok; destruct (is_col (lay A)); nia).
    assert (Hm1 : 1 <= lm A) by nia.
    assert (Hn1 : 1 <= ln A) by nia.
    destruct (Nat.eqb_spec n 0) as [->|Hn0].
    { intros [= <- <-]. repeat split; auto.
      - intros i j i' j' Hi. cbn in Hi. lia.
      - cbn in H. lia. - cbn in H. lia.
      - intros [(i & j & Hi & _)|H]; auto. cbn in Hi. lia. }
    destruct (Nat.eqb_spec n (lm A)) as [Hn|Hn]; [|destruct (Nat.eqb_spec n (ln A)) as [Hn'|Hn']; [|discriminate]].
    + (* first column *)
      intros HS.
      assert (HH : (P = mklvec n (lptr A) (if is_col (lay A) then 1 else Z.of_nat (ldim A)) Forward)%Z /\
                   R = mklmat (lm A) (ln A - 1) (lptr A + (if is_col (lay A) then Z.of_nat (ldim A) else 1))%Z (ldim A) (lay A)).
      { destruct (is_col (lay A)); injection HS as <- <-; auto. }
      destruct HH as [-> ->]. clear HS.
      set (P := mklvec _ _ _ _). set (R := mklmat _ _ _ _ _).
      assert (HPa : forall i, vaddr P i = laddr A i 0).
      { intros i. unfold P, vaddr, laddr; cbn [lptr ldim lay vptr vinc vdir]. destruct (is_col (lay A)); nia. }
      assert (HRa : forall i j, laddr R i j = laddr A i (S j)).
      { intros i j. unfold R, laddr; cbn [lptr ldim lay]. destruct (is_col (lay A)); nia. }
      assert (HI := lview_inj A Hok).
      assert (HRok : lok R) by (unfold lok, R in *; cbn; destruct (is_col (lay A)); lia).
      assert (HVP : vinj (vview P)).
      { intros i j i' j' H H0 H1 H2 H3. cbn [vview nr nc ad vn] in *. rewrite !HPa in H3. unfold P in *; cbn [vn] in *. destruct (HI i 0 i' 0); cbn [lview nr nc ad]; auto; lia. }
      split; [reflexivity|]. split; [exact HRok|]. split; [|split; [exact HVP|split]].
      * intros i j i' j' Hi Hj Hi' Hj' e. cbn in *. rewrite HPa, HRa in e.
        destruct (HI i 0 i' (S j')); cbn; auto; lia.
      * intros (i & j & Hi & Hj & ->). cbn in *. destruct j.
        -- left. exists i, 0. cbn. rewrite HPa. repeat split; auto. lia.
        -- right. exists i, j. cbn. rewrite HRa. repeat split; auto. lia.
      * intros [(i & j & Hi & Hj & ->)|(i & j & Hi & Hj & ->)]; cbn in *; rewrite ?HPa, ?HRa.
        -- exists i, 0. cbn. repeat split; auto; lia.
        -- exists i, (S j). cbn. repeat split; auto; lia.
    + intros HS.
      assert (HH : (P = mklvec n (lptr A) (if is_col (lay A) then Z.of_nat (ldim A) else 1) Forward)%Z /\
                   R = mklmat (lm A - 1) (ln A) (lptr A + (if is_col (lay A) then 1 else Z.of_nat (ldim A)))%Z (ldim A) (lay A)).
      { destruct (is_col (lay A)); injection HS as <- <-; auto. }
      destruct HH as [-> ->]. clear HS.
      set (P := mklvec _ _ _ _). set (R := mklmat _ _ _ _ _).
      assert (HPa : forall j, vaddr P j = laddr A 0 j).
      { intros i. unfold P, vaddr, laddr; cbn [lptr ldim lay vptr vinc vdir]. destruct (is_col (lay A)); nia. }
      assert (HRa : forall i j, laddr R i j = laddr A (S i) j).
      { intros i j. unfold R, laddr; cbn [lptr ldim lay]. destruct (is_col (lay A)); nia. }
      assert (HI := lview_inj A Hok).
      assert (HRok : lok R) by (unfold lok, R in *; cbn; destruct (is_col (lay A)); lia).
      assert (HVP : vinj (vview P)).
      { intros i j i' j' H H0 H1 H2 H3. cbn [vview nr nc ad vn] in *. rewrite !HPa in H3. unfold P in *; cbn [vn] in *. destruct (HI 0 i 0 i'); cbn [lview nr nc ad]; auto; lia. }
      split; [reflexivity|]. split; [exact HRok|]. split; [|split; [exact HVP|split]].
      * intros i j i' j' Hi Hj Hi' Hj' e. cbn in *. rewrite HPa, HRa in e.
        destruct (HI 0 i (S i') j'); cbn; auto; try lia.
      * intros (i & j & Hi & Hj & ->). cbn in *. destruct i.
        -- left. exists j, 0. cbn. rewrite HPa. repeat split; auto. lia.
        -- right. exists i, j. cbn. rewrite HRa. repeat split; auto. lia.
      * intros [(i & j & Hi & Hj & ->)|(i & j & Hi & Hj & ->)]; cbn in *; rewrite ?HPa, ?HRa.
        -- exists 0, i. cbn. repeat split; auto; lia.
        -- exists (S i), j. cbn. repeat split; auto; lia.
Qed.

(** banded storage *)
Lemma band_inj A i j i' j' : bin A i j = true -> bin A i' j' = true -> baddr A i j = baddr A i' j' -> i = i' /\ j = j'.
Proof.
  unfold bin, baddr. rewrite !andb_true_iff, !Nat.ltb_lt, !Nat.leb_le. intros ((? & ?) & ?) ((? & ?) & ?) e.
  assert (j = j') by nia. subst. split; auto. lia.
Qed.
Lemma band_range A i j : bin A i j = true ->
  (bptr A <= baddr A i j < bptr A + Z.of_nat (bkl A + bku A + 1) * Z.of_nat (bn A))%Z.
Proof.
  unfold bin, baddr. rewrite !andb_true_iff, !Nat.ltb_lt, !Nat.leb_le. intros (((? & ?) & ?) & ?). nia.
Qed.
