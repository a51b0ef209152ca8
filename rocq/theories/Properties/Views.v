(** * C29: matrix and vector views of the legacy containers *)
From Coq Require Import Bool Arith ZArith Lia.
From Verif.Core Require Import Scalar Prog View.
From Verif.Model Require Import Legacy.
From Verif.Proof Require Import LegacyProof.

(** [P] has dimensions m-by-n and its element (i,j) is element (f i j) of [A], which is inside [A] *)
Definition picks (P A : view) (m n : nat) (f : nat -> nat -> nat * nat) : Prop :=
  nr P = m /\ nc P = n /\
  forall i j, i < m -> j < n -> fst (f i j) < nr A /\ snd (f i j) < nc A /\ ad P i j = ad A (fst (f i j)) (snd (f i j)).
(** consequences for any view described by [picks]: inside the parent's memory, and distinct elements
    stay distinct *)
Lemma picks_inside P A m n f l : picks P A m n f -> inview P l -> inview A l.
Proof.
  intros (H1 & H2 & H) (i & j & Hi & Hj & ->). destruct (H i j) as (? & ? & ->); try lia.
  exists (fst (f i j)), (snd (f i j)); auto.
Qed.
Lemma picks_distinct P A m n f : picks P A m n f ->
  (forall i j i' j', i < m -> j < n -> i' < m -> j' < n -> f i j = f i' j' -> i = i' /\ j = j') -> vinj A -> vinj P.
Proof.
  intros (H1 & H2 & H) Hf HI i j i' j' Hi Hj Hi' Hj' e. rewrite H1, H2 in *.
  destruct (H i j) as (? & ? & E1); auto. destruct (H i' j') as (? & ? & E2); auto.
  rewrite E1, E2 in e. apply HI in e as [? ?]; auto.
  apply Hf; auto. destruct (f i j), (f i' j'); cbn in *; congruence.
Qed.
Lemma picks_separate P Q A m n f m' n' g : picks P A m n f -> picks Q A m' n' g -> vinj A ->
  (forall i j i' j', i < m -> j < n -> i' < m' -> j' < n' -> f i j <> g i' j') -> disj P Q.
Proof.
  intros (H1 & H2 & H) (K1 & K2 & K) HI Hf i j i' j' Hi Hj Hi' Hj' e. rewrite H1, H2, K1, K2 in *.
  destruct (H i j) as (? & ? & E1); auto. destruct (K i' j') as (? & ? & E2); auto.
  rewrite E1, E2 in e. apply HI in e as [? ?]; auto.
  apply (Hf i j i' j'); auto. destruct (f i j), (g i' j'); cbn in *; congruence.
Qed.

(** a well-formed matrix (leading dimension at least the number of rows, resp. columns) has distinct
    addresses for distinct elements and stays inside its buffer *)
Theorem matrix_injective A : lok A -> vinj (lview A).
Proof. exact (lview_inj A). Qed.
Theorem matrix_in_buffer A l : lok A -> inview (lview A) l -> (lptr A <= l < lptr A + lspan A)%Z.
Proof. exact (lview_range A l). Qed.
Theorem vector_injective v : (vinc v <> 0)%Z -> vinj (vview v).
Proof. exact (vview_inj v). Qed.
(** the constructor accepts exactly the well-formed leading dimensions *)
Theorem constructor_well_formed m n p ld l :
  (exists A, new_lmat m n p ld l = Some A /\ lok A /\ lm A = m /\ ln A = n) <-> (if is_col l then m else n) <= ld.
Proof.
  unfold new_lmat. destruct (Nat.leb_spec (if is_col l then m else n) ld).
  - split; auto. intros _. eexists; split; [reflexivity|]. unfold lok; cbn. auto.
  - split; [|lia]. intros (A & H' & _). discriminate.
Qed.

Section Slices.
Context (A : lmat) (Hok : lok A).

Theorem slice_correct r0 r1 c0 c1 : r0 <= r1 <= lm A -> c0 <= c1 <= ln A ->
  lok (slice A r0 r1 c0 c1) /\
  picks (lview (slice A r0 r1 c0 c1)) (lview A) (r1 - r0) (c1 - c0) (fun i j => (r0 + i, c0 + j)).
Proof.
  intros. split; [apply lok_slice; auto; lia|]. repeat split; try reflexivity; cbn; try lia. apply slice_elem.
Qed.
Theorem rows_correct r0 r1 : r0 <= r1 <= lm A ->
  lok (rows A r0 r1) /\ picks (lview (rows A r0 r1)) (lview A) (r1 - r0) (ln A) (fun i j => (r0 + i, j)).
Proof. intros. split; [apply lok_rows; auto; lia|]. repeat split; try reflexivity; cbn; try lia. apply rows_elem. Qed.
Theorem cols_correct c0 c1 : c0 <= c1 <= ln A ->
  lok (cols A c0 c1) /\ picks (lview (cols A c0 c1)) (lview A) (lm A) (c1 - c0) (fun i j => (i, c0 + j)).
Proof. intros. split; [apply lok_cols; auto; lia|]. repeat split; try reflexivity; cbn; try lia. apply cols_elem. Qed.
Theorem transpose_view_correct :
  lok (transpose_view A) /\ picks (lview (transpose_view A)) (lview A) (ln A) (lm A) (fun i j => (j, i)).
Proof. split; [apply lok_transpose; auto|]. repeat split; try reflexivity; cbn; try lia. apply transpose_elem. Qed.
Theorem row_correct r : r < lm A -> picks (vview (row A r)) (lview A) (ln A) 1 (fun i _ => (r, i)).
Proof.
  intros. split; [unfold row; destruct (is_col (lay A)); reflexivity|].
  repeat split; cbn; try lia. apply row_elem.
Qed.
Theorem col_correct c : c < ln A -> picks (vview (col A c)) (lview A) (lm A) 1 (fun i _ => (i, c)).
Proof.
  intros. split; [unfold col; destruct (is_col (lay A)); reflexivity|].
  repeat split; cbn; try lia. apply col_elem.
Qed.
Theorem slice_row_correct r c0 c1 : r < lm A -> c0 <= c1 <= ln A ->
  picks (vview (slice_row A r c0 c1)) (lview A) (c1 - c0) 1 (fun i _ => (r, c0 + i)).
Proof. intros. repeat split; try reflexivity; cbn; try lia. apply (slice_row_elem A r c0 c1). Qed.
Theorem slice_col_correct r0 r1 c : c < ln A -> r0 <= r1 <= lm A ->
  picks (vview (slice_col A r0 r1 c)) (lview A) (r1 - r0) 1 (fun i _ => (r0 + i, c)).
Proof. intros. repeat split; try reflexivity; cbn; try lia. apply (slice_col_elem A r0 r1 c). Qed.
(** diagonal number d (super-diagonals positive): exactly the positions (i,i+d) inside A *)
Theorem diag_correct d : (- Z.of_nat (lm A) < d < Z.of_nat (ln A))%Z -> 0 < lm A -> 0 < ln A ->
  let r := Z.to_nat (- d) in let c := Z.to_nat d in
  picks (vview (diag_ A d)) (lview A) (Nat.min (lm A - r) (ln A - c)) 1 (fun i _ => (r + i, c + i)).
Proof.
  intros Hd Hm Hn r c. assert (Hl : vn (diag_ A d) = Nat.min (lm A - r) (ln A - c)).
  { unfold r, c, diag_; cbn. destruct (Z.leb_spec 0 d); lia. }
  split; [exact Hl|]. split; [reflexivity|]. intros i j Hi Hj. cbn.
  split; [lia|]. split; [lia|]. apply diag_elem.
Qed.
(** slices of disjoint index ranges do not overlap *)
Theorem slices_disjoint r0 r1 c0 c1 r0' r1' c0' c1' :
  r1 <= lm A -> c1 <= ln A -> r1' <= lm A -> c1' <= ln A ->
  (r1 <= r0' \/ r1' <= r0 \/ c1 <= c0' \/ c1' <= c0) ->
  disj (lview (slice A r0 r1 c0 c1)) (lview (slice A r0' r1' c0' c1')).
Proof. intros; apply slice_disj; auto. Qed.
(** reshape: two well-formed, non-overlapping parts that cover exactly A; dimensions as requested
    (except as noted in [reshape_empty_refuted]) *)
Theorem reshape_correct m n P R : reshape A m n = Some (P, R) ->
  lok P /\ lok R /\ disj (lview P) (lview R) /\
  (forall l, inview (lview A) l <-> inview (lview P) l \/ inview (lview R) l) /\
  lm P * ln P = m * n /\ ((contiguous A = true \/ (m <> 0 /\ n <> 0)) -> lm P = m /\ ln P = n).
Proof. intros H. destruct (reshape_ok A m n P R Hok H) as (H1 & H2 & H3 & H4 & H5 & H6). repeat split; auto; try apply H4; apply H5; auto. Qed.
Theorem reshape_vector_correct n P R : reshape_v A n = Some (P, R) ->
  vn P = n /\ lok R /\ disj (vview P) (lview R) /\ vinj (vview P) /\
  (forall l, inview (lview A) l <-> inview (vview P) l \/ inview (lview R) l).
Proof. intros H. apply (reshape_v_ok A n P R Hok H). Qed.
End Slices.

(** slices of a forward vector *)
Theorem vslice_correct v a b : vdir v = Forward -> a <= b <= vn v ->
  picks (vview (vslice v a b)) (vview v) (b - a) 1 (fun i _ => (a + i, 0)).
Proof. intros. repeat split; try reflexivity; cbn; try lia. apply vslice_elem; auto. Qed.
Theorem vreshape_correct v m n P R : vdir v = Forward -> (1 <= vinc v)%Z -> vreshape v m n = Some (P, R) ->
  lok P /\ picks (lview P) (vview v) m n (fun i j => (i + j * m, 0)) /\
  picks (vview R) (vview v) (vn v - m * n) 1 (fun i _ => (m * n + i, 0)) /\ disj (lview P) (vview R).
Proof.
  intros Hd Hi H. destruct (vreshape_ok v m n P R Hd Hi H) as (H1 & H2 & H3 & H4 & H5 & H6 & H7 & H8).
  split; auto. repeat split; auto; cbn; try lia; try nia.
  - apply H6; lia.
  - apply H7; lia.
Qed.
(** reshape of a vector to two vectors *)
Theorem vreshape_v_correct v n P R : vdir v = Forward -> (vinc v <> 0)%Z -> vreshape_v v n = Some (P, R) ->
  picks (vview P) (vview v) n 1 (fun i _ => (i, 0)) /\
  picks (vview R) (vview v) (vn v - n) 1 (fun i _ => (n + i, 0)) /\ disj (vview P) (vview R).
Proof.
  intros Hd Hi H. destruct (vreshape_v_ok v n P R Hd Hi H) as (H1 & H2 & H3 & H4 & H5 & H6 & H7).
  repeat split; auto; cbn; try lia; auto.
Qed.
(** slices of a backward vector (legacyArray.hpp:571 uses begin + range.first * inc whatever the
    direction): the slice [a,b) is the documented one exactly when a + b is the length *)
Theorem vslice_backward_refuted :
  (forall v a b i, vdir v = Backward -> (vinc v <> 0)%Z -> a <= b ->
     (vaddr (vslice v a b) i = vaddr v (a + i) <-> a + b = vn v)) /\
  (exists v a b, vdir v = Backward /\ vinc v = 1%Z /\ a < b <= vn v /\ vaddr (vslice v a b) 0 <> vaddr v (a + 0)).
Proof.
  split; [exact vslice_backward|].
  exists (mklvec 3 0 1 Backward), 0, 1. cbn. unfold vaddr; cbn. repeat split; lia.
Qed.
(** reshape of a non-contiguous matrix to an empty shape returns a part with other dimensions *)
Theorem reshape_empty_refuted : exists A P R, lok A /\ reshape A 5 0 = Some (P, R) /\ lm P <> 5.
Proof.
  exists (mklmat 2 2 0 3 ColMajor), (mklmat 2 0 0 3 ColMajor), (mklmat 2 2 0 3 ColMajor).
  unfold lok; cbn. repeat split; lia.
Qed.
(** LegacyBandedMatrix: distinct in-band positions have distinct addresses inside the buffer *)
Theorem banded_correct A i j : bin A i j = true ->
  (bptr A <= baddr A i j < bptr A + Z.of_nat (bkl A + bku A + 1) * Z.of_nat (bn A))%Z /\
  (forall i' j', bin A i' j' = true -> baddr A i j = baddr A i' j' -> i = i' /\ j = j').
Proof. intros H. split; [apply band_range; auto|]. intros i' j' H'. apply band_inj; auto. Qed.

(** nested views: an example of composition (a slice of a transposed slice of a row-major matrix) *)
Example nested_example : let A := mklmat 6 7 50 9 RowMajor in
  let P := slice (transpose_view (slice A 1 5 2 7)) 1 4 0 3 in
  picks (lview P) (lview A) 3 3 (fun i j => (1 + j, 2 + (1 + i))) /\ vinj (lview P).
Proof.
  cbn zeta. split.
  - split; [reflexivity|]. split; [reflexivity|]. intros i j Hi Hj. cbn [fst snd lview nr nc ad lm ln].
    split; [lia|]. split; [lia|]. rewrite slice_elem, transpose_elem, slice_elem. f_equal; lia.
  - apply lview_inj. apply lok_slice; cbn; try lia. apply lok_transpose, lok_slice; unfold lok; cbn; lia.
Qed.
