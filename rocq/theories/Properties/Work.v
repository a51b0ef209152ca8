(** * C30: workspace queries *)
From Coq Require Import Bool Arith ZArith Lia.
From Verif.Core Require Import Scalar Prog View Slice.
From Verif.Spec Require Import LinAlg Outcome.
From Verif.Model Require Import Legacy Work.
From Verif.Proof Require Import LegacyProof WorkProof.

(** a requirement as the library builds it: a vector requirement has one column *)
Definition wok (w : winfo) : Prop := wvec w = true -> wn w = 1.
Theorem wok_closed : (forall k, wok (winfo_v k)) /\ (forall m n, wok (winfo_m m n)) /\
  (forall a b, wok a -> wok b -> wok (wminmax a b) /\ wok (wadd a b)) /\ (forall a, wok a -> wok (wtranspose a)).
Proof.
  unfold wok. repeat split; try discriminate; auto.
  - unfold wminmax. destruct (wsize b =? 0); auto. destruct (wsize a =? 0); auto.
    destruct (wcontig a || wcontig b); cbn [wn wvec wm wcontig]; auto.
    repeat match goal with |- context [if ?c then _ else _] => destruct c end; cbn [wn wvec wm wcontig]; auto; intros K; apply andb_true_iff in K; destruct K; auto.
  - unfold wadd. destruct (wsize b =? 0); auto. destruct (wsize a =? 0); auto.
    destruct (wcontig a || wcontig b); cbn [wn wvec wm wcontig]; auto.
    destruct (Nat.eqb_spec (wn a) (wn b)); [cbn; intros K; apply andb_true_iff in K; tauto|].
    intros K. destruct (wvec a) eqn:Ea, (wvec b) eqn:Eb; try (repeat match type of K with context [if ?c then _ else _] => destruct c end; discriminate K).
    rewrite (H eq_refl), (H0 eq_refl) in *. congruence.
  - intros a. unfold wtranspose. destruct ((wsize a =? 0) || wvec a); auto. discriminate.
Qed.

(** minMax: at least both sizes *)
Theorem minmax_size a b : wsize a <= wsize (wminmax a b) /\ wsize b <= wsize (wminmax a b).
Proof.
  unfold wminmax. destruct (Nat.eqb_spec (wsize b) 0); [lia|]. destruct (Nat.eqb_spec (wsize a) 0); [lia|].
  unfold wsize in *. destruct (wcontig a || wcontig b); cbn [wm wn]; [lia|].
  destruct (Nat.leb_spec (wm b) (wm a)), (Nat.leb_spec (wn b) (wn a)), (Nat.leb_spec (wn b) (wm a)), (Nat.leb_spec (wm b) (wn a)),
    (Nat.leb_spec (wm a) (wm b)), (Nat.leb_spec (wn a) (wn b)), (Nat.leb_spec (wn a) (wm b)), (Nat.leb_spec (wm a) (wn b)), (wvec a), (wvec b);
    cbn [andb orb wm wn]; nia.
Qed.
(** operator+=: at least the sum of both sizes *)
Theorem wadd_size a b : wok a -> wok b -> wsize a + wsize b <= wsize (wadd a b).
Proof.
  intros Ha Hb. unfold wok in *. unfold wadd. destruct (Nat.eqb_spec (wsize b) 0); [lia|]. destruct (Nat.eqb_spec (wsize a) 0); [lia|].
  unfold wsize in *. destruct (wcontig a || wcontig b); cbn [wm wn]; [lia|].
  destruct (Nat.eqb_spec (wn a) (wn b)); cbn [wm wn]; [nia|].
  destruct (Nat.eqb_spec (wm a) (wm b)); cbn [wm wn]; [nia|].
  destruct (wvec b) eqn:Eb; cbn [andb]; [rewrite Hb in * by auto; destruct (Nat.eqb_spec (wn a) (wm b)); cbn [wm wn]; [nia|]|];
  (destruct (wvec a) eqn:Ea; cbn [andb]; [rewrite Ha in * by auto; destruct (Nat.eqb_spec (wm a) (wn b)); cbn [wm wn]; [nia|]|]); cbn [wm wn]; nia.
Qed.

Section S.
Context {E : Env}.
(** what a routine may do with a workspace object: carve a vector of [k] elements, or an [m]-by-[n] matrix, off it,
    obtaining a piece of that shape inside the workspace, disjoint from the rest, which is again a workspace *)
Definition carve_v (work : lmat) (k : nat) (s : state) : Prop :=
  returns (wk_vec work k) s (fun r s' => s' = s /\ isvec (fst r) k /\ vinj (fst r) /\ disj (fst r) (lview (snd r)) /\
    lok (snd r) /\ contiguous (snd r) = true /\ lm (snd r) * ln (snd r) = lm work * ln work - k /\
    forall l, inview (lview work) l <-> inview (fst r) l \/ inview (lview (snd r)) l).
Definition carve_m (work : lmat) (m n : nat) (s : state) : Prop :=
  returns (wk_mat work m n) s (fun r s' => s' = s /\ shape (fst r) m n /\ vinj (fst r) /\ disj (fst r) (lview (snd r)) /\
    lok (snd r) /\ contiguous (snd r) = true /\ lm (snd r) * ln (snd r) = lm work * ln work - m * n /\
    forall l, inview (lview work) l <-> inview (fst r) l \/ inview (lview (snd r)) l).
(** any contiguous workspace that is large enough can be carved *)
Theorem carve_contiguous work s : lok work -> contiguous work = true ->
  (forall k, k <= lm work * ln work -> carve_v work k s) /\ (forall m n, m * n <= lm work * ln work -> carve_m work m n s).
Proof.
  intros Hok Hc. split.
  - intros k Hk. unfold carve_v, returns, wk_vec. destruct (reshape_v work k) as [[w r]|] eqn:Er.
    2:{ unfold reshape_v in Er. rewrite Hc in Er. destruct (Nat.ltb_spec (lm work * ln work) k); [lia|discriminate]. }
    destruct (reshape_v_ok work k w r Hok Er) as (H1 & H2 & H3 & H4 & H5). exists (vview w, r), s. split; [reflexivity|].
    cbn [fst snd]. split; [reflexivity|]. split; [split; [exact H1|reflexivity]|]. repeat (split; [assumption|]).
    unfold reshape_v in Er. rewrite Hc in Er. destruct (Nat.ltb_spec (lm work * ln work) k); [lia|]. injection Er as <- <-.
    split; [destruct (is_col _); apply contig_new0|]. split; [|exact H5]. destruct (is_col (lay work)); cbn; lia.
  - intros m n Hk. unfold carve_m, returns, wk_mat. destruct (reshape work m n) as [[w r]|] eqn:Er.
    2:{ unfold reshape in Er. rewrite Hc in Er. destruct (Nat.ltb_spec (lm work * ln work) (m * n)); [lia|discriminate]. }
    destruct (reshape_ok work m n w r Hok Er) as (H1 & H2 & H3 & H4 & H5 & H6). exists (lview w, r), s. split; [reflexivity|].
    cbn [fst snd]. split; [reflexivity|]. split; [apply H5; auto|]. split; [apply lview_inj; auto|]. repeat (split; [assumption|]).
    unfold reshape in Er. rewrite Hc in Er. destruct (Nat.ltb_spec (lm work * ln work) (m * n)); [lia|]. injection Er as <- <-.
    split; [destruct (is_col _); apply contig_new0|]. split; [|exact H4]. destruct (is_col (lay work)); cbn; lia.
Qed.
(** a workspace of the size of minMax(a, b) fits a and fits b *)
Theorem minmax_fits a b p l s : forall w, w = a \/ w = b ->
  carve_m (new_lmat0 (wm (wminmax a b)) (wn (wminmax a b)) p l) (wm w) (wn w) s /\
  carve_v (new_lmat0 (wm (wminmax a b)) (wn (wminmax a b)) p l) (wsize w) s.
Proof.
  intros w Hw. destruct (minmax_size a b) as [H1 H2].
  destruct (carve_contiguous (new_lmat0 (wm (wminmax a b)) (wn (wminmax a b)) p l) s) as [K1 K2]; [apply lok_new0|apply contig_new0|].
  split; [apply K2|apply K1]; cbn; unfold wsize in *; destruct Hw as [Hw|Hw]; subst w; assumption.
Qed.
(** from a workspace of the size of a + b one can carve a and then, off the rest, b *)
Theorem wadd_fits a b p l s : wok a -> wok b -> let work := new_lmat0 (wm (wadd a b)) (wn (wadd a b)) p l in
  carve_m work (wm a) (wn a) s /\ forall P R, wk_mat work (wm a) (wn a) s = Ok (P, R) s -> carve_m R (wm b) (wn b) s.
Proof.
  intros Ha Hb work. assert (H := wadd_size a b Ha Hb). assert (Hs : lm work * ln work = wsize (wadd a b)) by reflexivity.
  destruct (carve_contiguous work s) as [K1 K2]; [apply lok_new0|apply contig_new0|].
  assert (K : carve_m work (wm a) (wn a) s) by (apply K2; unfold wsize in *; lia).
  split; auto. intros P R HR. destruct K as (r & s' & e & _ & _ & _ & _ & J1 & J2 & J3 & _). rewrite HR in e. injection e as <- _. cbn [snd] in *.
  apply carve_contiguous; auto. unfold wsize in *. lia.
Qed.
(** ... but not every workspace of the shape minMax asks for fits both requirements when it is not contiguous, although minMax
    then reports that contiguity is not needed *)
Theorem minmax_noncontiguous_refuted (s : state) : exists a b work, wok a /\ wok b /\ wcontig (wminmax a b) = false /\
  lok work /\ lm work = wm (wminmax a b) /\ ln work = wn (wminmax a b) /\ wk_vec work (wsize b) s = Exn DomainError s.
Proof.
  exists (winfo_m 3 3), (winfo_v 2), (mklmat 3 3 0 4 ColMajor). unfold wok, lok. cbn. repeat split; try reflexivity; try discriminate; try lia.
Qed.
End S.
Example wok_example : wok (winfo_m 2 3) /\ wok (winfo_v 5) /\ wsize (wadd (winfo_m 2 3) (winfo_v 5)) = 11 /\ wsize (wminmax (winfo_m 2 3) (winfo_v 5)) = 6.
Proof. unfold wok. repeat split; try discriminate; reflexivity. Qed.
