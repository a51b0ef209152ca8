(** Automation for slices *)
From Coq Require Import Bool Arith ZArith Lia.
From Verif.Core Require Import Scalar Prog View Rel Slice Loops.

Section Inj.
Lemma vinj_vcol A i0 i1 j : vinj A -> (i1 <= nr A)%nat -> (j < nc A)%nat -> vinj (vcol A i0 i1 j).
Proof. intros HI Hi Hj a b c d. cbn. intros Ha Hb Hc Hd e. apply HI in e; lia. Qed.
Lemma vinj_vrow A i j0 j1 : vinj A -> (i < nr A)%nat -> (j1 <= nc A)%nat -> vinj (vrow A i j0 j1).
Proof. intros HI Hi Hj a b c d. cbn. intros Ha Hb Hc Hd e. apply HI in e; lia. Qed.
Lemma vinj_subv A i0 i1 j0 j1 : vinj A -> (i1 <= nr A)%nat -> (j1 <= nc A)%nat -> vinj (subv A i0 i1 j0 j1).
Proof. intros HI Hi Hj a b c d. cbn. intros Ha Hb Hc Hd e. apply HI in e; lia. Qed.
Lemma vinj_vsub x a b : vinj x -> (b <= nr x)%nat -> (0 < nc x)%nat -> vinj (vsub x a b).
Proof. intros HI Hi Hj p q c d. cbn. intros Ha Hb Hc Hd e. apply HI in e; lia. Qed.
End Inj.

(** decide the box membership tests *)
Ltac ibx := cbv beta; repeat match goal with
  | |- context [inbox ?a ?b ?c ?d ?e ?f] => destruct (inbox_spec a b c d e f); [try (exfalso; lia)|try (exfalso; lia)]; [] end.
Ltac slces := first [apply wp_slc; [lia..|] | apply wp_slcol; [lia..|] | apply wp_slrow; [lia..|] | apply wp_slvec; [lia..|]].

