(** * Quotients of real elements are real

    [FieldLaws] leaves x/0 unconstrained.  [Inv0Laws] only says that 1/0 is some real element, so that
    quotients of real elements are real, whatever the divisor. *)
From Coq Require Import Reals Ring Field Lra.
From Verif.Core Require Import Scalar Instances Quiet.

Class Inv0Laws (E : Env) : Prop := { inv0_real : conj (div one zero) = div one zero }.
#[global] Instance RE_inv0 : Inv0Laws RE.
Proof. constructor. reflexivity. Qed.
#[global] Instance CE_inv0 : Inv0Laws CE.
Proof.
  constructor. cbn. unfold Cinv, Cmul. cbn. f_equal. unfold Rdiv. ring.
Qed.
#[global] Instance quiet_inv0 E (L : Inv0Laws E) : Inv0Laws (quiet E).
Proof. destruct L as [H]. constructor. exact H. Qed.
