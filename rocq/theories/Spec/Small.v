(** * What the small kernels compute *)
From Coq Require Import Bool Arith Reals.
From Verif.Core Require Import Scalar.
From Verif.Spec Require Import LinAlg.
Section R.
Local Open Scope R_scope.
(** smin and smax are the singular values of the matrix [[f, g], [0, h]]: the squares are the roots of the
    characteristic polynomial of T^T T *)
Definition sing22 (f g h smin smax : R) : Prop :=
  0 <= smin <= smax /\ smin * smin + smax * smax = f * f + g * g + h * h /\ smin * smax = Rabs (f * h).
(** (x, y) is a unit eigenvector of diag(d0, d1) + rho z z^T for the eigenvalue lam *)
Definition rank1_eig (d0 d1 z0 z1 rho x y lam : R) : Prop :=
  x * x + y * y = 1 /\ (d0 + rho * z0 * z0) * x + rho * z0 * z1 * y = lam * x /\ rho * z0 * z1 * x + (d1 + rho * z1 * z1) * y = lam * y.
(** the products of the matrix [[f, g], [0, h]] by the rotations *)
Definition svd_eqs (f g h smin smax csl snl csr snr e1 e2 : R) : Prop :=
  Rabs (csl * csl + snl * snl - 1) <= e1 /\ Rabs (csr * csr + snr * snr - 1) <= e1 /\
  Rabs (csl * (f * csr + g * snr) + snl * h * snr - smax) <= e2 /\ Rabs (csl * (- f * snr + g * csr) + snl * h * csr) <= e2 /\
  Rabs (- snl * (f * csr + g * snr) + csl * h * snr) <= e2 /\ Rabs (- snl * (- f * snr + g * csr) + csl * h * csr - smin) <= e2.
(** [[a, b], [c, d]] = [[cs, -sn], [sn, cs]] [[aa, bb], [cc, dd]] [[cs, sn], [-sn, cs]] with cs^2 + sn^2 = 1 *)
Definition schur_of (a b c d aa bb cc dd cs sn : R) : Prop :=
  cs * cs + sn * sn = 1 /\
  a = (cs * aa - sn * cc) * cs - (cs * bb - sn * dd) * sn /\ b = (cs * aa - sn * cc) * sn + (cs * bb - sn * dd) * cs /\
  c = (sn * aa + cs * cc) * cs - (sn * bb + cs * dd) * sn /\ d = (sn * aa + cs * cc) * sn + (sn * bb + cs * dd) * cs.
(** the quantity by which lahqr_schur22 tells real from complex eigenvalues: a quarter of the discriminant of the
    characteristic polynomial, divided by the size of the matrix *)
Definition schur_z (a b c d : R) : R := ((a - d) / 2 * ((a - d) / 2) + b * c) / Rmax (Rabs ((a - d) / 2)) (Rmax (Rabs b) (Rabs c)).
(** The standard form: triangular, or a pair of complex conjugate eigenvalues with equal diagonal elements; or (the
    third case) a matrix with a double eigenvalue that comes out lower triangular *)
Definition schur_std (a b c d aa bb cc dd : R) : Prop :=
  (cc = 0 /\ (b <> 0 -> (a - d) * (a - d) + 4 * (b * c) = 0 -> Rabs c <= Rabs b)) \/ (aa = dd /\ bb * cc < 0) \/ (aa = dd /\ bb = 0 /\ cc <> 0 /\ (a - d) * (a - d) + 4 * (b * c) = 0 /\ Rabs b < Rabs c).
(** the largest of the elements of a 2-by-2 matrix *)
Definition bmax (a01 a02 a11 a12 : R) : R := Rmax (Rmax (Rabs a01) (Rabs a02)) (Rmax (Rabs a11) (Rabs a12)).
End R.
Section E.
Context {E : Env}.
Local Open Scope T_scope.
(** ((H - r1 I)(H - r2 I) - w I) e1 *)
Definition shcol (n : nat) (H : mat) (r1 r2 w : T) : nat -> T :=
  fun i => sum n (fun l => (H i l - (if (i =? l)%nat then r1 else 0)) * (H l 0%nat - (if (l =? 0)%nat then r2 else 0))) - (if (i =? 0)%nat then w else 0).
End E.
