# Formal model of <T>LAPACK in Rocq (Coq 8.16.1)

## 1. Approach

The numerical kernels of tlapack are template code over a scalar type, a matrix type and an index type.
They are modelled *as programs on a flat memory*:

* `Core/Scalar.v` – class `Env`: one scalar type `T` with the operations the templates use
  (`+ - * / conj real abs1 sqrt < == isnan isinf`, constants) **without any law**, and the two compile-time switches
  (`TLAPACK_CHECK_INPUT`, throwing/non-throwing `tlapack_error`).  Theorems that need exact arithmetic take law classes
  (`FieldLaws`, `ConjLaws`, `EqbLaws`, `OrdLaws`, `ROrdLaws`, `CplxLaws`, `FinLaws`, `RLaws`, `FpModel`) as explicit
  hypotheses; theorems that do not (safety, layout independence, unreferenced triangles, rejects, rot_sequence, lasrt permutes ...)
  hold for IEEE arithmetic with NaN too.  Instances proved: reals `RE`, complex numbers `CE`, binary64 `FE` (Coq primitive floats).
* `Core/Prog.v` – state = memory `Z -> T` plus integer memory `Z -> Z` (pivots, indices); programs `state -> res A` with outcomes
  `Ok`, `Exn` (C++ exception), `UB` (out-of-bounds access, failed assert, wrapped index) and `OutOfFuel` (non-termination).
  Loops are structural; recursion and while loops are on fuel, and theorems say that sufficient fuel exists (or, for the
  divergence findings, that none is).  A weakest-precondition calculus with proved rules.
* `Core/View.v`, `Core/Slice.v` – matrix views `(nrows, ncols, address function)`; `rd`/`wr` are bounds checked, slices are checked as the
  asserts of the plugin do.
* `Core/Rel.v`, `Proof/RelTac.v` – relational (two-run) logic: one derivation gives safety, frame, independence of the layout and of
  the unreferenced triangle, in any arithmetic.
* `Spec/*.v` – small, model-independent definitions (finite sums, triangular/Hermitian parts, reflectors, permutations, gamma_n ...).
* `Model/*.v` – the routines, each definition citing file and lines.
* `Proof/*.v` – proofs.  `Properties/*.v` – the final theorem statements with non-vacuity examples beside them.

Functional theorems are total-correctness statements (`returns p s Q`): the outcome is `Ok` (no UB, no exception, no exhausted fuel), the
final value of every output element is given, and a frame clause says nothing else changes.

## 2. Trusted base

* Coq 8.16.1's kernel (and coqchk), and the reading of the theorem statements and of `Spec/`.
* Axioms: the development declares none.  `ASSUMPTIONS.md` (generated by `tools/assumptions.py`) gives the output of `Print Assumptions` for
  every theorem in MANIFEST.json.  Most theorems are closed under the global context.  Theorems that speak of real numbers use the
  standard library's `ClassicalDedekindReals.sig_forall_dec`, `sig_not_dec` and `functional_extensionality_dep`; those on binary64 use
  the primitive floats/integers and their specification axioms (`Coq.Floats.FloatAxioms`, `Coq.Numbers.Cyclic.Int63`), and the
  rounding instance also `Classical_Prop.classic` (through Flocq's proofs; Flocq adds no axiom of its own).
* The translation C++ -> model, which was done by hand; `seeded/LOG.jsonl` records how the theorems react to wrong programs.

## 3. What is modelled

| model file | code in /repo/include/tlapack |
|---|---|
| Gemm, Blas1, Blas2, Blas3 | blas/: asum axpy copy dot dotu iamax nrm2 rot rotg rotm rotmg scal swap gemv ger geru hemv her her2 symv syr syr2 trmv trsv gemm hemm her2k herk symm syr2k syrk trmm trsm |
| Legacy | plugins/legacyArray.hpp, LegacyMatrix.hpp, LegacyVector.hpp, LegacyBandedMatrix.hpp: addresses, slice, rows, cols, row, col, diag, transpose_view, reshape |
| LaAux | lapack/: lacpy laset transpose conjtranspose conjugate lascl rscl hasnan hasinf laswp-like swaps |
| Norms | lapack/lassq lange lansy lanhe lantr, blas/nrm2 |
| Cholesky | lapack/potf2 potrf potrf_blocked potrf_recursive(potrf2) potrf_rl potrs |
| Triangular | lapack/trtri_recursive lauum_recursive ul_mult lu_mult mult_llh mult_uhu potri pttrf |
| LU | lapack/getrf_level0 getrf_recursive getrf getri_uili getri_uxli getri |
| Work | base/workspace.hpp, WorkInfo |
| Householder, QGen, QFact | lapack/lapy2 lapy3 larfg larf geqr2 gelq2 geql2 gerq2 ung2r ung2l ungl2 ungr2 unm2r unm2l unml2 unmr2 ungq_level2 unmq_level2 |
| BlockQ | lapack/larft larfb geqrf gelqf geqlf gerqf unmq ungq (unmqr, unmlq, unmql, unmrq, ungqr, unglq, ungql, ungrq fix the direction and storage of these) |
| Reduce | lapack/gehd2 unghr gebd2 hetd2 |
| ReduceQ | lapack/unmhr ungtr ungbr |
| MatMul | lapack/gemmtr hemm2 mult_hehe trmm_out trsm_tri |
| Steqr | lapack/lapy2 lae2 laev2 steqr, blas/lartg (real) |
| Gghrd | lapack/gghrd hessenberg_rq |
| Gehrd | lapack/lahr2 gehrd hessenberg |
| Gebrd | lapack/labrd gebrd bidiag |
| Small | lapack/ladiv lahqr_eig22 lahqr_schur22 lahqr_shiftcolumn inv_house3 singularvalues22 svd22 laed5 |
| Geqrt3 | lapack/geqrt3 |
| Gelqt | lapack/gelqt |
| Sylv | lapack/lasy2 (real; the elements below a pivot row are updated at once, since they only depend on the pivot row) |
| Drivers | lapack/householder_qr householder_lq householder_ql householder_rq gen_householder_q householder_q_mul |
| Sort | lapack/lasrt lamrg |
| Rot, RotSeq3 | blas/rot*, lapack/rot_sequence, rot_sequence3 (without OpenMP) |

(The definitions carry the line numbers.)  Simplifications used throughout, each repeated where it is made:

* index types are unbounded naturals; an unsigned subtraction that would wrap is modelled as UB or shown not to occur;
* matrix element types are one scalar type per call (tlapack allows mixed types); real-typed arguments are elements of `T` with zero imaginary part;
* user-defined matrix classes are represented by an arbitrary injective address function; the concrete one is legacyArray;
* memory allocation: `new_matrix` returns a fresh block at an arbitrary address `p` disjoint from the arguments, with arbitrary contents;
* optional parameters (`opts.nb`, `opts.variant`, ...) are explicit arguments; `ec` (exception-check options, internal NaN checks) follow the
  defaults documented beside each definition;
* the rounding of each operation is whatever the `Env` says; no fused operations or reordering by the compiler.

**Not modelled**: the eigenvalue and SVD drivers (lahqr, multishift_qr, svd_qr, ...), Sylvester solvers, the wrappers to optimized BLAS/LAPACK (lapackpp), the plugins other than legacyArray
(eigen, mdspan, stdvector, starpu), the C API, lapack/debugutils, threads.

## 4. Findings about the code

Claims in properties.jsonl that are false of the code at this commit are kept, and the counterexample is proved (`_refuted`, `_diverges`, `_rejected`):

1. gemv with n = 0 returns without scaling y by beta (`gemv_empty_sum_refuted`).
2. lascl, hasnan, hasinf with UpperHessenberg read/write out of bounds for n >= m (`lascl_hessenberg_refuted`, `hasnan_hessenberg_refuted`, `hasinf_hessenberg_refuted`).
3. ul_mult and getri_uili never return for n = 0 (`ul_mult_empty_diverges`, `getri_uili_empty_diverges`).
4. potrf_blocked / potrf_rl throw the block-local order (`potrf_blocked_exception_order_refuted`); trtri throws position 1 always (`trtri_exception_position_refuted`); potri ignores a failed factorization (`potri_quiet_refuted`).
5. larf's size check misplaces a parenthesis (`larf1_rejects_conforming_refuted`, `larf1_accepts_short_vector_refuted`).
6. LegacyVector Backward slices start at the wrong end (`vslice_backward_refuted`); reshaping to an empty matrix (`reshape_empty_refuted`); WorkInfo::minMax of non-contiguous workspaces (`minmax_noncontiguous_refuted`).
7. rotmg: the second rescaling overwrites h (`rotmg_rescaling_refuted`), infinite weight diverges (`rotmg_infinite_weight_diverges`).
8. getri_uxli with n = 0 wraps an index (`getri_uxli_empty_refuted`).
9. rot_sequence rejects empty dimensions and applies the opposite order to the documented one (`rot_sequence_empty_rejected`, `rot_sequence_documented_order_refuted`).
10. getrf_level0 pivots on abs1, so complex multipliers may exceed 1 (`getrf_level0_multipliers_refuted`).
11. pttrf rejects n = 0 (`pttrf_empty_rejected`).
12. ung2*, ungq_level2, gelq2, geql2 evaluate tau[0] of an empty tau (`ung_no_reflectors_refuted`, `gelq2_empty_refuted`, `geql2_empty_refuted`); unmq_level2 accepts more reflectors than their length (`unmq_too_many_reflectors_refuted`).
13. ungq with no reflectors or block size 0, and unmq with block size 0, divide by zero (`ungq_no_reflectors_refuted`, `unmq_zero_block_refuted`); geqrf with block size 0 runs forever (`geqrf_zero_block_diverges`).
14. geqrf, gelqf, geqlf, gerqf slice a too short tau out of range in their workspace query, before the argument check (`short_tau_refuted`).
15. larft accepts more reflectors than their length (`larft_too_many_reflectors_refuted`); larfb's shape check misplaces a parenthesis (`larfb_shape_check_refuted`).
16. gehd2 and hetd2 reject the empty matrix (`gehd2_empty_refuted`, `hetd2_empty_refuted`); gehd2 and unghr leave the matrix for ihi = 0 (`gehd2_ihi0_refuted`, `unghr_ihi0_refuted`), unghr also for ilo = n (`unghr_ilo_n_refuted`); gebd2 evaluates tauv[0] of an empty tauv (`gebd2_empty_refuted`). The documentation of gehd2 lets A(ihi, ihi-1) be nonzero ("upper Hessenberg in rows ihi:n"); the code does not update that row, so the theorems assume it vanishes (`hess_input`).
17. unmhr has undefined behaviour for the documented cases ihi = ilo + 1 and ihi = ilo (`unmhr_trivial_refuted`, `unmhr_ilo_ihi_refuted`); ungbr with k = 0, without rows or without columns (`ungbr_q_k0_refuted`, `ungbr_q_empty_refuted`, `ungbr_p_empty_refuted`).
18. gemmtr tests the dimensions of C with `&&` instead of `||` (gemmtr.hpp:85) and then leaves a C with one wrong dimension (`gemmtr_dims_refuted`). mult_hehe accesses element (0,0) of empty matrices (`mult_hehe_empty_refuted`) and returns silently for a non-square A. trmm_out and trsm_tri recurse forever on an empty triangular matrix (`trmm_out_empty_diverges`, `trsm_tri_empty_diverges`). hemm2 with uplo = General reads the lower triangle on the left but, for transB = NoTrans, the upper one on the right (`hemm2_half`); its overload without beta drops transB and does not compile when used.
19. steqr computes its shift with `g + sgn(g) * r` where sgn(0) = 0: two equal diagonal elements at the end of a block give a division by zero, and on the 3-by-3 second-difference matrix only NaNs are returned (`steqr_second_difference_nan_refuted`). Its report of non-convergence, `if (iter == itmax)` inside `for (iter < itmax)`, is unreachable: 0 is always returned (`steqr_always_returns_0`).
20. rot_sequence3, side = Left and direction = Forward: the start-up phase of every block of 256 columns runs over all columns (`i1 = 0; i1 < n`, lines 136 and 539), so for n > 256 its rotations are applied once per block (and, with OpenMP, raced on): the result is wrong (`rot_sequence3_many_columns_refuted`).
21. hessenberg_rq on an empty matrix: `k = n - 1` wraps around, the quick return is not taken and cl is read out of bounds (`hessenberg_rq_empty_refuted`). Its documentation claims `rot_sequence(LEFT, FORWARD, cl, sl, T1) = rot_sequence(RIGHT, FORWARD, cr, sr, T2)`; what holds is T2 = rot_sequence(RIGHT, FORWARD, cr, sr, rot_sequence(LEFT, FORWARD, cl, sl, T1)) (`hessenberg_rq_documented_equation_refuted`).
22. gehrd: the blocked path takes slice(tau, {i, ihi}), out of range for a tau of the documented length n-1 when ihi = n (`gehrd_tau_length_refuted`); opts.nb = 0 makes lahr2 write out of bounds (`gehrd_zero_block_refuted`); ihi = 0 wraps around (`gehrd_ihi0_refuted`).
23. gebrd: opts.nb = 0 makes the index i + ib - 1 wrap around (`gebrd_zero_block_refuted`); no argument is checked, and a tau vector shorter than the first block is sliced out of range (`gebrd_short_tau_refuted`).
24. lahqr_schur22 uses sgn with sgn(0) = 0: for b = -c (with a, d distinct and close) it returns half of the matrix with cs^2 + sn^2 = 1/2 (`lahqr_schur22_opposite_refuted`); for a = d with b c > 0 it divides by zero, and [[1,1],[1,1]] gives the eigenvalue -infinity in double precision (`lahqr_schur22_equal_diagonal_refuted`); a double eigenvalue with |b| < |c| gives a lower triangular result (`lahqr_schur22_defective_refuted`).
25. inv_house3: with a singular trailing block whose pivot row has the larger first element, as in [[2,1],[4,2]], the vector (0, 1, -u12/u11) that is reflected is not a null vector (`inv_house3_singular`).
26. gelqt updates the rows below a block only if `j + ib < k` (gelqt.hpp:89; it should compare with m): for m > n the rows from n on miss the reflectors of the last block, and A0 = L Q fails (`gelqt_tall_untouched`, `gelqt_tall_refuted`); with a TT without columns the loop never ends (`gelqt_nb0_refuted`).
27. lasy2 compares its operations with Trans only, so a ConjTrans operand, which for a real matrix is the transposed one, is taken as not transposed (`lasy2_conjtrans_refuted`); blocks of different orders are accepted and reported as an error (`lasy2_mixed_refuted`).

## 5. Per property

<!-- table -->

### C01 gemm computes alpha*op(A)*op(B)+beta*C

* status: proved
* how: Blas3 model of gemm.hpp (all 9 op pairs, loop by loop); weakest-precondition induction on the three loops against `gemm_spec` (finite sums).
* theorems: `gemm_correct`, `gemm_nobeta_correct`, `gemm_legacy_correct`

### C02 Level-3 and level-2 argument checks reject bad shapes before any write

* status: proved
* how: `check` = tlapack_check; `_rejects`: non-conforming sizes give the exception in the initial state; `_safe`: relational run lemma, so no UB for conforming ones, in any arithmetic.
* theorems: `axpy_rejects`, `copy_rejects`, `dot_rejects`, `dotu_rejects`, `swap_rejects`, `rot_rejects`, `rotm_rejects`, `gemm_rejects`, `gemm_safe`, `gemv_rejects`, `gemv_safe`, `ger_rejects`, `ger_safe`, `geru_rejects`, `geru_safe`, `her_rejects`, `her_safe`, `syr_rejects`, `syr_safe`, `her2_rejects`, `her2_safe`, `syr2_rejects`, `syr2_safe`, `hemv_rejects`, `hemv_safe`, `symv_rejects`, `symv_safe`, `trmv_rejects`, `trmv_safe`, `trsv_rejects`, `trsv_safe`, `trsm_rejects`, `trsm_safe`, `trmm_rejects`, `trmm_safe`, `hemm_rejects`, `hemm_safe`, `symm_rejects`, `symm_safe`, `herk_rejects`, `herk_safe`, `syrk_rejects`, `syrk_safe`, `her2k_rejects`, `her2k_safe`, `syr2k_rejects`, `syr2k_safe`, `potrf_rejects`, `potrf_safe`, `potrs_rejects`, `potrs_safe`

### C03 Overloads without beta never depend on the old contents of the output

* status: partial
* how: The overloads without beta are modelled separately; two runs from states differing only in C reach the same C.
* theorems: `gemm_nobeta_two_runs`, `hemm_nobeta_two_runs`, `symm_nobeta_two_runs`, `hemv_nobeta_two_runs`, `symv_nobeta_two_runs`, `herk_nobeta_two_runs`, `syrk_nobeta_two_runs`, `her2k_nobeta_two_runs`, `syr2k_nobeta_two_runs`, `gemv_nobeta_two_runs_partial`, `gemv_nobeta_empty_sum_refuted`, `gemm_nobeta_correct`
* note: gemv without beta leaves y untouched when the inner dimension is 0 and y is not empty (gemv.hpp:82): the claim is false there, proved by gemv_nobeta_empty_sum_refuted; everything else is proved

### C04 Level-1 kernels compute their mathematical definition and touch only their output

* status: proved
* how: Blas1 model; induction on the vector loops.
* theorems: `axpy_correct`, `copy_correct`, `axpy_copy_longer_y`, `scal_correct`, `swap_correct`, `dot_correct`, `dotu_correct`, `asum_correct`

### C05 iamax returns the first position of the entry of largest magnitude

* status: proved
* how: iamax model with the NaN/Inf branches; order laws as hypotheses, binary64 instance.
* theorems: `iamax_nan`, `iamax_inf`, `iamax_correct`, `iamax_empty`, `iamax_in_range`, `iamax_binary64`
* note: iamax_correct assumes that magnitudes of finite complex entries do not overflow (always true for abs1 of reals)

### C06 gemv computes alpha*op(A)*x+beta*y

* status: partial
* how: Blas2 model of gemv.hpp.
* theorems: `gemv_correct_partial`, `gemv_empty_sum_refuted`
* note: missing case n=0, m>0: there the claim is false of the code (gemv.hpp:82 returns before scaling y), proved by gemv_empty_sum_refuted

### C07 Rank-1 and rank-2 updates

* status: proved
* how: Blas2 models of ger, geru, her, her2, syr, syr2.
* theorems: `ger_correct`, `geru_correct`, `syr_correct`, `syr2_correct`, `her_correct`, `her2_correct`

### C08 Hermitian and symmetric matrix-vector products use only the stored triangle

* status: proved
* how: Blas2 models of hemv, symv; Hermitian/symmetric completion of the stored triangle in Spec/LinAlg.
* theorems: `hemv_correct`, `symv_correct`

### C09 trmv multiplies by op(A) in place

* status: proved
* how: Blas2 model of trmv, all uplo/trans/diag; loop invariant: prefix/suffix already multiplied.
* theorems: `trmv_correct`

### C10 trsv solves the triangular system in place

* status: proved
* how: as C09 for trsv; the solution equation is the invariant.
* theorems: `trsv_correct`

### C11 trsm solves op(A)X=alpha*B and X*op(A)=alpha*B

* status: proved
* how: Blas3 model of trsm, 2x2x4x2 cases.
* theorems: `trsm_correct`

### C12 trmm multiplies by a triangular matrix in place

* status: proved
* how: Blas3 model of trmm.
* theorems: `trmm_correct`

### C13 hemm and symm

* status: proved
* how: hemm, symm.
* theorems: `hemm_correct`, `symm_correct`

### C14 herk, syrk, her2k, syr2k update exactly one triangle

* status: proved
* how: herk, syrk, her2k, syr2k.
* theorems: `herk_correct`, `syrk_correct`, `her2k_correct`, `syr2k_correct`

### C15 Unreferenced triangles never influence results

* status: proved
* how: Relational (two-run) logic Core/Rel.v: runs from states that agree on the referenced triangle stay equal.
* theorems: `trmv_two_runs`, `trsv_two_runs`, `trsm_two_runs`, `trmm_two_runs`, `hemv_two_runs`, `symv_two_runs`, `hemm_two_runs`, `symm_two_runs`, `herk_safe`, `herk_two_runs`, `her_safe`, `potrf_two_runs`, `potrf_safe`, `potrs_two_runs`, `trtri_safe`, `lauum_safe`, `potri_safe`, `mult_llh_safe`, `mult_uhu_safe`, `trtri_two_runs`, `lauum_two_runs`, `potri_two_runs`, `mult_llh_two_runs`, `mult_uhu_two_runs`

### C16 Results do not depend on the memory layout

* status: proved
* how: Same logic with two different views of the same matrix (any injective address maps).
* theorems: `gemm_two_runs`, `gemv_two_runs`, `ger_two_runs`, `geru_two_runs`, `her_two_runs`, `syr_two_runs`, `her2_two_runs`, `syr2_two_runs`, `hemv_two_runs`, `symv_two_runs`, `trmv_two_runs`, `trsv_two_runs`, `trsm_two_runs`, `trmm_two_runs`, `hemm_two_runs`, `symm_two_runs`, `herk_two_runs`, `syrk_two_runs`, `her2k_two_runs`, `syr2k_two_runs`, `axpy_two_runs`, `copy_two_runs`, `scal_two_runs`, `swap_two_runs`, `rot_two_runs`, `rotm_two_runs`, `dot_two_runs`, `dotu_two_runs`, `asum_two_runs`, `iamax_two_runs`, `potrf_two_runs`, `potrs_two_runs`, `trtri_two_runs`, `lauum_two_runs`, `potri_two_runs`, `ul_mult_two_runs`, `getri_uili_two_runs`, `lu_mult_two_runs`, `mult_llh_two_runs`, `mult_uhu_two_runs`, `pttrf_two_runs`
* note: all modelled BLAS kernels, the Cholesky routines, triangular inversion, products of triangular factors, potri, pttrf; no law of arithmetic assumed

### C17 Cholesky factorisation is correct for every variant

* status: proved
* how: Cholesky model (potf2, blocked, recursive, right looking); block factorization lemma; induction on n and on blocks.
* theorems: `potrf_factorizes`, `potrf_zero_means_factorized`, `potrf_variants_agree`
* note: all four variants (Blocked, Recursive, Level2, RightLooking), every block size > 0, exact arithmetic

### C18 Cholesky detects exactly the first non-positive leading minor

* status: partial
* how: Same runs; failure branch characterises the leading minor.
* theorems: `potrf_detects`, `potrf_zero_iff_posdef`, `potrf_variants_same_info`, `potrf_throws_order`, `potrf_blocked_throws_local_order`, `potrf_blocked_exception_order_refuted`
* note: the returned value is proved for all variants; in throwing mode the blocked variants throw the block-local order, so the exception part of the claim is false of the code: potrf_blocked_exception_order_refuted

### C19 potrs solves A*X=B from the Cholesky factor

* status: proved
* how: potrs = two trsm.
* theorems: `potrs_correct`, `potrf_potrs_solve`

### C20 LU factorisation with partial pivoting

* status: partial
* how: LU models (level0 and recursive) with pivots in integer memory; permutation invariant.
* theorems: `getrf_correct`, `getrf_multipliers`, `getrf_level0_multipliers`, `getrf_level0_multipliers_refuted`, `getrf_variants_agree`, `getrf_success_iff`, `getrf_rejects`, `getrf_safe`, `getrf_binary64`
* note: P A = L U, pivot range, frame, meaning of the returned index, agreement of both variants: proved for real and complex types. |L| <= 1 is proved for the recursive variant and for real types; for complex types the level-0 variant only satisfies |L|^2 <= 2 (getrf_level0_multipliers) and exceeds 1 (getrf_level0_multipliers_refuted)

### C21 Triangular inverse

* status: partial
* how: Triangular model: trtri recursive.
* theorems: `trtri_inverts`, `trtri_zero_means_inverted`, `trtri_detects_zero`, `trtri_throws_on_zero`, `trtri_exception_position_refuted`
* note: inverse and returned position proved for both triangles and diagonals; the position carried by the exception is false of the code: trtri_exception_position_refuted

### C22 Triangular products lauum, ul_mult, lu_mult, mult_llh, mult_uhu

* status: proved
* how: lauum, ul_mult, lu_mult, mult_llh, mult_uhu recursive models.
* theorems: `lauum_correct`, `mult_llh_correct`, `mult_uhu_correct`, `ul_mult_correct`, `lu_mult_correct`, `ul_mult_empty_diverges`
* note: ul_mult on an empty matrix never returns (ul_mult_empty_diverges)

### C23 Matrix inversion from factorisations

* status: partial
* how: potri, getri (uxli, uili).
* theorems: `potri_correct`, `potri_throws`, `potri_quiet_refuted`, `getri_uili_correct`, `getri_uili_detects_zero`, `getri_uili_empty_diverges`, `getri_correct`, `getrf_getri_inverts`, `getri_uxli_empty_refuted`, `getri_by_uxli_safe`, `getri_by_uili_safe`
* note: potri ignores a failed factorization when errors do not throw (potri_quiet_refuted)

### C24 pttrf factorises a tridiagonal positive definite matrix as L*D*L^H

* status: proved
* how: pttrf model.
* theorems: `pttrf_factorizes`, `pttrf_detects`, `pttrf_empty_rejected`
* note: over every ordered *-field; D real; both reporting modes; n = 0 is always rejected by the size check (finding)

### C25 lacpy, laset, transpose, conjugate write exactly the selected part

* status: proved
* how: lacpy, laset, transpose, conjugate models.
* theorems: `lacpy_correct`, `laset_correct`, `lacpy_laset_reject`, `transpose_correct`, `conjtranspose_correct`, `transpose_rejects`, `conjugate_correct`

### C26 lascl multiplies the selected part by a/b

* status: partial
* how: lascl, rscl model, fuelled loop.
* theorems: `lascl_rejects`, `lascl_safe_partial`, `lascl_correct_partial`, `lascl_band_correct`, `rscl_correct`, `lascl_terminates_real_partial`, `lascl_terminates_complex_partial`, `lascl_hessenberg_refuted`
* note: out-of-bounds access for UpperHessenberg with n >= m (lascl.hpp:133): lascl_hessenberg_refuted; proved everywhere else

### C27 Norms return the documented quantity

* status: proved
* how: lange, lansy, lanhe, lantr, lassq, nrm2; Blue's thresholds as a record of constants with the laws used.
* theorems: `lassq_correct`, `nrm2_correct`, `lange_correct`, `lange_frobenius`, `lansy_correct`, `lanhe_correct`, `lansy_frobenius`, `lanhe_frobenius`, `lantr_correct`, `lantr_frobenius`, `nrm2_nan`, `lange_nan`, `lansy_lanhe_nan`, `lantr_nan`, `norms_reject`
* note: Max/One/Inf norms are exactly the documented maximum over the matrix the stored part stands for (real and complex, exact arithmetic). Frobenius and nrm2: lassq deliberately drops squares below tsml^2 once an element above tbig was met; the theorems say so (near_root): the square of the result is exactly the sum of squares when the sum is at most tbig^2 or there are no tiny entries, and otherwise misses at most k*tsml^2. NaN propagation holds in every arithmetic with NaN laws (binary64 instance). TwoNorm is rejected.

### C28 hasnan / hasinf are exact

* status: partial
* how: hasnan, hasinf.
* theorems: `hasnan_correct_partial`, `hasinf_correct_partial`, `hasnan_hasinf_band_correct`, `hasnan_hasinf_vec_correct`, `hasnan_hessenberg_refuted`, `hasinf_hessenberg_refuted`
* note: out-of-bounds access for UpperHessenberg with n >= m (hasnan.hpp:57, hasinf.hpp:57): the _refuted theorems; proved everywhere else

### C29 Matrix views address exactly the sub-matrix they name

* status: proved
* how: Model of plugins/legacyArray.hpp address arithmetic (Legacy.v).
* theorems: `matrix_injective`, `matrix_in_buffer`, `vector_injective`, `constructor_well_formed`, `slice_correct`, `rows_correct`, `cols_correct`, `transpose_view_correct`, `row_correct`, `col_correct`, `slice_row_correct`, `slice_col_correct`, `diag_correct`, `slices_disjoint`, `reshape_correct`, `reshape_vector_correct`, `vslice_correct`, `vreshape_correct`, `vreshape_v_correct`, `picks_inside`, `picks_distinct`, `picks_separate`, `banded_correct`, `vslice_backward_refuted`, `reshape_empty_refuted`
* note: Direction::Backward vector slices and empty reshapes of non-contiguous matrices are wrong in the code: the two _refuted theorems

### C30 Workspace queries are sufficient

* status: partial
* how: WorkInfo algebra (Work.v).
* theorems: `wok_closed`, `minmax_size`, `wadd_size`, `carve_contiguous`, `minmax_fits`, `wadd_fits`, `minmax_noncontiguous_refuted`, `larf_correct`, `geqr2_correct`, `unmq_level2_correct`, `ungq_level2_correct_partial`, `larfb_correct`, `geqrf_correct`, `gelqf_correct`, `geqlf_correct`, `gerqf_correct`, `unmq_correct`, `ungq_correct_partial`
* note: minMax/+= cover their arguments and any contiguous workspace of that size (in particular the ones the routines allocate) can be carved; larf, geqr2, larfb, the blocked factorizations, unmq and ungq run with the size their query reports. Refuted for non-contiguous workspaces (minmax_noncontiguous_refuted).

### C31 Householder reflectors

* status: proved
* how: larfg, larf.
* theorems: `larfg_correct`, `larf_work_correct`, `larf_correct`, `larf1_rejects_conforming_refuted`, `larf1_accepts_short_vector_refuted`
* note: Exact arithmetic over the real and complex numbers; larfg under norm_exact (nrm2 neglects nothing, see C27), including the rescaling loop for tiny norms. The (x,C0,C1) overload checks the wrong condition because of a misplaced parenthesis: two refutations.

### C32 QR factorisation

* status: partial
* how: geqr2, geqrf, ung2*, unm2*, ungq/unmq level2.
* theorems: `geqr2_work_correct`, `geqr2_correct`, `unmq_level2_work_correct`, `unmq_level2_correct`, `ungq_level2_work_correct`, `ungq_level2_correct_partial`, `ung2_correct_partial`, `geqr2_ung2r_correct`, `geqrf_work_correct`, `geqrf_correct`, `geqrf_ungqr_correct`, `ung_no_reflectors_refuted`, `unmq_too_many_reflectors_refuted`
* note: geqr2, ung2r/ung2l/ungl2/ungr2, unm2r/unm2l/unml2/unmr2 (both sides, all operations, all storage modes) proved; geqrf proved for every positive block size, also followed by ungqr. Missing because false of the code: ung2* with no reflectors reads tau[0] out of bounds (ung_no_reflectors_refuted)

### C33 lasrt sorts

* status: proved
* how: lasrt (quick/insertion sort with explicit stack).
* theorems: `lasrt_permutes`, `lasrt_sorts`, `lasrt_rejects`, `lasrt_binary64`
* note: every length; permutation and termination also with NaNs; sortedness for every strict weak order, in particular binary64 without NaN

### C34 lamrg merges two sorted runs

* status: proved
* how: lamrg.
* theorems: `lamrg_correct`
* note: permutation for all values; sorted when both runs are sorted in the stated directions

### C35 Plane rotations

* status: partial
* how: rot, rotg, rotm, rotmg.
* theorems: `rot_correct`, `rotm_correct`, `rotg_real_correct`, `rotg_real_reconstruct`, `rotg_cplx_correct`, `rotmg_correct_partial`, `rotmg_terminates`, `rotmg_trivial`, `rotmg_rejects`, `rotmg_indefinite`, `rotmg_rescaling_refuted`, `rotmg_infinite_weight_diverges`
* note: rot, rotm: every length, stride and value. rotg: exact arithmetic, all values and all positive scaling constants (real: also the reconstruction value z). rotmg: correct when at most one rescaling step is needed; with two or more the claim is false of the code (rotmg_rescaling_refuted: the second step overwrites h21, h12), and in binary64 rotmg does not terminate for d1 = +inf.

### C36 rot_sequence equals the product of individual rotations

* status: proved
* how: rot_sequence with its unrolled loops.
* theorems: `rot_sequence_applies`, `rot_sequence_layouts`, `rot_sequence_correct`, `rot_sequence_unitary`, `rot_sequence_rejects`, `rot_sequence_empty_rejected`, `rot_sequence_documented_order_refuted`
* note: All sizes, sides, directions and both layouts (plain and 3-fold unrolled loops); rot_sequence_applies holds in IEEE arithmetic too. The order is the opposite of the one documented in rot_sequence.hpp:33-39 (rot_sequence_documented_order_refuted); an empty dimension is always rejected.

### C37 Termination of blocked and recursive drivers

* status: partial
* how: Fuelled recursion; theorems exhibit that the result is never OutOfFuel.
* theorems: `potrf_safe`, `potrf_factorizes`, `trtri_inverts`, `lauum_correct`, `lu_mult_correct`, `mult_llh_correct`, `mult_uhu_correct`, `getrf_correct`, `getri_correct`, `lasrt_permutes`, `rotmg_terminates`, `lascl_terminates_real_partial`, `lascl_terminates_complex_partial`, `ul_mult_correct`, `ul_mult_empty_diverges`, `getri_uili_empty_diverges`, `potrf_blocked_zero_block_diverges`, `geqrf_zero_block_diverges`, `geqrf_correct`, `gelqf_correct`, `geqlf_correct`, `gerqf_correct`, `unmq_correct`, `ungq_correct_partial`, `rotmg_infinite_weight_diverges`, `trtri_safe`, `lauum_safe`, `potri_safe`, `ul_mult_safe`, `getri_uili_safe`, `lu_mult_safe`, `mult_llh_safe`, `mult_uhu_safe`, `pttrf_safe`, `getrf_safe`, `getrf_binary64`, `getri_by_uxli_safe`, `getri_by_uili_safe`
* note: The claim is false of the code for ul_mult and getri_uili on an empty matrix, for potrf_blocked and geqrf with block size 0 and for rotmg with an infinite weight (the _diverges theorems: no amount of fuel suffices); everywhere else the named theorems (statements of the form: returns, completes) include termination.

### C38 Error reporting is consistent

* status: partial
* how: tlapack_error modelled with both compile-time modes.
* theorems: `potrf_throws_order`, `potrf_variants_same_info`, `potrf_detects`, `trtri_detects_zero`, `trtri_throws_on_zero`, `getrf_variants_agree`, `getri_uili_detects_zero`, `potri_throws`, `potrf_blocked_throws_local_order`, `potrf_blocked_exception_order_refuted`, `trtri_exception_position_refuted`, `potri_quiet_refuted`
* note: Returned values identify the global position in every variant; the exceptions thrown by the blocked Cholesky (block-local order) and by trtri_recursive (always 1) do not, and potri ignores a failure reported by its first step when errors do not throw: the _refuted theorems.

### C39 Rounding errors of kernels obey the standard bound

* status: proved
* how: class FpModel (standard model with underflow), binary64 proved an instance through Flocq.
* theorems: `dot_backward_stable`, `dot_rounding_error`, `gemv_rounding_error`, `gemm_rounding_error`, `trsv_backward_stable`, `getrf_level0_backward_stable`, `binary64_constants`
* note: Any arithmetic with class FpModel, with IEEE binary64 as a proved instance (via Flocq); underflow included (feta terms); bounds for every finite result.

### C40 LQ, QL and RQ factorizations are factorizations

* status: partial
* how: gelq2, geql2, gerq2 models; one pure step lemma and one loop invariant shared by all three.
* theorems: `gelq2_work_correct`, `geql2_work_correct`, `gerq2_work_correct`, `gelq2_correct_partial`, `geql2_correct_partial`, `gerq2_correct`, `gelq2_empty_refuted`, `geql2_empty_refuted`
* note: Exact arithmetic over the real and complex numbers, every m and n. Missing because false of the code: on an empty matrix with an empty tau, gelq2 (n=0, m>1) and geql2 (m=0, n>1) evaluate tau[0] in their workspace query

### C41 Block reflectors

* status: partial
* how: larft by the recurrence of the triangular factor (a product of reflectors is a block reflector), larfb through the gemm/trmm/lacpy theorems.
* theorems: `larft_correct`, `larfb_work_correct`, `larfb_correct`, `larft_too_many_reflectors_refuted`, `larfb_shape_check_refuted`
* note: Exact arithmetic, all sizes, sides, operations, directions and storage modes. Missing because false of the code: larft accepts k > n and then reads V out of bounds; larfb accepts a V of the wrong shape (operator precedence in its check) and slices it out of range

### C42 Blocked QR, LQ, QL and RQ factorizations are factorizations for every block size

* status: partial
* how: One block step (level-2 factorization of a panel, then the block reflector applied to the rest) preserves the invariant of the unblocked loops; induction over the blocks.
* theorems: `geqrf_work_correct`, `gelqf_work_correct`, `geqlf_work_correct`, `gerqf_work_correct`, `geqrf_correct`, `gelqf_correct`, `geqlf_correct`, `gerqf_correct`, `geqrf_ungqr_correct`, `short_tau_refuted`, `geqrf_zero_block_diverges`
* note: Exact arithmetic over the real and complex numbers, every m, n and positive block size, with a given and with an allocated workspace. Missing because false of the code: with a tau shorter than the first block the query slices tau out of range before the argument check (short_tau_refuted)

### C43 Blocked application and generation of Q

* status: partial
* how: The product of the reflectors splits into the products of the blocks; induction over the blocks, in either order.
* theorems: `unmq_work_correct`, `unmq_correct`, `ungq_work_correct_partial`, `ungq_correct_partial`, `geqrf_ungqr_correct`, `ungq_no_reflectors_refuted`, `unmq_zero_block_refuted`
* note: All forms. Missing because false of the code: ungq with k = 0 (Q = I) or block size 0, and unmq with block size 0, divide by zero

### C44 Reduction to Hessenberg form

* status: partial
* how: One step (larfg, then larf from the right and from the left) is a similarity by an embedded reflector; loop invariant A0 = Q H Q^H; the norm bound larfg needs is invariant under unitary similarity; unghr/unmhr through the level-2/blocked Q theorems on a window (the product of windowed reflectors is the windowed product).
* theorems: `gehd2_work_correct`, `gehd2_correct`, `unghr_work_correct_partial`, `unghr_correct_partial`, `gehd2_unghr_correct`, `unmhr_work_correct`, `unmhr_correct_partial`, `gehd2_empty_refuted`, `gehd2_ihi0_refuted`, `unghr_ihi0_refuted`, `unghr_ilo_n_refuted`, `unmhr_trivial_refuted`, `unmhr_ilo_ihi_refuted`
* note: Exact arithmetic over the real and complex numbers. Missing because false of the code: n = 0 is rejected (n-1 wraps around), ihi = 0 and, for unghr, ilo = n leave the matrix; unmhr has undefined behaviour for ihi <= ilo+1 (Q = I); unghr for a non-square A is not covered

### C45 Reduction to bidiagonal form

* status: partial
* how: Two one-sided steps per column; invariant A0 = Q B Z^H, both shapes through one section generic in the storage mode; ungbr: the shifting loops, then ungq on the window.
* theorems: `gebd2_work_correct`, `gebd2_correct_partial`, `ungbr_q_work_correct_partial`, `ungbr_q_correct_partial`, `ungbr_p_work_correct_partial`, `ungbr_p_correct_partial`, `ungbr_factors`, `gebd2_empty_refuted`, `ungbr_q_k0_refuted`, `ungbr_q_empty_refuted`, `ungbr_p_empty_refuted`
* note: Exact arithmetic over the real and complex numbers, every m and n. Missing because false of the code: a matrix without rows, with more than one column and an empty tauv, makes the workspace query evaluate tauv[0]; ungbr with k = 0 divides by zero, and without rows (ungbr_q) or columns (ungbr_p) an index wraps around

### C46 Reduction of a Hermitian matrix to tridiagonal form

* status: partial
* how: The rank-2 update her2(v,w) with w = tau A v - (tau/2)(w^H v) v is the two-sided reflection (TridProof.rank2); invariant A0 = Q T Q^H; ungtr: the shifting loops, then ungq.
* theorems: `hetd2_correct`, `ungtr_correct`, `hetd2_ungtr_correct`, `hetd2_empty_refuted`
* note: Exact arithmetic over the real and complex numbers, both triangles, every n > 0. Missing because false of the code: n = 0 is rejected (n-1 wraps around)

### C47 Structured and out-of-place matrix products

* status: partial
* how: gemmtr and hemm2: loop invariants, hemm2 with a per-column invariant for the two-sided update; mult_hehe, trmm_out and trsm_tri: induction on the recursion with a block-by-block algebra (asm, bstep), reusing the theorems on gemm, hemm2 and trsm; divergence by induction on the fuel
* theorems: `gemmtr_correct`, `gemmtr_rejects`, `hemm2_correct`, `hemm2_general_hermitian`, `mult_hehe_correct`, `mult_hehe_nobeta_correct`, `trmm_out_correct`, `trsm_tri_correct`, `gemmtr_dims_refuted`, `mult_hehe_empty_refuted`, `mult_hehe_nonsquare_silent`, `trmm_out_empty_diverges`, `trsm_tri_empty_diverges`
* note: Exact arithmetic over the real and complex numbers, every size. Missing because false of the code: gemmtr lets a C with only one matching dimension through and accesses elements outside of it; an empty matrix makes mult_hehe access element (0,0) and trmm_out and trsm_tri recurse forever; trmm_out, documented for op(A) = A only, does not check it, and mult_hehe silently ignores a non-square A

### C48 Symmetric tridiagonal eigenvalue problem

* status: partial
* how: invariant of the implicit QR/QL iteration: the current tridiagonal matrix equals W^H T W up to the deflated elements, whose Frobenius norms add up (Minkowski); one rotation of the bulge chase is one similarity by a plane rotation; permutations for the sort; the 2-by-2 kernels over R; safety in every arithmetic by a frame invariant; the NaN by vm_compute on binary64
* theorems: `steqr_correct_partial`, `steqr_always_returns_0`, `laev2_correct`, `lartg_correct`, `lapy2_correct`, `steqr_second_difference_nan_refuted`
* note: Exact arithmetic: the matrix stays unitarily similar to T up to the deflated elements, so the result is right whenever the off-diagonal has become zero. Missing: that it does within 30 n iterations. False of the code: failure to converge is never reported (0 is always returned), and in binary64 two equal diagonal elements make the shift 0/0-like: the second-difference matrix gives only NaNs

### C49 Several sequences of rotations at once

* status: partial
* how: progress vectors: after any prefix of the wavefront order the line equals the first p(i) rotations of each sequence i in sequence order; one more rotation of sequence i commutes past the later sequences because they are at least two indices behind; invariants for the start-up, pipelined and shut-down phases, generic in whether the lines are the inner or the outer loop; the counterexample by vm_compute on binary64
* theorems: `rot_sequence3_applies_partial`, `rot_sequence3_is_rot_sequences_partial`, `rot_sequence3_correct_partial`, `rot_sequence3_rejects`, `rot_sequence3_many_columns_refuted`
* note: Every arithmetic, bit for bit (the order of the interleaved rotations is shown not to matter without any algebraic law). Missing because false of the code: Left, Forward with more than 256 columns and at least two sequences applies the first rotations once per block of columns

### C50 Reduction to Hessenberg-triangular form

* status: proved
* how: state of four disjoint views; each step multiplies (A, B) by a Givens rotation from the left and one from the right; invariant: A and B are U^H A0 V and U^H B0 V with U, V unitary, Q and Z hold Q0 U and Z0 V, B is triangular, the columns of A before j are Hessenberg and column j is zero from row i on; rotg enters through its proved specification only
* theorems: `gghrd_real_correct`, `gghrd_cplx_correct`, `gghrd_full`, `gghrd_rejects`
* note: Exact arithmetic over the real and complex numbers, every n > 0, ilo < ihi <= n. The code rejects n = 0 (it requires ilo < n).

### C51 Rotations through a triangular matrix

* status: partial
* how: column by column: left rotations on zeros do nothing, so the program applies exactly the product P; invariant: the columns from i on hold P triu(A0) times the product of the right rotations found so far, upper triangular there
* theorems: `hessenberg_rq_real_correct`, `hessenberg_rq_cplx_correct`, `hessenberg_rq_empty_refuted`, `hessenberg_rq_documented_equation_refuted`
* note: Exact arithmetic over the real and complex numbers, every n > 0. Missing because false of the code: an empty matrix is undefined behaviour (n-1 wraps around).

### C52 Variants of a factorization agree

* status: proved
* how: each driver is a case distinction over the routines of C32, C40, C42 and C43; the round-trip theorems compose their contracts, using only the stored factor and tau
* theorems: `householder_work_correct`, `householder_correct`, `gen_householder_q_work_correct`, `gen_householder_q_correct`, `householder_q_mul_work_correct`, `householder_q_mul_correct`, `householder_then_gen_q`, `householder_then_q_mul`
* note: Exact arithmetic over the real and complex numbers (norms within the range of h, as for C32/C40), nonempty matrices, any positive block size

### C53 Blocked Hessenberg reduction equals the unblocked contract, for every block size and crossover

* status: partial
* how: lahr2 is modelled statement by statement; its invariant states columns of A, T and Y in closed form (compact WY representation of the product of reflectors, Y = A V T), a block then preserves the invariant of the unblocked reduction (C44), whose step finishes the remaining columns
* theorems: `gehrd_work_correct`, `gehrd_correct`, `hessenberg_work_correct`, `hessenberg_correct`, `gehrd_unghr_correct`, `gehrd_empty_ok`, `gehrd_tau_length_refuted`, `gehrd_zero_block_refuted`, `gehrd_ihi0_refuted`, `gehrd_empty_rejected`
* note: Exact arithmetic over the real and complex numbers (norms within the range of h). False of the code, and refuted: a tau of the documented length n-1 when the blocked path is taken with ihi = n (slice out of range), nb = 0, ihi = 0, the empty matrix with a caller-supplied workspace

### C54 Blocked bidiagonal reduction equals the unblocked contract, for every block size

* status: partial
* how: labrd is modelled statement by statement; after i of its steps the matrix that the unblocked algorithm would hold is A - V Y^H - X U^H on the part not yet updated, and this virtual matrix satisfies the invariant of the unblocked reduction (C45); the two gemms of a block make it actual; wide matrices are the conjugate transposes of tall ones
* theorems: `gebrd_work_correct`, `gebrd_correct`, `bidiag_work_correct`, `bidiag_correct_partial`, `gebrd_short_tau_refuted`, `gebrd_zero_block_refuted`, `gebd2_empty_refuted`
* note: Exact arithmetic over the real and complex numbers (norms within the range of h), every m and n, every positive block size. False of the code, and refuted: nb = 0 (an index wraps around); Level2 with m = 0, more than one column and an empty tauv (C45); no argument is checked, so that a tau vector that is too short is sliced out of range

### C55 Small kernels of the eigenvalue and SVD algorithms

* status: partial
* how: the kernels are modelled statement by statement as functions over the reals (or programs on views); case analysis on the branches and algebra over R; the scaling factors are shown to cancel or to be a common nonzero factor
* theorems: `ladiv_correct`, `singularvalues22_correct`, `svd22_correct`, `svd22_singular_values`, `laed5_correct`, `lahqr_schur22_correct`, `lahqr_schur22_opposite_refuted`, `lahqr_schur22_defective_refuted`, `lahqr_schur22_equal_diagonal_refuted`, `lahqr_eig22_correct`, `complex_sqrt_exists`, `lahqr_shiftcolumn_real_correct`, `lahqr_shiftcolumn_complex_correct`, `lahqr_shiftcolumn_rejects`, `inv_house3_correct`, `inv_house3_singular`
* note: Exact arithmetic. False of the code, and refuted: lahqr_schur22 for b = -c (half the matrix is returned), for a = d with b c > 0 (division by zero) and for a double eigenvalue with |b| < |c| (lower triangular result); inv_house3 for a singular trailing block whose pivot row has the larger first element

### C56 Recursive QR factorization that keeps the block reflector factor

* status: proved
* how: induction on the recursion: the update is characterized as multiplication by the conjugate transpose of the block reflector of the left half, the two compact WY forms are joined algebraically (T12 = -T11 V1^H V2 T22), and the base cases come from larfg and from geqrf followed by larft on the diagonal of T
* theorems: `geqrt3_correct`, `geqrt3_wide`, `geqrt3_small_T_refuted`
* note: Exact arithmetic over the real and complex numbers (norms of the columns within the range of h, as for C32). geqrt3_small_T_refuted delimits the claim: the shape of T is not checked, and a T that is too small is sliced out of range

### C57 Blocked LQ factorization that keeps the factors of its block reflectors

* status: partial
* how: the block step of C42 (gelq2, larft on the diagonal of the block of TT, larfb from the right with the rows of TT below as workspace) keeps the invariant of the factorization, with the scalar factors read at TT(i, i mod nb), and leaves the earlier blocks of A and TT alone; for m > n with one block, the last rows are shown untouched and orthogonality gives a contradiction
* theorems: `gelqt_work_correct_partial`, `gelqt_correct_partial`, `gelqt_tall_untouched`, `gelqt_tall_refuted`, `gelqt_nb0_refuted`
* note: Exact arithmetic over the real and complex numbers (norms of the rows within the range of h, as for C40), m <= n, every nb > 0. False of the code, and refuted: m > n (the rows below the last block are not updated; gelqt_tall_refuted exhibits a 3-by-2 matrix that is not factorized), nb = 0 (the loop never ends)

### C58 Small Sylvester equations

* status: partial
* how: each elimination step is shown to reflect solutions of the 4-by-4 system: row exchanges permute equations, column exchanges permute unknowns, elimination adds multiples of the pivot equation; back substitution is checked by field; the 4-by-4 system is the matrix equation
* theorems: `lasy2_correct`, `lasy2_rejects`, `lasy2_mixed_refuted`, `lasy2_conjtrans_refuted`
* note: Exact real arithmetic, orders 1 and 2 (equal), NoTrans and Trans operands, X allowed to overlap the other operands. False of the code, and refuted: blocks of different orders report an error without computing X, and ConjTrans operands are taken as NoTrans. With info = 1 the equation is shown to be nearly singular: some non-zero Z is mapped to something below the pivot threshold. Not proved: the accuracy in floating-point arithmetic.

<!-- end table -->

## 6. Wrong programs

`seeded/mutants*.py` are lists of edits to model definitions; `tools/mutate.py` applies each to a scratch copy, rebuilds, and appends the result to
`seeded/LOG.jsonl`.  Edits that survived led to tightened statements (field `theorems_tightened`), or are equivalent programs (noted).
