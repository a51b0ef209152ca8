{
 "claims": [
  {
   "property": "C01",
   "status": "proved",
   "theorems": [
    "gemm_correct",
    "gemm_nobeta_correct",
    "gemm_legacy_correct"
   ],
   "note": ""
  },
  {
   "property": "C04",
   "status": "proved",
   "theorems": [
    "axpy_correct",
    "copy_correct",
    "axpy_copy_longer_y",
    "scal_correct",
    "swap_correct",
    "dot_correct",
    "dotu_correct",
    "asum_correct"
   ],
   "note": ""
  },
  {
   "property": "C05",
   "status": "proved",
   "theorems": [
    "iamax_nan",
    "iamax_inf",
    "iamax_correct",
    "iamax_empty",
    "iamax_in_range",
    "iamax_binary64"
   ],
   "note": "iamax_correct assumes that magnitudes of finite complex entries do not overflow (always true for abs1 of reals)"
  },
  {
   "property": "C06",
   "status": "partial",
   "theorems": [
    "gemv_correct_partial",
    "gemv_empty_sum_refuted"
   ],
   "note": "missing case n=0, m>0: there the claim is false of the code (gemv.hpp:82 returns before scaling y), proved by gemv_empty_sum_refuted"
  },
  {
   "property": "C07",
   "status": "proved",
   "theorems": [
    "ger_correct",
    "geru_correct",
    "syr_correct",
    "syr2_correct",
    "her_correct",
    "her2_correct"
   ],
   "note": ""
  },
  {
   "property": "C08",
   "status": "proved",
   "theorems": [
    "hemv_correct",
    "symv_correct"
   ],
   "note": ""
  },
  {
   "property": "C09",
   "status": "proved",
   "theorems": [
    "trmv_correct"
   ],
   "note": ""
  },
  {
   "property": "C10",
   "status": "proved",
   "theorems": [
    "trsv_correct"
   ],
   "note": ""
  },
  {
   "property": "C11",
   "status": "proved",
   "theorems": [
    "trsm_correct"
   ],
   "note": ""
  },
  {
   "property": "C12",
   "status": "proved",
   "theorems": [
    "trmm_correct"
   ],
   "note": ""
  },
  {
   "property": "C13",
   "status": "proved",
   "theorems": [
    "hemm_correct",
    "symm_correct"
   ],
   "note": ""
  },
  {
   "property": "C14",
   "status": "proved",
   "theorems": [
    "herk_correct",
    "syrk_correct",
    "her2k_correct",
    "syr2k_correct"
   ],
   "note": ""
  },
  {
   "property": "C29",
   "status": "proved",
   "theorems": [
    "matrix_injective",
    "matrix_in_buffer",
    "vector_injective",
    "constructor_well_formed",
    "slice_correct",
    "rows_correct",
    "cols_correct",
    "transpose_view_correct",
    "row_correct",
    "col_correct",
    "slice_row_correct",
    "slice_col_correct",
    "diag_correct",
    "slices_disjoint",
    "reshape_correct",
    "reshape_vector_correct",
    "vslice_correct",
    "vreshape_correct",
    "vreshape_v_correct",
    "picks_inside",
    "picks_distinct",
    "picks_separate",
    "banded_correct",
    "vslice_backward_refuted",
    "reshape_empty_refuted"
   ],
   "note": "Direction::Backward vector slices and empty reshapes of non-contiguous matrices are wrong in the code: the two _refuted theorems"
  },
  {
   "property": "C02",
   "status": "proved",
   "theorems": [
    "axpy_rejects",
    "copy_rejects",
    "dot_rejects",
    "dotu_rejects",
    "swap_rejects",
    "rot_rejects",
    "rotm_rejects",
    "gemm_rejects",
    "gemm_safe",
    "gemv_rejects",
    "gemv_safe",
    "ger_rejects",
    "ger_safe",
    "geru_rejects",
    "geru_safe",
    "her_rejects",
    "her_safe",
    "syr_rejects",
    "syr_safe",
    "her2_rejects",
    "her2_safe",
    "syr2_rejects",
    "syr2_safe",
    "hemv_rejects",
    "hemv_safe",
    "symv_rejects",
    "symv_safe",
    "trmv_rejects",
    "trmv_safe",
    "trsv_rejects",
    "trsv_safe",
    "trsm_rejects",
    "trsm_safe",
    "trmm_rejects",
    "trmm_safe",
    "hemm_rejects",
    "hemm_safe",
    "symm_rejects",
    "symm_safe",
    "herk_rejects",
    "herk_safe",
    "syrk_rejects",
    "syrk_safe",
    "her2k_rejects",
    "her2k_safe",
    "syr2k_rejects",
    "syr2k_safe",
    "potrf_rejects",
    "potrf_safe",
    "potrs_rejects",
    "potrs_safe"
   ],
   "note": ""
  },
  {
   "property": "C03",
   "status": "partial",
   "theorems": [
    "gemm_nobeta_two_runs",
    "hemm_nobeta_two_runs",
    "symm_nobeta_two_runs",
    "hemv_nobeta_two_runs",
    "symv_nobeta_two_runs",
    "herk_nobeta_two_runs",
    "syrk_nobeta_two_runs",
    "her2k_nobeta_two_runs",
    "syr2k_nobeta_two_runs",
    "gemv_nobeta_two_runs_partial",
    "gemv_nobeta_empty_sum_refuted",
    "gemm_nobeta_correct"
   ],
   "note": "gemv without beta leaves y untouched when the inner dimension is 0 and y is not empty (gemv.hpp:82): the claim is false there, proved by gemv_nobeta_empty_sum_refuted; everything else is proved"
  },
  {
   "property": "C15",
   "status": "proved",
   "theorems": [
    "trmv_two_runs",
    "trsv_two_runs",
    "trsm_two_runs",
    "trmm_two_runs",
    "hemv_two_runs",
    "symv_two_runs",
    "hemm_two_runs",
    "symm_two_runs",
    "herk_safe",
    "herk_two_runs",
    "her_safe",
    "potrf_two_runs",
    "potrf_safe",
    "potrs_two_runs",
    "trtri_safe",
    "lauum_safe",
    "potri_safe",
    "mult_llh_safe",
    "mult_uhu_safe",
    "trtri_two_runs",
    "lauum_two_runs",
    "potri_two_runs",
    "mult_llh_two_runs",
    "mult_uhu_two_runs"
   ],
   "note": ""
  },
  {
   "property": "C16",
   "status": "proved",
   "theorems": [
    "gemm_two_runs",
    "gemv_two_runs",
    "ger_two_runs",
    "geru_two_runs",
    "her_two_runs",
    "syr_two_runs",
    "her2_two_runs",
    "syr2_two_runs",
    "hemv_two_runs",
    "symv_two_runs",
    "trmv_two_runs",
    "trsv_two_runs",
    "trsm_two_runs",
    "trmm_two_runs",
    "hemm_two_runs",
    "symm_two_runs",
    "herk_two_runs",
    "syrk_two_runs",
    "her2k_two_runs",
    "syr2k_two_runs",
    "axpy_two_runs",
    "copy_two_runs",
    "scal_two_runs",
    "swap_two_runs",
    "rot_two_runs",
    "rotm_two_runs",
    "dot_two_runs",
    "dotu_two_runs",
    "asum_two_runs",
    "iamax_two_runs",
    "potrf_two_runs",
    "potrs_two_runs",
    "trtri_two_runs",
    "lauum_two_runs",
    "potri_two_runs",
    "ul_mult_two_runs",
    "getri_uili_two_runs",
    "lu_mult_two_runs",
    "mult_llh_two_runs",
    "mult_uhu_two_runs",
    "pttrf_two_runs"
   ],
   "note": "all modelled BLAS kernels, the Cholesky routines, triangular inversion, products of triangular factors, potri, pttrf; no law of arithmetic assumed"
  },
  {
   "property": "C17",
   "status": "proved",
   "theorems": [
    "potrf_factorizes",
    "potrf_zero_means_factorized",
    "potrf_variants_agree"
   ],
   "note": "all four variants (Blocked, Recursive, Level2, RightLooking), every block size > 0, exact arithmetic"
  },
  {
   "property": "C18",
   "status": "partial",
   "theorems": [
    "potrf_detects",
    "potrf_zero_iff_posdef",
    "potrf_variants_same_info",
    "potrf_throws_order",
    "potrf_blocked_throws_local_order",
    "potrf_blocked_exception_order_refuted"
   ],
   "note": "the returned value is proved for all variants; in throwing mode the blocked variants throw the block-local order, so the exception part of the claim is false of the code: potrf_blocked_exception_order_refuted"
  },
  {
   "property": "C19",
   "status": "proved",
   "theorems": [
    "potrs_correct",
    "potrf_potrs_solve"
   ],
   "note": ""
  },
  {
   "property": "C20",
   "status": "partial",
   "theorems": [
    "getrf_correct",
    "getrf_multipliers",
    "getrf_level0_multipliers",
    "getrf_level0_multipliers_refuted",
    "getrf_variants_agree",
    "getrf_success_iff",
    "getrf_rejects",
    "getrf_safe",
    "getrf_binary64"
   ],
   "note": "P A = L U, pivot range, frame, meaning of the returned index, agreement of both variants: proved for real and complex types. |L| <= 1 is proved for the recursive variant and for real types; for complex types the level-0 variant only satisfies |L|^2 <= 2 (getrf_level0_multipliers) and exceeds 1 (getrf_level0_multipliers_refuted)"
  },
  {
   "property": "C21",
   "status": "partial",
   "theorems": [
    "trtri_inverts",
    "trtri_zero_means_inverted",
    "trtri_detects_zero",
    "trtri_throws_on_zero",
    "trtri_exception_position_refuted"
   ],
   "note": "inverse and returned position proved for both triangles and diagonals; the position carried by the exception is false of the code: trtri_exception_position_refuted"
  },
  {
   "property": "C22",
   "status": "proved",
   "theorems": [
    "lauum_correct",
    "mult_llh_correct",
    "mult_uhu_correct",
    "ul_mult_correct",
    "lu_mult_correct",
    "ul_mult_empty_diverges"
   ],
   "note": "ul_mult on an empty matrix never returns (ul_mult_empty_diverges)"
  },
  {
   "property": "C23",
   "status": "partial",
   "theorems": [
    "potri_correct",
    "potri_throws",
    "potri_quiet_refuted",
    "getri_uili_correct",
    "getri_uili_detects_zero",
    "getri_uili_empty_diverges",
    "getri_correct",
    "getrf_getri_inverts",
    "getri_uxli_empty_refuted",
    "getri_by_uxli_safe",
    "getri_by_uili_safe"
   ],
   "note": "potri ignores a failed factorization when errors do not throw (potri_quiet_refuted)"
  },
  {
   "property": "C25",
   "status": "proved",
   "theorems": [
    "lacpy_correct",
    "laset_correct",
    "lacpy_laset_reject",
    "transpose_correct",
    "conjtranspose_correct",
    "transpose_rejects",
    "conjugate_correct"
   ],
   "note": ""
  },
  {
   "property": "C26",
   "status": "partial",
   "theorems": [
    "lascl_rejects",
    "lascl_safe_partial",
    "lascl_correct_partial",
    "lascl_band_correct",
    "rscl_correct",
    "lascl_terminates_real_partial",
    "lascl_terminates_complex_partial",
    "lascl_hessenberg_refuted"
   ],
   "note": "out-of-bounds access for UpperHessenberg with n >= m (lascl.hpp:133): lascl_hessenberg_refuted; proved everywhere else"
  },
  {
   "property": "C28",
   "status": "partial",
   "theorems": [
    "hasnan_correct_partial",
    "hasinf_correct_partial",
    "hasnan_hasinf_band_correct",
    "hasnan_hasinf_vec_correct",
    "hasnan_hessenberg_refuted",
    "hasinf_hessenberg_refuted"
   ],
   "note": "out-of-bounds access for UpperHessenberg with n >= m (hasnan.hpp:57, hasinf.hpp:57): the _refuted theorems; proved everywhere else"
  },
  {
   "property": "C24",
   "status": "proved",
   "theorems": [
    "pttrf_factorizes",
    "pttrf_detects",
    "pttrf_empty_rejected"
   ],
   "note": "over every ordered *-field; D real; both reporting modes; n = 0 is always rejected by the size check (finding)"
  },
  {
   "property": "C27",
   "status": "proved",
   "theorems": [
    "lassq_correct",
    "nrm2_correct",
    "lange_correct",
    "lange_frobenius",
    "lansy_correct",
    "lanhe_correct",
    "lansy_frobenius",
    "lanhe_frobenius",
    "lantr_correct",
    "lantr_frobenius",
    "nrm2_nan",
    "lange_nan",
    "lansy_lanhe_nan",
    "lantr_nan",
    "norms_reject"
   ],
   "note": "Max/One/Inf norms are exactly the documented maximum over the matrix the stored part stands for (real and complex, exact arithmetic). Frobenius and nrm2: lassq deliberately drops squares below tsml^2 once an element above tbig was met; the theorems say so (near_root): the square of the result is exactly the sum of squares when the sum is at most tbig^2 or there are no tiny entries, and otherwise misses at most k*tsml^2. NaN propagation holds in every arithmetic with NaN laws (binary64 instance). TwoNorm is rejected."
  },
  {
   "property": "C30",
   "status": "partial",
   "theorems": [
    "wok_closed",
    "minmax_size",
    "wadd_size",
    "carve_contiguous",
    "minmax_fits",
    "wadd_fits",
    "minmax_noncontiguous_refuted",
    "larf_correct",
    "geqr2_correct",
    "unmq_level2_correct",
    "ungq_level2_correct_partial",
    "larfb_correct",
    "geqrf_correct",
    "gelqf_correct",
    "geqlf_correct",
    "gerqf_correct",
    "unmq_correct",
    "ungq_correct_partial"
   ],
   "note": "minMax/+= cover their arguments and any contiguous workspace of that size (in particular the ones the routines allocate) can be carved; larf, geqr2, larfb, the blocked factorizations, unmq and ungq run with the size their query reports. Refuted for non-contiguous workspaces (minmax_noncontiguous_refuted)."
  },
  {
   "property": "C31",
   "status": "proved",
   "theorems": [
    "larfg_correct",
    "larf_work_correct",
    "larf_correct",
    "larf1_rejects_conforming_refuted",
    "larf1_accepts_short_vector_refuted"
   ],
   "note": "Exact arithmetic over the real and complex numbers; larfg under norm_exact (nrm2 neglects nothing, see C27), including the rescaling loop for tiny norms. The (x,C0,C1) overload checks the wrong condition because of a misplaced parenthesis: two refutations."
  },
  {
   "property": "C32",
   "status": "partial",
   "theorems": [
    "geqr2_work_correct",
    "geqr2_correct",
    "unmq_level2_work_correct",
    "unmq_level2_correct",
    "ungq_level2_work_correct",
    "ungq_level2_correct_partial",
    "ung2_correct_partial",
    "geqr2_ung2r_correct",
    "geqrf_work_correct",
    "geqrf_correct",
    "geqrf_ungqr_correct",
    "ung_no_reflectors_refuted",
    "unmq_too_many_reflectors_refuted"
   ],
   "note": "geqr2, ung2r/ung2l/ungl2/ungr2, unm2r/unm2l/unml2/unmr2 (both sides, all operations, all storage modes) proved; geqrf proved for every positive block size, also followed by ungqr. Missing because false of the code: ung2* with no reflectors reads tau[0] out of bounds (ung_no_reflectors_refuted)"
  },
  {
   "property": "C33",
   "status": "proved",
   "theorems": [
    "lasrt_permutes",
    "lasrt_sorts",
    "lasrt_rejects",
    "lasrt_binary64"
   ],
   "note": "every length; permutation and termination also with NaNs; sortedness for every strict weak order, in particular binary64 without NaN"
  },
  {
   "property": "C34",
   "status": "proved",
   "theorems": [
    "lamrg_correct"
   ],
   "note": "permutation for all values; sorted when both runs are sorted in the stated directions"
  },
  {
   "property": "C35",
   "status": "partial",
   "theorems": [
    "rot_correct",
    "rotm_correct",
    "rotg_real_correct",
    "rotg_real_reconstruct",
    "rotg_cplx_correct",
    "rotmg_correct_partial",
    "rotmg_terminates",
    "rotmg_trivial",
    "rotmg_rejects",
    "rotmg_indefinite",
    "rotmg_rescaling_refuted",
    "rotmg_infinite_weight_diverges"
   ],
   "note": "rot, rotm: every length, stride and value. rotg: exact arithmetic, all values and all positive scaling constants (real: also the reconstruction value z). rotmg: correct when at most one rescaling step is needed; with two or more the claim is false of the code (rotmg_rescaling_refuted: the second step overwrites h21, h12), and in binary64 rotmg does not terminate for d1 = +inf."
  },
  {
   "property": "C36",
   "status": "proved",
   "theorems": [
    "rot_sequence_applies",
    "rot_sequence_layouts",
    "rot_sequence_correct",
    "rot_sequence_unitary",
    "rot_sequence_rejects",
    "rot_sequence_empty_rejected",
    "rot_sequence_documented_order_refuted"
   ],
   "note": "All sizes, sides, directions and both layouts (plain and 3-fold unrolled loops); rot_sequence_applies holds in IEEE arithmetic too. The order is the opposite of the one documented in rot_sequence.hpp:33-39 (rot_sequence_documented_order_refuted); an empty dimension is always rejected."
  },
  {
   "property": "C37",
   "status": "partial",
   "theorems": [
    "potrf_safe",
    "potrf_factorizes",
    "trtri_inverts",
    "lauum_correct",
    "lu_mult_correct",
    "mult_llh_correct",
    "mult_uhu_correct",
    "getrf_correct",
    "getri_correct",
    "lasrt_permutes",
    "rotmg_terminates",
    "lascl_terminates_real_partial",
    "lascl_terminates_complex_partial",
    "ul_mult_correct",
    "ul_mult_empty_diverges",
    "getri_uili_empty_diverges",
    "potrf_blocked_zero_block_diverges",
    "geqrf_zero_block_diverges",
    "geqrf_correct",
    "gelqf_correct",
    "geqlf_correct",
    "gerqf_correct",
    "unmq_correct",
    "ungq_correct_partial",
    "rotmg_infinite_weight_diverges",
    "trtri_safe",
    "lauum_safe",
    "potri_safe",
    "ul_mult_safe",
    "getri_uili_safe",
    "lu_mult_safe",
    "mult_llh_safe",
    "mult_uhu_safe",
    "pttrf_safe",
    "getrf_safe",
    "getrf_binary64",
    "getri_by_uxli_safe",
    "getri_by_uili_safe"
   ],
   "note": "The claim is false of the code for ul_mult and getri_uili on an empty matrix, for potrf_blocked and geqrf with block size 0 and for rotmg with an infinite weight (the _diverges theorems: no amount of fuel suffices); everywhere else the named theorems (statements of the form: returns, completes) include termination."
  },
  {
   "property": "C38",
   "status": "partial",
   "theorems": [
    "potrf_throws_order",
    "potrf_variants_same_info",
    "potrf_detects",
    "trtri_detects_zero",
    "trtri_throws_on_zero",
    "getrf_variants_agree",
    "getri_uili_detects_zero",
    "potri_throws",
    "potrf_blocked_throws_local_order",
    "potrf_blocked_exception_order_refuted",
    "trtri_exception_position_refuted",
    "potri_quiet_refuted"
   ],
   "note": "Returned values identify the global position in every variant; the exceptions thrown by the blocked Cholesky (block-local order) and by trtri_recursive (always 1) do not, and potri ignores a failure reported by its first step when errors do not throw: the _refuted theorems."
  },
  {
   "property": "C39",
   "status": "proved",
   "theorems": [
    "dot_backward_stable",
    "dot_rounding_error",
    "gemv_rounding_error",
    "gemm_rounding_error",
    "trsv_backward_stable",
    "getrf_level0_backward_stable",
    "binary64_constants"
   ],
   "note": "Any arithmetic with class FpModel, with IEEE binary64 as a proved instance (via Flocq); underflow included (feta terms); bounds for every finite result."
  },
  {
   "property": "C40",
   "status": "partial",
   "theorems": [
    "gelq2_work_correct",
    "geql2_work_correct",
    "gerq2_work_correct",
    "gelq2_correct_partial",
    "geql2_correct_partial",
    "gerq2_correct",
    "gelq2_empty_refuted",
    "geql2_empty_refuted"
   ],
   "note": "Exact arithmetic over the real and complex numbers, every m and n. Missing because false of the code: on an empty matrix with an empty tau, gelq2 (n=0, m>1) and geql2 (m=0, n>1) evaluate tau[0] in their workspace query"
  },
  {
   "property": "C41",
   "status": "partial",
   "theorems": [
    "larft_correct",
    "larfb_work_correct",
    "larfb_correct",
    "larft_too_many_reflectors_refuted",
    "larfb_shape_check_refuted"
   ],
   "note": "Exact arithmetic, all sizes, sides, operations, directions and storage modes. Missing because false of the code: larft accepts k > n and then reads V out of bounds; larfb accepts a V of the wrong shape (operator precedence in its check) and slices it out of range"
  },
  {
   "property": "C42",
   "status": "partial",
   "theorems": [
    "geqrf_work_correct",
    "gelqf_work_correct",
    "geqlf_work_correct",
    "gerqf_work_correct",
    "geqrf_correct",
    "gelqf_correct",
    "geqlf_correct",
    "gerqf_correct",
    "geqrf_ungqr_correct",
    "short_tau_refuted",
    "geqrf_zero_block_diverges"
   ],
   "note": "Exact arithmetic over the real and complex numbers, every m, n and positive block size, with a given and with an allocated workspace. Missing because false of the code: with a tau shorter than the first block the query slices tau out of range before the argument check (short_tau_refuted)"
  },
  {
   "property": "C43",
   "status": "partial",
   "theorems": [
    "unmq_work_correct",
    "unmq_correct",
    "ungq_work_correct_partial",
    "ungq_correct_partial",
    "geqrf_ungqr_correct",
    "ungq_no_reflectors_refuted",
    "unmq_zero_block_refuted"
   ],
   "note": "All forms. Missing because false of the code: ungq with k = 0 (Q = I) or block size 0, and unmq with block size 0, divide by zero"
  },
  {
   "property": "C44",
   "status": "partial",
   "theorems": [
    "gehd2_work_correct",
    "gehd2_correct",
    "unghr_work_correct_partial",
    "unghr_correct_partial",
    "gehd2_unghr_correct",
    "unmhr_work_correct",
    "unmhr_correct_partial",
    "gehd2_empty_refuted",
    "gehd2_ihi0_refuted",
    "unghr_ihi0_refuted",
    "unghr_ilo_n_refuted",
    "unmhr_trivial_refuted",
    "unmhr_ilo_ihi_refuted"
   ],
   "note": "Exact arithmetic over the real and complex numbers. Missing because false of the code: n = 0 is rejected (n-1 wraps around), ihi = 0 and, for unghr, ilo = n leave the matrix; unmhr has undefined behaviour for ihi <= ilo+1 (Q = I); unghr for a non-square A is not covered"
  },
  {
   "property": "C45",
   "status": "partial",
   "theorems": [
    "gebd2_work_correct",
    "gebd2_correct_partial",
    "ungbr_q_work_correct_partial",
    "ungbr_q_correct_partial",
    "ungbr_p_work_correct_partial",
    "ungbr_p_correct_partial",
    "ungbr_factors",
    "gebd2_empty_refuted",
    "ungbr_q_k0_refuted",
    "ungbr_q_empty_refuted",
    "ungbr_p_empty_refuted"
   ],
   "note": "Exact arithmetic over the real and complex numbers, every m and n. Missing because false of the code: a matrix without rows, with more than one column and an empty tauv, makes the workspace query evaluate tauv[0]; ungbr with k = 0 divides by zero, and without rows (ungbr_q) or columns (ungbr_p) an index wraps around"
  },
  {
   "property": "C46",
   "status": "partial",
   "theorems": [
    "hetd2_correct",
    "ungtr_correct",
    "hetd2_ungtr_correct",
    "hetd2_empty_refuted"
   ],
   "note": "Exact arithmetic over the real and complex numbers, both triangles, every n > 0. Missing because false of the code: n = 0 is rejected (n-1 wraps around)"
  },
  {
   "property": "C47",
   "status": "partial",
   "theorems": [
    "gemmtr_correct",
    "gemmtr_rejects",
    "hemm2_correct",
    "hemm2_general_hermitian",
    "mult_hehe_correct",
    "mult_hehe_nobeta_correct",
    "trmm_out_correct",
    "trsm_tri_correct",
    "gemmtr_dims_refuted",
    "mult_hehe_empty_refuted",
    "mult_hehe_nonsquare_silent",
    "trmm_out_empty_diverges",
    "trsm_tri_empty_diverges"
   ],
   "note": "Exact arithmetic over the real and complex numbers, every size. Missing because false of the code: gemmtr lets a C with only one matching dimension through and accesses elements outside of it; an empty matrix makes mult_hehe access element (0,0) and trmm_out and trsm_tri recurse forever; trmm_out, documented for op(A) = A only, does not check it, and mult_hehe silently ignores a non-square A"
  },
  {
   "property": "C48",
   "status": "partial",
   "theorems": [
    "steqr_correct_partial",
    "steqr_always_returns_0",
    "laev2_correct",
    "lartg_correct",
    "lapy2_correct",
    "steqr_second_difference_nan_refuted"
   ],
   "note": "Exact arithmetic: the matrix stays unitarily similar to T up to the deflated elements, so the result is right whenever the off-diagonal has become zero. Missing: that it does within 30 n iterations. False of the code: failure to converge is never reported (0 is always returned), and in binary64 two equal diagonal elements make the shift 0/0-like: the second-difference matrix gives only NaNs"
  },
  {
   "property": "C49",
   "status": "partial",
   "theorems": [
    "rot_sequence3_applies_partial",
    "rot_sequence3_is_rot_sequences_partial",
    "rot_sequence3_correct_partial",
    "rot_sequence3_rejects",
    "rot_sequence3_many_columns_refuted"
   ],
   "note": "Every arithmetic, bit for bit (the order of the interleaved rotations is shown not to matter without any algebraic law). Missing because false of the code: Left, Forward with more than 256 columns and at least two sequences applies the first rotations once per block of columns"
  },
  {
   "property": "C50",
   "status": "proved",
   "theorems": [
    "gghrd_real_correct",
    "gghrd_cplx_correct",
    "gghrd_full",
    "gghrd_rejects"
   ],
   "note": "Exact arithmetic over the real and complex numbers, every n > 0, ilo < ihi <= n. The code rejects n = 0 (it requires ilo < n)."
  },
  {
   "property": "C51",
   "status": "partial",
   "theorems": [
    "hessenberg_rq_real_correct",
    "hessenberg_rq_cplx_correct",
    "hessenberg_rq_empty_refuted",
    "hessenberg_rq_documented_equation_refuted"
   ],
   "note": "Exact arithmetic over the real and complex numbers, every n > 0. Missing because false of the code: an empty matrix is undefined behaviour (n-1 wraps around)."
  },
  {
   "property": "C52",
   "status": "proved",
   "theorems": [
    "householder_work_correct",
    "householder_correct",
    "gen_householder_q_work_correct",
    "gen_householder_q_correct",
    "householder_q_mul_work_correct",
    "householder_q_mul_correct",
    "householder_then_gen_q",
    "householder_then_q_mul"
   ],
   "note": "Exact arithmetic over the real and complex numbers (norms within the range of h, as for C32/C40), nonempty matrices, any positive block size"
  },
  {
   "property": "C53",
   "status": "partial",
   "theorems": [
    "gehrd_work_correct",
    "gehrd_correct",
    "hessenberg_work_correct",
    "hessenberg_correct",
    "gehrd_unghr_correct",
    "gehrd_empty_ok",
    "gehrd_tau_length_refuted",
    "gehrd_zero_block_refuted",
    "gehrd_ihi0_refuted",
    "gehrd_empty_rejected"
   ],
   "note": "Exact arithmetic over the real and complex numbers (norms within the range of h). False of the code, and refuted: a tau of the documented length n-1 when the blocked path is taken with ihi = n (slice out of range), nb = 0, ihi = 0, the empty matrix with a caller-supplied workspace"
  },
  {
   "property": "C54",
   "status": "partial",
   "theorems": [
    "gebrd_work_correct",
    "gebrd_correct",
    "bidiag_work_correct",
    "bidiag_correct_partial",
    "gebrd_short_tau_refuted",
    "gebrd_zero_block_refuted",
    "gebd2_empty_refuted"
   ],
   "note": "Exact arithmetic over the real and complex numbers (norms within the range of h), every m and n, every positive block size. False of the code, and refuted: nb = 0 (an index wraps around); Level2 with m = 0, more than one column and an empty tauv (C45); no argument is checked, so that a tau vector that is too short is sliced out of range"
  },
  {
   "property": "C55",
   "status": "partial",
   "theorems": [
    "ladiv_correct",
    "singularvalues22_correct",
    "svd22_correct",
    "svd22_singular_values",
    "laed5_correct",
    "lahqr_schur22_correct",
    "lahqr_schur22_opposite_refuted",
    "lahqr_schur22_defective_refuted",
    "lahqr_schur22_equal_diagonal_refuted",
    "lahqr_eig22_correct",
    "complex_sqrt_exists",
    "lahqr_shiftcolumn_real_correct",
    "lahqr_shiftcolumn_complex_correct",
    "lahqr_shiftcolumn_rejects",
    "inv_house3_correct",
    "inv_house3_singular"
   ],
   "note": "Exact arithmetic. False of the code, and refuted: lahqr_schur22 for b = -c (half the matrix is returned), for a = d with b c > 0 (division by zero) and for a double eigenvalue with |b| < |c| (lower triangular result); inv_house3 for a singular trailing block whose pivot row has the larger first element"
  },
  {
   "property": "C56",
   "status": "proved",
   "theorems": [
    "geqrt3_correct",
    "geqrt3_wide",
    "geqrt3_small_T_refuted"
   ],
   "note": "Exact arithmetic over the real and complex numbers (norms of the columns within the range of h, as for C32). geqrt3_small_T_refuted delimits the claim: the shape of T is not checked, and a T that is too small is sliced out of range"
  },
  {
   "property": "C57",
   "status": "partial",
   "theorems": [
    "gelqt_work_correct_partial",
    "gelqt_correct_partial",
    "gelqt_tall_untouched",
    "gelqt_tall_refuted",
    "gelqt_nb0_refuted"
   ],
   "note": "Exact arithmetic over the real and complex numbers (norms of the rows within the range of h, as for C40), m <= n, every nb > 0. False of the code, and refuted: m > n (the rows below the last block are not updated; gelqt_tall_refuted exhibits a 3-by-2 matrix that is not factorized), nb = 0 (the loop never ends)"
  },
  {
   "property": "C58",
   "status": "partial",
   "theorems": [
    "lasy2_correct",
    "lasy2_rejects",
    "lasy2_mixed_refuted",
    "lasy2_conjtrans_refuted"
   ],
   "note": "Exact real arithmetic, orders 1 and 2 (equal), NoTrans and Trans operands, X allowed to overlap the other operands. False of the code, and refuted: blocks of different orders report an error without computing X, and ConjTrans operands are taken as NoTrans. With info = 1 the equation is shown to be nearly singular: some non-zero Z is mapped to something below the pivot threshold. Not proved: the accuracy in floating-point arithmetic."
  }
 ]
}