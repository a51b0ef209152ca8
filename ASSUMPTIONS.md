# What Print Assumptions lists

Generated by tools/assumptions.py from the built development, for every theorem in MANIFEST.json (451).

## Closed under the global context (no axioms)

Theorems (338): gemm_correct, gemm_nobeta_correct, gemm_legacy_correct, axpy_correct, copy_correct, axpy_copy_longer_y, scal_correct, swap_correct, dot_correct, dotu_correct, asum_correct, iamax_nan, iamax_inf, iamax_correct, iamax_empty, iamax_in_range, gemv_correct_partial, gemv_empty_sum_refuted, ger_correct, geru_correct, syr_correct, syr2_correct, her_correct, her2_correct, hemv_correct, symv_correct, trmv_correct, trsv_correct, trsm_correct, trmm_correct, hemm_correct, symm_correct, herk_correct, syrk_correct, her2k_correct, syr2k_correct, matrix_injective, matrix_in_buffer, vector_injective, constructor_well_formed, slice_correct, rows_correct, cols_correct, transpose_view_correct, row_correct, col_correct, slice_row_correct, slice_col_correct, diag_correct, slices_disjoint, reshape_correct, reshape_vector_correct, vslice_correct, vreshape_correct, vreshape_v_correct, picks_inside, picks_distinct, picks_separate, banded_correct, vslice_backward_refuted, reshape_empty_refuted, axpy_rejects, copy_rejects, dot_rejects, dotu_rejects, swap_rejects, rot_rejects, rotm_rejects, gemm_rejects, gemm_safe, gemv_rejects, gemv_safe, ger_rejects, ger_safe, geru_rejects, geru_safe, her_rejects, her_safe, syr_rejects, syr_safe, her2_rejects, her2_safe, syr2_rejects, syr2_safe, hemv_rejects, hemv_safe, symv_rejects, symv_safe, trmv_rejects, trmv_safe, trsv_rejects, trsv_safe, trsm_rejects, trsm_safe, trmm_rejects, trmm_safe, hemm_rejects, hemm_safe, symm_rejects, symm_safe, herk_rejects, herk_safe, syrk_rejects, syrk_safe, her2k_rejects, her2k_safe, syr2k_rejects, syr2k_safe, potrf_rejects, potrf_safe, potrs_rejects, potrs_safe, gemm_nobeta_two_runs, hemm_nobeta_two_runs, symm_nobeta_two_runs, hemv_nobeta_two_runs, symv_nobeta_two_runs, herk_nobeta_two_runs, syrk_nobeta_two_runs, her2k_nobeta_two_runs, syr2k_nobeta_two_runs, gemv_nobeta_two_runs_partial, gemv_nobeta_empty_sum_refuted, trmv_two_runs, trsv_two_runs, trsm_two_runs, trmm_two_runs, hemv_two_runs, symv_two_runs, hemm_two_runs, symm_two_runs, herk_two_runs, potrf_two_runs, potrs_two_runs, trtri_safe, lauum_safe, potri_safe, mult_llh_safe, mult_uhu_safe, trtri_two_runs, lauum_two_runs, potri_two_runs, mult_llh_two_runs, mult_uhu_two_runs, gemm_two_runs, gemv_two_runs, ger_two_runs, geru_two_runs, her_two_runs, syr_two_runs, her2_two_runs, syr2_two_runs, syrk_two_runs, her2k_two_runs, syr2k_two_runs, axpy_two_runs, copy_two_runs, scal_two_runs, swap_two_runs, rot_two_runs, rotm_two_runs, dot_two_runs, dotu_two_runs, asum_two_runs, iamax_two_runs, ul_mult_two_runs, getri_uili_two_runs, lu_mult_two_runs, pttrf_two_runs, potrf_factorizes, potrf_zero_means_factorized, potrf_variants_agree, potrf_detects, potrf_zero_iff_posdef, potrf_variants_same_info, potrf_throws_order, potrf_blocked_throws_local_order, potrs_correct, potrf_potrs_solve, getrf_correct, getrf_multipliers, getrf_level0_multipliers, getrf_variants_agree, getrf_success_iff, getrf_rejects, getrf_safe, trtri_inverts, trtri_zero_means_inverted, trtri_detects_zero, trtri_throws_on_zero, lauum_correct, mult_llh_correct, mult_uhu_correct, ul_mult_correct, lu_mult_correct, ul_mult_empty_diverges, potri_correct, potri_throws, getri_uili_correct, getri_uili_detects_zero, getri_uili_empty_diverges, getri_correct, getrf_getri_inverts, getri_uxli_empty_refuted, getri_by_uxli_safe, getri_by_uili_safe, lacpy_correct, laset_correct, lacpy_laset_reject, transpose_correct, conjtranspose_correct, transpose_rejects, conjugate_correct, lascl_rejects, lascl_safe_partial, lascl_correct_partial, lascl_band_correct, rscl_correct, lascl_hessenberg_refuted, hasnan_correct_partial, hasinf_correct_partial, hasnan_hasinf_band_correct, hasnan_hasinf_vec_correct, hasnan_hessenberg_refuted, hasinf_hessenberg_refuted, pttrf_factorizes, pttrf_detects, pttrf_empty_rejected, nrm2_nan, lange_nan, lansy_lanhe_nan, lantr_nan, norms_reject, wok_closed, minmax_size, wadd_size, carve_contiguous, minmax_fits, wadd_fits, minmax_noncontiguous_refuted, larf_correct, unmq_level2_correct, ungq_level2_correct_partial, larfb_correct, unmq_correct, ungq_correct_partial, larf_work_correct, larf1_rejects_conforming_refuted, unmq_level2_work_correct, ungq_level2_work_correct, ung2_correct_partial, ung_no_reflectors_refuted, lasrt_permutes, lasrt_sorts, lasrt_rejects, lamrg_correct, rot_correct, rotm_correct, rot_sequence_applies, rot_sequence_layouts, rot_sequence_correct, rot_sequence_unitary, rot_sequence_rejects, rot_sequence_empty_rejected, potrf_blocked_zero_block_diverges, geqrf_zero_block_diverges, ul_mult_safe, getri_uili_safe, lu_mult_safe, pttrf_safe, gelq2_empty_refuted, geql2_empty_refuted, larft_correct, larfb_work_correct, short_tau_refuted, unmq_work_correct, ungq_work_correct_partial, ungq_no_reflectors_refuted, unmq_zero_block_refuted, unghr_work_correct_partial, unghr_correct_partial, unmhr_work_correct, unmhr_correct_partial, gehd2_empty_refuted, gehd2_ihi0_refuted, unghr_ihi0_refuted, unghr_ilo_n_refuted, unmhr_trivial_refuted, unmhr_ilo_ihi_refuted, ungbr_q_work_correct_partial, ungbr_q_correct_partial, ungbr_p_work_correct_partial, ungbr_p_correct_partial, ungbr_factors, gebd2_empty_refuted, ungbr_q_k0_refuted, ungbr_q_empty_refuted, ungbr_p_empty_refuted, ungtr_correct, hetd2_empty_refuted, gemmtr_correct, gemmtr_rejects, hemm2_correct, hemm2_general_hermitian, mult_hehe_correct, mult_hehe_nobeta_correct, trmm_out_correct, trsm_tri_correct, gemmtr_dims_refuted, mult_hehe_empty_refuted, mult_hehe_nonsquare_silent, trmm_out_empty_diverges, trsm_tri_empty_diverges, steqr_always_returns_0, rot_sequence3_applies_partial, rot_sequence3_is_rot_sequences_partial, rot_sequence3_correct_partial, rot_sequence3_rejects, gghrd_rejects, hessenberg_rq_empty_refuted, gen_householder_q_work_correct, gen_householder_q_correct, householder_q_mul_work_correct, householder_q_mul_correct, gehrd_empty_ok, gehrd_tau_length_refuted, gehrd_zero_block_refuted, gehrd_ihi0_refuted, gehrd_empty_rejected, gebrd_short_tau_refuted, gebrd_zero_block_refuted, lahqr_shiftcolumn_rejects, geqrt3_wide, geqrt3_small_T_refuted, gelqt_nb0_refuted, lasy2_rejects, lasy2_mixed_refuted, lasy2_conjtrans_refuted

## 3 constants

Axioms / primitives: `ClassicalDedekindReals.sig_forall_dec`, `ClassicalDedekindReals.sig_not_dec`, `FunctionalExtensionality.functional_extensionality_dep`

Theorems (105): potrf_blocked_exception_order_refuted, getrf_level0_multipliers_refuted, trtri_exception_position_refuted, potri_quiet_refuted, lascl_terminates_real_partial, lascl_terminates_complex_partial, lassq_correct, nrm2_correct, lange_correct, lange_frobenius, lansy_correct, lanhe_correct, lansy_frobenius, lanhe_frobenius, lantr_correct, lantr_frobenius, geqr2_correct, geqrf_correct, gelqf_correct, geqlf_correct, gerqf_correct, larfg_correct, larf1_accepts_short_vector_refuted, geqr2_work_correct, geqr2_ung2r_correct, geqrf_work_correct, geqrf_ungqr_correct, unmq_too_many_reflectors_refuted, rotg_real_correct, rotg_real_reconstruct, rotg_cplx_correct, rotmg_correct_partial, rotmg_terminates, rotmg_trivial, rotmg_rejects, rotmg_indefinite, rotmg_rescaling_refuted, rot_sequence_documented_order_refuted, dot_backward_stable, dot_rounding_error, gemv_rounding_error, gemm_rounding_error, trsv_backward_stable, getrf_level0_backward_stable, gelq2_work_correct, geql2_work_correct, gerq2_work_correct, gelq2_correct_partial, geql2_correct_partial, gerq2_correct, larft_too_many_reflectors_refuted, larfb_shape_check_refuted, gelqf_work_correct, geqlf_work_correct, gerqf_work_correct, gehd2_work_correct, gehd2_correct, gehd2_unghr_correct, gebd2_work_correct, gebd2_correct_partial, hetd2_correct, hetd2_ungtr_correct, steqr_correct_partial, laev2_correct, lartg_correct, lapy2_correct, gghrd_real_correct, gghrd_cplx_correct, gghrd_full, hessenberg_rq_real_correct, hessenberg_rq_cplx_correct, hessenberg_rq_documented_equation_refuted, householder_work_correct, householder_correct, householder_then_gen_q, householder_then_q_mul, gehrd_work_correct, gehrd_correct, hessenberg_work_correct, hessenberg_correct, gehrd_unghr_correct, gebrd_work_correct, gebrd_correct, bidiag_work_correct, bidiag_correct_partial, ladiv_correct, singularvalues22_correct, svd22_correct, svd22_singular_values, laed5_correct, lahqr_schur22_correct, lahqr_schur22_opposite_refuted, lahqr_schur22_defective_refuted, lahqr_eig22_correct, complex_sqrt_exists, lahqr_shiftcolumn_real_correct, lahqr_shiftcolumn_complex_correct, inv_house3_correct, inv_house3_singular, geqrt3_correct, gelqt_work_correct_partial, gelqt_correct_partial, gelqt_tall_untouched, gelqt_tall_refuted, lasy2_correct

## 10 constants

Axioms / primitives: `PrimFloat.abs`, `PrimFloat.add`, `PrimFloat.div`, `PrimFloat.eqb`, `PrimFloat.float`, `PrimFloat.ltb`, `PrimFloat.mul`, `PrimFloat.opp`, `PrimFloat.sqrt`, `PrimFloat.sub`

Theorems (3): steqr_second_difference_nan_refuted, rot_sequence3_many_columns_refuted, lahqr_schur22_equal_diagonal_refuted

## 15 constants

Axioms / primitives: `PrimFloat.abs`, `PrimFloat.add`, `PrimFloat.div`, `PrimFloat.eqb`, `PrimFloat.float`, `PrimFloat.ltb`, `PrimFloat.mul`, `PrimFloat.of_uint63`, `PrimFloat.opp`, `PrimFloat.sqrt`, `PrimFloat.sub`, `PrimInt63.int`, `PrimInt63.lor`, `PrimInt63.lsl`, `PrimInt63.sub`

Theorems (1): rotmg_infinite_weight_diverges

## 18 constants

Axioms / primitives: `FloatAxioms.eqb_spec`, `FloatAxioms.ltb_spec`, `PrimFloat.abs`, `PrimFloat.add`, `PrimFloat.div`, `PrimFloat.eqb`, `PrimFloat.float`, `PrimFloat.frshiftexp`, `PrimFloat.ltb`, `PrimFloat.mul`, `PrimFloat.normfr_mantissa`, `PrimFloat.opp`, `PrimFloat.sqrt`, `PrimFloat.sub`, `PrimInt63.eqb`, `PrimInt63.int`, `PrimInt63.land`, `PrimInt63.lsr`

Theorems (1): lasrt_binary64

## 19 constants

Axioms / primitives: `FloatAxioms.abs_spec`, `FloatAxioms.eqb_spec`, `FloatAxioms.ltb_spec`, `PrimFloat.abs`, `PrimFloat.add`, `PrimFloat.div`, `PrimFloat.eqb`, `PrimFloat.float`, `PrimFloat.frshiftexp`, `PrimFloat.ltb`, `PrimFloat.mul`, `PrimFloat.normfr_mantissa`, `PrimFloat.opp`, `PrimFloat.sqrt`, `PrimFloat.sub`, `PrimInt63.eqb`, `PrimInt63.int`, `PrimInt63.land`, `PrimInt63.lsr`

Theorems (2): iamax_binary64, getrf_binary64

## 36 constants

Axioms / primitives: `ClassicalDedekindReals.sig_forall_dec`, `ClassicalDedekindReals.sig_not_dec`, `Classical_Prop.classic`, `FloatAxioms.Prim2SF_SF2Prim`, `FloatAxioms.Prim2SF_valid`, `FloatAxioms.SF2Prim_Prim2SF`, `FloatAxioms.add_spec`, `FloatAxioms.div_spec`, `FloatAxioms.eqb_spec`, `FloatAxioms.ltb_spec`, `FloatAxioms.mul_spec`, `FloatAxioms.opp_spec`, `FloatAxioms.sqrt_spec`, `FloatAxioms.sub_spec`, `FunctionalExtensionality.functional_extensionality_dep`, `PrimFloat.abs`, `PrimFloat.add`, `PrimFloat.div`, `PrimFloat.eqb`, `PrimFloat.float`, `PrimFloat.frshiftexp`, `PrimFloat.ldshiftexp`, `PrimFloat.ltb`, `PrimFloat.mul`, `PrimFloat.normfr_mantissa`, `PrimFloat.of_uint63`, `PrimFloat.opp`, `PrimFloat.sqrt`, `PrimFloat.sub`, `PrimInt63.eqb`, `PrimInt63.int`, `PrimInt63.land`, `PrimInt63.lor`, `PrimInt63.lsl`, `PrimInt63.lsr`, `PrimInt63.sub`

Theorems (1): binary64_constants
