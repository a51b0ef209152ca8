{"id": "C01", "title": "gemm computes alpha*op(A)*op(B)+beta*C", "statement": "For every combination of transA, transB in {NoTrans, Trans, ConjTrans}, when op(A) is m-by-k, op(B) is k-by-n and C is m-by-n and C does not overlap A or B, gemm returns normally, leaves C(i,j) = alpha * sum_l op(A)(i,l)*op(B)(l,j) + beta*C_old(i,j) (in exact arithmetic), and changes no memory outside C.", "quantifier": "all m,n,k >= 0, all element values over any commutative ring with a conjugation, all memory layouts, all alpha, beta, all nine transposition pairs", "why_tests_cant": "Tests sample a few sizes, layouts and option combinations; the claim is for all sizes, all strides, all element values and all option combinations.", "anchors": ["include/tlapack/blas/gemm.hpp: gemm"]}
{"id": "C02", "title": "Level-3 and level-2 argument checks reject bad shapes before any write", "statement": "With TLAPACK_CHECK_INPUT on, calling gemm, gemv, ger, trsm, trmm, hemm, symm, herk, syrk, her2k, syr2k, trsv, trmv, hemv or symv with mismatched sizes throws and leaves memory untouched; with matching sizes the checks never throw and no access is out of bounds.", "quantifier": "all shapes, all option values, all memory contents", "why_tests_cant": "The set of shapes is infinite; a test shows only that one particular mismatch throws.", "anchors": ["include/tlapack/base/exceptionHandling.hpp: tlapack_check", "include/tlapack/blas/gemm.hpp: gemm", "include/tlapack/blas/trsm.hpp: trsm"]}
{"id": "C03", "title": "Overloads without beta never depend on the old contents of the output", "statement": "The overloads of gemm, gemv, hemm, symm, hemv, symv, herk, syrk, her2k, syr2k without a beta argument (beta = StrongZero) produce a result that is a function of the inputs only: two runs whose memories differ only in the output's old contents (including NaN or Inf) end with identical outputs; StrongZero times anything is zero.", "quantifier": "all sizes, all values including NaN/Inf, any (not necessarily exact) scalar arithmetic", "why_tests_cant": "NaN propagation must be excluded for every possible garbage content of uninitialised memory and every arithmetic.", "anchors": ["include/tlapack/base/StrongZero.hpp: StrongZero", "include/tlapack/blas/gemm.hpp: gemm"]}
{"id": "C04", "title": "Level-1 kernels compute their mathematical definition and touch only their output", "statement": "copy, swap, scal, axpy write exactly y:=x, x<->y, x:=alpha*x, y:=alpha*x+y; dot, dotu, asum return sum conj(x_i)*y_i, sum x_i*y_i, sum(|re|+|im|) and write nothing; all accesses are in bounds.", "quantifier": "all lengths, strides, values", "why_tests_cant": "Tests sample a few sizes, layouts and option combinations; the claim is for all sizes, all strides, all element values and all option combinations.", "anchors": ["include/tlapack/blas/copy.hpp", "include/tlapack/blas/swap.hpp", "include/tlapack/blas/scal.hpp", "include/tlapack/blas/axpy.hpp", "include/tlapack/blas/dot.hpp", "include/tlapack/blas/dotu.hpp", "include/tlapack/blas/asum.hpp"]}
{"id": "C05", "title": "iamax returns the first position of the entry of largest magnitude", "statement": "iamax returns an index i < n with |x_j| <= |x_i| for all j and |x_j| < |x_i| for all j < i; with error checking on, if any entry is NaN the first NaN is returned, else if any is infinite the first infinite one; on an empty vector it returns 0.", "quantifier": "all lengths and values, with or without NaN/Inf", "why_tests_cant": "First-occurrence and NaN/Inf priority rules must hold for every placement of special values.", "anchors": ["include/tlapack/blas/iamax.hpp: iamax, iamax_ec, iamax_nc"]}
{"id": "C06", "title": "gemv computes alpha*op(A)*x+beta*y", "statement": "For op in {NoTrans, Trans, ConjTrans, Conj} with matching sizes and y disjoint from A and x, gemv leaves y = alpha*op(A)*x + beta*y_old and changes nothing else.", "quantifier": "all shapes including empty ones, strides, values", "why_tests_cant": "Tests sample a few sizes, layouts and option combinations; the claim is for all sizes, all strides, all element values and all option combinations.", "anchors": ["include/tlapack/blas/gemv.hpp: gemv"]}
{"id": "C07", "title": "Rank-1 and rank-2 updates", "statement": "ger/geru add alpha*x*y^H / alpha*x*y^T to A; her, her2, syr, syr2 add the corresponding Hermitian/symmetric update to exactly the triangle selected by uplo, leaving every other element of A and all other memory unchanged; her/her2 leave real diagonals.", "quantifier": "all sizes, both uplo values (and General where accepted), all values", "why_tests_cant": "Tests sample a few sizes, layouts and option combinations; the claim is for all sizes, all strides, all element values and all option combinations.", "anchors": ["include/tlapack/blas/ger.hpp", "include/tlapack/blas/geru.hpp", "include/tlapack/blas/her.hpp", "include/tlapack/blas/her2.hpp", "include/tlapack/blas/syr.hpp", "include/tlapack/blas/syr2.hpp"]}
{"id": "C08", "title": "Hermitian and symmetric matrix-vector products use only the stored triangle", "statement": "hemv and symv leave y = alpha*A*x+beta*y where A is the Hermitian/symmetric matrix defined by the uplo triangle alone; the opposite triangle (and the imaginary part of a Hermitian diagonal) has no influence.", "quantifier": "all sizes, both uplo, all values of the unreferenced triangle", "why_tests_cant": "The unreferenced triangle may contain anything, including NaN.", "anchors": ["include/tlapack/blas/hemv.hpp", "include/tlapack/blas/symv.hpp"]}
{"id": "C09", "title": "trmv multiplies by op(A) in place", "statement": "trmv overwrites x with op(A)*x where A is the unit or non-unit triangular matrix given by uplo; for all op in {NoTrans,Trans,ConjTrans,Conj}; nothing but x changes.", "quantifier": "all sizes, all 16 option combinations, all values", "why_tests_cant": "In-place triangular products depend on traversal order; only all-sizes reasoning shows no overwritten entry is re-read.", "anchors": ["include/tlapack/blas/trmv.hpp"]}
{"id": "C10", "title": "trsv solves the triangular system in place", "statement": "trsv overwrites b with x such that op(A)*x = b whenever the (non-unit) diagonal has no zero; nothing but x changes.", "quantifier": "all sizes, all 16 option combinations, all values", "why_tests_cant": "In-place substitution order must be right for every n.", "anchors": ["include/tlapack/blas/trsv.hpp"]}
{"id": "C11", "title": "trsm solves op(A)X=alpha*B and X*op(A)=alpha*B", "statement": "For side, uplo, op in {NoTrans,Trans,ConjTrans}, diag, trsm overwrites B with the X satisfying op(A)X = alpha*B_old (Left) or X op(A) = alpha*B_old (Right), provided a non-unit diagonal has no zero; nothing but B changes.", "quantifier": "all m, n, all 24 option combinations, all values", "why_tests_cant": "Tests sample a few sizes, layouts and option combinations; the claim is for all sizes, all strides, all element values and all option combinations.", "anchors": ["include/tlapack/blas/trsm.hpp"]}
{"id": "C12", "title": "trmm multiplies by a triangular matrix in place", "statement": "trmm overwrites B with alpha*op(A)*B (Left) or alpha*B*op(A) (Right) for the triangular A; nothing but B changes.", "quantifier": "all m, n, all 24 option combinations, all values", "why_tests_cant": "Tests sample a few sizes, layouts and option combinations; the claim is for all sizes, all strides, all element values and all option combinations.", "anchors": ["include/tlapack/blas/trmm.hpp"]}
{"id": "C13", "title": "hemm and symm", "statement": "hemm/symm leave C = alpha*A*B+beta*C (Left) or alpha*B*A+beta*C (Right) where A is Hermitian/symmetric and only its uplo triangle is read.", "quantifier": "all m,n, side, uplo, values", "why_tests_cant": "Tests sample a few sizes, layouts and option combinations; the claim is for all sizes, all strides, all element values and all option combinations.", "anchors": ["include/tlapack/blas/hemm.hpp", "include/tlapack/blas/symm.hpp"]}
{"id": "C14", "title": "herk, syrk, her2k, syr2k update exactly one triangle", "statement": "herk/syrk/her2k/syr2k leave in the uplo triangle of C the corresponding alpha*op(A)op(A)^H+beta*C (resp. ^T, rank-2k) and leave all other memory (including the other triangle) unchanged.", "quantifier": "all n,k, uplo, trans, values", "why_tests_cant": "Tests sample a few sizes, layouts and option combinations; the claim is for all sizes, all strides, all element values and all option combinations.", "anchors": ["include/tlapack/blas/herk.hpp", "include/tlapack/blas/syrk.hpp", "include/tlapack/blas/her2k.hpp", "include/tlapack/blas/syr2k.hpp"]}
{"id": "C15", "title": "Unreferenced triangles never influence results", "statement": "For trmv, trsv, trsm, trmm, hemv, symv, hemm, symm, potf2 and potrf2, changing the entries of the matrix argument that lie in the opposite triangle (and the diagonal when diag = Unit) does not change any output element or the return code, for any scalar arithmetic including IEEE with NaNs.", "quantifier": "all sizes, all contents of the unreferenced part, any arithmetic", "why_tests_cant": "It is a two-run (hyper)property over all garbage contents.", "anchors": ["include/tlapack/blas/trsm.hpp", "include/tlapack/blas/trsv.hpp", "include/tlapack/lapack/potrf2.hpp"]}
{"id": "C16", "title": "Results do not depend on the memory layout", "statement": "Running the same routine on two memories holding the same logical matrices in different layouts (column-major, row-major, any leading dimension, any sub-view or transposed view) gives logically identical (bitwise equal) outputs; padding between columns/rows is never modified.", "quantifier": "all layouts and leading dimensions, all values, any arithmetic", "why_tests_cant": "Infinite family of layouts; two-run property.", "anchors": ["include/tlapack/plugins/legacyArray.hpp", "include/tlapack/LegacyMatrix.hpp"]}
{"id": "C17", "title": "Cholesky factorisation is correct for every variant", "statement": "If potf2, potrf2 (recursive), potrf_blocked, potrf_rl (right-looking) or potrf returns 0, the uplo triangle of A holds the triangular factor with positive real diagonal such that L*L^H (or U^H*U) equals the Hermitian matrix defined by the uplo triangle on entry, and nothing but that triangle has changed.", "quantifier": "all n, all block sizes nb >= 1, uplo, values over an ordered field with square roots and conjugation", "why_tests_cant": "Needs all n and all recursion/blocking patterns.", "anchors": ["include/tlapack/lapack/potf2.hpp", "include/tlapack/lapack/potrf2.hpp", "include/tlapack/lapack/potrf_blocked.hpp", "include/tlapack/lapack/potrf_blocked_right_looking.hpp", "include/tlapack/lapack/potrf.hpp"]}
{"id": "C18", "title": "Cholesky detects exactly the first non-positive leading minor", "statement": "potrf* returns 0 iff the input is positive definite; a return value k > 0 means that the leading principal submatrix of order k-1 is positive definite and that of order k is not; every variant returns the same k.", "quantifier": "all n, nb, uplo, values", "why_tests_cant": "An iff over all matrices.", "anchors": ["include/tlapack/lapack/potf2.hpp", "include/tlapack/lapack/potrf2.hpp", "include/tlapack/lapack/potrf_blocked.hpp", "include/tlapack/lapack/potrf_blocked_right_looking.hpp"]}
{"id": "C19", "title": "potrs solves A*X=B from the Cholesky factor", "statement": "After a successful potrf, potrs leaves in B the X with A*X = B_old.", "quantifier": "all n, nrhs, uplo, values", "why_tests_cant": "Tests sample a few sizes, layouts and option combinations; the claim is for all sizes, all strides, all element values and all option combinations.", "anchors": ["include/tlapack/lapack/potrs.hpp"]}
{"id": "C20", "title": "LU factorisation with partial pivoting", "statement": "When getrf_level0 or getrf_recursive returns 0: applying the row interchanges piv (in order) to the original A gives L*U with L unit lower trapezoidal and U upper trapezoidal as stored; j <= piv[j] < m; every multiplier has |L(i,j)| <= 1; memory outside A and piv is unchanged. A positive return k means the k-th pivot column was exactly zero.", "quantifier": "all m, n, values", "why_tests_cant": "Quantifies over all matrices and all pivot choices made by the data.", "anchors": ["include/tlapack/lapack/getrf_level0.hpp", "include/tlapack/lapack/getrf_recursive.hpp", "include/tlapack/lapack/getrf.hpp"]}
{"id": "C21", "title": "Triangular inverse", "statement": "trtri_recursive returns 0 and overwrites the triangle with the inverse when no diagonal entry is zero, returns the (1-based) index of a zero diagonal entry otherwise; the opposite triangle is untouched.", "quantifier": "all n, uplo, diag, values", "why_tests_cant": "Tests sample a few sizes, layouts and option combinations; the claim is for all sizes, all strides, all element values and all option combinations.", "anchors": ["include/tlapack/lapack/trtri_recursive.hpp"]}
{"id": "C22", "title": "Triangular products lauum, ul_mult, lu_mult, mult_llh, mult_uhu", "statement": "lauum_recursive overwrites the triangle with U*U^H or L^H*L; ul_mult, lu_mult overwrite the packed LU with U*L and L*U; mult_llh/mult_uhu give L*L^H / U^H*U.", "quantifier": "all n >= 1, values", "why_tests_cant": "Tests sample a few sizes, layouts and option combinations; the claim is for all sizes, all strides, all element values and all option combinations.", "anchors": ["include/tlapack/lapack/lauum_recursive.hpp", "include/tlapack/lapack/ul_mult.hpp", "include/tlapack/lapack/lu_mult.hpp", "include/tlapack/lapack/mult_llh.hpp", "include/tlapack/lapack/mult_uhu.hpp"]}
{"id": "C23", "title": "Matrix inversion from factorisations", "statement": "potri applied to a successful Cholesky factor yields A^{-1}; getri (uxli and uili) applied to a successful getrf yields A^{-1}.", "quantifier": "all n, values", "why_tests_cant": "Tests sample a few sizes, layouts and option combinations; the claim is for all sizes, all strides, all element values and all option combinations.", "anchors": ["include/tlapack/lapack/potri.hpp", "include/tlapack/lapack/getri.hpp", "include/tlapack/lapack/getri_uxli.hpp", "include/tlapack/lapack/getri_uili.hpp"]}
{"id": "C24", "title": "pttrf factorises a tridiagonal positive definite matrix as L*D*L^H", "statement": "pttrf returns 0 and leaves D, E with L*D*L^H = A, or returns the index of the first non-positive pivot.", "quantifier": "all n, values", "why_tests_cant": "Tests sample a few sizes, layouts and option combinations; the claim is for all sizes, all strides, all element values and all option combinations.", "anchors": ["include/tlapack/lapack/pttrf.hpp"]}
{"id": "C25", "title": "lacpy, laset, transpose, conjugate write exactly the selected part", "statement": "lacpy copies exactly the part selected by uplo; laset sets off-diagonal to alpha and diagonal to beta on exactly the selected part; transpose/conjtranspose give B(j,i)=A(i,j) (conjugated), conjugate conjugates every entry; nothing else changes.", "quantifier": "all shapes, uplo values, values", "why_tests_cant": "Tests sample a few sizes, layouts and option combinations; the claim is for all sizes, all strides, all element values and all option combinations.", "anchors": ["include/tlapack/lapack/lacpy.hpp", "include/tlapack/lapack/laset.hpp", "include/tlapack/lapack/transpose.hpp", "include/tlapack/lapack/conjugate.hpp"]}
{"id": "C26", "title": "lascl multiplies the selected part by a/b", "statement": "lascl returns after finitely many rescalings, having multiplied by a/b exactly the part of A selected by the matrix type and nothing else; zero/NaN b is reported as -2 and NaN a as -3 with A unchanged.", "quantifier": "all shapes, matrix types, a, b", "why_tests_cant": "The number of rescaling sweeps is data dependent.", "anchors": ["include/tlapack/lapack/lascl.hpp", "include/tlapack/lapack/rscl.hpp"]}
{"id": "C27", "title": "Norms return the documented quantity", "statement": "lange, lansy/lanhe, lantr with Max/One/Inf return the max-abs, maximum column sum, maximum row sum of the matrix defined by the stored part; lassq-based Frobenius satisfies scale^2*sumsq = sum of squares; NaN entries are propagated.", "quantifier": "all shapes and values", "why_tests_cant": "Tests sample a few sizes, layouts and option combinations; the claim is for all sizes, all strides, all element values and all option combinations.", "anchors": ["include/tlapack/lapack/lange.hpp", "include/tlapack/lapack/lansy.hpp", "include/tlapack/lapack/lantr.hpp", "include/tlapack/lapack/lassq.hpp"]}
{"id": "C28", "title": "hasnan / hasinf are exact", "statement": "hasnan(accessType, A) is true iff some entry of the selected part is NaN; hasinf likewise; no entry outside the selected part is read.", "quantifier": "all shapes, access types, placements of NaN", "why_tests_cant": "All placements.", "anchors": ["include/tlapack/base/exceptionHandling.hpp", "include/tlapack/lapack/hasnan.hpp", "include/tlapack/lapack/hasinf.hpp"]}
{"id": "C29", "title": "Matrix views address exactly the sub-matrix they name", "statement": "slice, rows, cols, row, col, diag, transpose_view and reshape of a legacy matrix/vector produce views whose element (i,j) is the documented element of the parent, lie inside the parent's memory, keep distinct elements distinct, and views of disjoint index ranges do not overlap.", "quantifier": "all sizes, layouts, leading dimensions, index ranges, nestings of views", "why_tests_cant": "All compositions of views.", "anchors": ["include/tlapack/plugins/legacyArray.hpp", "include/tlapack/LegacyMatrix.hpp", "include/tlapack/LegacyVector.hpp"]}
{"id": "C30", "title": "Workspace queries are sufficient", "statement": "For every routine with a *_worksize query and a *_work entry point that is modelled, the workspace of the reported size is enough: no slice or reshape of it goes out of bounds; combining two requirements with minMax yields one that satisfies both.", "quantifier": "all sizes and block sizes", "why_tests_cant": "All sizes.", "anchors": ["include/tlapack/base/workspace.hpp: WorkInfo", "include/tlapack/plugins/legacyArray.hpp: reshape"]}
{"id": "C31", "title": "Householder reflectors", "statement": "larfg returns tau, beta, v with H = I - tau*[1;v][1;v]^H unitary and H^H*[alpha;x] = [beta;0], beta real; larf applies H (Left/Right) to C exactly.", "quantifier": "all lengths, values, all direction/storage modes", "why_tests_cant": "Tests sample a few sizes, layouts and option combinations; the claim is for all sizes, all strides, all element values and all option combinations.", "anchors": ["include/tlapack/lapack/larfg.hpp", "include/tlapack/lapack/larf.hpp"]}
{"id": "C32", "title": "QR factorisation", "statement": "geqr2 and geqrf leave R in the upper triangle and reflectors below so that Q*R = A_old, where Q is the unitary product H_1 H_2 ... H_k; ung2r forms and unm2r applies that Q.", "quantifier": "all m, n, block sizes, values", "why_tests_cant": "Tests sample a few sizes, layouts and option combinations; the claim is for all sizes, all strides, all element values and all option combinations.", "anchors": ["include/tlapack/lapack/geqr2.hpp", "include/tlapack/lapack/geqrf.hpp", "include/tlapack/lapack/ung2r.hpp", "include/tlapack/lapack/unm2r.hpp"]}
{"id": "C33", "title": "lasrt sorts", "statement": "lasrt leaves d sorted (increasing or decreasing) and a permutation of its input, terminates for every input (NaNs included), and never leaves the index range it was given; an unknown order letter is rejected with -1.", "quantifier": "all lengths and contents", "why_tests_cant": "Termination and permutation for every input.", "anchors": ["include/tlapack/lapack/lasrt.hpp"]}
{"id": "C34", "title": "lamrg merges two sorted runs", "statement": "lamrg writes a permutation of all indices such that the indexed sequence is nondecreasing, for both increasing and decreasing runs.", "quantifier": "all lengths, contents and directions", "why_tests_cant": "All merges.", "anchors": ["include/tlapack/lapack/lamrg.hpp"]}
{"id": "C35", "title": "Plane rotations", "statement": "rot applies [c s; -conj(s) c] to every pair (x_i,y_i); rotg returns c, s with c^2+|s|^2=1 and [c s;-s c][a;b]=[r;0]; rotm applies the flagged 2x2 H; rotmg returns an H that annihilates the second component of H*[sqrt(d1)x1; sqrt(d2)y1].", "quantifier": "all lengths and values", "why_tests_cant": "Tests sample a few sizes, layouts and option combinations; the claim is for all sizes, all strides, all element values and all option combinations.", "anchors": ["include/tlapack/blas/rot.hpp", "include/tlapack/blas/rotg.hpp", "include/tlapack/blas/rotm.hpp", "include/tlapack/blas/rotmg.hpp"]}
{"id": "C36", "title": "rot_sequence equals the product of individual rotations", "statement": "rot_sequence applies exactly the m-1 (or n-1) rotations in the order fixed by direct/side to A, and nothing else.", "quantifier": "all sizes, side, direction", "why_tests_cant": "Tests sample a few sizes, layouts and option combinations; the claim is for all sizes, all strides, all element values and all option combinations.", "anchors": ["include/tlapack/lapack/rot_sequence.hpp"]}
{"id": "C37", "title": "Termination of blocked and recursive drivers", "statement": "Every modelled driver terminates for every size and every admissible block size (no infinite loop or recursion, including n=0 and n=1).", "quantifier": "all sizes and block sizes", "why_tests_cant": "Non-termination on corner sizes.", "anchors": ["include/tlapack/lapack/potrf_blocked.hpp", "include/tlapack/lapack/ul_mult.hpp", "include/tlapack/lapack/trtri_recursive.hpp", "include/tlapack/lapack/getrf_recursive.hpp"]}
{"id": "C38", "title": "Error reporting is consistent", "statement": "The error code (or the info carried by the exception in throwing mode) of the blocked and recursive factorizations identifies the global row/column at which the failure occurred, in both modes.", "quantifier": "all sizes, block sizes and failure positions", "why_tests_cant": "All failure positions.", "anchors": ["include/tlapack/base/exceptionHandling.hpp: tlapack_error", "include/tlapack/lapack/potrf_blocked.hpp", "include/tlapack/lapack/trtri_recursive.hpp"]}
{"id": "C39", "title": "Rounding errors of kernels obey the standard bound", "statement": "Under the standard model of floating-point arithmetic (each operation exact up to a factor 1+delta, |delta|<=u), dot, gemv and gemm are backward stable: the computed inner product is the exact inner product of data perturbed componentwise by at most gamma_n; a triangular solve satisfies (op(A)+D)x=b with |D|<=gamma_n|op(A)|, and the LU factors satisfy |PA-LU|<=gamma_k|L||U|.", "quantifier": "all lengths, values, and all rounding error choices", "why_tests_cant": "All roundings.", "anchors": ["include/tlapack/blas/dot.hpp", "include/tlapack/blas/gemm.hpp"]}
{"id": "C40", "title": "LQ, QL and RQ factorizations are factorizations", "statement": "gelq2, geql2 and gerq2 overwrite any m-by-n matrix so that the triangular part left in it and the unitary matrix Q represented by the reflectors stored in the rest of it and in tau multiply back to the original matrix (L Q, Q L, R Q); the diagonal of the factor is real; nothing else is written; the workspace size reported by the query suffices.", "quantifier": "all m, n, all matrices (exact arithmetic), layouts, workspaces", "why_tests_cant": "Tests sample a few sizes, layouts and option combinations; the claim is for all sizes, all strides, all element values and all option combinations.", "anchors": ["include/tlapack/lapack/gelq2.hpp", "include/tlapack/lapack/geql2.hpp", "include/tlapack/lapack/gerq2.hpp"]}
{"id": "C41", "title": "Block reflectors", "statement": "larft leaves, in one triangle of T, the matrix that makes I - U T U^H equal to the product of the k stored reflectors (forward or backward, stored in columns or rows) and writes nothing else; larfb overwrites C with op(H) C or C op(H) for that block reflector H, and a workspace of the size its query reports is enough.", "quantifier": "all n, k, dimensions of C, values (exact arithmetic), sides, operations, directions, storage modes", "why_tests_cant": "Tests sample a few sizes, layouts and option combinations; the claim is for all sizes, all strides, all element values and all option combinations.", "anchors": ["include/tlapack/lapack/larft.hpp", "include/tlapack/lapack/larfb.hpp"]}
{"id": "C42", "title": "Blocked QR, LQ, QL and RQ factorizations are factorizations for every block size", "statement": "geqrf, gelqf, geqlf and gerqf overwrite any m-by-n matrix so that the triangular factor left in it and the unitary matrix represented by the stored reflectors multiply back to the original matrix, for every positive block size, whether or not it divides min(m,n); the workspace their query reports suffices; a tau that is too short is reported, not read.", "quantifier": "all m, n, block sizes, matrices (exact arithmetic), layouts, workspaces", "why_tests_cant": "Tests sample a few sizes, layouts and option combinations; the claim is for all sizes, all strides, all element values and all option combinations.", "anchors": ["include/tlapack/lapack/geqrf.hpp", "include/tlapack/lapack/gelqf.hpp", "include/tlapack/lapack/geqlf.hpp", "include/tlapack/lapack/gerqf.hpp"]}
{"id": "C43", "title": "Blocked application and generation of Q", "statement": "unmq (unmqr, unmlq, unmql, unmrq) overwrites C with op(Q) C or C op(Q), and ungq (ungqr, unglq, ungql, ungrq) overwrites A with the leading or trailing columns or rows of Q, where Q is the unitary matrix the k stored reflectors stand for, for every k (0 included) and every block size; nothing but the output and the workspace is written and the workspace their query reports suffices.", "quantifier": "all dimensions, k, block sizes, values (exact arithmetic), sides, operations, directions, storage modes", "why_tests_cant": "Tests sample a few sizes, layouts and option combinations; the claim is for all sizes, all strides, all element values and all option combinations.", "anchors": ["include/tlapack/lapack/unmq.hpp", "include/tlapack/lapack/ungq.hpp"]}
{"id": "C44", "title": "Reduction to Hessenberg form", "statement": "gehd2 overwrites a square matrix A0 (whose rows from ihi on vanish in columns ilo+1..ihi-1 and whose rows ilo+1..ihi-1 vanish before column ilo) so that A0 = Q H Q^H, where H is what remains of A without the stored vectors (upper Hessenberg in columns ilo..ihi-2, real subdiagonal there) and Q, the product of the stored reflectors, is unitary; unghr then overwrites A with that Q, and unmhr overwrites another matrix C with op(Q) C or C op(Q); rows from ihi on and columns before ilo are not changed; the workspaces their queries report suffice.", "quantifier": "all n, ilo, ihi, matrices (exact arithmetic), layouts, block sizes, workspaces", "why_tests_cant": "Tests sample a few sizes, layouts and option combinations; the claim is for all sizes, all strides, all element values and all option combinations.", "anchors": ["include/tlapack/lapack/gehd2.hpp", "include/tlapack/lapack/unghr.hpp", "include/tlapack/lapack/unmhr.hpp"]}
{"id": "C45", "title": "Reduction to bidiagonal form", "statement": "gebd2 overwrites any m-by-n matrix A0 so that A0 = Q B Z^H, where Q and Z, the products of the stored reflectors, are unitary and B, the diagonal and the super- (m >= n) or subdiagonal (m < n) of A, is real; from the stored reflectors ungbr_q forms Q (or its leading columns) and ungbr_p forms Z^H (or its leading rows), changing nothing else; the workspaces their queries report suffice.", "quantifier": "all m, n, matrices (exact arithmetic), layouts, workspaces", "why_tests_cant": "Tests sample a few sizes, layouts and option combinations; the claim is for all sizes, all strides, all element values and all option combinations.", "anchors": ["include/tlapack/lapack/gebd2.hpp", "include/tlapack/lapack/ungbr.hpp"]}
{"id": "C46", "title": "Reduction of a Hermitian matrix to tridiagonal form", "statement": "hetd2 overwrites the chosen triangle of A so that the Hermitian matrix A0 that the triangle stands for satisfies A0 = Q T Q^H, where Q, the product of the stored reflectors, is unitary and T is the real symmetric tridiagonal matrix left in A; neither the other triangle nor more than n-1 elements of tau are written; ungtr then overwrites A with that Q.", "quantifier": "all n, both triangles, matrices (exact arithmetic), layouts", "why_tests_cant": "Tests sample a few sizes, layouts and option combinations; the claim is for all sizes, all strides, all element values and all option combinations.", "anchors": ["include/tlapack/lapack/hetd2.hpp", "include/tlapack/lapack/ungtr.hpp"]}
{"id": "C47", "title": "Structured and out-of-place matrix products", "statement": "gemmtr updates exactly one triangle of C with alpha op(A) op(B) + beta C; hemm2 computes alpha A op(B) + beta C or alpha op(B) A + beta C from one stored triangle of a Hermitian A; mult_hehe multiplies two Hermitian matrices each given by one triangle; trmm_out multiplies by a triangular matrix into another matrix; trsm_tri overwrites one triangle of B, and nothing else, with the triangular X solving op(A) X = alpha B or X op(A) = alpha B. Invalid arguments are rejected before anything is written.", "quantifier": "all sizes, values (exact arithmetic), layouts, triangles, sides, operations", "why_tests_cant": "Tests sample a few sizes, layouts and option combinations; the claim is for all sizes, all strides, all element values and all option combinations.", "anchors": ["include/tlapack/lapack/gemmtr.hpp", "include/tlapack/lapack/hemm2.hpp", "include/tlapack/lapack/mult_hehe.hpp", "include/tlapack/lapack/trmm_out.hpp", "include/tlapack/lapack/trsm_tri.hpp"]}
{"id": "C48", "title": "Symmetric tridiagonal eigenvalue problem", "statement": "steqr, given the diagonal d and off-diagonal e of a real symmetric tridiagonal matrix T, computes all eigenvalues of T into d in increasing order and multiplies Z by a unitary W with T = W diag(d) W^H, up to a backward error of the order of eps ||T||; it changes nothing but d, e and Z, and a nonzero return value reports a matrix for which the iteration did not converge. The 2-by-2 kernels lae2 and laev2 return the eigenvalues and a unit eigenvector of [[a,b],[b,c]], lartg a rotation that maps (a,b) to (r,0), lapy2 sqrt(x^2+y^2).", "quantifier": "all n, tridiagonal matrices (exact arithmetic; frame, return value and absence of undefined behaviour in every arithmetic), Z, layouts", "why_tests_cant": "Tests sample a few sizes, layouts and option combinations; the claim is for all sizes, all strides, all element values and all option combinations.", "anchors": ["include/tlapack/lapack/steqr.hpp", "include/tlapack/lapack/lae2.hpp", "include/tlapack/lapack/laev2.hpp", "include/tlapack/lapack/lapy2.hpp", "include/tlapack/blas/lartg.hpp"]}
{"id": "C49", "title": "Several sequences of rotations at once", "statement": "rot_sequence3 applies the l sequences of plane rotations stored in the columns of C and S to A from the left or the right and leaves the memory exactly as l calls of rot_sequence, one per column, would (it can be seen as multiple applications of rot_sequence), in both layouts, for every number of rotations, sequences and columns or rows of A; operands whose sizes do not match are rejected.", "quantifier": "all sizes of A, C and S, values in every arithmetic, sides, directions, layouts", "why_tests_cant": "Tests sample a few sizes, layouts and option combinations; the claim is for all sizes, all strides, all element values and all option combinations.", "anchors": ["include/tlapack/lapack/rot_sequence3.hpp", "include/tlapack/lapack/rot_sequence.hpp"]}
{"id": "C50", "title": "Reduction to Hessenberg-triangular form", "statement": "gghrd overwrites a pair of square matrices (A0, B0), with A0 as for gehd2 and B0 upper triangular (what B0 holds below its diagonal is ignored and zeroed), with (H, T), H upper Hessenberg in columns ilo..ihi-2 and T upper triangular, so that A0 = U H V^H and B0 = U T V^H with U and V unitary; it overwrites Q with Q U and Z with Z V if asked to and leaves them alone otherwise, returns 0, and changes nothing else. Invalid arguments are rejected before anything is written.", "quantifier": "all n, ilo, ihi, matrices (exact arithmetic), layouts", "why_tests_cant": "Tests sample a few sizes, layouts and option combinations; the claim is for all sizes, all strides, all element values and all option combinations.", "anchors": ["include/tlapack/lapack/gghrd.hpp", "include/tlapack/blas/rotg.hpp", "include/tlapack/blas/rot.hpp"]}
{"id": "C51", "title": "Rotations through a triangular matrix", "statement": "hessenberg_rq overwrites an upper triangular T with an upper triangular T' and computes rotations (cr, sr) such that applying the given left rotations (cl, sl) with rot_sequence to T and then the right rotations (cr, sr) with rot_sequence gives T'; elements below the subdiagonal are neither used nor changed.", "quantifier": "all n, matrices and rotations (exact arithmetic), layouts", "why_tests_cant": "Tests sample a few sizes, layouts and option combinations; the claim is for all sizes, all strides, all element values and all option combinations.", "anchors": ["include/tlapack/lapack/hessenberg_rq.hpp", "include/tlapack/blas/rotg.hpp", "include/tlapack/blas/rot.hpp"]}
{"id": "C52", "title": "Variants of a factorization agree", "statement": "householder_qr, householder_lq, householder_ql and householder_rq factor the matrix in the documented form whichever variant is chosen in their options, with or without a caller's workspace; gen_householder_q and householder_q_mul, again in every variant, then form Q or multiply by it, so that a factorization in one variant followed by either in another gives orthonormal columns (rows) Q with Q R, L Q, Q L or R Q equal to the original matrix, and Q^H A0 (A0 Q^H) equal to the triangular factor.", "quantifier": "all shapes, matrices (exact arithmetic), layouts, block sizes, variants and workspaces of at least the documented size", "why_tests_cant": "Tests sample a few sizes, layouts and option combinations; the claim is for all sizes, all strides, all element values and all option combinations.", "anchors": ["include/tlapack/lapack/householder_qr.hpp", "include/tlapack/lapack/householder_lq.hpp", "include/tlapack/lapack/householder_ql.hpp", "include/tlapack/lapack/householder_rq.hpp", "include/tlapack/lapack/gen_householder_q.hpp", "include/tlapack/lapack/householder_q_mul.hpp"]}
{"id": "C53", "title": "Blocked Hessenberg reduction equals the unblocked contract, for every block size and crossover", "statement": "gehrd (with options nb, nx_switch) and the driver hessenberg (either variant) reduce columns ilo, ..., ihi-2 of a square matrix A to upper Hessenberg form: afterwards A0 = Q H Q^H, where H is the upper Hessenberg part of A (with real subdiagonal in those columns) and the unitary Q is the product of the reflectors I - tau_j v_j v_j^H stored below the subdiagonal and in tau; rows from ihi on, columns before ilo and tau outside ilo, ..., ihi-2 are unchanged, nothing but A, tau and the workspace is written, and the workspace size reported by the query suffices. unghr then turns A into Q. The documented length n-1 of tau suffices.", "quantifier": "all n, ilo < n, 0 < ihi <= n, all block sizes nb and crossovers nx_switch, all values within the range of the arithmetic, real and complex, every layout", "why_tests_cant": "Tests sample a few sizes, layouts and option combinations; the claim is for all sizes, all strides, all element values and all option combinations.", "anchors": ["include/tlapack/lapack/gehrd.hpp", "include/tlapack/lapack/lahr2.hpp", "include/tlapack/lapack/hessenberg.hpp", "include/tlapack/lapack/gehd2.hpp", "include/tlapack/lapack/unghr.hpp"]}
{"id": "C54", "title": "Blocked bidiagonal reduction equals the unblocked contract, for every block size", "statement": "gebrd (with option nb) and the driver bidiag (either variant) reduce an m-by-n matrix A to real bidiagonal form: afterwards A0 = Q B P^H, where B is the upper (m >= n) or lower (m < n) bidiagonal part of A, which is real, and the unitary Q and P are the products of the reflectors stored in the rest of A and in tauv and tauw; nothing but A, tauv, tauw and the workspace is written, and the workspace size reported by the query suffices.", "quantifier": "all m, n, all positive block sizes nb, all values within the range of the arithmetic, real and complex, every layout", "why_tests_cant": "Tests sample a few sizes, layouts and option combinations; the claim is for all sizes, all strides, all element values and all option combinations.", "anchors": ["include/tlapack/lapack/gebrd.hpp", "include/tlapack/lapack/labrd.hpp", "include/tlapack/lapack/bidiag.hpp", "include/tlapack/lapack/gebd2.hpp"]}
{"id": "C55", "title": "Small kernels of the eigenvalue and SVD algorithms", "statement": "ladiv divides complex numbers given by their parts; singularvalues22 computes both singular values of [[f,g],[0,h]] and svd22 its singular value decomposition (up to eps when one element dominates); laed5 computes the requested eigenvalue and a unit eigenvector (of the shifted form) of diag(d0,d1) + rho z z^T; lahqr_schur22 computes a rotation bringing a real 2-by-2 matrix to standard Schur form (upper triangular, or equal diagonal and off-diagonal elements of opposite sign) together with its eigenvalues; lahqr_eig22 computes the eigenvalues of a complex 2-by-2 matrix; lahqr_shiftcolumn writes to v a nonzero multiple of the first column of (H - s1 I)(H - s2 I) for a 2-by-2 or 3-by-3 H, changes nothing else and rejects other sizes; inv_house3 computes a reflector of order 3 that maps the first unit vector to a null vector of two given rows, changing nothing but v.", "quantifier": "all values (exact arithmetic, real and complex), layouts", "why_tests_cant": "Tests sample a few sizes, layouts and option combinations; the claim is for all sizes, all strides, all element values and all option combinations.", "anchors": ["include/tlapack/lapack/ladiv.hpp", "include/tlapack/lapack/lahqr_eig22.hpp", "include/tlapack/lapack/lahqr_schur22.hpp", "include/tlapack/lapack/lahqr_shiftcolumn.hpp", "include/tlapack/lapack/inv_house3.hpp", "include/tlapack/lapack/singularvalues22.hpp", "include/tlapack/lapack/svd22.hpp", "include/tlapack/lapack/laed5.hpp"]}
{"id": "C56", "title": "Recursive QR factorization that keeps the block reflector factor", "statement": "geqrt3 overwrites an m-by-n matrix A (m >= n) with R and Householder vectors v_i and an n-by-n T so that A0 = Q R, R upper triangular with a real diagonal, Q = H_0 ... H_{n-1} unitary with H_i = I - T(i,i) v_i v_i^H, whatever the crossover nx; unless isw, the upper triangle of T is moreover the factor of the compact WY form Q = I - V T V^H. Elements of T below its diagonal and memory outside A, T and the workspace of geqrf never change; with m < n nothing changes at all.", "quantifier": "all m >= n, matrices (exact arithmetic, real and complex), crossovers nx, both values of isw, layouts", "why_tests_cant": "Tests sample a few sizes, layouts and option combinations; the claim is for all sizes, all strides, all element values and all option combinations.", "anchors": ["include/tlapack/lapack/geqrt3.hpp", "include/tlapack/lapack/geqrf.hpp", "include/tlapack/lapack/larft.hpp", "include/tlapack/lapack/larfg.hpp"]}
{"id": "C57", "title": "Blocked LQ factorization that keeps the factors of its block reflectors", "statement": "gelqt overwrites an m-by-n matrix A with L and Householder vectors v_i, and an m-by-nb TT, so that A0 = L Q, L lower trapezoidal with a real diagonal, Q unitary and the product of the reflectors I - TT(i, i mod nb) v_i v_i^H, whatever nb; for each block of nb consecutive reflectors the triangle of TT that starts in the row of the first one is moreover the factor of the compact WY form of their product. Nothing but A, TT and the workspace is written, and the workspace size reported by the query suffices.", "quantifier": "all m, n, matrices (exact arithmetic, real and complex), block sizes nb (the number of columns of TT), layouts", "why_tests_cant": "Tests sample a few sizes, layouts and option combinations; the claim is for all sizes, all strides, all element values and all option combinations.", "anchors": ["include/tlapack/lapack/gelqt.hpp", "include/tlapack/lapack/gelq2.hpp", "include/tlapack/lapack/larft.hpp", "include/tlapack/lapack/larfb.hpp"]}
{"id": "C58", "title": "Small Sylvester equations", "statement": "lasy2 solves op(TL) X + sgn X op(TR) = scale B for blocks of order 1 or 2: it returns info 0 or 1 and a positive scale; with info 0 the equation holds, xnorm is the infinity norm of X, and nothing but X is written; with info 1 the equation is nearly singular: some non-zero Z is mapped by the left-hand side to something smaller than the pivot threshold (for blocks of order 1, exactly when TL + sgn TR is smaller than small_num). isign other than 1 and -1 is rejected.", "quantifier": "all blocks of the sizes named in the documentation (exact real arithmetic), NoTrans, Trans and ConjTrans operands, both signs, layouts, B and X possibly the same memory", "why_tests_cant": "Tests sample a few sizes, layouts and option combinations; the claim is for all sizes, all strides, all element values and all option combinations.", "anchors": ["include/tlapack/lapack/lasy2.hpp"]}
