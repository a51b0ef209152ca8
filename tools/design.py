#!/usr/bin/env python3
"""writes the property table of DESIGN.md (between the markers) from properties.jsonl, MANIFEST.json and HOW below"""
import json, re
HOW = {
"C01":"Blas3 model of gemm.hpp (all 9 op pairs, loop by loop); weakest-precondition induction on the three loops against `gemm_spec` (finite sums).",
"C02":"`check` = tlapack_check; `_rejects`: non-conforming sizes give the exception in the initial state; `_safe`: relational run lemma, so no UB for conforming ones, in any arithmetic.",
"C03":"The overloads without beta are modelled separately; two runs from states differing only in C reach the same C.",
"C04":"Blas1 model; induction on the vector loops.",
"C05":"iamax model with the NaN/Inf branches; order laws as hypotheses, binary64 instance.",
"C06":"Blas2 model of gemv.hpp.","C07":"Blas2 models of ger, geru, her, her2, syr, syr2.","C08":"Blas2 models of hemv, symv; Hermitian/symmetric completion of the stored triangle in Spec/LinAlg.",
"C09":"Blas2 model of trmv, all uplo/trans/diag; loop invariant: prefix/suffix already multiplied.","C10":"as C09 for trsv; the solution equation is the invariant.","C11":"Blas3 model of trsm, 2x2x4x2 cases.","C12":"Blas3 model of trmm.","C13":"hemm, symm.","C14":"herk, syrk, her2k, syr2k.",
"C15":"Relational (two-run) logic Core/Rel.v: runs from states that agree on the referenced triangle stay equal.","C16":"Same logic with two different views of the same matrix (any injective address maps).",
"C17":"Cholesky model (potf2, blocked, recursive, right looking); block factorization lemma; induction on n and on blocks.","C18":"Same runs; failure branch characterises the leading minor.","C19":"potrs = two trsm.",
"C20":"LU models (level0 and recursive) with pivots in integer memory; permutation invariant.","C21":"Triangular model: trtri recursive.","C22":"lauum, ul_mult, lu_mult, mult_llh, mult_uhu recursive models.","C23":"potri, getri (uxli, uili).","C24":"pttrf model.","C25":"lacpy, laset, transpose, conjugate models.","C26":"lascl, rscl model, fuelled loop.","C27":"lange, lansy, lanhe, lantr, lassq, nrm2; Blue's thresholds as a record of constants with the laws used.","C28":"hasnan, hasinf.",
"C29":"Model of plugins/legacyArray.hpp address arithmetic (Legacy.v).","C30":"WorkInfo algebra (Work.v).","C31":"larfg, larf.","C32":"geqr2, geqrf, ung2*, unm2*, ungq/unmq level2.","C33":"lasrt (quick/insertion sort with explicit stack).","C34":"lamrg.","C35":"rot, rotg, rotm, rotmg.","C36":"rot_sequence with its unrolled loops.","C37":"Fuelled recursion; theorems exhibit that the result is never OutOfFuel.","C38":"tlapack_error modelled with both compile-time modes.","C39":"class FpModel (standard model with underflow), binary64 proved an instance through Flocq.","C40":"gelq2, geql2, gerq2 models; one pure step lemma and one loop invariant shared by all three.","C41":"larft by the recurrence of the triangular factor (a product of reflectors is a block reflector), larfb through the gemm/trmm/lacpy theorems.","C42":"One block step (level-2 factorization of a panel, then the block reflector applied to the rest) preserves the invariant of the unblocked loops; induction over the blocks.","C44":"One step (larfg, then larf from the right and from the left) is a similarity by an embedded reflector; loop invariant A0 = Q H Q^H; the norm bound larfg needs is invariant under unitary similarity; unghr/unmhr through the level-2/blocked Q theorems on a window (the product of windowed reflectors is the windowed product).","C45":"Two one-sided steps per column; invariant A0 = Q B Z^H, both shapes through one section generic in the storage mode; ungbr: the shifting loops, then ungq on the window.","C46":"The rank-2 update her2(v,w) with w = tau A v - (tau/2)(w^H v) v is the two-sided reflection (TridProof.rank2); invariant A0 = Q T Q^H; ungtr: the shifting loops, then ungq.","C43":"The product of the reflectors splits into the products of the blocks; induction over the blocks, in either order.",
 "C47":"gemmtr and hemm2: loop invariants, hemm2 with a per-column invariant for the two-sided update; mult_hehe, trmm_out and trsm_tri: induction on the recursion with a block-by-block algebra (asm, bstep), reusing the theorems on gemm, hemm2 and trsm; divergence by induction on the fuel",
 "C48":"invariant of the implicit QR/QL iteration: the current tridiagonal matrix equals W^H T W up to the deflated elements, whose Frobenius norms add up (Minkowski); one rotation of the bulge chase is one similarity by a plane rotation; permutations for the sort; the 2-by-2 kernels over R; safety in every arithmetic by a frame invariant; the NaN by vm_compute on binary64",
 "C49":"progress vectors: after any prefix of the wavefront order the line equals the first p(i) rotations of each sequence i in sequence order; one more rotation of sequence i commutes past the later sequences because they are at least two indices behind; invariants for the start-up, pipelined and shut-down phases, generic in whether the lines are the inner or the outer loop; the counterexample by vm_compute on binary64",
 "C50":"state of four disjoint views; each step multiplies (A, B) by a Givens rotation from the left and one from the right; invariant: A and B are U^H A0 V and U^H B0 V with U, V unitary, Q and Z hold Q0 U and Z0 V, B is triangular, the columns of A before j are Hessenberg and column j is zero from row i on; rotg enters through its proved specification only",
 "C51":"column by column: left rotations on zeros do nothing, so the program applies exactly the product P; invariant: the columns from i on hold P triu(A0) times the product of the right rotations found so far, upper triangular there",
 "C52":"each driver is a case distinction over the routines of C32, C40, C42 and C43; the round-trip theorems compose their contracts, using only the stored factor and tau",
 "C53":"lahr2 is modelled statement by statement; its invariant states columns of A, T and Y in closed form (compact WY representation of the product of reflectors, Y = A V T), a block then preserves the invariant of the unblocked reduction (C44), whose step finishes the remaining columns",
 "C54":"labrd is modelled statement by statement; after i of its steps the matrix that the unblocked algorithm would hold is A - V Y^H - X U^H on the part not yet updated, and this virtual matrix satisfies the invariant of the unblocked reduction (C45); the two gemms of a block make it actual; wide matrices are the conjugate transposes of tall ones",
 "C55":"the kernels are modelled statement by statement as functions over the reals (or programs on views); case analysis on the branches and algebra over R; the scaling factors are shown to cancel or to be a common nonzero factor",
 "C56":"induction on the recursion: the update is characterized as multiplication by the conjugate transpose of the block reflector of the left half, the two compact WY forms are joined algebraically (T12 = -T11 V1^H V2 T22), and the base cases come from larfg and from geqrf followed by larft on the diagonal of T",
 "C57":"the block step of C42 (gelq2, larft on the diagonal of the block of TT, larfb from the right with the rows of TT below as workspace) keeps the invariant of the factorization, with the scalar factors read at TT(i, i mod nb), and leaves the earlier blocks of A and TT alone; for m > n with one block, the last rows are shown untouched and orthogonality gives a contradiction",
 "C58":"each elimination step is shown to reflect solutions of the 4-by-4 system: row exchanges permute equations, column exchanges permute unknowns, elimination adds multiples of the pivot equation; back substitution is checked by field; the 4-by-4 system is the matrix equation",
}
props=[json.loads(l) for l in open('/verif/properties.jsonl')]
man={c['property']:c for c in json.load(open('/verif/MANIFEST.json'))['claims']}
rows=[]
for p in props:
    c=man.get(p['id'],{'status':'-','theorems':[],'note':''})
    t=c['theorems']
    rows.append('### %s %s\n\n* status: %s\n* how: %s\n* theorems: %s\n%s'%(p['id'],p['title'],c['status'],HOW.get(p['id'],'see note'),', '.join('`%s`'%x for x in t),('* note: '+c['note']+'\n') if c['note'] else ''))
d=open('/verif/DESIGN.md').read()
a,b='<!-- table -->','<!-- end table -->'
i=d.index(a)+len(a); j=d.index(b)
open('/verif/DESIGN.md','w').write(d[:i]+'\n\n'+'\n'.join(rows)+'\n'+d[j:])
