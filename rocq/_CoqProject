-Q theories Verif
theories/Core/FloatOrd.v
theories/Core/FpModel.v
theories/Core/IVec.v
theories/Core/Instances.v
theories/Core/Inv0.v
theories/Core/Loops.v
theories/Core/NanLaws.v
theories/Core/Prog.v
theories/Core/Quiet.v
theories/Core/RealLaws.v
theories/Core/Rel.v
theories/Core/Scalar.v
theories/Core/Slice.v
theories/Core/View.v
theories/Core/WorkEff.v
theories/Model/Blas1.v
theories/Model/Blas2.v
theories/Model/Blas3.v
theories/Model/BlockQ.v
theories/Model/Cholesky.v
theories/Model/Drivers.v
theories/Model/Gebrd.v
theories/Model/Gehrd.v
theories/Model/Gelqt.v
theories/Model/Gemm.v
theories/Model/Geqrt3.v
theories/Model/Gghrd.v
theories/Model/Householder.v
theories/Model/LU.v
theories/Model/LaAux.v
theories/Model/Legacy.v
theories/Model/MatMul.v
theories/Model/Norms.v
theories/Model/QFact.v
theories/Model/QGen.v
theories/Model/Reduce.v
theories/Model/ReduceQ.v
theories/Model/Rot.v
theories/Model/RotSeq3.v
theories/Model/Small.v
theories/Model/Sort.v
theories/Model/Steqr.v
theories/Model/Sylv.v
theories/Model/Triangular.v
theories/Model/Work.v
theories/Proof/BidProof.v
theories/Proof/Blas1Proof.v
theories/Proof/Blas2Proof.v
theories/Proof/BlasRel.v
theories/Proof/BlkOps.v
theories/Proof/BlockAlg.v
theories/Proof/BlockFact.v
theories/Proof/BlockProof.v
theories/Proof/BlockUng.v
theories/Proof/BlockUnm.v
theories/Proof/BorderInv.v
theories/Proof/CholMath.v
theories/Proof/CholProof.v
theories/Proof/CholRel.v
theories/Proof/Ev2Proof.v
theories/Proof/ExactBlas.v
theories/Proof/GebrdMath.v
theories/Proof/GebrdProof.v
theories/Proof/GebrdRun.v
theories/Proof/GehrdBlock.v
theories/Proof/GehrdMath.v
theories/Proof/GehrdProof.v
theories/Proof/GehrdRun.v
theories/Proof/GelqtProof.v
theories/Proof/GemmProof.v
theories/Proof/Geqrt3Math.v
theories/Proof/Geqrt3Proof.v
theories/Proof/Geqrt3Run.v
theories/Proof/GetrfProof.v
theories/Proof/GetrfRecProof.v
theories/Proof/GetriProof.v
theories/Proof/GetriRel.v
theories/Proof/GghrdProof.v
theories/Proof/GivensProof.v
theories/Proof/HRel.v
theories/Proof/HemmProof.v
theories/Proof/HemvProof.v
theories/Proof/Her2kProof.v
theories/Proof/HerkProof.v
theories/Proof/HessProof.v
theories/Proof/HrqProof.v
theories/Proof/IamaxProof.v
theories/Proof/LUMath.v
theories/Proof/LUSafe.v
theories/Proof/LaAuxProof.v
theories/Proof/LaAuxProof2.v
theories/Proof/LabrdOps.v
theories/Proof/LabrdProof.v
theories/Proof/Lahr2Proof.v
theories/Proof/LarfProof.v
theories/Proof/LarfbProof.v
theories/Proof/LarfgProof.v
theories/Proof/LarftProof.v
theories/Proof/LauumProof.v
theories/Proof/LegacyProof.v
theories/Proof/LowOps.v
theories/Proof/LowView.v
theories/Proof/LuMultProof.v
theories/Proof/MatMulProof.v
theories/Proof/MatMulRec.v
theories/Proof/MergeProof.v
theories/Proof/MultBound.v
theories/Proof/NoBetaProof.v
theories/Proof/NormsProof.v
theories/Proof/OrdLemmas.v
theories/Proof/PotrfProof.v
theories/Proof/QFactProof.v
theories/Proof/QGenProof.v
theories/Proof/QRProof.v
theories/Proof/ReduceMath.v
theories/Proof/ReduceProof.v
theories/Proof/RelTac.v
theories/Proof/RotSeq3Proof.v
theories/Proof/RotSeqProof.v
theories/Proof/RotgProof.v
theories/Proof/RotmgProof.v
theories/Proof/RoundBlas.v
theories/Proof/RoundLU.v
theories/Proof/RoundProof.v
theories/Proof/RoundTrsv.v
theories/Proof/RsclProof.v
theories/Proof/SliceTac.v
theories/Proof/SmallHouse.v
theories/Proof/SmallProof.v
theories/Proof/SmallSchur.v
theories/Proof/SmallSvd.v
theories/Proof/SmallViews.v
theories/Proof/SortProof.v
theories/Proof/SteqrMath.v
theories/Proof/SteqrProof.v
theories/Proof/SteqrSafe.v
theories/Proof/SteqrSort.v
theories/Proof/SumLemmas.v
theories/Proof/SylvProof.v
theories/Proof/Tactics.v
theories/Proof/TriRel.v
theories/Proof/TridProof.v
theories/Proof/TrmmProof.v
theories/Proof/TrmvProof.v
theories/Proof/TrsmProof.v
theories/Proof/TrsmTriProof.v
theories/Proof/TrtriProof.v
theories/Proof/TwoRuns.v
theories/Proof/TwoRunsX.v
theories/Proof/UnghrProof.v
theories/Proof/UngtrProof.v
theories/Proof/WorkProof.v
theories/Properties/Blas1.v
theories/Properties/Blas2.v
theories/Properties/Blas3.v
theories/Properties/BlockQ.v
theories/Properties/Cholesky.v
theories/Properties/CholeskyRel.v
theories/Properties/Drivers.v
theories/Properties/ExTac.v
theories/Properties/Gebrd.v
theories/Properties/Gehrd.v
theories/Properties/Gelqt.v
theories/Properties/Geqrt3.v
theories/Properties/Getri.v
theories/Properties/Gghrd.v
theories/Properties/Householder.v
theories/Properties/LU.v
theories/Properties/LUFloat.v
theories/Properties/LaAux.v
theories/Properties/MatMul.v
theories/Properties/NoBeta.v
theories/Properties/Norms.v
theories/Properties/NormsNan.v
theories/Properties/Pttrf.v
theories/Properties/QFact.v
theories/Properties/QGen.v
theories/Properties/Reduce.v
theories/Properties/ReduceQ.v
theories/Properties/RelExamples.v
theories/Properties/Rot.v
theories/Properties/RotSeq3.v
theories/Properties/Rounding.v
theories/Properties/Safety.v
theories/Properties/Small.v
theories/Properties/Sort.v
theories/Properties/Steqr.v
theories/Properties/Sylv.v
theories/Properties/TriMult.v
theories/Properties/Triangular.v
theories/Properties/TriangularRel.v
theories/Properties/TwoRunsBlas.v
theories/Properties/Views.v
theories/Properties/Work.v
theories/Spec/Cholesky.v
theories/Spec/Householder.v
theories/Spec/Inverse.v
theories/Spec/LU.v
theories/Spec/LinAlg.v
theories/Spec/Norms.v
theories/Spec/Outcome.v
theories/Spec/Parts.v
theories/Spec/PosDef.v
theories/Spec/Reduce.v
theories/Spec/Rot.v
theories/Spec/Rounding.v
theories/Spec/Small.v
theories/Spec/Sort.v
theories/Spec/Steqr.v
theories/Spec/Tridiag.v
