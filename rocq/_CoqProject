-Q theories Verif
theories/Num.v
theories/RSum.v
theories/Cheb.v
theories/Tensor.v
theories/PolySpec.v
theories/TransformModel.v
theories/TransformProofs.v
theories/TransformExactProofs.v
theories/TransformNDProofs.v
theories/Transfer.v
theories/TransformChebProofs.v
theories/TransformChecked.v
theories/TransformProps.v
theories/IntervalModel.v
theories/IntervalProofs.v
theories/HeapModel.v
theories/HeapProofs.v
theories/IntervalProps.v
theories/PartProofs.v
theories/LinearModel.v
theories/LinearProofs.v
theories/SvdExample.v
theories/SystemSpec.v
theories/LinearProps.v
theories/QuadModel.v
theories/QuadDescent.v
theories/QuadProofs.v
theories/Quad3Proofs.v
theories/QuadNdProofs.v
theories/QuadNdFaces.v
theories/QuadTransfer.v
theories/GaussExample.v
theories/QuadProps.v
theories/SolverModel.v
theories/TrimProofs.v
theories/OrderProofs.v
theories/SubdivProofs.v
theories/SubdivReal.v
theories/ZoomProofs.v
theories/MergeProofs.v
theories/SolverProofs.v
theories/SolverTransfer.v
theories/ExtExample.v
theories/FinalProofs.v
theories/SolverProps.v
theories/SplitProofs.v
theories/SubdivProps.v
theories/SubdivRule.v
theories/TrimProps.v
theories/MergeProps.v
theories/EftProofs.v
theories/EftProps.v
theories/PolyModel.v
theories/PolyEval.v
theories/PolyArith.v
theories/PolyCheb.v
theories/PolyGrad.v
theories/PolyProps.v
theories/CombinedModel.v
theories/CombinedSpec.v
theories/CombinedProofs.v
theories/CombinedTransfer.v
theories/CombinedProps.v
theories/ApproxModel.v
theories/ApproxDct.v
theories/ApproxInterp.v
theories/ApproxError.v
theories/ApproxDegree.v
theories/ApproxTerm.v
theories/ApproxPoly.v
theories/ApproxOne.v
theories/ApproxLoss.v
theories/ApproxCall.v
theories/ApproxProps.v
theories/SepProofs.v
theories/SepProps.v
theories/TrackerModel.v
theories/TrackerProofs.v
theories/TrackerProps.v
theories/TermModel.v
theories/TermProofs.v
theories/TermProps.v
theories/MemoModel.v
theories/MemoProps.v
theories/OneDSpec.v
theories/OneDModel.v
theories/OneDProofs.v
theories/OneDCheb.v
theories/OneDLink.v
theories/OneDProps.v
theories/SubcheckModel.v
theories/SubcheckBox.v
theories/SubcheckQuad.v
theories/SubcheckNd.v
theories/SubcheckProofs.v
theories/SubcheckBound.v
theories/SubcheckBoundN.v
theories/SubcheckStrict.v
theories/SubcheckCover.v
theories/SubcheckTransfer.v
theories/SubcheckProps.v
theories/ProjSpec.v
theories/ProjModel.v
theories/ProjProofs.v
theories/ProjProps.v
theories/MonMultModel.v
theories/MonMultProofs.v
theories/MonMultProps.v
theories/LinAlgSpec.v
theories/LinAlgModel.v
theories/LinAlgProofs.v
theories/LinAlgProofs2.v
theories/LinAlgProps.v
theories/EndlessProofs.v
theories/EndlessProps.v
theories/PermModel.v
theories/PermProofs.v
theories/PermProps.v
theories/IntervalQueries.v
theories/ParModel.v
theories/ParProofs.v
theories/ParProps.v
theories/MakerModel.v
theories/MakerProofs.v
theories/MakerRun.v
theories/MakerProps.v
theories/MakerMore.v
theories/MakerValues.v
theories/NewtonModel.v
theories/NewtonProofs.v
theories/NewtonProps.v
theories/NewtonMore.v
theories/ParseModel.v
theories/ParseProofs.v
theories/ParseProps.v
theories/TolModel.v
theories/TolProps.v
theories/CondModel.v
theories/CondProofs.v
theories/CondProps.v
theories/NewtonErr.v
theories/DepModel.v
theories/DepProps.v
theories/QuadSharpSpec.v
theories/QuadSharp.v
theories/SubcheckSharp.v
theories/SharpProps.v
theories/FloatSpec.v
theories/FloatCheck.v
theories/FloatProps.v
theories/UtilModel.v
theories/UtilProps.v
theories/SvdProofs.v
theories/ExtProps.v
theories/MacaulayModel.v
theories/MacaulaySpec.v
theories/MacaulayProofs.v
theories/MacaulayBuild.v
theories/MacaulayRed.v
theories/MacaulayEig.v
theories/MacaulayCount.v
theories/MacaulayEnd.v
theories/MacaulayExists.v
theories/MacaulayProps.v
theories/MsModel.v
theories/MsSpec.v
theories/MsProofs.v
theories/MsRoots.v
theories/MsExists.v
theories/MsProps.v
theories/TrimcModel.v
theories/TrimcProofs.v
theories/TrimcProps.v
theories/SubApproxModel.v
theories/SubApproxProofs.v
theories/SubApproxProps.v
theories/SubApproxMore.v
theories/SubOneModel.v
theories/SubOneSpec.v
theories/SubOneProofs.v
theories/SubOneProps.v
theories/SubNdModel.v
theories/SubNdSpec.v
theories/SubNdProofs.v
theories/SubNdLinear.v
theories/SubNdProps.v
theories/SubNdSolvedSpec.v
theories/SubNdSolved.v
theories/SubNdSolvedProps.v
theories/PolyrootsModel.v
theories/PolyrootsSpec.v
theories/PolyrootsProps.v
theories/PolyrootsNdProps.v
theories/ApproxExactSpec.v
theories/ApproxExact.v
theories/ApproxExactProps.v
theories/AffineProofs.v
theories/AffineProps.v
theories/AffineSolveProps.v
theories/ScaleTransform.v
theories/ScaleProofs.v
theories/ScaleSolve.v
theories/ScaleProps.v
theories/NoRootProps.v
theories/SymMatrix.v
theories/SymProofs.v
theories/SymSolve.v
theories/SymProps.v
theories/SymTopProps.v
theories/PerturbModel.v
theories/PerturbProps.v
theories/PermChebModel.v
theories/PermChebProps.v
