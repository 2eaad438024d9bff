-Q theories Verif
theories/Base.v
theories/Scalar.v
theories/InstQc.v
theories/InstR.v
theories/InstF64.v
theories/Matrix.v
theories/Buffer.v
theories/MatrixLaws.v
theories/BufferLaws.v
theories/Sums.v
theories/Ord.v
theories/DenseProofs.v
theories/TriProofs.v
theories/PropDense.v
theories/Inverse.v
theories/Rep.v
theories/LuProofs.v
theories/GaussProofs.v
theories/DetProofs.v
theories/DetMC.v
theories/PropInverse.v
theories/PropDetMC.v
theories/Perm.v
theories/Sparse.v
theories/EnvProofs.v
theories/EnvSolve.v
theories/BiEnvProofs.v
theories/PermProofs.v
theories/DictProofs.v
theories/CrProofs.v
theories/BiToLe.v
theories/Safety.v
theories/Overflow.v
theories/OverflowProofs.v
theories/SparseFull.v
theories/PropSparse.v
theories/GraphProofs.v
theories/RcmProofs.v
theories/EdgeProofs.v
theories/PropGraph.v
theories/Solve.v
theories/LdlProofs.v
theories/CholProofs.v
theories/PropFactor.v
theories/SystemProofs.v
theories/SolverProofs.v
theories/GsProofs.v
theories/PropSolve.v
theories/Eigen.v
theories/EigSearch.v
theories/Inertia.v
theories/EigIter.v
theories/EigTerm.v
theories/EigRepeat.v
theories/EigTop.v
theories/PropEigen.v
theories/Spatial.v
theories/Elem.v
theories/Assem.v
theories/ElemProofs.v
theories/AssemProofs.v
theories/ElemAlg.v
theories/ElemPsd.v
theories/ElemLoad.v
theories/ElemMore.v
theories/Supports.v
theories/SupportMat.v
theories/ElemTop.v
theories/StressProofs.v
theories/StressVec.v
theories/StressPatch.v
theories/Quad.v
theories/QuadN.v
theories/PropElem.v
theories/PropSupport.v
theories/Predicates.v
theories/DetConst.v
theories/PredProofs.v
theories/PropPred.v
theories/Bounds.v
theories/BoundsProofs.v
theories/DivideR.v
theories/MeshEx.v
theories/PropBound.v
theories/Plane.v
theories/PlaneProofs.v
theories/MeshProofs.v
theories/MeshLoops.v
theories/GiftProofs.v
theories/Ends.v
theories/MeshEnds.v
theories/PlaneTop.v
theories/PlaneAsm.v
theories/PlaneFinal.v
theories/PropPlane.v
theories/Visual.v
theories/BresProofs.v
theories/InstVis.v
theories/VisualProofs.v
theories/VisualTop.v
theories/PropVisual.v
theories/File.v
theories/FileText.v
theories/FileProofs.v
theories/FileRound.v
theories/FileBuild.v
theories/FileTop.v
theories/FileCheck.v
theories/FileReject.v
theories/FileNum.v
theories/FileBnd.v
theories/FileExact.v
theories/FileSound.v
theories/InstFile.v
theories/PropFile.v
theories/Cli.v
theories/StudyProofs.v
theories/CliProofs.v
theories/CliMesh.v
theories/CliStudy.v
theories/CliReal.v
theories/CliEx.v
theories/PropCli.v
theories/HeldProofs.v
theories/LinkProofs.v
theories/PropHeld.v
theories/BulkProofs.v
theories/PointProofs.v
theories/TriEq.v
theories/PropBulk.v
theories/EnvSteps.v
theories/Round.v
theories/RoundSub.v
theories/RoundChol.v
theories/RoundLL.v
theories/RoundSys.v
theories/FreeAsm.v
theories/RoundTop.v
theories/PropRound.v
theories/PropPatch.v
theories/GsConv.v
theories/PropIter.v
theories/RoundGauss.v
theories/RoundDense.v
theories/PropGauss.v
theories/LdlFree.v
theories/InertiaPert.v
theories/RoundLdl.v
theories/RoundCount.v
theories/PropCount.v
theories/EigConv.v
theories/PropModal.v
theories/CrossProofs.v
theories/PropCross.v
theories/SightProofs.v
theories/PropSight.v
theories/RuppertProofs.v
theories/PropRuppert.v
theories/PaintProofs.v
theories/PropPaint.v
theories/DelaunayProofs.v
theories/DelaunayDig.v
theories/DelaunayGrid.v
theories/PropDelaunay.v
theories/SideProofs.v
theories/PropSides.v
theories/RowProofs.v
theories/PropRows.v
theories/FileMesh.v
theories/PropMeshFile.v
theories/EnergyProofs.v
theories/PropEnergy.v
theories/FrameProofs.v
theories/PropFrame.v
theories/Counts.v
theories/CountProofs.v
theories/PropTally.v
theories/Unused.v
theories/UnusedProofs.v
theories/PropUnused.v
theories/ReactProofs.v
theories/PropReact.v
theories/LoadProofs.v
theories/ReactLoad.v
theories/PropLoad.v
theories/CliLeft.v
theories/PropLeft.v
theories/MatProofs.v
theories/PropMaterial.v
theories/VibProofs.v
theories/PropVib.v
theories/StartProofs.v
theories/PropStart.v
theories/ScaleProofs.v
theories/PropScale.v
theories/TensorProofs.v
theories/PropTensor.v
theories/VirtualProofs.v
theories/PropVirtual.v
theories/BalanceProofs.v
theories/PropBalance.v
theories/MeanProofs.v
theories/PropMean.v
