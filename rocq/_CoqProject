-Q theories Verif
theories/Ring.v
theories/Sums.v
theories/RingInst.v
theories/Outcome.v
theories/BcrsModel.v
theories/BcrsAux.v
theories/BcrsRandom.v
theories/BcrsWf.v
theories/BcrsAccess.v
theories/BcrsCopy.v
theories/BcrsSpec.v
theories/BcrsProps.v
theories/BcrsRowwise.v
theories/BcrsReach.v
theories/BcrsImplicit.v
theories/BcrsImplicitMerge.v
theories/BcrsImplicitProps.v
theories/BcrsFinal.v
theories/Sparse.v
theories/MatVec.v
theories/IndexSet.v
theories/BVector.v
theories/GsModel.v
theories/Gs.v
theories/Ilu.v
theories/IluSolve.v
theories/Ilun.v
theories/Dilu.v
theories/Ildl.v
theories/MatMat.v
theories/BTD.v
theories/BTDStruct.v
theories/Bccs.v
theories/MatrixMarket.v
theories/MatUtils.v
theories/Solvers.v
theories/Gmres.v
theories/GmresExact.v
theories/GmresEx.v
theories/Rotations.v
theories/GmresReal.v
theories/Precond.v
theories/Parallel.v
theories/ParComm.v
theories/ParOps.v
theories/Novlp.v
theories/AmgTransfer.v
theories/Bfs.v
theories/AggPattern.v
theories/Aggregation.v
theories/Amg.v
theories/FastAmg.v
theories/Dense.v
theories/ScaledId.v
theories/VBVector.v
theories/Foreach.v
theories/MultiType.v
theories/Factory.v
theories/Norms.v
theories/CgExact.v
theories/SpdSolve.v
theories/VRing.v
theories/Minres.v
theories/MinresReal.v
theories/GsSingular.v
theories/Bicgstab.v
theories/Fcg.v
theories/FcgExact.v
theories/Adjoint.v
theories/SymPrecond.v
theories/SeqSchwarz.v
theories/BcrsQueries.v
theories/PowerIter.v
theories/PowerIterEx.v
theories/MarketParallel.v
theories/AmgSetup.v
theories/AmgSpd.v
theories/HierarchyCont.v
theories/Strength.v
theories/Graphs.v
theories/Cholmod.v
theories/KAmg.v
theories/IoMatlab.v
theories/IoPrint.v
theories/Repartition.v
theories/Redistribute.v
theories/RepartPrep.v
theories/CommGraph.v
theories/ParCoarsen.v
theories/ParGalerkin.v
theories/ParAmg.v
theories/Additive.v
theories/ParAdditive.v
theories/Umfpack.v
theories/Ldl.v
theories/Superlu.v
theories/Spqr.v
theories/DirectSchwarz.v
theories/FastAmgSpd.v
theories/IoSvg.v
theories/AmgLife.v
