-Q theories Verif
theories/Base.v
theories/Scalar.v
theories/BaseLemmas.v
theories/Spec.v
theories/Sums.v
theories/SpecRound.v
theories/SpecIeee.v
theories/Rounding.v
theories/RealVec.v
theories/Schedules.v
theories/Counters.v
theories/ModelVec.v
theories/ModelMat.v
theories/SpecMat.v
theories/ProofVec.v
theories/ProofVecSched.v
theories/ProofVecProp.v
theories/PropVec.v
theories/ProofMat.v
theories/ProofMatOps.v
theories/ProofMatSched.v
theories/ProofMatProp.v
theories/PropMat.v
theories/ModelPacked.v
theories/FloatSqrt.v
theories/ProofPacked.v
theories/PropPacked.v
theories/ModelSparse.v
theories/SpecSparse.v
theories/ProofSparse.v
theories/ProofSparseAdd.v
theories/ProofSparseCsr.v
theories/PropSparse.v
theories/ProofSpmv.v
theories/PropSpmv.v
theories/PropSparse2.v
theories/ModelSolvers.v
theories/ProofTdma.v
theories/PropTdma.v
theories/ProofChol.v
theories/ProofCholSolve.v
theories/ProofCholMath.v
theories/PropChol.v
theories/PropCholSolve.v
theories/ModelIter.v
theories/ProofIlu.v
theories/PropIlu.v
theories/PropCopy.v
theories/PropTerm.v
theories/ProofCgs.v
theories/PropCgs.v
theories/ProofGmresRun.v
theories/ProofGmresMath.v
theories/ProofGmres.v
theories/PropGmres.v
theories/PropIluDom.v
theories/PropGmresAny.v
theories/ModelBlas.v
theories/SpecBlas.v
theories/PropBlas.v
theories/ModelBlasVec.v
theories/SpecBlasVec.v
theories/PropBlasVec.v
theories/PropBlasIter.v
theories/SpecSim.v
theories/Sim.v
theories/SimOps.v
theories/PropLocal.v
theories/SpecFrame.v
theories/Frame.v
theories/FrameOps.v
theories/PropFrame.v
theories/ProofTdmaBits.v
theories/ProofBackSub.v
theories/ProofRound.v
theories/ProofRound2.v
theories/ProofRound3.v
theories/ModelLapack.v
theories/SpecLapack.v
theories/ProofLapack.v
theories/PropLapack.v
theories/PropRepeat.v
theories/PropVecBasic.v
theories/PropRound.v
theories/PropRound2.v
theories/RoundFlocq.v
theories/ProofIeee.v
theories/ProofIeee2.v
theories/PropIeee.v
theories/PropIeee2.v
theories/PropIeee3.v
theories/ProofIeee3.v
theories/ProofIeee4.v
theories/PropIeee4.v
theories/PropIeee5.v
theories/ProofIeee5.v
theories/RoundIeee.v
theories/PropIeee64.v
theories/PropIeee64b.v
theories/PropIeee6.v
theories/ModelRange.v
theories/PropRange.v
theories/ModelAccel.v
theories/PropAccel.v
theories/SpecFma.v
theories/RoundFma.v
theories/ProofFma.v
theories/PropFma.v
theories/SpecParam.v
theories/ProofParam.v
theories/PropParam.v
theories/SpecWhole.v
theories/RoundWhole.v
theories/ProofWhole.v
theories/PropWhole.v
theories/SpecCommute.v
theories/PropCommute.v
theories/SpecUnits.v
theories/ProofUnits.v
theories/ProofGmresBits.v
theories/RoundUnits.v
theories/PropUnits.v
theories/SpecSigns.v
theories/RoundSigns.v
theories/ProofSigns.v
theories/PropSigns.v
theories/SpecAccuracy.v
theories/ProofAccuracy.v
theories/PropAccuracy.v
theories/ModelComplex.v
theories/SpecComplex.v
theories/ProofComplex.v
theories/ProofComplexLapack.v
theories/PropComplex.v
theories/ProofConv.v
theories/PropConv.v
theories/PropForms.v
theories/ProofIluRound.v
theories/PropIluRound.v
theories/ProofCgsRound.v
theories/PropCgsRound.v
theories/ProofGmresRound.v
theories/PropGmresRound.v
theories/PropParts.v
theories/PropCanon.v
theories/PropOrder.v
theories/SpecMono.v
theories/PropMono.v
theories/RoundMono.v
theories/SpecComp.v
theories/PropComp.v
theories/RoundComp.v
theories/PropMonoIlu.v
theories/RoundMonoIlu.v
theories/ModelDefault.v
theories/PropDefault.v
theories/SpecStorage.v
theories/PropStorage.v
theories/RoundStorage.v
theories/ModelIluOther.v
theories/ProofIluOther.v
theories/PropIluOther.v
