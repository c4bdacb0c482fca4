-Q theories Verif
theories/Scalar.v
theories/Outcome.v
theories/Vec.v
theories/Params.v
theories/Components.v
theories/Algorithm.v
theories/LinAlg.v
theories/LinAlgInst.v
theories/DenseModel.v
theories/MatSeq.v
theories/MpcModel.v
theories/Riccati.v
theories/Shared.v
theories/StreamSpec.v
theories/Stream.v
theories/Storage.v
theories/Pure.v
theories/Refine.v
theories/RefineShared.v
theories/RefineStream.v
theories/DenseOk.v
theories/MpcOk.v
theories/RiccatiOk.v
theories/ParamsProofs.v
theories/Api.v
theories/Loops.v
theories/Sim.v
theories/Trace.v
theories/CallFacts.v
theories/Spec.v
theories/PropsRun.v
theories/PropsApi.v
theories/PropsShared.v
theories/PropsStream.v
theories/PropsSeq.v
theories/PropsStorage.v
theories/PropsSim.v
theories/PropsOptions.v
theories/Refuted.v
theories/PropsComponents.v
theories/Examples.v
theories/RSum.v
theories/QPSpec.v
theories/RComp.v
theories/PropsKKT.v
theories/OCPSpec.v
theories/OCPFacts.v
theories/DenseR.v
theories/MpcR.v
theories/MpcExplicit.v
theories/PropsMpcData.v
theories/RunR.v
theories/PropsCert.v
theories/PropsRunR.v
theories/NewtonSpec.v
theories/PropsWeights.v
theories/LALaws.v
theories/LAInstOk.v
theories/PropsDenseNewton.v
theories/RicAlg.v
theories/RiccatiR.v
theories/RiccatiVec.v
theories/PropsRiccati.v
theories/PropsConvex.v
theories/PropsEquiv.v
theories/PropsDescent.v
theories/ProxSpec.v
theories/Shape.v
theories/PropsProx.v
theories/PropsProgress.v
theories/PropsConverge.v
theories/FbSmooth.v
theories/NewtonSize.v
theories/PropsLineSearch.v
theories/Witness.v
theories/WitnessConverge.v
theories/OcpGen.v
theories/OcpGenOk.v
theories/PropsGen.v
theories/PropsGenR.v
theories/PropsDetail.v
theories/Text.v
theories/PropsText.v
theories/PropsRead.v
theories/WitnessShared.v
theories/WitnessStream.v
theories/Rounding.v
theories/BinOps.v
theories/FloatRes.v
theories/DenseFloat.v
theories/MpcFloat.v
theories/MpcFloat2.v
theories/FloatRun.v
theories/PropsFloat.v
theories/PropsSlack.v
theories/WitnessFloat.v
theories/BinEq.v
theories/PropsStale.v
theories/SeqHeap.v
theories/PropsHeap.v
theories/WitnessHeap.v
theories/PropsGap.v
theories/WitnessGap.v
theories/FwdFloat.v
theories/MpcFwd.v
theories/MpcFwd2.v
theories/FeasFloat.v
theories/BinFwd.v
theories/PropsInfeas.v
theories/WitnessInfeas.v
theories/PropsUnsolvable.v
theories/WitnessUnsolvable.v
theories/Qdldl.v
theories/QdldlSpec.v
theories/QdldlInst.v
theories/PropsQdldl.v
theories/PropsWindows.v
theories/PropsWork.v
theories/WitnessWork.v
theories/PropsBudget.v
theories/PropsBudgetB.v
theories/PropsRelabel.v
theories/WitnessRelabel.v
theories/PropsMessages.v
theories/WitnessMessages.v
theories/PropsPresets.v
theories/WitnessPresets.v
theories/PropsDrift.v
