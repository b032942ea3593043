-Q theories Verif
theories/Base.v
theories/Num.v
theories/PartModel.v
theories/MoveModel.v
theories/FillModel.v
theories/SAModel.v
theories/ListLib.v
theories/QcSum.v
theories/PartSpec.v
theories/AdjSpec.v
theories/PartInv.v
theories/ChangeProof.v
theories/MergeProof.v
theories/Steps.v
theories/FillProof.v
theories/CopyProof.v
theories/CompressProof.v
theories/SplitProof.v
theories/EnergyForm.v
theories/SAProof.v
theories/ModSpec.v
theories/ExactProof.v
theories/ModularityProof.v
theories/SAExact.v
theories/EdgeListProof.v
theories/EdgeListExact.v
theories/RolesProof.v
theories/RolesBounds.v
theories/CoreThms.v
theories/CoreExact.v
theories/Fuel.v
theories/Refute.v
theories/SARules.v
theories/HeapModel.v
theories/HeapProof.v
theories/IoModel.v
theories/IoSpec.v
theories/IoProof.v
theories/IoClust.v
theories/DataModel.v
theories/DataProof.v
theories/NatSum.v
theories/MatLib.v
theories/GraphModel.v
theories/GraphSpec.v
theories/GraphProof.v
theories/GraphRand.v
theories/GraphSim.v
theories/MatrixModel.v
theories/MatrixProof.v
theories/BfsModel.v
theories/BfsProof.v
theories/PathLen.v
theories/GraphSeq.v
theories/ToolsModel.v
theories/ToolsProof.v
theories/GroupModel.v
theories/GroupSpec.v
theories/PairSum.v
theories/GroupProof.v
theories/GroupExact.v
theories/ModulesModel.v
theories/ModulesSpec.v
theories/ModulesMod.v
theories/ModulesNew.v
theories/ModulesMap.v
theories/ModulesCopy.v
theories/ModulesEqui.v
theories/ModulesFile.v
theories/ModulesClass.v
theories/ModulesClusters.v
theories/BipartModel.v
theories/BipartSpec.v
theories/BipartRen.v
theories/BipartRand.v
theories/BipartMem.v
theories/BipartProj.v
theories/BipartExact.v
theories/BipartPart.v
theories/BipartStar.v
theories/Properties1.v
theories/Properties2.v
theories/Properties3.v
theories/Properties4.v
theories/Properties5.v
theories/Properties6.v
theories/Properties7.v
theories/BipartFile.v
theories/BipartCopy.v
theories/Properties8.v
theories/Properties9.v
theories/NetModel.v
theories/NetSpec.v
theories/NetBuild.v
theories/NetPrint.v
theories/NetCopy.v
theories/NetJoin.v
theories/NetNeig.v
theories/Properties10.v
theories/GenModel.v
theories/GenSpec.v
theories/GenProof.v
theories/GenPA.v
theories/GenBlock.v
theories/Properties11.v
theories/MissModel.v
theories/MissSpec.v
theories/MissSets.v
theories/MissStep.v
theories/MissRun.v
theories/MissScore.v
theories/MissExact.v
theories/MissUninit.v
theories/Properties12.v
theories/ProjModel.v
theories/RunLib.v
theories/ProjProof.v
theories/ProjThms.v
theories/ProjSpec.v
theories/ProjExact.v
theories/Properties13.v
theories/NetcartoModel.v
theories/NetcartoSpec.v
theories/NetcartoProof.v
theories/NetcartoThms.v
theories/Properties14.v
theories/UnitNet.v
theories/BtwModel.v
theories/BtwSpec.v
theories/BtwCount.v
theories/BtwBrandes.v
theories/BtwSearch.v
theories/BtwProof.v
theories/Properties15.v
theories/StatModel.v
theories/StatSpec.v
theories/StatProof.v
theories/StatAssort.v
theories/Properties16.v
theories/SearchModel.v
theories/SearchSpec.v
theories/SearchProof.v
theories/SearchLoop.v
theories/SearchUse.v
theories/Properties17.v
theories/LinkModel.v
theories/LinkSpec.v
theories/LinkProof.v
theories/LinkMain.v
theories/Properties18.v
theories/ConnModel.v
theories/ConnSpec.v
theories/ConnProof.v
theories/ConnSearch.v
theories/ConnSets.v
theories/ConnMain.v
theories/Properties19.v
theories/RecModel.v
theories/RecSpec.v
theories/RecSets.v
theories/RecMem.v
theories/RecLinks.v
theories/RecStep.v
theories/RecSetup.v
theories/RecRun.v
theories/RecExact.v
theories/RecEnergy.v
theories/RecClean.v
theories/RecScore.v
theories/RecMain.v
theories/RecGibbs.v
theories/RecHeat.v
theories/RecAux.v
theories/RecSingle.v
theories/Properties20.v
theories/CommModel.v
theories/CommSpec.v
theories/CommSums.v
theories/CommStep.v
theories/CommFlip.v
theories/CommSplit.v
theories/CommCopy.v
theories/CommRun.v
theories/CommMain.v
theories/CommTheorems.v
theories/RecDecor.v
theories/Properties21.v
theories/RoleModel.v
theories/RoleSpec.v
theories/RoleProof.v
theories/RoleFast.v
theories/RoleMore.v
theories/BlockSpec.v
theories/RoleBlock.v
theories/RoleSizes.v
theories/Properties22.v
theories/ScoreModel.v
theories/ScoreSpec.v
theories/ScoreProof.v
theories/ScoreNet.v
theories/ScoreRec.v
theories/Properties23.v
theories/MbModel.v
theories/MbSpec.v
theories/MbStep.v
theories/MbRun.v
theories/MbExact.v
theories/MbScore.v
theories/Properties24.v
theories/GibbsModel.v
theories/GibbsSpec.v
theories/GibbsSets.v
theories/GibbsStep.v
theories/GibbsRun.v
theories/GibbsExact.v
theories/GibbsScore.v
theories/Properties25.v
theories/Properties26.v
theories/SparseModel.v
theories/SparseSpec.v
theories/SparseStep.v
theories/SparseRun.v
theories/SparseMain.v
theories/Properties27.v
theories/KsModel.v
theories/KsSpec.v
theories/KsLinks.v
theories/KsStep.v
theories/KsRun.v
theories/KsExact.v
theories/KsMain.v
theories/Properties28.v
theories/NodeModel.v
theories/NodeSpec.v
theories/NodeProof.v
theories/NodeStat.v
theories/Properties29.v
theories/HistModel.v
theories/HistProof.v
theories/Properties30.v
theories/LbtwModel.v
theories/LbtwProof.v
theories/Properties31.v
theories/BigModel.v
theories/BigProof.v
theories/Properties32.v
theories/TeamModel.v
theories/TeamProof.v
theories/Properties33.v
theories/TeamLive.v
theories/Properties34.v
theories/PajModel.v
theories/PajProof.v
theories/Properties35.v
theories/PajBiModel.v
theories/PajBiProof.v
theories/Properties36.v
theories/DisposeModel.v
theories/DisposeProof.v
theories/Properties37.v
