-Q theories Verif
theories/Py.v
theories/UtilModel.v
theories/UtilSpec.v
theories/UtilProofs.v
theories/UtilProps.v
theories/KexModel.v
theories/KexSpec.v
theories/KexProofs.v
theories/KexSimp.v
theories/KexMore.v
theories/KexProps.v
theories/OpsModel.v
theories/KexCong.v
theories/OpsSpec.v
theories/OpsProofs.v
theories/OpsProps.v
theories/KexIdemSpec.v
theories/KexIdem.v
theories/KexIdemProps.v
theories/SearchModel.v
theories/SearchSpec.v
theories/SearchProofs.v
theories/SearchProps.v
theories/GpModel.v
theories/GpSpec.v
theories/GpProofs.v
theories/GpProps.v
theories/GpFail.v
theories/GpFailProps.v
theories/KernModel.v
theories/KernSpec.v
theories/KernSig.v
theories/KernGrad.v
theories/KernGrad2.v
theories/KernGrad3.v
theories/KernBessel.v
theories/KernGrad4.v
theories/KernGrad5.v
theories/KernGrad6.v
theories/KernPsd.v
theories/KernProper.v
theories/KernProps.v
theories/DataModel.v
theories/DataProofs.v
theories/DataProps.v
theories/SemModel.v
theories/SemSpec.v
theories/SemProofs.v
theories/SemSimp.v
theories/SemMore.v
theories/SemOps.v
theories/KexCheck.v
theories/SemKernel.v
theories/SemProps.v
theories/SemLimSpec.v
theories/SemLimit.v
theories/SemLimitProps.v
theories/IvModel.v
theories/IvSpec.v
theories/IvProofs.v
theories/IvOk.v
theories/IvText.v
theories/IvLines.v
theories/IvWit.v
theories/IvShape.v
theories/IvExact.v
theories/IvProps.v
theories/ParModel.v
theories/ParSpec.v
theories/ParNames.v
theories/ParMatch.v
theories/ParMatch2.v
theories/ParCov.v
theories/ParInv.v
theories/ParInv2.v
theories/ParInv3.v
theories/ParGroup.v
theories/ParComp.v
theories/ParSop.v
theories/ParSop2.v
theories/ParSop3.v
theories/ParProofs.v
theories/ParOff.v
theories/ParWit.v
theories/ParMore.v
theories/ParOrder.v
theories/ParOrder2.v
theories/ParOrder3.v
theories/ParProps.v
theories/ParOffProps.v
theories/ParInitModel.v
theories/ParInit.v
theories/ParInitProps.v
theories/PySpec.v
theories/PyProofs.v
theories/StrModel.v
theories/StrSpec.v
theories/StrLex.v
theories/StrProofs.v
theories/StrProps.v
theories/HeapModel.v
theories/HeapSpec.v
theories/HeapBase.v
theories/HeapSimp.v
theories/HeapSimp2.v
theories/HeapMix.v
theories/HeapNew.v
theories/HeapOps.v
theories/HeapOps2.v
theories/HeapRepl.v
theories/HeapSpoil.v
theories/HeapTree.v
theories/HeapExpand.v
theories/HeapCover.v
theories/HeapMain.v
theories/HeapProofs.v
theories/HeapWit.v
theories/HeapProps.v
theories/ObjModel.v
theories/ObjSpec.v
theories/ObjProofs.v
theories/ObjWit.v
theories/ObjProps.v
theories/ObjGrad.v
theories/ObjGrad2.v
theories/ObjGrad3.v
theories/ObjGradWit.v
theories/ObjGradProps.v
theories/CwModel.v
theories/CwSpec.v
theories/CwProofs.v
theories/CwProofs2.v
theories/CwProofs3.v
theories/CwProps.v
theories/ReachSpec.v
theories/ReachProofs.v
theories/ReachCong.v
theories/ReachSearch.v
theories/ReachOver.v
theories/ReachWit.v
theories/ReachProps.v
theories/RunSpec.v
theories/RunProofs.v
theories/RunWit.v
theories/RunProps.v
theories/PredModel.v
theories/PredSpec.v
theories/PredProofs.v
theories/PredBest.v
theories/PredWit.v
theories/PredPart.v
theories/PredProps.v
theories/KernPer.v
theories/PerProps.v
theories/CountModel.v
theories/CountSpec.v
theories/CountProofs.v
theories/CountProps.v
theories/UnitSpec.v
theories/UnitProofs.v
theories/UnitWit.v
theories/UnitProps.v
theories/GrowSpec.v
theories/GrowProofs.v
theories/LikeProofs.v
theories/GrowLike.v
theories/GrowWit.v
theories/GrowProps.v
theories/TextSpec.v
theories/TextProofs.v
theories/TextFinal.v
theories/TextWit.v
theories/TextProps.v
theories/TextSlopeSpec.v
theories/TextSlope.v
theories/TextSlopeProps.v
theories/SearchVerb.v
theories/VerbProps.v
theories/LinModel.v
theories/LinSpec.v
theories/LinProofs.v
theories/LinGrad.v
theories/LinXX.v
theories/LinProps.v
theories/BeamSpec.v
theories/BeamProofs.v
theories/BeamWit.v
theories/BeamProps.v
theories/CostSpec.v
theories/CostProofs.v
theories/CostMore.v
theories/CostSearch.v
theories/CostProps.v
theories/RoundProofs.v
theories/RoundProps.v
theories/ReachMin.v
theories/ReachKeep.v
theories/MinWit.v
theories/MinProps.v
theories/TermProofs.v
theories/TermProps.v
theories/VecModel.v
theories/VecSpec.v
theories/VecProofs.v
theories/VecProps.v
theories/GramSpec.v
theories/GramProofs.v
theories/GramWit.v
theories/GramProps.v
theories/MixProofs.v
theories/MixProps.v
theories/HollowSpec.v
theories/HollowProofs.v
theories/HollowProps.v
theories/BenchModel.v
theories/BenchSpec.v
theories/BenchProofs.v
theories/BenchMerge.v
theories/BenchWit.v
theories/BenchProps.v
theories/StatProofs.v
theories/StatProps.v
theories/FitModel.v
theories/FitSpec.v
theories/FitProofs.v
theories/FitProps.v
