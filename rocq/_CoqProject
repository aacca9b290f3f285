-Q theories Verif
theories/Py.v
theories/ZMat.v
theories/CodesModel.v
theories/BoolLin.v
theories/RankSpec.v
theories/Rank.v
theories/Gauss.v
theories/Gauss2.v
theories/Logical.v
theories/CodesSpec.v
theories/CodesProofs.v
theories/CodesProofs2.v
theories/ConcatProofs.v
theories/PropsCodes.v
theories/Scalar.v
theories/PauliModel.v
theories/PauliProofs.v
theories/PauliSpec.v
theories/PauliProofs2.v
theories/EncoderProofs.v
theories/CorrectProofs.v
theories/EighExists.v
theories/PropsPauli.v
theories/CircuitModel.v
theories/CircuitSpec.v
theories/CircuitProofs.v
theories/EncodeProofs.v
theories/CircuitProofs2.v
theories/CircuitProofs3.v
theories/CircuitProofs4.v
theories/CircuitProofs5.v
theories/PropsCircuits.v
theories/KrausModel.v
theories/ChoiModel.v
theories/ChannelModel.v
theories/KrausSpec.v
theories/ChannelSpec.v
theories/KrausProofs.v
theories/KrausProofs2.v
theories/KrausProofs3.v
theories/KrausProofs4.v
theories/KrausProofs5.v
theories/KrausProofs6.v
theories/KrausProofs7.v
theories/KrausProofs8.v
theories/KrausProofs9.v
theories/KrausProofs10.v
theories/KrausProofs11.v
theories/KrausProofs12.v
theories/KrausExamples.v
theories/PropsKraus.v
theories/ChoiSpec.v
theories/ChoiProofs.v
theories/Spectral.v
theories/PowerSums.v
theories/SpectralProofs.v
theories/SpectralExists.v
theories/ChoiProofs2.v
theories/ChoiProofs3.v
theories/Sqrt.v
theories/EntropyProofs.v
theories/ChoiProofs4.v
theories/PropsChoi.v
theories/ParamModel.v
theories/ParamSpec.v
theories/ParamProofs.v
theories/ParamProofs2.v
theories/ParamProofs3.v
theories/ParamProofs4.v
theories/ParamProofs5.v
theories/ParamProofs6.v
theories/ParamExists.v
theories/PropsParam.v
theories/OptimModel.v
theories/OptimSpec.v
theories/OptimProofs.v
theories/OptimProofs2.v
theories/OptimProofs3.v
theories/OptimProofs4.v
theories/PropsOptim.v
theories/PropsOptim2.v
theories/DeviceModel.v
theories/DeviceSpec.v
theories/DeviceProofs.v
theories/DeviceProofs2.v
theories/DeviceProofs3.v
theories/DeviceProofs4.v
theories/DeviceProofs5.v
theories/DeviceProofs6.v
theories/PropsDevice.v
theories/QecSpec.v
theories/QecProofs.v
theories/PropsQec.v
theories/FindModel.v
theories/FindSpec.v
theories/FindProofs.v
theories/FindProofs2.v
theories/PropsFind.v
theories/AvgFidModel.v
theories/AvgFidSpec.v
theories/AvgFidProofs.v
theories/AvgFidProofs2.v
theories/AvgFidProofs3.v
theories/AvgFidExample.v
theories/AvgFidExample2.v
theories/PropsAvgFid.v
theories/EntropySpec.v
theories/Subadd.v
theories/CohProofs.v
theories/CohProofs2.v
theories/CohProofs3.v
theories/CohProofs4.v
theories/PropsEntropy.v
theories/ChanSpec.v
theories/ChanProofs.v
theories/ChanProofs2.v
theories/ChanProofs3.v
theories/PropsChan.v
theories/ParamProofs7.v
theories/PropsParam2.v
theories/DependSpec.v
theories/DependProofs.v
theories/OddYProofs.v
theories/PropsDepend.v
theories/UnitalProofs.v
theories/UnitalSpec.v
theories/UnitalProofs2.v
theories/WorkflowSpec.v
theories/WorkflowProofs.v
theories/UserOpsSpec.v
theories/UserOpsProofs.v
theories/UserOpsProofs2.v
theories/PropsUserOps.v
theories/StringsSpec.v
theories/StringsModel.v
theories/StringsProofs.v
theories/PropsStrings.v
theories/ConcatSpec.v
theories/ConcatAbs.v
theories/ConcatProofs2.v
theories/PropsConcat.v
theories/RegisterSpec.v
theories/RegisterProofs.v
theories/RegisterProofs2.v
theories/AtomicProofs.v
theories/PropsRegister.v
theories/SetterModel.v
theories/SetterSpec.v
theories/SetterProofs.v
theories/PropsSetter.v
theories/RelativeReal.v
theories/Relative.v
theories/ProcessingSpec.v
theories/Processing.v
theories/Processing2.v
theories/PropsProcessing.v
theories/Degradable.v
theories/PropsDegradable.v
theories/TextbookSpec.v
theories/TextbookProofs.v
theories/PropsTextbook.v
theories/EncodedSpec.v
theories/EncodedProofs.v
theories/PropsEncoded.v
theories/PropsWorkflow.v
theories/PropsUnital.v
theories/SameCodeSpec.v
theories/SameCodeProofs.v
theories/PropsSameCode.v
theories/MeasureSpec.v
theories/MeasureProofs.v
theories/PropsMeasure.v
theories/NoCorrectSpec.v
theories/NoCorrectProofs.v
theories/PropsNoCorrect.v
theories/CsrModel.v
theories/CsrSpec.v
theories/CsrProofs.v
theories/PropsSparse.v
theories/FidelitySpec.v
theories/FidelityProofs.v
theories/PropsFidelity.v
theories/RepoTests.v
theories/KnownSpec.v
theories/KnownProofs.v
theories/KnownProofs2.v
theories/KnownProofs3.v
theories/PropsKnown.v
theories/KnownProofs4.v
theories/PropsKnown2.v
theories/OrthSpec.v
theories/OrthProofs.v
theories/PropsOrth.v
theories/PureFid.v
theories/PropsPureFid.v
theories/MixedCalc.v
theories/DephSpec.v
theories/DephMax.v
theories/DephUseless.v
theories/HashProofs.v
theories/PropsDeph.v
theories/PropsChoiKnown.v
theories/SparseBranchModel.v
theories/PropsSparseBranch.v
theories/PropsSparseBranch2.v
theories/PropsSparseBranch3.v
theories/PropsSparseBranch4.v
theories/AttrModel.v
theories/PropsAttrs.v
theories/OverCut.v
theories/PropsOverCut.v
theories/MixSpec.v
theories/MixProofs.v
theories/PropsMix.v
theories/KlSpec.v
theories/KlProofs.v
theories/KlCode.v
theories/PropsKl.v
theories/RoundSpec.v
theories/RoundProofs.v
theories/PropsRound.v
theories/SymSpec.v
theories/SymProofs.v
theories/PropsSym.v
theories/GenSetSpec.v
theories/GenSetProofs.v
theories/PropsGenSet.v
theories/TwirlSpec.v
theories/TwirlProofs.v
theories/TwirlProofs2.v
theories/TwirlProofs3.v
theories/TwirlProofs4.v
theories/PropsTwirl.v
theories/TwirlSpec2.v
theories/PropsTwirl2.v
theories/TwirlSpec3.v
theories/TwirlProofs5.v
theories/PropsTwirl3.v
theories/TwirlSpec4.v
theories/TwirlProofs6.v
theories/PropsTwirl4.v
theories/TwirlSpec5.v
theories/PropsTwirl5.v
theories/SharedModel.v
theories/SharedSpec.v
theories/SharedProofs.v
theories/PropsShared.v
theories/DistProofs.v
theories/PropsDist.v
theories/PropsDist2.v
theories/PropsDist3.v
theories/BlockSpec.v
theories/BlockProofs.v
theories/PropsBlock.v
