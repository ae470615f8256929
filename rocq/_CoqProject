-Q theories Verif
theories/StoreModel.v
theories/StoreSpec.v
theories/StoreProofs.v
theories/StoreWrap.v
theories/StoreProps.v
theories/TapeModel.v
theories/TapeSpec.v
theories/TapeProofs.v
theories/TapeWriter.v
theories/TapeSweep.v
theories/TapeProps.v
theories/AdModel.v
theories/AdRecord.v
theories/AdSpec.v
theories/AdReplay.v
theories/AdPlain.v
theories/AdPlainProofs.v
theories/AdPlainRun.v
theories/Binary64.v
theories/AdReal.v
theories/AdProps.v
theories/AdSelect.v
theories/AdRestore.v
theories/AdLin.v
theories/AdReverse.v
theories/AdTidy.v
theories/AdTidyCalls.v
theories/AdKeep.v
theories/AdReverseProps.v
theories/AdReverseDouble.v
theories/AdDeriv.v
theories/AdTangent.v
theories/AdDerivProps.v
theories/AdDerivEx.v
theories/TayModel.v
theories/TaySpec.v
theories/TayProofs.v
theories/TayProps.v
theories/MgrModel.v
theories/MgrSpec.v
theories/MgrProofs.v
theories/MgrProps.v
theories/SpModel.v
theories/SpSpec.v
theories/SpProofs.v
theories/SpTangent.v
theories/SpProps.v
theories/AllocModel.v
theories/AllocProps.v
theories/FortModel.v
theories/FortProps.v
theories/TnModel.v
theories/TnSpec.v
theories/TnProofs.v
theories/TnEnum.v
theories/TnProps.v
theories/TnInterp.v
theories/TnCoeffModel.v
theories/TnCoeffProofs.v
theories/TnCoeffEval.v
theories/TnEval.v
theories/ConvModel.v
theories/ConvSpec.v
theories/ConvProofs.v
theories/ConvProps.v
theories/TlModel.v
theories/TlSpec.v
theories/TlDeriv.v
theories/TlProofs.v
theories/TlProps.v
theories/RevModel.v
theories/RevSpec.v
theories/RevProofs.v
theories/RevInv.v
theories/RevProps.v
theories/CpModel.v
theories/CpSpec.v
theories/CpProofs.v
theories/CpProps.v
theories/CpGrad.v
theories/DrvModel.v
theories/DrvSpec.v
theories/DrvProps.v
theories/HosModel.v
theories/HosSpec.v
theories/HosTay.v
theories/HosFun.v
theories/HosLoops.v
theories/HosProofs.v
theories/HosProps.v
theories/HosEx.v
theories/NlModel.v
theories/NlSpec.v
theories/NlProofs.v
theories/NlProps.v
theories/NlEx.v
theories/AnfModel.v
theories/AnfSpec.v
theories/AnfProofs.v
theories/AnfDeriv.v
theories/AnfProps.v
theories/AnfEx.v
theories/LinModel.v
theories/LinSpec.v
theories/LinProofs.v
theories/LinProps.v
theories/AdChoice.v
theories/HistModel.v
theories/HistProps.v
theories/VecModel.v
theories/VecProofs.v
theories/VecProps.v
theories/StatModel.v
theories/StatProps.v
theories/DrvTrace.v
theories/LayModel.v
theories/LayProps.v
theories/HrvModel.v
theories/HrvLoops.v
theories/HrvOp.v
theories/HrvRow.v
theories/HrvTay.v
theories/HrvFos.v
theories/HrvMain.v
theories/HrvProps.v
theories/HrvHess.v
theories/HrvEx.v
theories/HrvBad.v
theories/OdeModel.v
theories/OdeSpec.v
theories/OdeAcc.v
theories/OdeFund.v
theories/OdeFor.v
theories/OdeEx.v
theories/BvModel.v
theories/BvSpec.v
theories/BvBits.v
theories/BvFwd.v
theories/BvRev.v
theories/BvFlow.v
theories/BvCols.v
theories/BvProps.v
theories/BvBad.v
theories/HovModel.v
theories/HovProofs.v
theories/HovProps.v
theories/TnTaylor.v
theories/TnTrace.v
theories/VrvModel.v
theories/VrvProofs.v
theories/VrvRun.v
theories/VrvProps.v
theories/VrvEx.v
theories/HvrModel.v
theories/HvrProps.v
theories/HvrQuiet.v
theories/HvrReal.v
theories/HvrEx.v
theories/LieSpec.v
theories/LieCore.v
theories/LieModel.v
theories/LieLoops.v
theories/LieProps.v
theories/LieDrv.v
theories/LieEx.v
theories/LieBin.v
theories/IndoModel.v
theories/IndoProps.v
theories/IndoEx.v
theories/IndoStraight.v
theories/ExtModel.v
theories/ExtSpec.v
theories/ExtProps.v
theories/ExtEx.v
theories/FixModel.v
theories/FixProps.v
theories/FixEx.v
theories/SjModel.v
theories/SjSpec.v
theories/SjProps.v
theories/SjEx.v
