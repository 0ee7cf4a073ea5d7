-Q theories Verif
theories/Base.v
theories/MxLib.v
theories/ConvModel.v
theories/ConvSpec.v
theories/ConvProofs.v
theories/ConvArr.v
theories/Imports.v
theories/ConvExamples.v
theories/ConvMore.v
theories/PropsConv.v
theories/CircModel.v
theories/CircSpec.v
theories/CircLib.v
theories/CircInv.v
theories/CircTerm.v
theories/CircApp.v
theories/CircConn.v
theories/CircAdd.v
theories/CircDe.v
theories/CircFill.v
theories/CircSolve.v
theories/CircExt.v
theories/CircHist.v
theories/CircGet.v
theories/CircMain.v
theories/CircOrd.v
theories/CircThm.v
theories/CircThm2.v
theories/CircThm3.v
theories/CircThm4.v
theories/CircThm5.v
theories/CircMaxV.v
theories/SetModel.v
theories/SetThm.v
theories/CircNest.v
theories/CircFlat.v
theories/CircDev.v
theories/CircThm6.v
theories/CircEx.v
theories/CircSetP.v
theories/CircSetX.v
theories/PropsCircS.v
theories/PropsCirc.v
theories/PropsCircW.v
theories/PropsSet.v
theories/DevModel.v
theories/DevSpec.v
theories/DevThm.v
theories/PropsDev.v
theories/TrlModel.v
theories/TrlSpec.v
theories/TrlThm.v
theories/PropsTrl.v
theories/ObjModel.v
theories/ObjSpec.v
theories/ObjThm.v
theories/ObjThm2.v
theories/PropsObj.v
theories/UtilModel.v
theories/UtilThm.v
theories/PropsUtil.v
theories/GtlModel.v
theories/GtlThm.v
theories/PropsGtl.v
theories/TsfModel.v
theories/TsfText.v
theories/TsfThm.v
theories/TsfWrite.v
theories/TsfRound.v
theories/TsfMain.v
theories/TsfFull.v
theories/TsfTrip.v
theories/TsfT2s.v
theories/TsfSpec.v
theories/TsfParse.v
theories/TsfApi.v
theories/PropsTsf.v
theories/PropsTsfW.v
theories/TlModel.v
theories/TlThm.v
theories/TlPhys.v
theories/TlLoop.v
theories/TlSolve.v
theories/TlLC.v
theories/PropsTl.v
theories/PropsTlW.v
theories/CircSub.v
theories/CircSubT.v
theories/PropsCircN.v
theories/CircInt.v
theories/CircLin.v
theories/CircIntT.v
theories/PropsCircI.v
theories/GtlNet.v
theories/GtlNetT.v
theories/GtlNetH.v
theories/GtlNetL.v
theories/GtlPos.v
theories/GtlNetA.v
theories/GtlNetB.v
theories/GtlNetP.v
theories/PropsGtlN.v
theories/CircCopy.v
theories/CircCopyT.v
theories/PropsCircC.v
theories/CircAddP.v
theories/CircAddPT.v
theories/CircAddN.v
theories/PropsCircP.v
theories/ObjArr.v
theories/PropsObjA.v
theories/PropsFind.v
theories/TrlVar.v
theories/TrlVarT.v
theories/PropsTrlV.v
theories/GtlKw.v
theories/PropsGtlK.v
theories/CircPow.v
theories/CircPowT.v
theories/PropsPow.v
theories/CircElem.v
theories/PropsElem.v
theories/PropsElemS.v
theories/CircDiss.v
theories/PropsDiss.v
theories/CircParm.v
theories/PropsParm.v
theories/CircXpos.v
theories/PropsXpos.v
theories/Assumptions.v
