-Q theories Verif
theories/AcTypes.v
theories/AcFacts.v
theories/Spec.v
theories/SpecFacts.v
theories/ShiftModel.v
theories/ShiftFacts.v
theories/ShiftProofs.v
theories/ShiftCplx.v
theories/PropShift.v
theories/DivModel.v
theories/DivFacts.v
theories/DivProofs.v
theories/DivSigned.v
theories/DivSpecs.v
theories/DivCplx.v
theories/PropDiv.v
theories/DivV2Model.v
theories/DivV2Proofs.v
theories/PropDivV2.v
theories/SpecR.v
theories/SpecRFacts.v
theories/SqrtModel.v
theories/SqrtFacts.v
theories/SqrtProofs.v
theories/PropSqrt.v
theories/SpecBits.v
theories/LeadingModel.v
theories/LeadingProofs.v
theories/PropBits.v
theories/AbsModel.v
theories/AbsProofs.v
theories/PropAbs.v
theories/RtTypes.v
theories/RtFacts.v
theories/SpecMat.v
theories/MatrixModel.v
theories/ArrayProofs.v
theories/MatrixProofs.v
theories/PropMatrix.v
theories/RandomModel.v
theories/RandomProofs.v
theories/RandomFloat.v
theories/PropRandom.v
theories/DetModel.v
theories/DetFacts.v
theories/DetProofs.v
theories/DetBound.v
theories/DetSmall.v
theories/DetRefute.v
theories/PropDet.v
theories/SpecFloat.v
theories/AddTreeModel.v
theories/AddTreeProofs.v
theories/PropAddTree.v
theories/FlfxModel.v
theories/FlfxProofs.v
theories/PropFlfx.v
theories/PwlModel.v
theories/PwlFacts.v
theories/PwlProofs.v
theories/PwlSqrt.v
theories/PwlReal.v
theories/PwlAct.v
theories/PwlExp.v
theories/PwlExpReal.v
theories/ActReal.v
theories/PropPwl.v
theories/SoftModel.v
theories/SoftFacts.v
theories/SoftReal.v
theories/SoftAct.v
theories/SoftmaxProofs.v
theories/PropSoft.v
theories/SpecLin.v
theories/CholModel.v
theories/CholProofs.v
theories/CholReal.v
theories/CholThm.v
theories/CholPwl.v
theories/CholStruct.v
theories/QrdProofs.v
theories/QrdThm.v
theories/CholInv.v
theories/PropChol.v
theories/CordicModel.v
theories/CordicNum.v
theories/SpecTrig.v
theories/CordicProofs.v
theories/CordicThm.v
theories/PropCordic.v
theories/SinLutModel.v
theories/SinLutNum.v
theories/SinLutThm.v
theories/PropSinLut.v
theories/Atan2Model.v
theories/Atan2Num.v
theories/Atan2Proofs.v
theories/Atan2Thm.v
theories/PropAtan2.v
theories/SpecStd.v
theories/StdTreeModel.v
theories/StdTreeProofs.v
theories/StdTreePack.v
theories/StdTreeThm.v
theories/StdTreeExc.v
theories/PropStdTree.v
theories/PwlHaModel.v
theories/PwlHaProofs.v
theories/PwlHaReal.v
theories/AtanNum.v
theories/AtanPwlProofs.v
theories/AtanPwlReal.v
theories/AtanPwlThm.v
theories/PropPwlHa.v
theories/TanPwlModel.v
theories/TanPwlProofs.v
theories/TanNum.v
theories/TanPwlThm.v
theories/TanPwlDom.v
theories/PropTanPwl.v
theories/ArcModel.v
theories/ArcNum.v
theories/ArcProofs.v
theories/ArcReal.v
theories/ArcThm.v
theories/ArcSin.v
theories/PropArc.v
theories/HcModel.v
theories/HcNum.v
theories/HcIter.v
theories/HcExp.v
theories/HcExp2.v
theories/HcPow.v
theories/HcLog.v
theories/HcLn.v
theories/HcThm.v
theories/PropHc.v
theories/HcPowModel.v
theories/HcPowThm.v
theories/HcFloatModel.v
theories/HcFloat.v
theories/HcFloatThm.v
theories/PropHcPow.v
theories/PropHcFloat.v
theories/PwlFloatModel.v
theories/PwlFloat.v
theories/PwlFloat2.v
theories/PwlFloat3.v
theories/PwlFloatThm.v
theories/PropPwlFloat.v
theories/PwlCplxModel.v
theories/PwlCplx.v
theories/PwlCplxThm.v
theories/PropPwlCplx.v
theories/PwlHaFltModel.v
theories/PwlHaFlt.v
theories/PwlHaFltThm.v
theories/PropPwlHaFlt.v
theories/TrigFloatModel.v
theories/TrigFloat.v
theories/TrigFloatThm.v
theories/PropTrigFloat.v
theories/SpecCplx.v
theories/MatCplxModel.v
theories/MatCplx.v
theories/MatCplxThm.v
theories/PropMatCplx.v
theories/AtanFloatModel.v
theories/AtanFloat.v
theories/AtanFloatThm.v
theories/PropAtanFloat.v
theories/CholCplxModel.v
theories/SpecLinC.v
theories/CholCplx.v
theories/CholCplxReal.v
theories/CholCplxThm.v
theories/PropCholCplx.v
theories/CholInvCplxModel.v
theories/CholInvCplx.v
theories/CholInvCplxThm.v
theories/CholInvCplxCase.v
theories/PropCholInvCplx.v
theories/QrdCplxModel.v
theories/SpecQrC.v
theories/QrdCplx.v
theories/QrdCplxRun.v
theories/QrdCplxThm.v
theories/QrdCplxCase.v
theories/PropQrdCplx.v
theories/CholFloatModel.v
theories/CholFloat.v
theories/RecipCplxFltModel.v
theories/SpecFlt.v
theories/RecipCplxFlt.v
theories/CholFloatThm.v
theories/CholFloatBack.v
theories/CholFloatPd.v
theories/PropCholFloat.v
theories/PropRecipCplxFlt.v
