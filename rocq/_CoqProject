-Q theories Verif
theories/Words.v
theories/IntModel.v
theories/Fft.v
theories/MulModel.v
theories/DivModel.v
theories/RootModel.v
theories/Mantissa.v
theories/Num.v
theories/Ext.v
theories/Ctx.v
theories/Pow.v
theories/Conv.v
theories/Parser.v
theories/Consts.v
theories/Dec.v
theories/DecConv.v
theories/Elem.v
theories/Series.v
theories/Exp.v
theories/Hyp.v
theories/Ln.v
theories/InvHyp.v
theories/RealPow.v
theories/SpecZ.v
theories/WordsP.v
theories/WordsP2.v
theories/RoundP.v
theories/Spec.v
theories/SpecOps.v
theories/SpecExt.v
theories/SpecPow.v
theories/SpecText.v
theories/SpecConst.v
theories/SpecReach.v
theories/SpecElem.v
theories/SpecDec.v
theories/RealP.v
theories/RealP2.v
theories/NumP.v
theories/CmpP.v
theories/AddP.v
theories/SetP.v
theories/AddNum.v
theories/IntP.v
theories/MulP.v
theories/MulToom.v
theories/UtilP.v
theories/FftP1.v
theories/FftP2.v
theories/FftP3.v
theories/FftP4.v
theories/FftP5.v
theories/MulP2.v
theories/MulNum.v
theories/DivP.v
theories/DivP2.v
theories/DivNum.v
theories/RootP.v
theories/RootP2.v
theories/RootNum.v
theories/ArithTop.v
theories/RootTop.v
theories/RemNum.v
theories/IntNum.v
theories/ConvNum.v
theories/Conv2Num.v
theories/WfTop.v
theories/ExtP.v
theories/CtxP.v
theories/Refute1.v
theories/Refute2.v
theories/Roundable.v
theories/RoundableNum.v
theories/Refute3.v
theories/PowP.v
theories/PowNum.v
theories/PowTop.v
theories/PowExt.v
theories/RadixP.v
theories/RadixNum.v
theories/ParserP.v
theories/TextTop.v
theories/Refute4.v
theories/ConstP.v
theories/SeriesP.v
theories/LoopP.v
theories/ConstNum.v
theories/ConstTop.v
theories/ConstReach.v
theories/PiP.v
theories/DecP.v
theories/DecRead.v
theories/DecScale.v
theories/DecStart.v
theories/DecTop.v
theories/DecText.v
theories/Refute5.v
theories/SmallP.v
theories/ElemR.v
theories/ElemNum.v
theories/ElemDom.v
theories/ElemInf.v
theories/ApproxR.v
theories/ApproxNum.v
theories/SeriesNum.v
theories/SinhR.v
theories/SinhNum.v
theories/SinhTop.v
theories/ExpNum.v
theories/RetryNum.v
theories/ExpTop.v
theories/HypNum.v
theories/HypTop.v
theories/TanhNum.v
theories/LnR.v
theories/LnNum.v
theories/LnConst.v
theories/LnSharp.v
theories/LnSharp2.v
theories/LnSharp3.v
theories/LnMant.v
theories/LnTop.v
theories/Log2Top.v
theories/SpecInvHyp.v
theories/LnUse.v
theories/AtanhTop.v
theories/RoundTrunc.v
theories/AsinhR.v
theories/AsinhTop.v
theories/SpecRealPow.v
theories/RealPowTop.v
theories/Log10.v
theories/SpecLog10.v
theories/Log10Const.v
theories/Log10Top.v
theories/Log.v
theories/SpecLog.v
theories/LogTop.v
theories/AltNum.v
theories/Sin.v
theories/SinTop.v
theories/PropsArith.v
theories/PropsFft.v
theories/PropsRoot.v
theories/PropsNum.v
theories/PropsExt.v
theories/PropsRoundable.v
theories/PropsCtx.v
theories/PropsPow.v
theories/PropsText.v
theories/PropsConst.v
theories/PropsDec.v
theories/PropsElem.v
theories/PropsExp.v
theories/PropsHyp.v
theories/PropsLn.v
theories/PropsInvHyp.v
theories/PropsRealPow.v
theories/PropsLog10.v
theories/PropsLog.v
theories/Atan.v
theories/AltDiv.v
theories/AtanR.v
theories/AtanTop.v
theories/Asin.v
theories/AsinTop.v
theories/PropsSin.v
theories/PropsAtan.v
theories/PropsAsin.v
theories/Cos.v
theories/CosTop.v
theories/PropsCos.v
theories/Tan.v
theories/TanTop.v
theories/PropsTan.v
theories/PiCheck.v
theories/PiNum.v
theories/PropsPi.v
theories/AtanBig.v
theories/PropsAtanBig.v
theories/Acos.v
theories/AcosTop.v
theories/PropsAcos.v
theories/AsinBig.v
theories/PropsAsinBig.v
theories/AcosBig.v
theories/PropsAcosBig.v
theories/SinBig.v
theories/PropsSinBig.v
theories/CosBig.v
theories/PropsCosBig.v
theories/SinFour.v
theories/CosFour.v
theories/PropsTrigFour.v
theories/TanBig.v
theories/TanFour.v
theories/PropsTanBig.v
theories/SinEight.v
theories/SinHuge.v
theories/CosEight.v
theories/CosHuge.v
theories/PropsSinHuge.v
theories/TanEight.v
theories/TanHuge.v
theories/PropsTanHuge.v
