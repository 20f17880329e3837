-Q theories Verif
theories/Base.v
theories/NegaRing.v
theories/ModelNum.v
theories/ModelFloat.v
theories/SpecNum.v
theories/PfNum.v
theories/PfFloat.v
theories/PropNum.v
theories/ModelVec.v
theories/SpecVec.v
theories/PfVec.v
theories/PropVec.v
theories/ModelPoly.v
theories/SpecPoly.v
theories/PfPoly.v
theories/PfPerm.v
theories/PfSplit.v
theories/PropPoly.v
theories/ModelGadget.v
theories/SpecGadget.v
theories/PfGadget.v
theories/PropGadget.v
theories/ModelParams.v
theories/SpecParams.v
theories/PfParams.v
theories/PropParams.v
theories/ModelEncoder.v
theories/PfEncoder.v
theories/PropEncoder.v
theories/ModelLWE.v
theories/SpecLWE.v
theories/PfLWE.v
theories/PfKS.v
theories/PfKS2.v
theories/PfLWE2.v
theories/PropLWE.v
theories/ModelGLWE.v
theories/SpecGLWE.v
theories/PfGLWE.v
theories/PfGLWE2.v
theories/PfGLWE3.v
theories/PfGLWE4.v
theories/PropGLWE.v
theories/ModelSampler.v
theories/SpecSampler.v
theories/PfSampler.v
theories/PropSampler.v
theories/ModelBoot.v
theories/SpecBoot.v
theories/PfBoot.v
theories/PfBoot2.v
theories/PfBoot3.v
theories/PfBoot4.v
theories/PropBoot.v
theories/ModelBinary.v
theories/SpecBinary.v
theories/PfBoot5.v
theories/PfBinary.v
theories/PropBinary.v
theories/ModelCodec.v
theories/SpecCodec.v
theories/PfCodec.v
theories/PfCodecT.v
theories/PfCodecP.v
theories/PropCodec.v
theories/ModelKey.v
theories/PfKey.v
theories/SpecKey.v
theories/PfKey2.v
theories/PfKey3.v
theories/PropKey.v
theories/ModelPub.v
theories/SpecPub.v
theories/PfPub.v
theories/PfPub2.v
theories/PfPub3.v
theories/PropPub.v
theories/ModelFFT.v
theories/SpecFFT.v
theories/PfFFT.v
theories/PfFFT2.v
theories/PfFFT3.v
theories/PfFFT4.v
theories/SpecFFTReal.v
theories/PfFFTReal.v
theories/PfFFT5.v
theories/PfFFT6.v
theories/PropFFT.v
theories/ModelMK.v
theories/SpecMK.v
theories/PfMK.v
theories/PfMK2.v
theories/PfNum2.v
theories/PfMK3.v
theories/PfMK4.v
theories/PfMK5.v
theories/PfMK6.v
theories/ModelMKBin.v
theories/PfMK7.v
theories/PfMK8.v
theories/ExMK.v
theories/PfMK9.v
theories/PfMK10.v
theories/PropMK.v
theories/ModelConc.v
theories/SpecConc.v
theories/PfConc.v
theories/PfConc2.v
theories/PfConc3.v
theories/ModelCopy.v
theories/SpecCopy.v
theories/PfCopy.v
theories/PfConc4.v
theories/PropConc.v
theories/ModelManyLUT.v
theories/SpecManyLUT.v
theories/PfManyLUT.v
theories/ModelXParams.v
theories/PfXParams.v
theories/PropManyLUT.v
theories/ModelBFV.v
theories/SpecBFV.v
theories/PfBFV.v
theories/PfBFV2.v
theories/PfBFV3.v
theories/PfBFV4.v
theories/PropBFV.v
theories/ModelCB.v
theories/SpecCB.v
theories/PfCB.v
theories/PfCB2.v
theories/PfCB3.v
theories/PropCB.v
theories/ModelFHEW.v
theories/SpecFHEW.v
theories/PfFHEW.v
theories/PfFHEW2.v
theories/PfFHEW3.v
theories/PfFHEW4.v
theories/PfFHEW5.v
theories/PfFHEW6.v
theories/PropFHEW.v
theories/ModelSanit.v
theories/SpecSanit.v
theories/PfSanit.v
theories/PfSanit2.v
theories/PropSanit.v
theories/ModelAsm.v
theories/ModelAsmInt.v
theories/SpecAsm.v
theories/PfAsm.v
theories/PfAsmVec.v
theories/PfAsmVec2.v
theories/PropAsm.v
theories/SpecAsmDec.v
theories/PfAsmDec.v
theories/PfAsmDec2.v
theories/PfAsmDec3.v
theories/PropAsmDec.v
theories/ModelMKBits.v
theories/PfMKBits.v
theories/PropMKBits.v
theories/PfXParams2.v
theories/PropXParams.v
theories/ModelAsmFlt.v
theories/SpecAsmFlt.v
theories/PfAsmFlt.v
theories/PfAsmFlt2.v
theories/PropAsmFlt.v
theories/PfAsmFFT.v
theories/PfAsmFFT2.v
theories/PfAsmStep.v
theories/PfAsmFFT3.v
theories/PfAsmFFT4.v
theories/PfAsmFFT5.v
theories/PfAsmFFT6.v
theories/PropAsmFFT.v
theories/ModelF64.v
theories/ModelAsmFold.v
theories/PfF64.v
theories/SpecF64.v
theories/PfF64b.v
theories/PfF64c.v
theories/PfF64d.v
theories/PfAsmFold.v
theories/PfAsmFold2.v
theories/SpecAsmFold.v
theories/PfAsmFold3.v
theories/PfAsmFold4.v
theories/PfAsmFold5.v
theories/PfAsmFold6.v
theories/PfAsmFold7.v
theories/PfAsmFold8.v
theories/PropAsmFold.v
theories/ModelF64Arith.v
theories/SpecRound.v
theories/PfRound.v
theories/PfNetGen.v
theories/PfNorm.v
theories/PfErr.v
theories/PfErr2.v
theories/PfNetGen2.v
theories/PfErr3.v
theories/PfErr4.v
theories/PfRoundQ.v
theories/ModelSplitFFT.v
theories/PfSplitFFT.v
theories/PfSplitF64.v
theories/PfSplitF64b.v
theories/PfErrSum.v
theories/PfRoundEx.v
theories/PropRound.v
theories/ModelFused.v
theories/PfAsmFused.v
theories/PfNetB.v
theories/SpecFused.v
theories/PfErrF.v
theories/ModelFusedMul.v
theories/PfF64Fused.v
theories/PfAvxQ.v
theories/PfAvxKern.v
theories/PfAvxMem.v
theories/PfAvxMul.v
theories/PropFused.v
theories/PfValid.v
theories/PfAvxInv.v
theories/SpecAvx.v
theories/PfNear.v
theories/PfKeep.v
theories/ModelProdFFT.v
theories/PfSumK.v
theories/SpecProdFFT.v
theories/PfProdFFT.v
theories/PfProdFFT2.v
theories/PropProdFFT.v
theories/SpecBlindFFT.v
theories/PfMonoF.v
theories/ModelBlindFFT.v
theories/PfBlindFFT.v
theories/PfBlindFFT2.v
theories/PfBlindFFT3.v
theories/PfBlindFFT4.v
theories/PfBlindFFT5.v
theories/PropBlindFFT.v
theories/ModelObj.v
theories/SpecObj.v
theories/PfObj.v
theories/PropObj.v
theories/ModelBootFFT.v
theories/PfBootFFT.v
theories/PropBootFFT.v
theories/ModelFHEWConc.v
theories/PfFHEWConc.v
theories/PropFHEWConc.v
theories/ModelExtFFT.v
theories/PfExtFFT.v
theories/PfExtFFT2.v
theories/PfExtFFT3.v
theories/PfExtFFT4.v
theories/SpecExtFFT.v
theories/PfExtFFT5.v
theories/PropExtFFT.v
theories/ModelBootExtFFT.v
theories/PfBootExtFFT.v
theories/PropBootExtFFT.v
theories/ModelFFTOps.v
theories/SpecFFTOps.v
theories/PfFFTOps.v
theories/PropFFTOps.v
theories/ModelGauss.v
theories/SpecGauss.v
theories/PfGauss.v
theories/PropGauss.v
theories/PfGauss2.v
theories/ModelFFTLev.v
theories/PfFFTLev.v
theories/SpecFFTLev.v
theories/PfFFTLev2.v
theories/PropFFTLev.v
theories/ModelCDT.v
theories/SpecCDT.v
theories/PfCDT.v
theories/PfCDT2.v
theories/PfCDT3.v
theories/PfCDT4.v
theories/PropCDT.v
theories/PfCDT5.v
