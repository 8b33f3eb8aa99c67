-Q theories Verif
theories/Base.v
theories/FloatBase.v
theories/Literals.v
theories/Traits.v
theories/Trig.v
theories/IntImpl.v
theories/FixedPrim.v
theories/FixedImpl.v
theories/FloatImpl.v
theories/Complex.v
theories/Display.v
theories/Tests.v
theories/Lemmas.v
theories/ScalarProofs.v
theories/FloatLemmas.v
theories/Spec.v
theories/ComplexProofs.v
theories/ComplexProofs2.v
theories/FloatProofs.v
theories/ScalarProofs2.v
theories/PowNeg.v
theories/PropsScalar.v
theories/ComplexProofs3.v
theories/PropsComplex.v
theories/WrapProofs.v
theories/FloatWrap.v
theories/WrapProofs2.v
theories/PropsWrap.v
theories/SqrtReal.v
theories/NiirfZ.v
theories/NiirfFixed.v
theories/NiirfFixed2.v
theories/NiirfFixed3.v
theories/NiirfFixed4.v
theories/NiirfInt.v
theories/FloatKit.v
theories/NiirfFloat.v
theories/PropsSqrt.v
theories/SinReal.v
theories/SinFixed.v
theories/SinFloat.v
theories/TrigProofs.v
theories/PropsTrig.v
theories/SpecAngle.v
theories/AtanReal.v
theories/AtanFixed.v
theories/AtanFloat.v
theories/AtanProofs.v
theories/PropsAtan.v
theories/ConvProofs.v
theories/PropsConv.v
theories/MagProofs.v
theories/PropsMag.v
theories/SpecDisplay.v
theories/DisplayProofs.v
theories/PropsDisplay.v
theories/SpecPolar.v
theories/PolarProofs.v
theories/PolarProofs2.v
theories/PolarProofs3.v
theories/IdentProofs.v
theories/PropsPolar.v
theories/SpecProfile.v
theories/ProfileProofs.v
theories/PropsProfile.v
theories/AtanRange.v
theories/SpecRange.v
theories/RangeProofs.v
theories/SinSmall.v
theories/PropsRange.v
theories/SpecRadix.v
theories/RadixProofs.v
theories/PropsRadix.v
theories/NiirfMore.v
theories/NiirfSmall.v
theories/MagMore.v
theories/PropsSqrt2.v
theories/FloatArith.v
theories/FloatWrap2.v
theories/SpecFloatPolar.v
theories/FloatPolar.v
theories/PropsFloat.v
theories/SinRelease.v
theories/SinRelease8.v
theories/TrigMore.v
theories/PolarMul.v
theories/CosRelease.v
theories/PropsTrig2.v
theories/AtanNan.v
theories/AtanDoc.v
theories/MagIff.v
theories/SinRel.v
theories/AtanOver.v
theories/PowFixed.v
theories/PowFloat.v
theories/FloatSum.v
theories/ProdProofs.v
theories/DivFixed.v
theories/SpellProofs.v
theories/PropsMore.v
theories/CosLarge.v
theories/RotProofs.v
theories/NiirfGuess.v
theories/CosFar.v
theories/PropsMore2.v
theories/PhaseAcc.v
theories/SpecFilter.v
theories/FilterProofs.v
theories/OrderProofs.v
theories/PropsLoop.v
theories/FloatU.v
theories/CrossSin.v
theories/CrossAtan.v
theories/CrossSqrt.v
theories/PropsCross.v
theories/FloatFilter.v
theories/FloatMix.v
theories/OrderTrig.v
theories/WrapFar.v
theories/PropsFloat2.v
theories/InvTrig.v
theories/SqrtInv.v
theories/PropsInv.v
theories/MagOrder.v
theories/MagShort.v
theories/MagMul.v
theories/PropsMag2.v
theories/PolarCart.v
theories/WideProofs.v
theories/PropsWide.v
theories/SpecScale.v
theories/FloatScale.v
theories/ScaleProofs.v
theories/PropsScale.v
theories/SpecRotor.v
theories/RotorProofs.v
theories/PropsRotor.v
theories/SpecFourier.v
theories/FourierProofs.v
theories/SpecUnit.v
theories/UnitProofs.v
theories/PropsUnit.v
theories/SpecPhase.v
theories/AngleProofs.v
theories/PropsAngle.v
theories/SpecDb.v
theories/DbProofs.v
theories/PropsDb.v
theories/SpecExp.v
theories/ExpProofs.v
theories/PropsExp.v
theories/SpecBlend.v
theories/BlendProofs.v
theories/BlendFloat.v
theories/BlendExamples.v
theories/PropsBlend.v
theories/SpecPoly.v
theories/PolyProofs.v
theories/PropsPoly.v
theories/SpecExpFixed.v
theories/ExpFixed.v
theories/PropsExpFixed.v
theories/LibProofs.v
theories/PropsLib.v
theories/SpecUnwrap.v
theories/UnwrapProofs.v
theories/PropsUnwrap.v
theories/FloatRound.v
theories/RoundProofs.v
theories/PropsRound.v
theories/Forward.v
theories/SpecForward.v
theories/ForwardProofs.v
theories/PropsForward.v
theories/SpecMoving.v
theories/MovingProofs.v
theories/PropsMoving.v
theories/PhasorProofs.v
theories/PropsPhasor.v
theories/SpecMixer.v
theories/MixerProofs.v
theories/PropsMixer.v
theories/SpecFir.v
theories/FirProofs.v
theories/PropsFir.v
theories/SpecPll.v
theories/PllProofs.v
theories/PllFloat.v
theories/PropsPll.v
theories/SpecTime.v
theories/TimeProofs.v
theories/PropsTime.v
theories/SpecFft.v
theories/FftProofs.v
theories/PropsFft.v
theories/SpecQuot.v
theories/QuotProofs.v
theories/PropsQuot.v
theories/SpecTree.v
theories/TreeProofs.v
theories/PropsTree.v
theories/SpecDist.v
theories/DistProofs.v
theories/PropsDist.v
theories/SpecEnergy.v
theories/EnergyProofs.v
theories/PropsEnergy.v
theories/SmoothProofs.v
theories/PropsSmooth.v
theories/StepAtan.v
theories/PropsStep.v
theories/SpecFastConv.v
theories/FastConvProofs.v
theories/PropsFastConv.v
theories/GapProofs.v
theories/PropsGap.v
theories/SinWide.v
theories/PropsBeyond.v
theories/SpecVar.v
theories/VarProofs.v
theories/VarExamples.v
theories/PropsVar.v
theories/GapProofs2.v
theories/PropsGap2.v
theories/NiirfFloat2.v
theories/NiirfMore2.v
theories/GapProofs3.v
theories/PropsGap3.v
theories/PolyProofs2.v
theories/StepAtan2.v
theories/PropsGap4.v
theories/SpecFm.v
theories/FmProofs.v
theories/PropsFm.v
theories/SpecCsqrt.v
theories/CsqrtProofs.v
theories/PropsCsqrt.v
theories/SpecRms.v
theories/RmsProofs.v
theories/PropsRms.v
theories/SpecDerot.v
theories/DerotProofs.v
theories/PropsDerot.v
theories/Gap5Proofs.v
theories/PropsGap5.v
theories/SpecFormula.v
theories/FormulaProofs.v
theories/PropsFormula.v
theories/SpecCFormula.v
theories/CFormulaProofs.v
theories/PropsCFormula.v
theories/SpecProgram.v
theories/ProgramProofs.v
theories/PropsProgram.v
theories/SpecLoop.v
theories/LoopProofs.v
theories/PropsFeedback.v
theories/SpecUFormula.v
theories/UFormulaProofs.v
theories/PropsUFormula.v
theories/SpecCLoop.v
theories/CLoopProofs.v
theories/PropsCFeedback.v
theories/SpecTwoSort.v
theories/TwoSortProofs.v
theories/PropsTwoSort.v
theories/SpecVLoop.v
theories/VLoopProofs.v
theories/PropsVLoop.v
theories/SpecPipe.v
theories/PipeProofs.v
theories/PropsPipe.v
theories/SpecStateSpace.v
theories/StateSpaceProofs.v
theories/PropsStateSpace.v
theories/ProgWideProofs.v
theories/PropsProgWide.v
theories/SpecCompens.v
theories/CompensProofs.v
theories/PropsCompens.v
theories/PropsApplied.v
theories/SpecTwoProd.v
theories/TwoProdProofs.v
theories/PropsTwoProd.v
theories/PropsApplied2.v
theories/SpecAccMul.v
theories/AccMulProofs.v
theories/PropsAccMul.v
theories/SpecSign.v
theories/SignProofs.v
theories/PropsSign.v
theories/CompareProofs.v
theories/PropsCompare.v
theories/SpecPeak.v
theories/PeakProofs.v
theories/PropsPeak.v
theories/SpecLimit.v
theories/LimitProofs.v
theories/PropsLimit.v
theories/SpecStrong.v
theories/StrongProofs.v
theories/PropsStrong.v
theories/SpecSlew.v
theories/SlewProofs.v
theories/PropsSlew.v
theories/SpecMedian.v
theories/MedianProofs.v
theories/PropsMedian.v
