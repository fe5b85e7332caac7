-Q theories Verif
theories/Base.v
theories/BaseFacts.v
theories/IntervalModel.v
theories/IntervalProofs.v
theories/PropsInterval.v
theories/RationalModel.v
theories/RationalProofs.v
theories/PropsRational.v
theories/KernelModel.v
theories/KernelProofs.v
theories/PropsKernel.v
theories/ConvModel.v
theories/ConvProofs.v
theories/PropsConv.v
theories/SignalModel.v
theories/PropsSignal.v
theories/Complex.v
theories/Dft.v
theories/FftModel.v
theories/FftProofs.v
theories/PropsFft.v
theories/OlaModel.v
theories/OlaProofs.v
theories/FirModel.v
theories/FirProofs.v
theories/PropsOla.v
theories/IirModel.v
theories/IirProofs.v
theories/PropsIir.v
theories/PolyModel.v
theories/PolyProofs.v
theories/PropsPoly.v
theories/SysModel.v
theories/SysProofs.v
theories/PropsSys.v
theories/RootModel.v
theories/RootProofs.v
theories/ZmapProofs.v
theories/DesignProofs.v
theories/ButterProofs.v
theories/BandProofs.v
theories/PropsDesign.v
theories/ChebyModel.v
theories/ChebyProofs.v
theories/Cheby2Proofs.v
theories/PropsCheby.v
theories/PolyphaseModel.v
theories/PolyphaseProofs.v
theories/PropsPolyphase.v
theories/ResampleModel.v
theories/ResampleProofs.v
theories/ResampleTotal.v
theories/PropsResample.v
theories/FirBandModel.v
theories/FirBandProofs.v
theories/PropsFirBand.v
theories/WindowModel.v
theories/WindowProofs.v
theories/DolphProofs.v
theories/PropsWindow.v
theories/FirDesignModel.v
theories/FirDesignProofs.v
theories/FejerJackson.v
theories/PropsFirDesign.v
theories/LsqFacts.v
theories/PropsLeastSquares.v
theories/StatModel.v
theories/PropsStat.v
theories/DescModel.v
theories/PropsDesc.v
theories/SolverModel.v
theories/PropsSolver.v
theories/MeasureModel.v
theories/MeasureSpec.v
theories/MeasureProofs.v
theories/PropsMeasure.v
theories/FunctionModel.v
theories/FunctionProofs.v
theories/PropsFunction.v
theories/EllipticModel.v
theories/EllipticSpec.v
theories/EllipticAM.v
theories/EllipticRF.v
theories/EllipticInv.v
theories/EllipticJacobi.v
theories/PropsElliptic.v
theories/EllipticProto.v
theories/EllipticDegree.v
theories/JacobiReal.v
theories/JacobiComplex.v
theories/PolyRoots.v
theories/EllipticRational.v
theories/EllipticTransform.v
theories/PropsEllipticDesign.v
theories/UniformLimit.v
theories/EllipticLimit.v
theories/EllipticResponse.v
theories/EllipticLocate.v
theories/EllipticRipple.v
theories/FloatSpec.v
theories/ReduceTree.v
theories/FloatSum.v
theories/ConvTree.v
theories/FloatIeee.v
theories/ConvFloat.v
theories/PropsFloat.v
theories/PropsConvFloat.v
theories/FloatStat.v
theories/PropsStatFloat.v
theories/PropsExtreme.v
theories/PropsStatComplex.v
theories/PropsPolyFloat.v
theories/MixedModel.v
theories/PropsMixed.v
theories/IirTree.v
theories/IirFloat.v
theories/PropsIirFloat.v
theories/StableProofs.v
theories/PropsStable.v
theories/PropsStableBands.v
theories/PropsStableElliptic.v
theories/PropsFirSine.v
theories/ResampleTone.v
theories/PropsResampleTone.v
theories/PropsSeries.v
theories/MixedConvModel.v
theories/MixedConvProofs.v
theories/PropsMixedConv.v
theories/MixedResampleModel.v
theories/MixedResampleProofs.v
theories/PropsMixedResample.v
theories/IntervalOrderModel.v
theories/PropsIntervalOrder.v
theories/FirFloat.v
theories/PropsFirFloat.v
theories/ResampleTree.v
theories/ResampleAny.v
theories/ResampleFloat.v
theories/PropsResampleFloat.v
theories/NoiseProofs.v
theories/PropsNoise.v
theories/OverflowProofs.v
theories/PropsOverflow.v
theories/NormalizeModel.v
theories/PropsNormalizeFloat.v
theories/SpacesModel.v
theories/PropsSpacesFloat.v
theories/WaveModel.v
theories/PropsWaveFloat.v
