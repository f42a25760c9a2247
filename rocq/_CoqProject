-Q theories Verif
theories/Base.v
theories/BaseProofs.v
theories/RingModel.v
theories/RingSpec.v
theories/RingProofs.v
theories/RingProps.v
theories/RealBase.v
theories/RealBaseProofs.v
theories/Cplx.v
theories/CplxProofs.v
theories/SignalSpec.v
theories/BiquadModel.v
theories/BiquadSpec.v
theories/BiquadProofs.v
theories/StabilityProofs.v
theories/CascadeProofs.v
theories/BiquadProps.v
theories/MovingModel.v
theories/MovingSpec.v
theories/MovingProofs.v
theories/FloatBase.v
theories/MovingFloatModel.v
theories/MovingFloatProofs.v
theories/MovingProps.v
theories/DesignModel.v
theories/DesignSpec.v
theories/DesignProofs.v
theories/DesignProofs2.v
theories/DesignProps.v
theories/PolyProofs.v
theories/LayoutModel.v
theories/LayoutProofs.v
theories/BilinearProofs.v
theories/ButterProofs.v
theories/ButterShelfProofs.v
theories/ButterProps.v
theories/AlgModel.v
theories/AlgSpec.v
theories/AlgProofs.v
theories/AlgProps.v
theories/StatModel.v
theories/FeatModel.v
theories/StatSpec.v
theories/StatProofs.v
theories/StatProps.v
theories/FeatProofs.v
theories/FeatProps.v
theories/NumModel.v
theories/NumProps.v
theories/WindowModel.v
theories/WindowSpec.v
theories/WindowProps.v
theories/StringModel.v
theories/StringSpec.v
theories/StringProps.v
theories/ConvModel.v
theories/ConvProps.v
theories/OscModel.v
theories/OscSpec.v
theories/OscProps.v
theories/ExpModel.v
theories/ExpProps.v
theories/IOModel.v
theories/IOProps.v
theories/SpectralModel.v
theories/SpectralSpec.v
theories/FourierProofs.v
theories/SpectralProofs.v
theories/SpectralProps.v
theories/PffftModel.v
theories/LeeProofs.v
theories/PffftProps.v
theories/ChebyModel.v
theories/ChebySpec.v
theories/ChebyProofs.v
theories/ChebyDesign.v
theories/ChebyDesign2.v
theories/ChebyShelf.v
theories/ChebyProps.v
theories/BandModel.v
theories/BandSpec.v
theories/BandProofs.v
theories/BandMaps.v
theories/BandDesign.v
theories/BandFam.v
theories/BandProps.v
theories/MoveModel.v
theories/MoveSpec.v
theories/MoveProofs.v
theories/MoveProofs2.v
theories/MoveProps.v
theories/CoreModel.v
theories/CoreSpec.v
theories/CoreProofs.v
theories/CoreProps.v
theories/BindModel.v
theories/BindSpec.v
theories/BindProps.v
theories/ExtraModel.v
theories/ExtraSpec.v
theories/ExtraProofs.v
theories/ExtraObj.v
theories/ExtraProps.v
theories/ConstModel.v
theories/ConstSpec.v
theories/ConstProofs.v
theories/ConstProps.v
theories/FlatProps.v
theories/FloatModel.v
theories/FloatSpec.v
theories/FloatProofs.v
theories/FloatProps.v
theories/FloatOrderProps.v
theories/FloatEnergyProps.v
theories/FloatClockProps.v
theories/FloatSpaceProps.v
theories/FloatFilterProps.v
theories/FloatFiltersModel.v
theories/FloatCascadeProps.v
theories/FloatMovingProps.v
theories/ThreadModel.v
theories/ThreadSpec.v
theories/ThreadProofs.v
theories/ThreadProps.v
theories/ThreadLibModel.v
theories/ThreadLibSpec.v
theories/ThreadLibProps.v
theories/FloatEnvModel.v
theories/FloatEnvProps.v
theories/ConstSeries.v
theories/ConstLimits.v
theories/ConstFloatModel.v
theories/ConstFloatProps.v
theories/FloatWaveModel.v
theories/FloatWaveProps.v
theories/FloatWindowModel.v
theories/FloatWindowProps.v
theories/FloatNumModel.v
theories/FloatNumProps.v
theories/FloatDesignModel.v
theories/FloatDesignProps.v
theories/PyTextModel.v
theories/PyTextSpec.v
theories/PyTextProps.v
theories/FloatEqualModel.v
theories/FloatEqualProps.v
theories/MetaModel.v
theories/MetaProps.v
theories/FloatFeatModel.v
theories/FloatFeatProps.v
theories/FloatCentroidProps.v
theories/FloatCosineModel.v
theories/FloatCosineProps.v
theories/FloatDiffModel.v
theories/FloatDiffProps.v
theories/FloatDecibelModel.v
theories/FloatDecibelProps.v
theories/FloatScaleModel.v
theories/FloatScaleProps.v
theories/FloatShapeModel.v
theories/FloatShapeProps.v
theories/FloatErbProps.v
theories/FloatSkewModel.v
theories/FloatSkewProps.v
theories/ChebyBoost.v
theories/FloatSlopeModel.v
theories/FloatSlopeProps.v
theories/FreeZeros.v
theories/ChebyBoostN.v
theories/FloatFollowerModel.v
theories/FloatFollowerProps.v
theories/FloatNoiseModel.v
theories/FloatNoiseProps.v
theories/IntModel.v
theories/IntProps.v
