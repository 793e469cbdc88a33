-Q theories Verif
theories/Model/Bias.v
theories/Model/Colossus.v
theories/Model/Concentration.v
theories/Model/Cross.v
theories/Model/CrossShapes.v
theories/Model/Exclusion.v
theories/Model/ExtSpline.v
theories/Model/FindMmin.v
theories/Model/Float64.v
theories/Model/FloatGrid.v
theories/Model/FloatHOD.v
theories/Model/FloatProfile.v
theories/Model/FloatWrap.v
theories/Model/Grids.v
theories/Model/HOD.v
theories/Model/HODFloat.v
theories/Model/HODLeauthaud.v
theories/Model/HODPopulate.v
theories/Model/HaloModel.v
theories/Model/Hankel.v
theories/Model/IntArgs.v
theories/Model/IntegrateCorr.v
theories/Model/MassNonlinear.v
theories/Model/NumericH.v
theories/Model/NumpyList.v
theories/Model/Ogata2.v
theories/Model/Pairing.v
theories/Model/Populate.v
theories/Model/PopulateArgs.v
theories/Model/PowerToCorr.v
theories/Model/ProfileArrays.v
theories/Model/ProfileCosmology.v
theories/Model/ProfileExtend.v
theories/Model/Profiles.v
theories/Model/Quad.v
theories/Model/RBool.v
theories/Model/SimpsonX.v
theories/Model/SpecialFn.v
theories/Model/SplineInt.v
theories/Model/TracerUpdate.v
theories/Model/Units.v
theories/Model/WDM.v
theories/Model/WDMRelation.v
theories/Spec/AngularSpec.v
theories/Spec/ArraySpec.v
theories/Spec/BackgroundSpec.v
theories/Spec/BiasSpec.v
theories/Spec/ColossusSpec.v
theories/Spec/CorrSpec.v
theories/Spec/CrossSpec.v
theories/Spec/DrawSpec.v
theories/Spec/ExclSpec.v
theories/Spec/ExtSpec.v
theories/Spec/FindSpec.v
theories/Spec/FloatGridSpec.v
theories/Spec/FloatWrapSpec.v
theories/Spec/GammaSpec.v
theories/Spec/HMSpec.v
theories/Spec/HODParamSpec.v
theories/Spec/HankelSpec.v
theories/Spec/IntSpec.v
theories/Spec/IntegrateSpec.v
theories/Spec/LudlowSpec.v
theories/Spec/MassIntegralSpec.v
theories/Spec/MassNonlinearSpec.v
theories/Spec/OgataSpec.v
theories/Spec/PopulateSpec.v
theories/Spec/ProbSpec.v
theories/Spec/ProfileSpec.v
theories/Spec/QuadSpec.v
theories/Spec/TailSpec.v
theories/Spec/UnitChangeSpec.v
theories/Spec/UnitsSpec.v
theories/Spec/VelocitySpec.v
theories/Spec/WindowSpec.v
theories/Spec/WrapSpec.v
theories/Proofs/AngularError.v
theories/Proofs/ArrayProofs.v
theories/Proofs/BiasProofs.v
theories/Proofs/Calc.v
theories/Proofs/DensityMminProofs.v
theories/Proofs/Erf.v
theories/Proofs/ExclusionProofs.v
theories/Proofs/ExtSplineProofs.v
theories/Proofs/Float64Proofs.v
theories/Proofs/Fubini.v
theories/Proofs/GammaProofs.v
theories/Proofs/GridProofs.v
theories/Proofs/HMProofs.v
theories/Proofs/HODProofs.v
theories/Proofs/HODProofs2.v
theories/Proofs/HankelProofs.v
theories/Proofs/HankelProofs2.v
theories/Proofs/IntegrateProofs.v
theories/Proofs/InterpProofs.v
theories/Proofs/LamFourier.v
theories/Proofs/MassIntegralProofs.v
theories/Proofs/OgataProofs.v
theories/Proofs/PopulateCor.v
theories/Proofs/PopulateProofs.v
theories/Proofs/ProbProofs.v
theories/Proofs/ProfileConv.v
theories/Proofs/ProfileProofs.v
theories/Proofs/ProfileProofs2.v
theories/Proofs/ProfileProofs3.v
theories/Proofs/QuadProofs.v
theories/Proofs/QuadProofs2.v
theories/Proofs/SimpsonError.v
theories/Proofs/SimpsonError2.v
theories/Proofs/SimpsonExact.v
theories/Proofs/SimpsonXError.v
theories/Proofs/SimpsonXProofs.v
theories/Proofs/SinePositive.v
theories/Proofs/TailProofs.v
theories/Proofs/WindowProofs.v
theories/Props/AbundanceProps.v
theories/Props/AngCrossProps.v
theories/Props/AngularProps.v
theories/Props/ArrayProps.v
theories/Props/BackgroundProps.v
theories/Props/BiasProps.v
theories/Props/CauchySchwarzProps.v
theories/Props/ColossusProps.v
theories/Props/CompositeProps.v
theories/Props/ConcOrderProps.v
theories/Props/ConcProps.v
theories/Props/CrossExchangeProps.v
theories/Props/CrossProps.v
theories/Props/DensityMminProps.v
theories/Props/DrawProps.v
theories/Props/ExclusionProps.v
theories/Props/ExclusionProps2.v
theories/Props/ExtSplineProps.v
theories/Props/FindMminProps.v
theories/Props/FloatGridProps.v
theories/Props/FloatHODProps.v
theories/Props/FloatProfileProps.v
theories/Props/FloatWrapProps.v
theories/Props/FourierPairHMProps.v
theories/Props/FourierPairProps.v
theories/Props/FourierSignProps.v
theories/Props/GridProps.v
theories/Props/HMExtrapProps.v
theories/Props/HMTotalProps.v
theories/Props/HODClassProps.v
theories/Props/HODLimitProps.v
theories/Props/HODParamProps.v
theories/Props/HODProps.v
theories/Props/HODShapeProps.v
theories/Props/HaloModelProps.v
theories/Props/HaloModelProps2.v
theories/Props/HankelProps.v
theories/Props/IntArgsProps.v
theories/Props/IntegrateProps.v
theories/Props/IntegrateProps2.v
theories/Props/IntegrateProps3.v
theories/Props/LudlowProps.v
theories/Props/M1Props.v
theories/Props/MarkedFrameworkProps.v
theories/Props/MassIntegralProps.v
theories/Props/MassNonlinearProps.v
theories/Props/ModelExclusionProps.v
theories/Props/NumericHProps.v
theories/Props/OgataProps.v
theories/Props/PairingProps.v
theories/Props/PlecProps.v
theories/Props/PopulateArgsProps.v
theories/Props/PopulateProps.v
theories/Props/PowerToCorrProps.v
theories/Props/ProfileExamples.v
theories/Props/ProfileExtendProps.v
theories/Props/ProfileProps.v
theories/Props/ProfileProps2.v
theories/Props/ProjNeglectProps.v
theories/Props/QuadProps.v
theories/Props/SampleOrderProps.v
theories/Props/SatShareProps.v
theories/Props/ShotNoiseProps.v
theories/Props/SimpsonErrorProps.v
theories/Props/TracerUpdateProps.v
theories/Props/UnitChangeProps.v
theories/Props/UnitsProps.v
theories/Props/VelocityProps.v
theories/Props/WDMPowerProps.v
theories/Props/WDMProps.v
theories/Props/WDMRelationProps.v
