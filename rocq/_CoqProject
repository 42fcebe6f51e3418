-Q theories Verif
theories/Machine.v
theories/TimeModel.v
theories/TimeSpec.v
theories/TimeProofs.v
theories/TimerProofs.v
theories/CalendarCheck.v
theories/CalendarProofs.v
theories/ScheduleProofs.v
theories/TimeProps.v
theories/RandModel.v
theories/RandProofs.v
theories/Floats.v
theories/RandRealModel.v
theories/RandProps.v
theories/Text.v
theories/CsvModel.v
theories/CsvSpec.v
theories/CsvProofs.v
theories/CsvProps.v
theories/Scalar.v
theories/RSum.v
theories/LinModel.v
theories/LinSpec.v
theories/LinProofs.v
theories/LinProps.v
theories/SimdModel.v
theories/SimdProofs.v
theories/SimdProps.v
theories/SolveModel.v
theories/DetSpec.v
theories/SolveProofs.v
theories/LuProofs.v
theories/CholProofs.v
theories/GaussProofs.v
theories/SolveProps.v
theories/DetProps.v
theories/CodecModel.v
theories/CodecProps.v
theories/Geo3.v
theories/Trig.v
theories/AttModel.v
theories/AttProofs.v
theories/AttProps.v
theories/InterpModel.v
theories/InterpSpec.v
theories/InterpProofs.v
theories/InterpProps.v
theories/StatsModel.v
theories/StatsSpec.v
theories/StatsProofs.v
theories/StatsProps.v
theories/OptModel.v
theories/OptSpec.v
theories/OptProofs.v
theories/OptProps.v
theories/OptStochProps.v
theories/OptParProps.v
theories/MlModel.v
theories/MlSpec.v
theories/MlProofs.v
theories/MlProps.v
theories/MlGradProps.v
theories/MlClassProps.v
theories/MlDaProps.v
theories/AtmModel.v
theories/AtmSpec.v
theories/AtmProps.v
theories/UssaProps.v
theories/Wgs84Model.v
theories/Wgs84Spec.v
theories/Wgs84Proofs.v
theories/Wgs84Props.v
theories/FerrariProps.v
theories/GravProps.v
theories/ForceProps.v
theories/WmmModel.v
theories/WmmData.v
theories/WmmSpec.v
theories/WmmLegendre.v
theories/WmmProofs.v
theories/WmmProps.v
theories/WmmFieldProps.v
theories/WmmGradProps.v
theories/StarModel.v
theories/StarProps.v
theories/CamModel.v
theories/CamProps.v
theories/SolidModel.v
theories/SolidSpec.v
theories/SolidProofs.v
theories/SolidProps.v
theories/F64.v
theories/TankModel.v
theories/TankProps.v
theories/UnitModel.v
theories/UnitProps.v
theories/NumModel.v
theories/RkProps.v
theories/NewtonProps.v
theories/AngleProps.v
theories/F64Ops.v
theories/AssertModel.v
theories/AssertProps.v
theories/PlotModel.v
theories/PlotProps.v
theories/CatalogModel.v
theories/CatalogProps.v
theories/ViewerModel.v
theories/ViewerProps.v
theories/ViewerRangeProps.v
theories/RealModel.v
theories/RealProps.v
theories/FrameModel.v
theories/FrameProps.v
theories/GaussProps.v
theories/FloatModel.v
theories/RoundProps.v
theories/TriProofs.v
theories/SolveRoundProps.v
theories/NormRoundProps.v
theories/QuatFloatModel.v
theories/QuatRoundProps.v
theories/OptTrajProps.v
theories/BenchModel.v
theories/BenchProps.v
theories/BenchSearchProps.v
theories/BenchEnergyModel.v
theories/BenchEnergyProps.v
theories/OdeProps.v
theories/InterpErrProps.v
theories/OptRateProps.v
theories/EulerModel.v
theories/EulerProps.v
theories/MlRateProps.v
theories/RandEquiProps.v
theories/ViewerUiModel.v
theories/ViewerUiProps.v
theories/ViewerDrawProps.v
theories/SplineErrProps.v
theories/MlInvProps.v
theories/RealAngleProps.v
theories/WmmSourceProps.v
theories/PrintModel.v
theories/PrintProps.v
theories/GridModel.v
theories/GridProps.v
theories/CodingAssertProps.v
theories/EntryProps.v
theories/StatsFloatModel.v
theories/StatsFloatProps.v
theories/InterpFloatModel.v
theories/InterpFloatProps.v
theories/SplineFloatProps.v
theories/DetRoundProps.v
theories/OdeRoundProps.v
theories/NewtonRoundProps.v
theories/OptMomentumProps.v
theories/DcmRoundProps.v
theories/Apx.v
theories/GeoFloatModel.v
theories/GeoFloatProps.v
theories/SplineRoundProps.v
theories/OptRoundProps.v
theories/CoordFloatModel.v
theories/CoordRoundProps.v
theories/EulerRoundProps.v
theories/CylSphRoundProps.v
theories/AtmFloatModel.v
theories/AtmRoundProps.v
theories/ForceFloatModel.v
theories/ForceRoundProps.v
theories/UssaFloatModel.v
theories/UssaRoundProps.v
theories/ShapeFloatModel.v
theories/ShapeRoundProps.v
theories/GeopotFloatModel.v
theories/GeopotRoundProps.v
