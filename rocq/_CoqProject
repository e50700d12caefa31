-Q theories Verif
theories/AdfModel.v
theories/AdfProofs.v
theories/AdfProps.v
theories/BarSeriesModel.v
theories/BarSeriesProps.v
theories/BarrierModel.v
theories/BarrierProofs.v
theories/BarrierProps.v
theories/BarrierSpec.v
theories/BarsModel.v
theories/BarsProofs.v
theories/BarsProps.v
theories/BarsSpec.v
theories/BasketColsModel.v
theories/BasketColsProps.v
theories/BasketModel.v
theories/BasketProofs.v
theories/BasketProps.v
theories/BasketSpec.v
theories/CVModel.v
theories/CVProofs.v
theories/CVProps.v
theories/CVSpec.v
theories/CombModel.v
theories/CombProofs.v
theories/CombProps.v
theories/CombSpec.v
theories/ConvProofs.v
theories/ConvProps.v
theories/CurveModel.v
theories/CurveProofs.v
theories/CurveProps.v
theories/DeflateProps.v
theories/DensityProps.v
theories/EntropyModel.v
theories/EntropyProofs.v
theories/EntropyProps.v
theories/EntropySpec.v
theories/ErrorProps.v
theories/EtfProofs.v
theories/EwmModel.v
theories/EwmProps.v
theories/ExerciseProps.v
theories/FilterProps.v
theories/FiltersModel.v
theories/FiltersProofs.v
theories/FiltersProps.v
theories/FiltersSpec.v
theories/Float64.v
theories/FloatBarsModel.v
theories/FloatBarsProofs.v
theories/FloatBarsProps.v
theories/FloatCVModel.v
theories/FloatCVProps.v
theories/FloatConcProps.v
theories/FloatCusumProps.v
theories/FloatDistModel.v
theories/FloatDistProps.v
theories/FloatDivProps.v
theories/FloatEwmaProps.v
theories/FloatHRPModel.v
theories/FloatHRPProofs.v
theories/FloatHRPProps.v
theories/FloatHoldModel.v
theories/FloatHoldProps.v
theories/FloatInfoModel.v
theories/FloatInfoProofs.v
theories/FloatInfoProps.v
theories/FloatInfoSpec.v
theories/FloatLimitModel.v
theories/FloatLimitProps.v
theories/FloatPosModel.v
theories/FloatPosProofs.v
theories/FloatPosProps.v
theories/FloatProofs.v
theories/FloatProps.v
theories/FloatResampleModel.v
theories/FloatResampleProps.v
theories/FloatRetModel.v
theories/FloatRetProps.v
theories/FloatRollModel.v
theories/FloatRollPriceModel.v
theories/FloatRollPriceProps.v
theories/FloatRollProps.v
theories/FloatRunsModel.v
theories/FloatRunsProofs.v
theories/FloatRunsProps.v
theories/FloatRunsSpec.v
theories/FloatSeriesModel.v
theories/FloatSeriesProofs.v
theories/FloatSeriesProps.v
theories/FloatStatModel.v
theories/FloatStatProps.v
theories/FloatTickBarsProps.v
theories/FloatTwrModel.v
theories/FloatTwrProps.v
theories/FloatVpinModel.v
theories/FloatVpinProps.v
theories/FloatWeightModel.v
theories/FloatWeightProps.v
theories/FracDiffModel.v
theories/FracDiffProofs.v
theories/FracDiffProps.v
theories/FracDiffSpec.v
theories/GenModel.v
theories/GenProps.v
theories/HRPModel.v
theories/HRPProofs.v
theories/HRPProps.v
theories/HRPSpec.v
theories/ImportanceModel.v
theories/ImportanceProps.v
theories/InfoBarsCausal.v
theories/InfoBarsProofs.v
theories/InfoBarsProps.v
theories/InfoRatioModel.v
theories/InfoRatioProps.v
theories/InfoTraceProps.v
theories/KDEModel.v
theories/KDEProps.v
theories/LinkHRPProps.v
theories/LinkModel.v
theories/LinkProofs.v
theories/LinkProps.v
theories/LinkSpec.v
theories/MetricsModel.v
theories/MetricsProofs.v
theories/MetricsProps.v
theories/MetricsSpec.v
theories/MicroModel.v
theories/MicroProps.v
theories/Normal.v
theories/Num.v
theories/OptionModel.v
theories/OptionProofs.v
theories/OptionProps.v
theories/PipelineModel.v
theories/PipelineProps.v
theories/PositionModel.v
theories/PositionProps.v
theories/Py.v
theories/RNum.v
theories/RecProps.v
theories/RegModel.v
theories/RegProofs.v
theories/RegProps.v
theories/RootFirmProps.v
theories/RootModel.v
theories/RootProps.v
theories/RootQuoteProps.v
theories/RunsBarsProofs.v
theories/SeriesModel.v
theories/SeriesProofs.v
theories/SeriesProps.v
theories/SeriesSpec.v
theories/ShapiroModel.v
theories/ShapiroProps.v
theories/SharpeModel.v
theories/SharpeProofs.v
theories/SharpeProps.v
theories/SharpeSpec.v
theories/StatsModel.v
theories/StatsProps.v
theories/StructModel.v
theories/StructProps.v
theories/SysDefaultModel.v
theories/SysDefaultProofs.v
theories/SysDefaultProps.v
theories/TauModel.v
theories/TauProps.v
theories/UnitsProps.v
theories/UtilsModel.v
theories/UtilsProps.v
theories/WeightModel.v
theories/WeightProofs.v
theories/WeightProps.v
theories/WeightSpec.v
