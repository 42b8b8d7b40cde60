-Q theories Verif
theories/AbsorbModel.v
theories/AbsorbProofs.v
theories/AbsorbProps.v
theories/AbsorbSpec.v
theories/AbsorbWitness.v
theories/AlgebraModel.v
theories/AlgebraProofs.v
theories/AlgebraProps.v
theories/AlgebraSpec.v
theories/ApproxProofs.v
theories/ApproxProps.v
theories/ApproxSpec.v
theories/ApproxWitness.v
theories/ArgsModel.v
theories/ArgsProofs.v
theories/ArgsProps.v
theories/ArgsSpec.v
theories/AverageModel.v
theories/AverageProofs.v
theories/AverageProps.v
theories/AverageSpec.v
theories/Base.v
theories/BasicsModel.v
theories/BasicsProofs.v
theories/BasicsProps.v
theories/BasicsSpec.v
theories/BoundModel.v
theories/BoundProofs.v
theories/BoundProps.v
theories/BoundSpec.v
theories/CenterLinearProps.v
theories/CenterProofs.v
theories/CenterProps.v
theories/CenterSpec.v
theories/CheckModel.v
theories/CheckProofs.v
theories/CheckProps.v
theories/CheckSpec.v
theories/ClosedProofs.v
theories/ClosedProps.v
theories/ClosedSpec.v
theories/CompetExist.v
theories/CompetProofs.v
theories/CompetProps.v
theories/CompetSpec.v
theories/ConfigModel.v
theories/ConfigProofs.v
theories/ConfigProps.v
theories/ConfigSpec.v
theories/ConstrModel.v
theories/ConstrProofs.v
theories/ConstrProps.v
theories/ConstrSpec.v
theories/ConvModel.v
theories/ConvProofs.v
theories/ConvProps.v
theories/ConvRun.v
theories/CopiesProofs.v
theories/CopiesProps.v
theories/CopiesSpec.v
theories/DemandDeriv.v
theories/DemandElim.v
theories/DemandModel.v
theories/DemandProofs.v
theories/DemandProps.v
theories/DemandShares.v
theories/DemandSpec.v
theories/DemogModel.v
theories/DemogProofs.v
theories/DemogProps.v
theories/DemogSpec.v
theories/DerivCont.v
theories/DerivCurve.v
theories/DerivImplicit.v
theories/DerivLinear.v
theories/DerivModel.v
theories/DerivMore.v
theories/DerivParam.v
theories/DerivPaths.v
theories/DerivProofs.v
theories/DerivProps.v
theories/DiagModel.v
theories/DiagProofs.v
theories/DiagProps.v
theories/DiagRange.v
theories/DiagRangeProps.v
theories/DiagSpec.v
theories/DiffModel.v
theories/DiffProofs.v
theories/DiffProps.v
theories/DiffSpec.v
theories/DisplayModel.v
theories/DisplayProofs.v
theories/DisplayProps.v
theories/DisplaySpec.v
theories/DrawModel.v
theories/DrawProofs.v
theories/DrawProps.v
theories/DrawSpec.v
theories/DrawsModel.v
theories/DrawsProofs.v
theories/DrawsProps.v
theories/DrawsSpec.v
theories/EffectsGroups.v
theories/EffectsLinear.v
theories/EffectsModel.v
theories/EffectsProofs.v
theories/EffectsProps.v
theories/EffectsSpec.v
theories/EffectsWitness.v
theories/EfficModel.v
theories/EfficProofs.v
theories/EfficProps.v
theories/EfficSpec.v
theories/EndoModel.v
theories/EndoProofs.v
theories/EndoProps.v
theories/EndoSpec.v
theories/EquilGlobal.v
theories/EquilLimits.v
theories/EquilMarket.v
theories/EquilMerger.v
theories/EquilModel.v
theories/EquilProofs.v
theories/EquilProps.v
theories/EquilRun.v
theories/EquilSpec.v
theories/EquilWitness.v
theories/ExpectFitModel.v
theories/ExpectFitProofs.v
theories/ExpectFitProps.v
theories/ExpectFitSpec.v
theories/ExpectFitWitness.v
theories/ExpectModel.v
theories/ExpectProofs.v
theories/ExpectProps.v
theories/ExpectSpec.v
theories/ExpectWitness.v
theories/FaultModel.v
theories/FaultProofs.v
theories/FaultProps.v
theories/FaultSpec.v
theories/FltIEEE.v
theories/FltModel.v
theories/FormModel.v
theories/FormProofs.v
theories/FormProps.v
theories/FormSpec.v
theories/FormatModel.v
theories/FormatProofs.v
theories/FormatProps.v
theories/FormatSpec.v
theories/GradCovModel.v
theories/GradCovProofs.v
theories/GradDiffModel.v
theories/GradDiffProofs.v
theories/GradModel.v
theories/GradProofs.v
theories/GradProps.v
theories/GradSpec.v
theories/GradWitness.v
theories/HessModel.v
theories/HessProofs.v
theories/HessProps.v
theories/HessSpec.v
theories/ImpCount.v
theories/ImpCountProps.v
theories/ImpProofs.v
theories/ImpProps.v
theories/ImpSpec.v
theories/InfoModel.v
theories/InfoProofs.v
theories/InfoProps.v
theories/InfoSpec.v
theories/InstrModel.v
theories/InstrProofs.v
theories/InstrProps.v
theories/InstrSpec.v
theories/IntegModel.v
theories/IntegProofs.v
theories/IntegProps.v
theories/IntegSpec.v
theories/IntegTables.v
theories/IntegTablesProps.v
theories/InverseLinear.v
theories/InverseLinearProps.v
theories/InverseProofs.v
theories/InverseProps.v
theories/InverseWitness.v
theories/IterModel.v
theories/IterProofs.v
theories/IterProps.v
theories/IterSpec.v
theories/IterSquarem.v
theories/JacModel.v
theories/JacProofs.v
theories/JacProps.v
theories/LawProofs.v
theories/LawProps.v
theories/LawSpec.v
theories/LernerProofs.v
theories/LernerProps.v
theories/LogsumModel.v
theories/LogsumProofs.v
theories/LogsumProps.v
theories/LogsumSpec.v
theories/LogsumWitness.v
theories/MarkupProofs.v
theories/MarkupProps.v
theories/MarkupSpec.v
theories/MarkupWitness.v
theories/MicroModel.v
theories/MicroProofs.v
theories/MicroProps.v
theories/MicroSpec.v
theories/NamesClusters.v
theories/NamesClustersProps.v
theories/NamesProofs.v
theories/NamesProps.v
theories/NamesSpec.v
theories/NashProofs.v
theories/NashProps.v
theories/NashSpec.v
theories/NashWitness.v
theories/NearProofs.v
theories/NearProps.v
theories/NearSpec.v
theories/NearWitness.v
theories/NestModel.v
theories/NestProofs.v
theories/NestProps.v
theories/NestSpec.v
theories/NullModel.v
theories/NullProofs.v
theories/NullProps.v
theories/NullSpec.v
theories/OptimModel.v
theories/OptimProofs.v
theories/OptimProps.v
theories/OptimSpec.v
theories/OrderAgents.v
theories/OrderEstim.v
theories/OrderProofs.v
theories/OrderProps.v
theories/OrderRun.v
theories/OrderSpec.v
theories/OrderWitness.v
theories/ParamsModel.v
theories/ParamsProofs.v
theories/ParamsProps.v
theories/ParamsSpec.v
theories/PassModel.v
theories/PassProofs.v
theories/PassProps.v
theories/PassSpec.v
theories/PostModel.v
theories/PostProofs.v
theories/PostProps.v
theories/PostSpec.v
theories/PrimModel.v
theories/PrimProofs.v
theories/PrimProps.v
theories/PrimSpec.v
theories/ProbModel.v
theories/ProbProofs.v
theories/ProbProps.v
theories/ProbSpec.v
theories/ProbWitness.v
theories/ProgressModel.v
theories/ProgressProofs.v
theories/ProgressProps.v
theories/ProgressSpec.v
theories/PureProofs.v
theories/PureProps.v
theories/PureSpec.v
theories/RateConverge.v
theories/RateIter.v
theories/RateNest.v
theories/RateNestProps.v
theories/RateNestSpec.v
theories/RateProofs.v
theories/RateProps.v
theories/RateRound.v
theories/RateSpec.v
theories/RateWitness.v
theories/ReplaceModel.v
theories/ReplaceProofs.v
theories/ReplaceProps.v
theories/ReplaceSpec.v
theories/ResampModel.v
theories/ResampProofs.v
theories/ResampProps.v
theories/ResampSpec.v
theories/ResultsModel.v
theories/ResultsProofs.v
theories/ResultsProps.v
theories/ResultsSpec.v
theories/RoundAccuracy.v
theories/RoundContraction.v
theories/RoundModel.v
theories/RoundNested.v
theories/RoundProofs.v
theories/RoundProps.v
theories/RoundSpec.v
theories/RoundWitness.v
theories/SchedModel.v
theories/SchedProofs.v
theories/SchedProps.v
theories/SchedSpec.v
theories/ShowModel.v
theories/ShowProofs.v
theories/ShowProps.v
theories/ShowSpec.v
theories/SignProofs.v
theories/SignProps.v
theories/SignSpec.v
theories/SimModel.v
theories/SimProofs.v
theories/SimProps.v
theories/SimSpec.v
theories/SlopeConvex.v
theories/SlopeProofs.v
theories/SlopeProps.v
theories/SmolProofs.v
theories/SmolProps.v
theories/SmolSpec.v
theories/SmolTables.v
theories/SolveModel.v
theories/SolveProofs.v
theories/SolveProps.v
theories/SolveSpec.v
theories/SolveWitness.v
theories/SpecialProofs.v
theories/SpecialProps.v
theories/SpecialSpec.v
theories/SplitProofs.v
theories/SplitProps.v
theories/SplitSpec.v
theories/StatsModel.v
theories/StatsProofs.v
theories/StatsProps.v
theories/StatsSpec.v
theories/SummaryModel.v
theories/SummaryProofs.v
theories/SummaryProps.v
theories/SummarySpec.v
theories/SupplyModel.v
theories/SupplyProofs.v
theories/SupplyProps.v
theories/SupplySpec.v
theories/SweepModel.v
theories/SweepProofs.v
theories/SweepProps.v
theories/TableModel.v
theories/TableProofs.v
theories/TableProps.v
theories/TableSpec.v
theories/TaxMarket.v
theories/TaxProofs.v
theories/TaxProps.v
theories/TaxSpec.v
theories/UnitsIV.v
theories/UnitsIVProps.v
theories/UnitsProofs.v
theories/UnitsProps.v
theories/UnitsSpec.v
theories/ValueNestProps.v
theories/ValueNestSpec.v
theories/ValueNests.v
theories/ValueProofs.v
theories/ValueProps.v
theories/ValueSpec.v
theories/WelfareModel.v
theories/WelfareProofs.v
theories/WelfareProps.v
theories/WelfareSpec.v
