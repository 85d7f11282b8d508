-Q theories Verif
theories/Common.v
theories/Container.v
theories/ContainerSpec.v
theories/ContainerFacts.v
theories/ContainerProps.v
theories/GroupedIdx.v
theories/GroupedIdxFacts.v
theories/GroupedIdxProps.v
theories/Component.v
theories/ComponentSpec.v
theories/ComponentFacts.v
theories/MainModel.v
theories/UpdateFacts.v
theories/UpdateData.v
theories/UpdateSpec.v
theories/UpdateDataFacts.v
theories/UpdateProps.v
theories/CacheSpec.v
theories/CacheFacts.v
theories/Copy.v
theories/CopyFacts.v
theories/CacheProps.v
theories/JobDispatch.v
theories/JobSpec.v
theories/JobFacts.v
theories/Batch.v
theories/BatchSpec.v
theories/BatchFacts.v
theories/BatchProps.v
theories/Handle.v
theories/HandleProps.v
theories/MultiDim.v
theories/MultiDimSpec.v
theories/MultiDimFacts.v
theories/MultiDimProps.v
theories/NatMap.v
theories/SparseOrdering.v
theories/SparseOrderingSpec.v
theories/SparseOrderingFacts.v
theories/SparseOrderingLoop.v
theories/SparseOrderingProps.v
theories/Topology.v
theories/TopologySpec.v
theories/TopologyDfs.v
theories/TopologyReorder.v
theories/TopologyFacts.v
theories/TopologyProps.v
theories/Coupling.v
theories/CouplingSpec.v
theories/CouplingFacts.v
theories/CouplingProps.v
theories/Phasor.v
theories/YBus.v
theories/YBusSpec.v
theories/YBusFacts.v
theories/YBusScan.v
theories/YBusGrid.v
theories/YBusProps.v
theories/YBusFlow.v
theories/YBusTopo.v
theories/SparseLU.v
theories/SparseLUSpec.v
theories/SparseLUFacts.v
theories/SparseLUProps.v
theories/SparseLUExamples.v
theories/DenseLU.v
theories/DenseLUSpec.v
theories/DenseLUProps.v
theories/DenseLUBlocks.v
theories/Supernodes.v
theories/SupernodesSpec.v
theories/SupernodesFacts.v
theories/SupernodesProps.v
theories/LinkSolver.v
theories/LinkSolverSpec.v
theories/LinkSolverFacts.v
theories/LinkSolverForward.v
theories/LinkSolverBackward.v
theories/LinkSolverProps.v
theories/TwoPort.v
theories/TwoPortSpec.v
theories/TwoPortFacts.v
theories/TwoPortComplex.v
theories/TwoPortProps.v
theories/Taps.v
theories/TapsSpec.v
theories/TapsProps.v
theories/TapSearch.v
theories/TapSearchSpec.v
theories/TapSearchFacts.v
theories/TapSearchProps.v
theories/Numbers.v
theories/NumbersComplex.v
theories/ShortCircuit.v
theories/ShortCircuitSpec.v
theories/ShortCircuitFacts.v
theories/ShortCircuitProps.v
theories/Calculation.v
theories/CalculationSpec.v
theories/CalculationFacts.v
theories/CalculationProps.v
theories/PowerFlow.v
theories/PowerFlowSpec.v
theories/PowerFlowFacts.v
theories/PowerFlowProps.v
theories/PowerFlowExamples.v
theories/ReactivePower.v
theories/ReactivePowerSpec.v
theories/ReactivePowerFacts.v
theories/ReactivePowerProps.v
theories/Buffers.v
theories/BuffersProps.v
theories/Datasets.v
theories/DatasetsSpec.v
theories/DatasetsFacts.v
theories/DatasetsProps.v
theories/TapRank.v
theories/TapRankSpec.v
theories/TapRankFacts.v
theories/TapRankProps.v
theories/Ext.v
theories/Statistics.v
theories/StatisticsSpec.v
theories/StatisticsFacts.v
theories/MeasuredValues.v
theories/MeasuredValuesSpec.v
theories/MeasuredValuesFacts.v
theories/MeasuredValuesSums.v
theories/MeasuredValuesUse.v
theories/StatisticsProps.v
theories/MeasuredValuesProps.v
theories/Registration.v
theories/RegistrationSpec.v
theories/RegistrationFacts.v
theories/Output.v
theories/OutputSpec.v
theories/OutputFacts.v
theories/OutputProps.v
theories/CalcInput.v
theories/CalcInputSpec.v
theories/CalcInputFacts.v
theories/CalcInputProps.v
theories/Serial.v
theories/SerialSpec.v
theories/SerialFacts.v
theories/SerialTrip.v
theories/SerialWhole.v
theories/SerialRound.v
theories/SerialProps.v
theories/Json.v
theories/JsonSpec.v
theories/JsonFacts.v
theories/JsonTrip.v
theories/JsonSim.v
theories/JsonWhole.v
theories/JsonProps.v
theories/NumbersPair.v
theories/NewtonRaphson.v
theories/NewtonSpec.v
theories/NewtonFacts.v
theories/NewtonJacobian.v
theories/NewtonLimits.v
theories/NewtonProps.v
theories/NewtonReals.v
theories/NewtonStep.v
theories/NewtonExamples.v
theories/LinearSE.v
theories/LinearSESpec.v
theories/LinearSEFacts.v
theories/LinearSEProps.v
theories/LinearSEExamples.v
theories/NewtonSE.v
theories/NewtonSESpec.v
theories/NewtonSEFacts.v
theories/NewtonSERows.v
theories/NewtonSEWeak.v
theories/NewtonSEInject.v
theories/NewtonSEStep.v
theories/NewtonSEFixed.v
theories/NewtonSEExists.v
theories/NewtonSEProps.v
theories/NewtonSEExamples.v
theories/NewtonSERefuted.v
theories/Observability.v
theories/ObservabilitySpec.v
theories/ObservabilityFacts.v
theories/ObservabilityCount.v
theories/ObservabilityRadial.v
theories/ObservabilitySearch.v
theories/ObservabilityProps.v
theories/Units.v
theories/UnitsSpec.v
theories/UnitsFacts.v
theories/UnitsProps.v
theories/UnitsSensors.v
theories/SelInv.v
theories/SelInvSpec.v
theories/SelInvMat.v
theories/SelInvFacts.v
theories/SelInvProps.v
theories/SelInvDense.v
theories/Balanced.v
theories/BalancedSpec.v
theories/BalancedFacts.v
theories/BalancedGrid.v
theories/BalancedProps.v
theories/BalancedComplex.v
theories/BalancedUnits.v
theories/Ratings.v
theories/RatingsSpec.v
theories/RatingsFacts.v
theories/RatingsProps.v
theories/RatingsZero.v
theories/RatingsThree.v
theories/RatingsExamples.v
theories/LossesSpec.v
theories/LossesFacts.v
theories/LossesProps.v
theories/LossesMore.v
theories/LossesGrid.v
theories/LossesExamples.v
theories/SquareSystem.v
theories/SolvableSpec.v
theories/SolvableFacts.v
theories/SolvableKernel.v
theories/SolvableProps.v
theories/SolvableMore.v
theories/SolvableLines.v
theories/SolvableOrder.v
theories/SolvableExamples.v
theories/ShortSolvableSpec.v
theories/ShortSolvableFacts.v
theories/ShortSolvableProps.v
theories/ShortSolvableOrder.v
theories/ShortSolvableExamples.v
theories/BalancedNewton.v
theories/BalancedNewtonProps.v
theories/BalancedSE.v
theories/BalancedSEFacts.v
theories/BalancedSEGrid.v
theories/BalancedSEProps.v
theories/BalancedSEExamples.v
theories/SensorVariance.v
theories/BalancedSensors.v
theories/EstimateOrderSpec.v
theories/EstimateOrderFacts.v
theories/EstimateOrderProps.v
theories/EstimateExistsSpec.v
theories/EstimateExistsFacts.v
theories/EstimateExistsProps.v
theories/EstimateGrid.v
theories/Logging.v
theories/LoggingSpec.v
theories/LoggingFacts.v
theories/LoggingProps.v
theories/MetaData.v
theories/MetaTables.v
theories/MetaSpec.v
theories/MetaProps.v
theories/MetaBuffersProps.v
