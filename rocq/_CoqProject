-Q theories Verif
theories/Base.v
theories/BaseFacts.v
theories/Containers.v
theories/ContainerSpec.v
theories/ContainerFacts.v
theories/Graph.v
theories/GraphSpec.v
theories/Sums.v
theories/GraphFacts.v
theories/GraphOps.v
theories/GraphBuild.v
theories/Properties_Graph.v
theories/Search.v
theories/Traversal.v
theories/TraversalSpec.v
theories/TraversalFacts.v
theories/ClosenessFacts.v
theories/Components.v
theories/ComponentFacts.v
theories/ComponentSpec.v
theories/CoreFacts.v
theories/Transitivity.v
theories/TransitivityFacts.v
theories/Properties_Traversal.v
theories/Properties_Components.v
theories/Load.v
theories/LoadSpec.v
theories/LoadFacts.v
theories/LoadSums.v
theories/Properties_Load.v
theories/Biconnected.v
theories/BiconnectedSpec.v
theories/BiconnectedFacts.v
theories/Properties_Biconnected.v
theories/Subgraph.v
theories/SubgraphFacts.v
theories/Dot.v
theories/DotSpec.v
theories/DotFacts.v
theories/Properties_Output.v
theories/Rng.v
theories/RngFacts.v
theories/Markov.v
theories/EnsembleFacts.v
theories/ErC.v
theories/ErCSpec.v
theories/ErCFacts.v
theories/Properties_ErC.v
theories/ErM.v
theories/ErMSpec.v
theories/ErMFacts.v
theories/Properties_ErM.v
theories/Sw.v
theories/SwSpec.v
theories/SwFacts.v
theories/SwChain.v
theories/SwConnect.v
theories/Properties_Sw.v
theories/Runs.v
theories/Ws.v
theories/WsSpec.v
theories/WsFacts.v
theories/WsRun.v
theories/Properties_Ws.v
theories/Config.v
theories/ConfigSpec.v
theories/ConfigFacts.v
theories/ConfigRun.v
theories/ConfigStep.v
theories/Properties_Config.v
theories/Ba.v
theories/BaSpec.v
theories/BaFacts.v
theories/Properties_Ba.v
theories/Spacial.v
theories/SpacialSpec.v
theories/SpacialFacts.v
theories/Properties_Spacial.v
theories/Dog.v
theories/DogSpec.v
theories/DogFacts.v
theories/Properties_Dog.v
theories/Dual.v
theories/DualSpec.v
theories/DualFacts.v
theories/Properties_Dual.v
theories/Iter.v
theories/IterSpec.v
theories/IterFacts.v
theories/Properties_Iter.v
theories/MeasureSpec.v
theories/MeasureFacts.v
theories/ConsistencyFacts.v
theories/ForestFacts.v
theories/Properties_Measures.v
theories/UniformSpec.v
theories/UniformFacts.v
theories/Properties_Uniform.v
theories/DotWriter.v
theories/DotWriterSpec.v
theories/DotWriterFacts.v
theories/Properties_Dot.v
theories/EditSpec.v
theories/EditFacts.v
theories/Properties_Edits.v
theories/BlockSpec.v
theories/BlockFacts.v
theories/BlockRun.v
theories/BlockCount.v
theories/Properties_Blocks.v
theories/SwitchSpec.v
theories/SwitchFacts.v
theories/SwitchStep.v
theories/ConfigRounds.v
theories/Properties_Switch.v
theories/FreshFacts.v
theories/Properties_Fresh.v
theories/PlaceSpec.v
theories/PlaceFacts.v
theories/SwReach.v
theories/Properties_Place.v
theories/BalanceSpec.v
theories/BalanceFacts.v
theories/BalanceFixed.v
theories/Properties_Balance.v
theories/BetweenSpec.v
theories/BetweenFacts.v
theories/Properties_Between.v
theories/FamilySpec.v
theories/FamilyFacts.v
theories/FamilyMeasures.v
theories/FamilyRing.v
theories/FamilyComplete.v
theories/Properties_Family.v
theories/EnsembleCores.v
theories/Properties_Cores.v
theories/SupportFacts.v
theories/ConfigReach.v
theories/BaReach.v
theories/WsReach.v
theories/Properties_Support.v
theories/FloatSpec.v
theories/Rounding.v
theories/Float.v
theories/FloatFacts.v
theories/FloatLoad.v
theories/FloatGraph.v
theories/Properties_Float.v
theories/Sorting.v
theories/SessionSpec.v
theories/SessionFacts.v
theories/Properties_Session.v
theories/FloatValid.v
theories/Prob.v
theories/ProbSpec.v
theories/ProbFacts.v
theories/Properties_Prob.v
theories/Overflow.v
theories/OverflowFacts.v
theories/Properties_Overflow.v
theories/BuildSpec.v
theories/BuildFacts.v
theories/BuildHistories.v
theories/Properties_Builds.v
theories/SurelySpec.v
theories/SurelyFacts.v
theories/SurelyBa.v
theories/SurelyWs.v
theories/SurelyConfig.v
theories/Properties_Surely.v
theories/FairSpec.v
theories/FairFacts.v
theories/FairWs.v
theories/FairBa.v
theories/Properties_Fair.v
theories/FairDog.v
theories/Properties_FairDog.v
theories/ConvergeSpec.v
theories/ConvergeFacts.v
theories/ConvergePairs.v
theories/ConvergeErM.v
theories/ConvergeBack.v
theories/ConvergePlace.v
theories/ConvergeSwitch.v
theories/Properties_Converge.v
theories/ConvergeRate.v
theories/ConvergeRateM.v
theories/RateSpec.v
theories/RateFacts.v
theories/Properties_Rate.v
theories/DegreeSpec.v
theories/DegreeFacts.v
theories/Properties_Degree.v
theories/SafeSpec.v
theories/SafeFacts.v
theories/SafeRings.v
theories/Properties_Safe.v
theories/PayloadSpec.v
theories/PayloadFacts.v
theories/PayloadRuns.v
theories/PayloadRings.v
theories/PayloadData.v
theories/Properties_Payload.v
theories/Cost.v
theories/CostFacts.v
theories/CostLoad.v
theories/CostSw.v
theories/CostHub.v
theories/Properties_Cost.v
theories/Properties_SwEdges.v
theories/DrawsSpec.v
theories/DrawsFacts.v
theories/DrawsCount.v
theories/Properties_Draws.v
theories/Words.v
theories/WordsMore.v
theories/WordsSpec.v
theories/WordsFacts.v
theories/WordsLoop.v
theories/OrderSpec.v
theories/OrderFacts.v
theories/OrderRuns.v
theories/WordsMoreFacts.v
theories/BaWords.v
theories/WordsChain.v
theories/WordsChainFacts.v
theories/Properties_Words.v
theories/Properties_Order.v
theories/Replay.v
theories/RepoTests.v
theories/WordsEndSpec.v
theories/WordsEndFacts.v
theories/Properties_WordsEnd.v
theories/MeanFacts.v
theories/Properties_Mean.v
theories/KindSpec.v
theories/KindFacts.v
theories/Properties_Kinds.v
