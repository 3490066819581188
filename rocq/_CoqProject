-Q theories Verif
theories/Model_Axioms.v
theories/Model_CEGAR.v
theories/Model_Cartesian.v
theories/Model_CausalGraph.v
theories/Model_CommandLine.v
theories/Model_Controller.v
theories/Model_CostSaturation.v
theories/Model_DefaultRules.v
theories/Model_DomainAbstraction.v
theories/Model_DynamicBitset.v
theories/Model_EHC.v
theories/Model_Eager.v
theories/Model_Equivalence.v
theories/Model_Evaluators.v
theories/Model_Genetic.v
theories/Model_Graph.v
theories/Model_HM.v
theories/Model_Heap.v
theories/Model_HillClimbing.v
theories/Model_Improvement.v
theories/Model_IntHashSet.v
theories/Model_IntPacker.v
theories/Model_Iterated.v
theories/Model_LMCut.v
theories/Model_LPSolver.v
theories/Model_LandmarkGeneration.v
theories/Model_Landmarks.v
theories/Model_Lazy.v
theories/Model_LazyController.v
theories/Model_Lexer.v
theories/Model_LimitedPruning.v
theories/Model_MAS.v
theories/Model_MASAlgorithm.v
theories/Model_MASRun.v
theories/Model_MaxCliques.v
theories/Model_MergeStrategy.v
theories/Model_OpenList.v
theories/Model_OpenList2.v
theories/Model_OperatorCounting.v
theories/Model_OrderedSet.v
theories/Model_PDB.v
theories/Model_PDBCegar.v
theories/Model_PDBPlan.v
theories/Model_PQ.v
theories/Model_Parser.v
theories/Model_PatternCollections.v
theories/Model_PatternGenerators.v
theories/Model_PatternMultiple.v
theories/Model_Patterns.v
theories/Model_PerState.v
theories/Model_Planner.v
theories/Model_Potentials.v
theories/Model_PriorityQueue.v
theories/Model_Registry.v
theories/Model_Relaxation.v
theories/Model_Rng.v
theories/Model_Sccs.v
theories/Model_SearchSpace.v
theories/Model_SegmentedVector.v
theories/Model_Stubborn.v
theories/Model_StubbornEC.v
theories/Model_SuccGen.v
theories/Model_Syntax.v
theories/Model_Task.v
theories/Model_TaskSpace.v
theories/Outcome.v
theories/Proof_AStar.v
theories/Proof_Additive.v
theories/Proof_Alternation.v
theories/Proof_Axioms.v
theories/Proof_BFS.v
theories/Proof_CEGAR1.v
theories/Proof_CEGAR2.v
theories/Proof_CEGAR3.v
theories/Proof_CEGAR4.v
theories/Proof_CEGAR5.v
theories/Proof_CEGAR6.v
theories/Proof_Cartesian1.v
theories/Proof_Cartesian2.v
theories/Proof_Cartesian3.v
theories/Proof_Cartesian4.v
theories/Proof_Cartesian5.v
theories/Proof_Cartesian6.v
theories/Proof_CausalGraph.v
theories/Proof_Cegar1.v
theories/Proof_Cegar2.v
theories/Proof_Cegar3.v
theories/Proof_Cegar4.v
theories/Proof_Cegar5.v
theories/Proof_Cliques.v
theories/Proof_Collections.v
theories/Proof_CommandLine.v
theories/Proof_Controller.v
theories/Proof_CostSaturation1.v
theories/Proof_CostSaturation2.v
theories/Proof_CostSaturation3.v
theories/Proof_DefaultRules.v
theories/Proof_DefaultRules2.v
theories/Proof_DefaultRules3.v
theories/Proof_Dijkstra.v
theories/Proof_DomainAbstraction.v
theories/Proof_DomainAbstraction2.v
theories/Proof_Dominance.v
theories/Proof_DynamicBitset.v
theories/Proof_EHC.v
theories/Proof_Eager.v
theories/Proof_EagerComplete.v
theories/Proof_EagerTerm.v
theories/Proof_Equivalence.v
theories/Proof_FF.v
theories/Proof_Genetic1.v
theories/Proof_Genetic2.v
theories/Proof_Graph.v
theories/Proof_HM1.v
theories/Proof_HM2.v
theories/Proof_Heap.v
theories/Proof_HillClimbing.v
theories/Proof_IntHashSet.v
theories/Proof_IntPacker.v
theories/Proof_Iterated.v
theories/Proof_LG1.v
theories/Proof_LG2.v
theories/Proof_LG3.v
theories/Proof_LG4.v
theories/Proof_LG5.v
theories/Proof_LG6.v
theories/Proof_LG7.v
theories/Proof_LMCut1.v
theories/Proof_LMCut2.v
theories/Proof_LMCut3.v
theories/Proof_Landmarks1.v
theories/Proof_Landmarks2.v
theories/Proof_Landmarks3.v
theories/Proof_Landmarks4.v
theories/Proof_Landmarks5.v
theories/Proof_LandmarksCheck.v
theories/Proof_Lazy.v
theories/Proof_LazyController.v
theories/Proof_Lexer.v
theories/Proof_MAA1.v
theories/Proof_MAA10.v
theories/Proof_MAA11.v
theories/Proof_MAA2.v
theories/Proof_MAA3.v
theories/Proof_MAA4.v
theories/Proof_MAA5.v
theories/Proof_MAA6.v
theories/Proof_MAA7.v
theories/Proof_MAA8.v
theories/Proof_MAA9.v
theories/Proof_MAS1.v
theories/Proof_MAS10.v
theories/Proof_MAS11.v
theories/Proof_MAS12.v
theories/Proof_MAS13.v
theories/Proof_MAS2.v
theories/Proof_MAS3.v
theories/Proof_MAS4.v
theories/Proof_MAS5.v
theories/Proof_MAS6.v
theories/Proof_MAS7.v
theories/Proof_MAS8.v
theories/Proof_MAS9.v
theories/Proof_MS1.v
theories/Proof_MS10.v
theories/Proof_MS11.v
theories/Proof_MS2.v
theories/Proof_MS3.v
theories/Proof_MS4.v
theories/Proof_MS5.v
theories/Proof_MS6.v
theories/Proof_MS7.v
theories/Proof_MS8.v
theories/Proof_MS9.v
theories/Proof_MatchTree.v
theories/Proof_MaxCliques.v
theories/Proof_MixedRadix.v
theories/Proof_Multiple.v
theories/Proof_OC1.v
theories/Proof_OC10.v
theories/Proof_OC11.v
theories/Proof_OC12.v
theories/Proof_OC13.v
theories/Proof_OC14.v
theories/Proof_OC2.v
theories/Proof_OC3.v
theories/Proof_OC4.v
theories/Proof_OC5.v
theories/Proof_OC6.v
theories/Proof_OC7.v
theories/Proof_OC8.v
theories/Proof_OC9.v
theories/Proof_OpenList.v
theories/Proof_OpenList2.v
theories/Proof_OpenList3.v
theories/Proof_OpenList4.v
theories/Proof_OpenList5.v
theories/Proof_OptionLexer.v
theories/Proof_OrderedSet.v
theories/Proof_PDB1.v
theories/Proof_PDB2.v
theories/Proof_PDB3.v
theories/Proof_PDBPlan1.v
theories/Proof_PDBPlan2.v
theories/Proof_ParseSections.v
theories/Proof_ParseTask.v
theories/Proof_Parser.v
theories/Proof_Pat1.v
theories/Proof_Pat2.v
theories/Proof_Pat3.v
theories/Proof_Pat4.v
theories/Proof_Pat5.v
theories/Proof_PerState.v
theories/Proof_PerState2.v
theories/Proof_Planner.v
theories/Proof_PlannerMain.v
theories/Proof_Pot1.v
theories/Proof_Pot2.v
theories/Proof_Pot3.v
theories/Proof_Pot4.v
theories/Proof_Pot5.v
theories/Proof_PriorityQueue.v
theories/Proof_Registry.v
theories/Proof_RelaxHeur.v
theories/Proof_Relaxation.v
theories/Proof_Sccs.v
theories/Proof_SearchSpace.v
theories/Proof_SegmentedVector.v
theories/Proof_Stubborn1.v
theories/Proof_Stubborn2.v
theories/Proof_Stubborn3.v
theories/Proof_Stubborn4.v
theories/Proof_SuccGen.v
theories/Proof_Syntax.v
theories/Proof_Task.v
theories/Proof_TaskCheck.v
theories/Proof_TaskSpace.v
theories/Proof_Trace.v
theories/Prop_AStarTask.v
theories/Prop_Axioms.v
theories/Prop_CEGAR.v
theories/Prop_Cartesian.v
theories/Prop_CausalGraph.v
theories/Prop_CommandLine.v
theories/Prop_CostSaturation.v
theories/Prop_DefaultRules.v
theories/Prop_DomainAbstraction.v
theories/Prop_DynamicBitset.v
theories/Prop_EHC.v
theories/Prop_Eager.v
theories/Prop_Equivalence.v
theories/Prop_Evaluators.v
theories/Prop_Genetic.v
theories/Prop_HM.v
theories/Prop_HillClimbing.v
theories/Prop_Improvement.v
theories/Prop_IntHashSet.v
theories/Prop_IntPacker.v
theories/Prop_Iterated.v
theories/Prop_LMCut.v
theories/Prop_LabelReduction.v
theories/Prop_LandmarkGeneration.v
theories/Prop_Landmarks.v
theories/Prop_Lazy.v
theories/Prop_LimitedPruning.v
theories/Prop_MAS.v
theories/Prop_MASAlgorithm.v
theories/Prop_MaxCliques.v
theories/Prop_MergeStrategy.v
theories/Prop_OpenList.v
theories/Prop_OpenList2.v
theories/Prop_OperatorCounting.v
theories/Prop_Options.v
theories/Prop_OrderedSet.v
theories/Prop_PDB.v
theories/Prop_PDBCegar.v
theories/Prop_PDBPlan.v
theories/Prop_Parser.v
theories/Prop_PatternGenerators.v
theories/Prop_PatternMultiple.v
theories/Prop_Patterns.v
theories/Prop_PerState.v
theories/Prop_PlannerMain.v
theories/Prop_Potentials.v
theories/Prop_PriorityQueue.v
theories/Prop_Registry.v
theories/Prop_Relaxation.v
theories/Prop_Sccs.v
theories/Prop_SegmentedVector.v
theories/Prop_Shrink.v
theories/Prop_Stubborn.v
theories/Prop_SuccGen.v
theories/Prop_ZhuGivan.v
theories/Spec_Bitset.v
theories/Spec_CEGAR.v
theories/Spec_Cartesian.v
theories/Spec_CausalGraph.v
theories/Spec_CommandLine.v
theories/Spec_Controller.v
theories/Spec_CostSaturation.v
theories/Spec_DefaultRules.v
theories/Spec_DomainAbstraction.v
theories/Spec_FTS.v
theories/Spec_Format.v
theories/Spec_Generators.v
theories/Spec_Genetic.v
theories/Spec_Graph.v
theories/Spec_HM.v
theories/Spec_HillClimbing.v
theories/Spec_Iterated.v
theories/Spec_KeySet.v
theories/Spec_LP.v
theories/Spec_LabelReduction.v
theories/Spec_LandmarkGeneration.v
theories/Spec_Landmarks.v
theories/Spec_LazyController.v
theories/Spec_MASAlgorithm.v
theories/Spec_MergeStrategy.v
theories/Spec_OpenList.v
theories/Spec_OpenListContract.v
theories/Spec_OperatorCounting.v
theories/Spec_Options.v
theories/Spec_OrderedSet.v
theories/Spec_PDBCegar.v
theories/Spec_PDBPlan.v
theories/Spec_Partition.v
theories/Spec_PatternCollections.v
theories/Spec_PatternGenerators.v
theories/Spec_PatternMultiple.v
theories/Spec_Patterns.v
theories/Spec_PerState.v
theories/Spec_Plan.v
theories/Spec_PlanFiles.v
theories/Spec_PotentialOptimizer.v
theories/Spec_Potentials.v
theories/Spec_Preferred.v
theories/Spec_PriorityQueue.v
theories/Spec_Projection.v
theories/Spec_RandomOpenList.v
theories/Spec_Relaxation.v
theories/Spec_Selection.v
theories/Spec_Shrink.v
theories/Spec_Store.v
theories/Spec_Stubborn.v
theories/Spec_Task.v
theories/Spec_Vector.v
