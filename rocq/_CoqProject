-Q theories Verif
theories/Outcome.v
theories/GraphModel.v
theories/TraversalModel.v
theories/ComponentsModel.v
theories/PairingModel.v
theories/GreedyModel.v
theories/MaximumModel.v
theories/ReleaseModel.v
theories/Spec.v
theories/GraphProofs.v
theories/Checks.v
theories/EditProofs.v
theories/ConvertProofs.v
theories/EqProofs.v
theories/PropertiesGraph.v
theories/TraversalProofs.v
theories/BfsProofs.v
theories/DfsProofs.v
theories/PathLemmas.v
theories/AcyclicProofs.v
theories/BfsOrder.v
theories/CycleProofs.v
theories/NarrowProofs.v
theories/PropertiesTraversal.v
theories/ComponentsProofs.v
theories/DescentProofs.v
theories/PairingProofs.v
theories/GreedyProofs.v
theories/GreedyRule.v
theories/EquivProofs.v
theories/LoopProofs.v
theories/ReplayProofs.v
theories/ReturnProofs.v
theories/PropertiesDescent.v
theories/PropertiesEquiv.v
theories/PropertiesSelection.v
theories/PropertiesLoops.v
theories/PropertiesPairing.v
theories/MatchTheory.v
theories/ForestProofs.v
theories/BlossomProofs.v
theories/ContractProofs.v
theories/LiftProofs.v
theories/TameProofs.v
theories/MaximumProofs.v
theories/CalmProofs.v
theories/ShareProofs.v
theories/SpecRename.v
theories/RenameProofs.v
theories/PropertiesRename.v
theories/OrderChecks.v
theories/ReleaseProofs.v
theories/ClassChecks.v
theories/PropertiesMatching.v
theories/PropertiesShared.v
theories/SpecAdvance.v
theories/AdvanceProofs.v
theories/PropertiesAdvance.v
theories/EqualityModel.v
theories/PropertiesEquality.v
theories/PropertiesCliques.v
theories/PropertiesRelease.v
theories/RepoTests.v
theories/StackModel.v
theories/SpecStack.v
theories/StackProofs.v
theories/PropertiesStack.v
theories/PropertiesGrow.v
theories/PropertiesReplay.v
theories/SpecSearch.v
theories/SearchProofs.v
theories/TextbookProofs.v
theories/PropertiesSearch.v
theories/StaleProofs.v
theories/PropertiesStale.v
theories/SpecPart.v
theories/LocalProofs.v
theories/PropertiesLocal.v
theories/SpecNumber.v
theories/NumberProofs.v
theories/PropertiesNumber.v
theories/MemoryProofs.v
theories/PropertiesMemory.v
theories/SpecDirected.v
theories/DirectedProofs.v
theories/PropertiesDirected.v
theories/PanicModel.v
theories/SpecPanic.v
theories/PanicProofs.v
theories/PropertiesPanic.v
theories/PropertiesEqSides.v
theories/WorkModel.v
theories/SpecWork.v
theories/WorkProofs.v
theories/PropertiesWork.v
theories/QueryModel.v
theories/SpecQuery.v
theories/QueryProofs.v
theories/PropertiesQuery.v
theories/SpecTangle.v
theories/TangleProofs.v
theories/PropertiesTangle.v
theories/PropertiesUntangled.v
theories/SpecClosing.v
theories/ClosingProofs.v
theories/PropertiesClosing.v
theories/BroomProofs.v
theories/PropertiesGap.v
theories/SpecRow.v
theories/RowProofs.v
theories/PropertiesRow.v
theories/SpecLast.v
theories/LastProofs.v
theories/PropertiesLast.v
theories/LoopCountProofs.v
theories/PropertiesLoopCount.v
theories/SelfPairProofs.v
theories/PropertiesSelfPair.v
theories/SpecStart.v
theories/StartProofs.v
theories/PropertiesStart.v
theories/SafeProofs.v
theories/PropertiesSafe.v
