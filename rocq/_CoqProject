-Q theories Verif
theories/Lib.v
theories/LibProofs.v
theories/QcLib.v
theories/RLib.v
theories/Prob.v
theories/ProbProofs.v
theories/ArrangeProofs.v
theories/Domain.v
theories/Sublattice.v
theories/SublatticeSpec.v
theories/SublatticeProofs.v
theories/SublatticeProps.v
theories/DomainProofs.v
theories/DomainProps.v
theories/OccuUtils.v
theories/OccuUtilsSpec.v
theories/OccuUtilsProofs.v
theories/OccuUtilsProps.v
theories/Usher.v
theories/UsherSpec.v
theories/UsherProofs.v
theories/UsherProps.v
theories/TableFlip.v
theories/TableFlipSpec.v
theories/TableFlipProofs.v
theories/TableFlipAll.v
theories/TableFlipTop.v
theories/TableFlipKernel.v
theories/TableFlipLog.v
theories/TableFlipLogProofs.v
theories/TableFlipProps.v
theories/Kernel.v
theories/KernelSpec.v
theories/KernelProofs.v
theories/KernelProps.v
theories/Container.v
theories/ContainerSpec.v
theories/ContainerProofs.v
theories/ContainerProps.v
theories/Sampler.v
theories/SamplerSpec.v
theories/SamplerProofs.v
theories/SamplerProps.v
theories/SiteTable.v
theories/SiteTableProofs.v
theories/Bias.v
theories/Ensemble.v
theories/BiasSpec.v
theories/BiasProps.v
theories/EnsembleProps.v
theories/WangLandau.v
theories/WangLandauSpec.v
theories/WangLandauProofs.v
theories/WangLandauProps.v
theories/Multicell.v
theories/MulticellProps.v
theories/Evaluator.v
theories/EvaluatorSpec.v
theories/EvaluatorProofs.v
theories/EvaluatorProps.v
theories/Subspace.v
theories/SubspaceSpec.v
theories/SubspaceProofs.v
theories/SubspaceProps.v
theories/TensorProofs.v
theories/OrbitProps.v
theories/ExpansionProps.v
theories/Encoding.v
theories/EncodingProofs.v
theories/EncodingProps.v
theories/IntMath.v
theories/HnfProps.v
theories/SnfProofs.v
theories/SnfProps.v
theories/NatSol.v
theories/NatSolProps.v
theories/Ewald.v
theories/EwaldProps.v
theories/Hierarchy.v
theories/HierarchyProps.v
theories/Prune.v
theories/PruneProps.v
theories/Distance.v
theories/DistanceProps.v
theories/Cluster.v
theories/ClusterProps.v
theories/Duplicates.v
theories/DuplicatesProps.v
theories/Wrangler.v
theories/WranglerProps.v
theories/Weights.v
theories/WeightsProps.v
theories/GroundState.v
theories/GroundStateProps.v
theories/GroundTermsProps.v
theories/GroundEnergy.v
theories/GroundEnergyProofs.v
theories/GroundEnergyProps.v
theories/Constraints.v
theories/ConstraintsProps.v
theories/Rationalize.v
theories/RationalizeProps.v
theories/CompSpace.v
theories/CompSpaceProofs.v
theories/CompSpaceProps.v
theories/Sqs.v
theories/SqsProps.v
theories/Convergence.v
theories/ConvergenceProps.v
theories/Threads.v
theories/ThreadsProps.v
theories/ClassNames.v
theories/ClassNamesProps.v
theories/Basis.v
theories/LinProofs.v
theories/FlavorProofs.v
theories/BasisProofs.v
theories/BasisProps.v
theories/RandomOccu.v
theories/RandomOccuProofs.v
theories/RandomOccuProps.v
theories/OrbitGen.v
theories/OrbitGenSpec.v
theories/OrbitGenProofs.v
theories/OrbitPartsProofs.v
theories/OrbitSearchProofs.v
theories/OrbitReachProofs.v
theories/OrbitGenProps.v
theories/OrbitIndices.v
theories/OrbitIndicesSpec.v
theories/OrbitIndicesProofs.v
theories/OrbitIndicesProps.v
theories/SymmetrySpec.v
theories/SymmetryProofs.v
theories/SymmetryProps.v
theories/Ergodic.v
theories/ErgodicSpec.v
theories/LatticeProofs.v
theories/ErgodicProofs.v
theories/ErgodicProps.v
theories/FlipTableProps.v
theories/CompGridProps.v
theories/SubOrbits.v
theories/SubOrbitsSpec.v
theories/SubOrbitsProofs.v
theories/SubOrbitsProps.v
theories/ExtensiveSpec.v
theories/ExtensiveProofs.v
theories/ExtensiveProps.v
theories/FromCutoffs.v
theories/FromCutoffsSpec.v
theories/FromCutoffsProofs.v
theories/FromCutoffsProps.v
theories/ContainerStats.v
theories/ContainerStatsProps.v
theories/ClusterWeights.v
theories/ClusterWeightsSpec.v
theories/ClusterWeightsProofs.v
theories/ClusterWeightsProps.v
theories/SiteRotation.v
theories/SiteRotationSpec.v
theories/SiteRotationProofs.v
theories/SiteRotationProps.v
theories/Select.v
theories/SelectProofs.v
theories/SelectProps.v
theories/GaussSelect.v
theories/GaussSelectProps.v
theories/Matching.v
theories/MatchingProps.v
theories/Gram.v
theories/GramProps.v
theories/EnsembleMake.v
theories/EnsembleMakeProps.v
theories/EnsembleDict.v
theories/EnsembleDictProps.v
theories/SubspaceViews.v
theories/SubspaceViewsProps.v
theories/Potts.v
theories/PottsProps.v
theories/SqsScore.v
theories/SqsScoreProps.v
theories/SpaceState.v
theories/SpaceStateProps.v
theories/WranglerHeap.v
theories/WranglerHeapProps.v
theories/SeededRun.v
theories/SeededRunProofs.v
theories/SeededRunProps.v
theories/LawProofs.v
theories/UsherSymProofs.v
theories/UsherSymProps.v
theories/SavedModels.v
theories/SavedModelsProps.v
theories/Drift.v
theories/DriftProps.v
theories/ClusterSpecies.v
theories/ClusterSpeciesProps.v
theories/TraceFiles.v
theories/TraceFilesProps.v
theories/CachedExpansion.v
theories/CachedExpansionProps.v
theories/SqsComposition.v
theories/SqsCompositionProps.v
theories/ProcessorSpaces.v
theories/ProcessorSpacesProps.v
theories/ReachProps.v
theories/AveragesProps.v
theories/ThinningProps.v
theories/Centroid.v
theories/CentroidProps.v
theories/Reaction.v
theories/ReactionProps.v
theories/ComboRemoval.v
theories/ComboRemovalProps.v
theories/SqsMatricesProps.v
