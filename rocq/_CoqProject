-Q theories Verif
theories/Base/RSum.v
theories/Base/Prelude.v
theories/Spec/Matrix.v
theories/Base/LinAlg.v
theories/Base/Solve.v
theories/Base/Spectral.v
theories/Model/Sparse.v
theories/Model/Graph.v
theories/Spec/GraphSpec.v
theories/Proofs/SparseFacts.v
theories/Proofs/InitFacts.v
theories/Spec/Card.v
theories/Proofs/EdgeFacts.v
theories/Data/LogoData.v
theories/Data/AirfoilData.v
theories/Data/MinnesotaData.v
theories/Props/Core.v
theories/Model/Difference.v
theories/Model/Bounds.v
theories/Proofs/LapFacts.v
theories/Proofs/BoundFacts.v
theories/Props/Laplacian.v
theories/Spec/Reach.v
theories/Model/Traverse.v
theories/Proofs/TraverseFacts.v
theories/Proofs/SubgraphFacts.v
theories/Props/Traversal.v
theories/Model/Cache.v
theories/Spec/CacheSpec.v
theories/Proofs/CacheFacts.v
theories/Proofs/SpectralFacts.v
theories/Proofs/SpectrumFacts.v
theories/Props/Caching.v
theories/Spec/NdArray.v
theories/Model/Filter.v
theories/Model/Kernels.v
theories/Spec/FilterSpec.v
theories/Proofs/FilterFacts.v
theories/Proofs/ChebFacts.v
theories/Props/Filtering.v
theories/Props/Banks.v
theories/Props/OperatorProps.v
theories/Props/Frames.v
theories/Props/KernelProps.v
theories/Props/ResynthProps.v
theories/Props/VertexFreq.v
theories/Model/Approx.v
theories/Props/Approx.v
theories/Props/LanczosProps.v
theories/Props/LanczosBlock.v
theories/Spec/LapSpec.v
theories/Spec/LearnSpec.v
theories/Proofs/MaxPrinciple.v
theories/Proofs/SchurFacts.v
theories/Proofs/TikhonovFacts.v
theories/Model/Utils.v
theories/Model/Reduction.v
theories/Model/Learning.v
theories/Props/UtilsProps.v
theories/Props/SpectrumProps.v
theories/Props/ReductionProps.v
theories/Props/PyramidProps.v
theories/Props/ChebInterp.v
theories/Props/LearningProps.v
theories/Props/SimplexProps.v
theories/Model/Features.v
theories/Props/FeatureProps.v
theories/Spec/GenSpec.v
theories/Spec/IOSpec.v
theories/Spec/CallSpec.v
theories/Spec/TextSpec.v
theories/Model/Generators.v
theories/Proofs/GenFacts.v
theories/Proofs/DataFacts.v
theories/Proofs/IOFacts.v
theories/Props/GenProps.v
theories/Props/GridProps.v
theories/Model/LineGraph.v
theories/Model/Random.v
theories/Model/Ring.v
theories/Props/LineProps.v
theories/Props/SbmProps.v
theories/Props/BaProps.v
theories/Props/RegularProps.v
theories/Props/RingProps.v
theories/Props/TransformProps.v
theories/Props/ReprProps.v
theories/Spec/HopSpec.v
theories/Props/LocalityProps.v
theories/Props/HeatProps.v
theories/Props/DenoiseProps.v
theories/Props/MonotoneProps.v
theories/Props/TreeProps.v
theories/Model/Community.v
theories/Props/CommunityProps.v
theories/Model/NNGraph.v
theories/Model/IO.v
theories/Props/NNProps.v
theories/Props/IOProps.v
theories/Model/Plot.v
theories/Model/Figures.v
theories/Props/PlotProps.v
theories/Props/FigureProps.v
theories/Model/Layout.v
theories/Props/LayoutProps.v
theories/Model/Sparsify.v
theories/Model/Multires.v
theories/Model/Effects.v
theories/Model/Live.v
theories/Model/PyCall.v
theories/Props/SparsifyProps.v
theories/Props/MultiresProps.v
theories/Props/EffectsProps.v
theories/Props/CallProps.v
theories/Model/Clouds.v
theories/Model/Operators.v
theories/Model/DataGraphs.v
theories/Model/Repr.v
theories/Props/CloudProps.v
theories/Props/PatchProps.v
theories/Props/ContinuityProps.v
theories/Props/DataProps.v
theories/Props/DataFiles.v
theories/Props/FrameBounds.v
theories/Props/LiveProps.v
theories/Props/TightProps.v
theories/Spec/Rounding.v
theories/Model/Rounded.v
theories/Props/RoundProps.v
theories/Spec/StabSpec.v
theories/Props/StabilityProps.v
theories/Props/SpectraProps.v
theories/Spec/DtypeSpec.v
theories/Model/Dtypes.v
theories/Model/LiveBanks.v
theories/Model/LiveSpectral.v
theories/Spec/LiveSpec.v
theories/Spec/CohSpec.v
theories/Spec/SymSpec.v
theories/Spec/CutSpec.v
theories/Props/DtypeProps.v
theories/Props/LiveBankProps.v
theories/Props/LiveSpectralProps.v
theories/Props/NormRoundProps.v
theories/Props/VotingProps.v
theories/Props/ChebRate.v
theories/Props/SymRoundProps.v
theories/Props/DirRoundProps.v
theories/Props/CoherenceProps.v
theories/Props/SmoothProps.v
theories/Props/SymmetryProps.v
theories/Props/OverflowProps.v
theories/Props/CutProps.v
theories/Props/PartProps.v
theories/Props/NodalProps.v
theories/Spec/SampSpec.v
theories/Props/SampProps.v
theories/Spec/FlowSpec.v
theories/Props/OpsProps.v
theories/Props/FlowProps.v
theories/Props/ResistProps.v
theories/Spec/SetSpec.v
theories/Props/SetsProps.v
theories/Props/TransferProps.v
theories/Props/PathProps.v
theories/Props/LabelProps.v
theories/Props/ClassProps.v
theories/Props/SimplexLimitProps.v
