-Q theories Verif
theories/Base.v
theories/L_Abort.v
theories/L_Answers.v
theories/L_Average.v
theories/L_Contract.v
theories/L_Converge.v
theories/L_Cuts.v
theories/L_Det.v
theories/L_Fiedler.v
theories/L_Geo.v
theories/L_Isoperimetric.v
theories/L_Json.v
theories/L_Kruskal.v
theories/L_Locality.v
theories/L_Machine.v
theories/L_MatrixTree.v
theories/L_Order.v
theories/L_Partition.v
theories/L_Pieces.v
theories/L_Popping.v
theories/L_Reads.v
theories/L_Run.v
theories/L_Seam.v
theories/L_Search.v
theories/L_Spectral.v
theories/L_Sums.v
theories/L_Tally.v
theories/L_Tree.v
theories/L_TreeCuts.v
theories/L_Uniform.v
theories/L_Updaters.v
theories/L_Wilson.v
theories/L_WilsonRuns.v
theories/M_Abort.v
theories/M_Anneal.v
theories/M_Assignment.v
theories/M_Attribute.v
theories/M_Chain.v
theories/M_Compact.v
theories/M_Constraints.v
theories/M_Contiguity.v
theories/M_Crs.v
theories/M_DataTally.v
theories/M_Diversity.v
theories/M_Election.v
theories/M_Flips.v
theories/M_Frozen.v
theories/M_Geo.v
theories/M_Gingles.v
theories/M_Graph.v
theories/M_GraphData.v
theories/M_Grid.v
theories/M_Interrupt.v
theories/M_Json.v
theories/M_Locality.v
theories/M_Machine.v
theories/M_Optimize.v
theories/M_Orders.v
theories/M_Partition.v
theories/M_Proposals.v
theories/M_Recom.v
theories/M_Recursive.v
theories/M_Registry.v
theories/M_Runs.v
theories/M_Script.v
theories/M_SharedValues.v
theories/M_SpanningCount.v
theories/M_Spectral.v
theories/M_SpectralOrder.v
theories/M_Tree.v
theories/M_UserFlow.v
theories/M_Utm.v
theories/M_UtmBack.v
theories/P_Abort.v
theories/P_Allowed.v
theories/P_Alone.v
theories/P_Anneal.v
theories/P_AnyNode.v
theories/P_Assignment.v
theories/P_Attribute.v
theories/P_Bi.v
theories/P_Bipartition.v
theories/P_Chain.v
theories/P_ChainLaw.v
theories/P_Compact.v
theories/P_Constraints.v
theories/P_Contiguity.v
theories/P_Converge.v
theories/P_Crs.v
theories/P_DataTally.v
theories/P_DetailedBalance.v
theories/P_Diversity.v
theories/P_Election.v
theories/P_Entropy.v
theories/P_FlipLaw.v
theories/P_Flips.v
theories/P_Frozen.v
theories/P_Geo.v
theories/P_GeoFrame.v
theories/P_Gingles.v
theories/P_GraphData.v
theories/P_Grid.v
theories/P_GridPerimeter.v
theories/P_Histogram.v
theories/P_Interrupt.v
theories/P_Json.v
theories/P_Locality.v
theories/P_LocalityObject.v
theories/P_LongRun.v
theories/P_Machine.v
theories/P_Metropolis.v
theories/P_Optimize.v
theories/P_Orders.v
theories/P_Partition.v
theories/P_Prime.v
theories/P_Proposals.v
theories/P_RandomTree.v
theories/P_Reach.v
theories/P_Reads.v
theories/P_Recom.v
theories/P_RecomChain.v
theories/P_RecomLaw.v
theories/P_Recursive.v
theories/P_Registry.v
theories/P_Reversible.v
theories/P_Runs.v
theories/P_Seed.v
theories/P_SharedValues.v
theories/P_Slow.v
theories/P_Spanning.v
theories/P_SpanningCount.v
theories/P_Spectral.v
theories/P_SpectralOrder.v
theories/P_Stationary.v
theories/P_Symmetric.v
theories/P_Tree.v
theories/P_Uniform.v
theories/P_UserFlow.v
theories/P_Utm.v
theories/P_UtmBack.v
theories/S_Contiguity.v
theories/S_Election.v
theories/S_Machine.v
theories/S_Partition.v
theories/S_Proposals.v
theories/S_Reads.v
theories/S_Spectral.v
theories/S_Tree.v
theories/S_TreeCuts.v
