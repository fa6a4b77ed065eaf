-Q theories Verif
theories/Base.v
theories/M_Indexing.v
theories/M_Hilbert.v
theories/L_Hilbert.v
theories/P_Hilbert.v
theories/S_Order.v
theories/M_Utils.v
theories/L_Merge.v
theories/S_Utils.v
theories/L_Utils.v
theories/P_Utils.v
theories/M_Packing.v
theories/S_Packing.v
theories/L_Packing.v
theories/P_Packing.v
theories/M_Containers.v
theories/S_Containers.v
theories/L_Balance.v
theories/L_Balance2.v
theories/L_Tarray.v
theories/L_Sd.v
theories/M_Distribute.v
theories/L_Distribute.v
theories/P_Containers.v
theories/M_Alloc.v
theories/S_Alloc.v
theories/L_Alloc.v
theories/L_Cbmb.v
theories/P_Alloc.v
theories/M_Trees.v
theories/S_Trees.v
theories/L_Trees.v
theories/P_Trees.v
theories/M_Mpi.v
theories/S_Mpi.v
theories/L_Mpi.v
theories/M_Comm.v
theories/L_Comm.v
theories/S_Comm.v
theories/L_Coll.v
theories/L_Coll2.v
theories/L_A2a.v
theories/P_Comm.v
theories/M_Nb.v
theories/S_Nb.v
theories/L_Nb.v
theories/M_Exchange.v
theories/L_Exchange.v
theories/P_Exchange.v
theories/L_Various.v
theories/P_Various.v
theories/P_Rebalance.v
theories/M_Scan.v
theories/S_Scan.v
theories/P_Scan.v
theories/M_Csx.v
theories/S_Csx.v
theories/L_Csx.v
theories/L_Csx2.v
theories/P_Csx.v
theories/P_Csx2.v
theories/L_Csx3.v
theories/P_Csx3.v
theories/L_Sort.v
theories/M_CsxMap.v
theories/S_CsxMap.v
theories/L_CsxMap.v
theories/P_CsxMap.v
theories/P_CsxMap2.v
theories/P_CsxMap3.v
theories/M_Prune.v
theories/S_Prune.v
theories/L_Prune.v
theories/P_Prune.v
theories/P_Pivots.v
theories/M_Dnx.v
theories/S_Dnx.v
theories/L_Dnx.v
theories/P_Dnx.v
theories/P_Dnx2.v
theories/L_Dnx2.v
theories/P_Dnx3.v
theories/P_Dnx4.v
theories/P_Dnx5.v
theories/M_Math.v
theories/S_Math.v
theories/L_Math.v
theories/P_Math.v
theories/L_Math2.v
theories/P_Math2.v
theories/S_Math3.v
theories/L_Math3.v
theories/L_Math4.v
theories/P_Math3.v
theories/P_Math4.v
theories/M_Parser.v
theories/S_Parser.v
theories/L_Parser.v
theories/P_Parser.v
theories/M_Tokenizer.v
theories/S_Tokenizer.v
theories/L_Tokenizer.v
theories/L_Tokenizer2.v
theories/P_Tokenizer.v
theories/M_Holder.v
theories/S_Holder.v
theories/P_Holder.v
theories/M_Config.v
theories/S_Config.v
theories/L_Config.v
theories/P_Config.v
theories/M_Evolution.v
theories/S_Evolution.v
theories/P_Evolution.v
theories/L_Evolution.v
theories/P_Evolution2.v
theories/P_Evolution3.v
theories/M_DualVector.v
theories/M_Mprgp.v
theories/S_Mprgp.v
theories/L_RVec.v
theories/L_Mprgp.v
theories/L_Mprgp2.v
theories/P_Mprgp.v
theories/M_SolverInfo.v
theories/S_SolverInfo.v
theories/P_SolverInfo.v
theories/M_Pcpg.v
theories/S_Pcpg.v
theories/L_Pcpg.v
theories/L_Pcpg2.v
theories/L_Pcpg3.v
theories/L_Pcpg4.v
theories/P_Pcpg.v
theories/M_Dual.v
theories/S_Dual.v
theories/L_Dual.v
theories/L_Dual2.v
theories/L_Dual3.v
theories/L_Dual4.v
theories/L_Dual5.v
theories/P_Dual.v
theories/S_Equality.v
theories/M_Equality.v
theories/L_Equality.v
theories/L_Equality2.v
theories/L_Equality3.v
theories/L_Equality4.v
theories/L_Equality5.v
theories/L_Equality6.v
theories/L_Equality7.v
theories/P_Equality.v
theories/M_TotalFeti.v
theories/S_Feti.v
theories/L_TotalFeti.v
theories/L_TotalFeti2.v
theories/P_TotalFeti.v
theories/M_Projector.v
theories/S_Projector.v
theories/L_Projector.v
theories/L_Projector2.v
theories/L_Projector3.v
theories/M_ProjectorRanks.v
theories/S_ProjectorRanks.v
theories/P_Projector.v
theories/M_Reconstruct.v
theories/S_Reconstruct.v
theories/P_Reconstruct.v
theories/M_DualGraph.v
theories/S_DualGraph.v
theories/L_DualGraph.v
theories/L_DualGraph2.v
theories/L_DualGraph3.v
theories/L_DualGraph4.v
theories/P_DualGraph.v
theories/M_ProjectorG.v
theories/S_ProjectorG.v
theories/L_ProjectorG.v
theories/L_ProjectorG2.v
theories/L_ProjectorG3.v
theories/P_ProjectorG.v
theories/M_ProjectorGGt.v
theories/S_ProjectorGGt.v
theories/L_ProjectorGGt.v
theories/L_ProjectorGGt2.v
theories/L_ProjectorGGt3.v
theories/L_ProjectorGGt4.v
theories/L_ProjectorGGt5.v
theories/P_ProjectorGGt.v
theories/S_ProjectorInverse.v
theories/L_ProjectorInverse.v
theories/P_ProjectorInverse.v
theories/M_ProjectorUpdate.v
theories/S_ProjectorUpdate.v
theories/L_ProjectorUpdate.v
theories/P_ProjectorUpdate.v
theories/M_Assembly.v
theories/S_Assembly.v
theories/L_Numbering.v
theories/L_Pattern.v
theories/L_Pattern2.v
theories/L_Pattern3.v
theories/L_Pattern4.v
theories/L_Pattern5.v
theories/L_Fill.v
theories/L_Fill2.v
theories/P_Assembly.v
theories/M_Distributed.v
theories/S_Distributed.v
theories/L_Distributed.v
theories/L_Distributed2.v
theories/P_Distributed.v
theories/M_VectorFeti.v
theories/S_VectorFeti.v
theories/L_VectorFeti.v
theories/L_VectorFeti2.v
theories/L_VectorFeti3.v
theories/P_VectorFeti.v
theories/M_DistMatrix.v
theories/S_DistMatrix.v
theories/L_DistMatrix.v
theories/L_DistMatrix2.v
theories/L_DistMatrix3.v
theories/L_DistMatrix4.v
theories/L_DistMatrix5.v
theories/P_DistMatrix.v
theories/M_DistMatrixSync.v
theories/S_DistMatrixSync.v
theories/L_DistMatrixSync.v
theories/L_DistMatrixSync2.v
theories/L_DistMatrixFill.v
theories/L_DistMatrixFill2.v
theories/P_DistMatrixSync.v
theories/M_DistApply.v
theories/S_DistApply.v
theories/L_DistApply.v
theories/L_DistApply2.v
theories/L_DistApply3.v
theories/P_DistApply.v
theories/M_NodeInfo.v
theories/S_NodeInfo.v
theories/L_NodeInfo.v
theories/L_NodeInfo2.v
theories/L_NodeInfo3.v
theories/L_NodeInfo4.v
theories/L_NodeInfo5.v
theories/L_NodeInfo6.v
theories/L_NodeInfo7.v
theories/P_NodeInfo.v
theories/M_NodeBox.v
theories/S_NodeBox.v
theories/L_NodeBox.v
theories/P_NodeBox.v
theories/M_Links.v
theories/S_Links.v
theories/L_Links.v
theories/L_Links2.v
theories/L_Links3.v
theories/L_Links4.v
theories/L_Links5.v
theories/L_Links6.v
theories/P_Links.v
theories/M_Precond.v
theories/S_Precond.v
theories/L_Precond.v
theories/L_Precond2.v
theories/L_Precond3.v
theories/L_Precond4.v
theories/L_Precond5.v
theories/L_Precond6.v
theories/P_Precond.v
theories/M_PcpgRanks.v
theories/S_PcpgRanks.v
theories/L_PcpgRanks.v
theories/L_PcpgRanks2.v
theories/P_PcpgRanks.v
theories/M_Assembled.v
theories/S_Assembled.v
theories/L_Assembled.v
theories/P_Assembled.v
theories/S_WellPosed.v
theories/L_WellPosed.v
theories/P_WellPosed.v
theories/M_Counters.v
theories/S_Counters.v
theories/L_Counters.v
theories/P_Counters.v
theories/M_DualMatrix.v
theories/S_DualMatrix.v
theories/L_DualMatrix.v
theories/P_DualMatrix.v
theories/M_Smalbe.v
theories/S_Smalbe.v
theories/L_Smalbe.v
theories/P_Smalbe.v
theories/M_Power.v
theories/S_Power.v
theories/P_Power.v
theories/M_BoundaryValues.v
theories/S_BoundaryValues.v
theories/L_BoundaryValues.v
theories/P_BoundaryValues.v
theories/M_Loads.v
theories/S_Loads.v
theories/P_Loads.v
theories/M_SetDirichlet.v
theories/S_SetDirichlet.v
theories/P_SetDirichlet.v
theories/M_UpperCopy.v
theories/S_UpperCopy.v
theories/P_UpperCopy.v
