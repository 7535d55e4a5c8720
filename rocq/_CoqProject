-Q theories Verif
theories/Assembly.v
theories/Clustering.v
theories/CombSort.v
theories/ConfigSpace.v
theories/DetMatrix.v
theories/DetPartitioned.v
theories/DiagProposal.v
theories/Dist.v
theories/EigenBasis.v
theories/EqTimeList.v
theories/EqualTime.v
theories/FastUpdate.v
theories/Fermion.v
theories/FlatHist.v
theories/GlobalChain.v
theories/GlobalUpdate.v
theories/Histogram.v
theories/Hyb.v
theories/HybDet.v
theories/Input.v
theories/KField.v
theories/KRing.v
theories/LazyTrace.v
theories/Legendre.v
theories/LocalChain.v
theories/Matsubara.v
theories/MeasWindow.v
theories/Measure.v
theories/MeasureHyb.v
theories/MpiRun.v
theories/Observables.v
theories/OpContainer.v
theories/OpNorm.v
theories/PermSign.v
theories/Postprocess.v
theories/Proposal.v
theories/RealField.v
theories/SanityCheck.v
theories/Sectors.v
theories/Select.v
theories/ShiftParity.v
theories/ShiftProposal.v
theories/SpecNorm.v
theories/SpecThm.v
theories/T_Assembly.v
theories/T_AssemblyInst.v
theories/T_Braket.v
theories/T_Clustering.v
theories/T_ConfigSpace.v
theories/T_Container.v
theories/T_DetHistory.v
theories/T_DetMatrix.v
theories/T_DetPartitioned.v
theories/T_DetUpdate.v
theories/T_DiagProposal.v
theories/T_EigenBasis.v
theories/T_EqTimeList.v
theories/T_EqualTime.v
theories/T_FastUpdate.v
theories/T_Fermion.v
theories/T_FlatHist.v
theories/T_GlobalChain.v
theories/T_GlobalChainInst.v
theories/T_GlobalUpdate.v
theories/T_Histogram.v
theories/T_Hyb.v
theories/T_Input.v
theories/T_LazyTrace.v
theories/T_Legendre.v
theories/T_LegendreOrtho.v
theories/T_LegendreReal.v
theories/T_LocalChain.v
theories/T_LocalChainInst.v
theories/T_Matsubara.v
theories/T_MatsubaraReal.v
theories/T_MeasWindow.v
theories/T_Measure.v
theories/T_MeasureHyb.v
theories/T_MpiRun.v
theories/T_Observables.v
theories/T_PermSign.v
theories/T_Postprocess.v
theories/T_Proposal.v
theories/T_RemovalMean.v
theories/T_SanityCheck.v
theories/T_Sectors.v
theories/T_Select.v
theories/T_ShiftChain.v
theories/T_ShiftProposal.v
theories/T_ShiftWeight.v
theories/T_SpecNorm.v
theories/T_SpecNormInst.v
theories/T_TraceForm.v
theories/T_TwoSetView.v
theories/T_TwoTime.v
theories/T_Updater.v
theories/T_WideScalar.v
theories/T_Window.v
theories/T_WindowTrace.v
theories/T_Worm.v
theories/T_WormChain.v
theories/T_WormChainInst.v
theories/T_WormProposal.v
theories/TwoSetView.v
theories/TwoTime.v
theories/Updater.v
theories/WideScalar.v
theories/Window.v
theories/Worm.v
theories/WormChain.v
theories/WormProposal.v
