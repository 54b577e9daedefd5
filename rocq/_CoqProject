-Q theories Verif
theories/Py.v
theories/StarRing.v
theories/Matrix.v
theories/GaussQ.v
theories/PauliModel.v
theories/PauliSpec.v
theories/PauliSem.v
theories/PauliProofs.v
theories/PauliProofs2.v
theories/PauliSumModel.v
theories/PauliSumProofs.v
theories/PauliSumProofs2.v
theories/PropPauli.v
theories/PropPauliSum.v
theories/EdgeModel.v
theories/EdgeSpec.v
theories/EdgeProofs.v
theories/EdgeProofs2.v
theories/EdgeProofs3.v
theories/PropEdge.v
theories/Cplx.v
theories/Bits.v
theories/PauliBasis.v
theories/UtilsModel.v
theories/UtilsProofs.v
theories/PropUtils.v
theories/CircuitModel.v
theories/CircuitProofs.v
theories/Expm.v
theories/CircuitProofs2.v
theories/PropCircuit.v
theories/AlgebraModel.v
theories/AlgebraProofs.v
theories/PropAlgebra.v
theories/MDeriv.v
theories/LayerModel.v
theories/LayerProofs.v
theories/LayerProofs2.v
theories/PropLayers.v
theories/GreedyModel.v
theories/RotoProofs.v
theories/RotoProofs2.v
theories/GreedyProofs.v
theories/PropGreedy.v
theories/RotoWitness.v
theories/CommProofs.v
theories/PropZassenhaus.v
theories/AdaptModel.v
theories/AdaptProofs.v
theories/PropAdapt.v
theories/OptimizerModel.v
theories/OptProofs.v
theories/PropOptArgs.v
theories/PropOptRun.v
theories/FlowModel.v
theories/FlowProofs.v
theories/FlowProofs2.v
theories/PropFlow.v
theories/Spectral.v
theories/ShiftModel.v
theories/ApproxModel.v
theories/CommuteModel.v
theories/ApproxProofs.v
theories/PropApprox.v
theories/SphereModel.v
theories/PropSphere.v
theories/CommuteProofs.v
theories/CommuteWitness.v
theories/PropCommute.v
theories/PropOptions.v
theories/FlowMany.v
theories/PropMany.v
theories/ShiftProofs.v
theories/PropShift.v
theories/ZasV2Model.v
theories/ZasV2Terms.v
theories/ZasV2Proofs.v
theories/PropZasV2.v
theories/AlgGraphModel.v
theories/AlgGraphSpec.v
theories/AlgGraphProofs.v
theories/AlgGraphProofs2.v
theories/AlgGraphSem.v
theories/AlgGraphProofs3.v
theories/AlgGraphProofs4.v
theories/PropAlgGraph.v
theories/PropLayerState.v
theories/PlotModel.v
theories/PropPlot.v
theories/BchModel.v
theories/PropBch.v
theories/ShiftDescent.v
theories/PropShiftRun.v
theories/FlowRate.v
theories/PropFlowRate.v
theories/LayerRate.v
theories/PropLayerRate.v
theories/PrintModel.v
theories/PropPrint.v
theories/PathModel.v
theories/PropPath.v
theories/S3Model.v
theories/PropS3.v
theories/RedBlueModel.v
theories/PropRedBlue.v
theories/PropSpectrum.v
theories/EigenstateModel.v
theories/PropConserved.v
theories/PropEigenstate.v
theories/PauliHeapModel.v
theories/PropPauliHeap.v
theories/FloatPauliModel.v
theories/FloatPauliProofs.v
theories/FloatLaws.v
theories/FloatExact.v
theories/PropFloat.v
theories/PropSymmetry.v
theories/ApproxExampleModel.v
theories/ApproxExampleNum.v
theories/ApproxExampleProofs.v
theories/PropApproxExample.v
theories/PropPrefix.v
theories/PropPhase.v
theories/PropBipartite.v
theories/PropHamiltonian.v
theories/PropGreedyColor.v
theories/TfimModel.v
theories/TfimNum.v
theories/TfimProofs.v
theories/TfimLowest.v
theories/PropTfim.v
theories/ToyModel.v
theories/ToyProofs.v
theories/PropToy.v
theories/ZasFigModel.v
theories/ZasFigProofs.v
theories/PropZasFig.v
