-Q theories Verif
theories/Prelude.v
theories/PreludeFacts.v
theories/StrFacts.v
theories/Latex.v
theories/LatexSpec.v
theories/LatexProofs.v
theories/LatexProps.v
theories/Temp.v
theories/TempProofs.v
theories/TempProps.v
theories/Float.v
theories/FloatFacts.v
theories/Param.v
theories/ParamProofs.v
theories/ParamSweepProofs.v
theories/ParamProps.v
theories/Sweep.v
theories/SweepProofs.v
theories/SweepResultProofs.v
theories/SweepSliceProofs.v
theories/SweepProps.v
theories/Expr.v
theories/Coll.v
theories/ExprProofs.v
theories/CollGraph.v
theories/CollSpec.v
theories/CollProofs.v
theories/CollExpand.v
theories/CollUpdate.v
theories/CollMain.v
theories/CollFinal.v
theories/CollLast.v
theories/CollProps.v
theories/CollQuery.v
theories/CollQuerySpec.v
theories/CollQueryProofs.v
theories/CollQueryProps.v
theories/Mat.v
theories/MatFacts.v
theories/Util.v
theories/UtilProofs.v
theories/UtilLinProofs.v
theories/UtilProps.v
theories/Units.v
theories/UnitsSpec.v
theories/UnitsProofs.v
theories/UnitsRealProofs.v
theories/UnitsPhysProofs.v
theories/UnitsProps.v
theories/Graph.v
theories/GraphSpec.v
theories/GraphView.v
theories/GraphForest.v
theories/GraphWf.v
theories/GraphGround.v
theories/GraphCircuit.v
theories/GraphLoops.v
theories/GraphState.v
theories/GraphRooted.v
theories/GraphMaps.v
theories/GraphOps.v
theories/GraphProofs.v
theories/GraphProps.v
theories/Symbolic.v
theories/SymbolicSpec.v
theories/RSum.v
theories/SymbolicInv.v
theories/SymbolicCap.v
theories/SymbolicCap2.v
theories/SymbolicFlux.v
theories/SymbolicParam.v
theories/SymbolicInit.v
theories/SymbolicNew.v
theories/SymbolicMat.v
theories/SymbolicProofs.v
theories/SymbolicProps.v
theories/NumOp.v
theories/NumOpSpec.v
theories/NumKron.v
theories/NumSpectral.v
theories/NumCharge.v
theories/NumExpand.v
theories/NumHerm.v
theories/NumOsc.v
theories/NumPot.v
theories/NumOpProofs.v
theories/NumOpProps.v
theories/NumFlux.v
theories/NumFluxProps.v
theories/NumSweep.v
theories/NumSweepSpec.v
theories/NumSubs.v
theories/NumRun.v
theories/NumSweepRun.v
theories/NumSteady.v
theories/NumSweepProofs.v
theories/NumSweepFinal.v
theories/NumSweepWit.v
theories/NumSweepRef.v
theories/NumReady.v
theories/NumSweepProps.v
theories/NumEval.v
theories/NumEvalSpec.v
theories/NumEvalProofs.v
theories/NumEvalProofs2.v
theories/NumEvalProofs3.v
theories/NumEvalUnits.v
theories/NumEvalProps.v
theories/Reson.v
theories/ResonSpec.v
theories/ResonProofs.v
theories/ResonBuild.v
theories/ResonEx.v
theories/ResonProps.v
theories/MutualSpec.v
theories/MutualProofs.v
theories/MutualEx.v
theories/MutualProps.v
theories/SymbolicExact.v
theories/SymbolicExactProps.v
theories/SymHam.v
theories/SymHamSpec.v
theories/SymHamProofs.v
theories/SymHamQ.v
theories/SymHamT.v
theories/SymHamD.v
theories/SymHamEx.v
theories/SymHamProps.v
theories/LoopGraph.v
theories/LoopGraphSpec.v
theories/LoopGraphAlg.v
theories/LoopGraphProofs.v
theories/LoopGraphLast.v
theories/LoopGraphProps.v
theories/ExprSweep.v
theories/ExprSweepProofs.v
theories/ExprSweepProps.v
theories/NumAfter.v
theories/SweepConf.v
theories/SweepConfSpec.v
theories/SweepConfProofs.v
theories/NumAfterProps.v
theories/NumShared.v
theories/NumCoherentSpec.v
theories/NumCoherent.v
theories/NumCoherentProps.v
theories/Pauli.v
theories/PauliSpec.v
theories/PauliProofs.v
theories/PauliMain.v
theories/PauliProps.v
theories/DiagConf.v
theories/DiagConfSpec.v
theories/DiagConfProofs.v
theories/DiagConfProps.v
theories/SymTotal.v
theories/SymTotalSpec.v
theories/SymTotalProofs.v
theories/SymTotalMain.v
theories/SymTotalProps.v
theories/MoveSpec.v
theories/MoveProofs.v
theories/MoveEx.v
theories/MoveProps.v
theories/NumSymSpec.v
theories/NumSubst.v
theories/NumSymProofs.v
theories/NumSymHam.v
theories/NumSymNode.v
theories/NumSymMain.v
theories/NumSymEx.v
theories/NumSymProps.v
theories/NumGaugeSpec.v
theories/NumGauge.v
theories/NumGaugeHam.v
theories/NumGaugeMain.v
theories/NumGaugeEx.v
theories/NumGaugeProps.v
theories/ResonInit.v
theories/ResonInitSpec.v
theories/ResonInitProofs.v
theories/ResonInitNest.v
theories/ResonInitOuter.v
theories/ResonInitMain.v
theories/ResonInitEx.v
theories/ResonInitProps.v
theories/PotIn.v
theories/PotInSpec.v
theories/PotInSyms.v
theories/PotInProofs.v
theories/PotInEx.v
theories/PotInProps.v
theories/HamSyms.v
theories/HamSymsSpec.v
theories/HamSymsProofs.v
theories/HamSymsProps.v
theories/NumTruncSpec.v
theories/NumTrunc.v
theories/NumTruncHam.v
theories/NumTruncLevels.v
theories/NumTruncMain.v
theories/NumTruncEx.v
theories/NumTruncProps.v
theories/NumTruncBox.v
theories/ChMoveProps.v
theories/LevMoveSpec.v
theories/NumBound.v
theories/NumBoundHam.v
theories/NumBoundMain.v
theories/NumBoundEx.v
theories/LevMoveProps.v
theories/GrowSpec.v
theories/NumGrow.v
theories/NumGrowEx.v
theories/GrowProps.v
theories/IslandSpec.v
theories/NumIsland.v
theories/NumIslandEx.v
theories/IslandProps.v
theories/RedrawSpec.v
theories/NumRedraw.v
theories/NumRedrawEx.v
theories/RedrawProps.v
theories/ParallelSpec.v
theories/NumParallel.v
theories/NumParallelEx.v
theories/ParallelProps.v
theories/RelabelSpec.v
theories/NumRelabel.v
theories/NumReorder.v
theories/NumReorderEx.v
theories/RelabelProps.v
theories/NumSetOne.v
theories/NumSetOneProofs.v
theories/SetOneProps.v
