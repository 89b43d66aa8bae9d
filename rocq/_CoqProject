-Q theories Verif
theories/Num.v
theories/SpecConst.v
theories/Vec.v
theories/Helix.v
theories/Isect.v
theories/Trans.v
theories/Propag.v
theories/Material.v
theories/NumFacts.v
theories/SpecHelix.v
theories/SpecMat.v
theories/HelixFacts.v
theories/PathFacts.v
theories/PropHelix.v
theories/MoveFacts.v
theories/MoveCovFacts.v
theories/FloatWrap.v
theories/FloatWrapFacts.v
theories/PropMove.v
theories/SpecIsect.v
theories/IsectFacts.v
theories/SurfFacts.v
theories/SurfFacts2.v
theories/SurfFacts3.v
theories/PropIsect.v
theories/PropSurf.v
theories/StartFacts.v
theories/PropStart.v
theories/SpecTrans.v
theories/TransFacts.v
theories/SpecPropag.v
theories/SpecJac.v
theories/JacFacts.v
theories/PropTrans.v
theories/PropagFacts.v
theories/PropagFacts2.v
theories/FamilyFacts.v
theories/LineFacts.v
theories/NeutralFacts.v
theories/PropPropag.v
theories/SpecMaterial.v
theories/MaterialFacts.v
theories/PropMaterial.v
theories/Traj.v
theories/SpecTraj.v
theories/TrajFacts.v
theories/TrajFacts2.v
theories/TrajFacts3.v
theories/TrajFacts4.v
theories/TrajFacts5.v
theories/SpecElem.v
theories/ElemFacts.v
theories/OffTrack.v
theories/TrajEx.v
theories/PropElem.v
theories/PropTraj.v
theories/PropTraj2.v
theories/PropTrajEx.v
theories/LCIO.v
theories/SpecLCIO.v
theories/PropLCIO.v
theories/LCIOFloat.v
theories/PropLCIOFloat.v
theories/Geom.v
theories/SpecGeom.v
theories/PropGeom.v
theories/Fit.v
theories/SpecFit.v
theories/FitFacts.v
theories/FitFacts2.v
theories/PropFit.v
theories/PropFit2.v
theories/PropFitEx.v
theories/FitHeap.v
theories/SpecFitHeap.v
theories/FitHeapFacts.v
theories/FitHeapFacts2.v
theories/PropFitHeap.v
theories/PropFitHeapEx.v
theories/SpecNewton.v
theories/NewtonFacts.v
theories/NewtonFacts2.v
theories/PropNewton.v
theories/PropNewton2.v
theories/SpecThrow.v
theories/ThrowFacts.v
theories/PropThrow.v
theories/Heap.v
theories/SpecHeap.v
theories/HeapFacts.v
theories/HeapFacts2.v
theories/HeapFacts3.v
theories/PropHeap.v
theories/PropHeapEx.v
theories/SpecSmooth.v
theories/SmoothFacts.v
theories/PropSmooth.v
theories/SpecStep.v
theories/StepFacts.v
theories/PropStep.v
theories/SpecMeas.v
theories/MeasFacts.v
theories/PropMeas.v
theories/SpecExact.v
theories/ExactFacts.v
theories/SpecLsq.v
theories/LsqFacts.v
theories/PropExact.v
theories/PropLsq.v
theories/PropLsqEx.v
theories/VecObj.v
theories/SpecVec.v
theories/PropVec.v
theories/SpecSym.v
theories/SymFacts.v
theories/SymFacts2.v
theories/SymFacts3.v
theories/PropSym.v
theories/PropSym2.v
theories/SpecTurn.v
theories/TurnFacts.v
theories/TurnFacts2.v
theories/TurnFacts3.v
theories/PropTurn.v
theories/PropTurnEx.v
theories/SpecEnergy.v
theories/EnergyFacts.v
theories/PropEnergy.v
theories/PropEnergyEx.v
theories/SpecRev.v
theories/RevFacts.v
theories/RevFacts2.v
theories/RevFacts3.v
theories/RevFacts4.v
theories/PropRev.v
theories/Refit.v
theories/SpecRefit.v
theories/RefitFacts.v
theories/RefitFacts2.v
theories/RefitFacts3.v
theories/PropRefit.v
theories/PropRefitEx.v
theories/SpecSeed.v
theories/SeedFacts.v
theories/PropSeed.v
theories/PointFloat.v
theories/SpecRound.v
theories/RoundFacts.v
theories/PointFloatFacts.v
theories/PropRound.v
theories/SpecListed.v
theories/ListedFacts.v
theories/PropListed.v
theories/MatScan.v
theories/SpecScan.v
theories/ScanFacts.v
theories/PropScan.v
theories/MatEff.v
theories/SpecEff.v
theories/EffFacts.v
theories/PropEff.v
theories/DebugTracks.v
theories/SpecDebug.v
theories/DebugFacts.v
theories/PropDebug.v
theories/UTest.v
theories/SpecUTest.v
theories/UTestFacts.v
theories/UTestFacts2.v
theories/PropUTest.v
theories/UCmp.v
theories/PropUCmp.v
theories/Small.v
theories/SpecSmall.v
theories/SmallFacts.v
theories/PropSmall.v
theories/RefitMain.v
theories/SpecRefitMain.v
theories/PropRefitMain.v
theories/SpecLossJac.v
theories/LossJacFacts.v
theories/PropLossJac.v
theories/PropLossJacEx.v
theories/PathFloat.v
theories/SpecPath.v
theories/PathTrig.v
theories/PathFloatFacts.v
theories/PathLibFacts.v
theories/PropPath.v
theories/MoveFloat.v
theories/SpecMoveFloat.v
theories/MoveFloatFacts.v
theories/MoveFloatTrack.v
theories/PropMoveFloat.v
theories/DiskFloat.v
theories/SpecDiskFloat.v
theories/DiskFloatFacts.v
theories/PropDiskFloat.v
theories/CylFloat.v
theories/SpecCylFloat.v
theories/NearFacts.v
theories/CylGeom.v
theories/CylFloatFacts.v
theories/PropCylFloat.v
theories/PlaneFloat.v
theories/SpecPlaneFloat.v
theories/PlaneFloatFacts.v
theories/PlaneFinite.v
theories/PropPlaneFloat.v
theories/StartFloat.v
theories/SpecStartFloat.v
theories/StartFloatFacts.v
theories/PropStartFloat.v
theories/NewtonFloat.v
theories/SpecNewtonFloat.v
theories/NewtonFloatFacts.v
theories/NewtonFloatConv.v
theories/PropNewtonFloat.v
theories/QmsFloat.v
theories/SpecQmsFloat.v
theories/RelFacts.v
theories/QmsFloatFacts.v
theories/PropQmsFloat.v
theories/BetheFloat.v
theories/SpecBetheFloat.v
theories/BetheFloatFacts.v
theories/ElossFloatFacts.v
theories/PropBetheFloat.v
theories/DispatchFloat.v
theories/SpecDispatchFloat.v
theories/PropDispatchFloat.v
theories/ProjFloat.v
theories/SpecProjFloat.v
theories/ProjFloatFacts.v
theories/PropProjFloat.v
theories/FrameFloat.v
theories/SpecFrameFloat.v
theories/FrameFloatFacts.v
theories/PropFrameFloat.v
theories/MomFloat.v
theories/SpecMomFloat.v
theories/MomFloatFacts.v
theories/PropMomFloat.v
theories/JacFloat.v
theories/SpecJacFloat.v
theories/JacFloatFacts.v
theories/PropJacFloat.v
theories/LineFloat.v
theories/SpecLineFloat.v
theories/LineFloatFacts.v
theories/PropLineFloat.v
theories/CircFloat.v
theories/SpecCircFloat.v
theories/CircFloatFacts.v
theories/PropCircFloat.v
