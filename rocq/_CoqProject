-Q theories Verif
theories/Base.v
theories/Coord.v
theories/Trap.v
theories/Mono.v
theories/Tri.v
theories/Budget.v
theories/Format.v
theories/Input.v
theories/Trace.v
theories/Protocol.v
theories/FormatFacts.v
theories/Bounds.v
theories/Indices.v
theories/Builders.v
theories/Runs.v
theories/FormatRuns.v
theories/BuilderProofs.v
theories/PropBuilders.v
theories/Basic.v
theories/Plane.v
theories/ValidRuns.v
theories/Endless.v
theories/PropBasic.v
theories/Sim.v
theories/SimFacts.v
theories/SimRuns.v
theories/PropSim.v
theories/MonoProof.v
theories/MonoGeom.v
theories/Slow.v
theories/SlowFam.v
theories/PropMono.v
theories/Lanes.v
theories/Geo.v
theories/Region.v
theories/TrapInv.v
theories/Depth.v
theories/AddVertex.v
theories/Recut.v
theories/Cuts.v
theories/LaneOps.v
theories/SegStep.v
theories/AddSegment.v
theories/Segment.v
theories/Walk.v
theories/Clear.v
theories/Cross.v
theories/CrossGeo.v
theories/Polygons.v
theories/Build.v
theories/Locate.v
theories/PropTrap.v
theories/Faces.v
theories/Open.v
theories/Traverse.v
theories/Sweep.v
theories/Tile.v
theories/Whole.v
theories/Outline.v
theories/Doc.v
theories/CrossRun.v
theories/EvenOdd.v
theories/Nest.v
theories/Near.v
theories/Outcome.v
theories/Area.v
theories/PropTri.v
theories/Graph.v
theories/Count.v
theories/Single.v
theories/Corner.v
theories/Number.v
theories/PropCount.v
theories/Cover.v
theories/Sides.v
theories/Mountain.v
theories/Inv.v
theories/Closed.v
theories/PropMesh.v
theories/Orders.v
theories/Canon.v
theories/Bisim.v
theories/Same.v
theories/PropSame.v
theories/ValidB.v
theories/PropCross.v
theories/Float.v
theories/FloatRuns.v
theories/FloatErr.v
theories/FloatLine.v
theories/FloatWit.v
theories/PropFloat.v
theories/Ends.v
theories/EndsFan.v
theories/EndsTri.v
theories/Steps.v
theories/PropEnds.v
theories/PropSteps.v
theories/PropSlow.v
theories/Random.v
theories/RandomSize.v
theories/PropQuery.v
theories/Work.v
theories/WorkCount.v
theories/WalkAdj.v
theories/LoopWork.v
theories/RandomWork.v
theories/Averages.v
theories/WorkAverage.v
theories/Phases.v
theories/RealPace.v
theories/WorkBudget.v
theories/PropWork.v
theories/Hole.v
theories/HoleFam.v
theories/PropHole.v
theories/Stuck.v
theories/PropHang.v
theories/Panics.v
theories/PanicTri.v
theories/Profiles.v
theories/PropPanic.v
theories/Mirror.v
theories/PropMirror.v
theories/Flats.v
theories/Shear.v
theories/PropShear.v
theories/PropTests.v
theories/Load.v
theories/PropLoad.v
theories/Convex.v
theories/Circle.v
theories/PropConvex.v
theories/Visits.v
theories/Grown.v
theories/Stage.v
theories/Wave.v
theories/PropVisits.v
theories/Worst.v
theories/Comb.v
theories/PropWorst.v
theories/TriWork.v
theories/TriBudget.v
theories/PropTotal.v
theories/Faults.v
theories/FaultsTop.v
theories/FaultsPoly.v
theories/FaultsTri.v
theories/PropFaults.v
theories/Errors.v
theories/PropErrors.v
