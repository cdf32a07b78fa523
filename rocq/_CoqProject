-Q theories Verif
theories/Num.v
theories/Spec.v
theories/Model/Vector.v
theories/Model/BB.v
theories/Model/Transform.v
theories/Proofs/RTac.v
theories/Proofs/BBOrder.v
theories/Proofs/Geom.v
theories/Props/Geometry.v
theories/Model/BBTree.v
theories/SpecIndex.v
theories/Proofs/Util.v
theories/Proofs/BBTreeInv.v
theories/Proofs/BBTreePairs.v
theories/Proofs/BBTreeHist.v
theories/Proofs/BBTreeTop.v
theories/Proofs/FloatMono.v
theories/Props/Index.v
theories/Model/Body.v
theories/SpecBody.v
theories/SpecMass.v
theories/Model/ShapeMass.v
theories/SpecShapeMass.v
theories/Proofs/BodyPf.v
theories/Props/BodyProps.v
theories/Model/Solver.v
theories/SpecSolver.v
theories/Proofs/SolverPf.v
theories/Proofs/SolverPf2.v
theories/Proofs/SolverPf3.v
theories/Proofs/SolverPf4.v
theories/Proofs/SolverPf5.v
theories/Props/SolverProps.v
theories/Model/HashSet.v
theories/SpecHash.v
theories/Proofs/HashSetPf.v
theories/Props/HashProps.v
theories/Proofs/SolverPf6.v
theories/Props/SolverProps2.v
theories/Model/Handlers.v
theories/SpecHandlers.v
theories/Proofs/HandlersPf.v
theories/Props/HandlerProps.v
theories/Model/Space.v
theories/SpecSpace.v
theories/Proofs/SpaceLib.v
theories/Proofs/SpaceInv.v
theories/Proofs/SpaceAct.v
theories/Proofs/SpaceOps.v
theories/Proofs/SpaceOps2.v
theories/Proofs/SpaceStep.v
theories/Proofs/SpaceSleep.v
theories/Proofs/SpaceComp.v
theories/Proofs/SpaceComp2.v
theories/Proofs/SpaceStep2.v
theories/Proofs/SpaceStep3.v
theories/Proofs/SpaceProto.v
theories/Proofs/SpaceHist.v
theories/Proofs/SpaceReach.v
theories/Proofs/SpaceTop.v
theories/Props/SpaceProps.v
theories/Model/SpaceCb.v
theories/Proofs/SpaceCbPf.v
theories/Proofs/EachCbPf.v
theories/Props/SpaceCbProps.v
theories/Model/PostStep.v
theories/Proofs/PostStepPf.v
theories/Props/PostStepProps.v
theories/SpecShapes.v
theories/Model/Shapes.v
theories/Proofs/ShapePf.v
theories/Proofs/ShapePf2.v
theories/Proofs/PolyPf.v
theories/Proofs/PolyPf2.v
theories/Proofs/SegQPf.v
theories/Proofs/MassPf.v
theories/Proofs/MassInt.v
theories/Props/ShapeProps.v
theories/Model/Collision.v
theories/SpecCollide.v
theories/Proofs/FloatFlip.v
theories/Proofs/CollTermPf.v
theories/Proofs/GjkPf.v
theories/Proofs/GjkPf2.v
theories/Proofs/GjkPf3.v
theories/Proofs/CollPf.v
theories/Props/CollisionProps.v
theories/Model/Hull.v
theories/Proofs/HullPf.v
theories/Proofs/HullGeo.v
theories/Props/HullProps.v
theories/Model/Polyline.v
theories/SpecPolyline.v
theories/Proofs/PolylinePf.v
theories/Proofs/CurvesPf.v
theories/Proofs/CurvesTop.v
theories/Proofs/CurvesFloat.v
theories/Proofs/SimplifyPf.v
theories/Props/PolylineProps.v
theories/Model/March.v
theories/SpecMarch.v
theories/Proofs/PolylineTransit.v
theories/Proofs/MarchPf.v
theories/Proofs/MarchR.v
theories/Proofs/MarchLoops.v
theories/Proofs/MarchTop.v
theories/Proofs/MarchSide.v
theories/Proofs/MarchComplete.v
theories/Props/MarchProps.v
theories/Model/Query.v
theories/SpecQuery.v
theories/Proofs/QueryPf.v
theories/Proofs/QueryGeo.v
theories/Proofs/QuerySeg.v
theories/Proofs/QueryExact.v
theories/Props/QueryProps.v
theories/Model/SpaceHash.v
theories/Model/Contacts.v
theories/SpecContacts.v
theories/Proofs/ContactsPf.v
theories/Proofs/ContactsPf2.v
theories/Proofs/ContactsPf3.v
theories/Proofs/ContactsRing.v
theories/Props/ContactProps.v
theories/SpecSpaceHash.v
theories/Proofs/SpHashPf.v
theories/Proofs/SpHashPf2.v
theories/Proofs/SpHashPf3.v
theories/Proofs/SpHashFloor.v
theories/Proofs/SpHashSeg.v
theories/Props/SpaceHashProps.v
theories/Model/Threads.v
theories/Model/BBTreeHeap.v
theories/Model/World.v
theories/SpecWorld.v
theories/Proofs/WorldPf.v
theories/Props/WorldProps.v
theories/SpecThreads.v
theories/Proofs/ThreadsPf.v
theories/Proofs/ThreadsPf2.v
theories/Proofs/ThreadsPf3.v
theories/Props/ThreadProps.v
theories/Props/MassProps.v
theories/Model/Step.v
theories/SpecStep.v
theories/Proofs/StepPf.v
theories/Proofs/StepMech.v
theories/Proofs/StepGround.v
theories/Proofs/StepRest.v
theories/Props/StepProps.v
theories/SpecIndexHeap.v
theories/Proofs/BBHeapPairs.v
theories/Proofs/BBHeapNodes.v
theories/Proofs/BBHeapZip.v
theories/Proofs/BBHeapMark.v
theories/Proofs/BBHeapTop.v
theories/Proofs/BBHeapRun.v
theories/Props/IndexHeap.v
theories/Props/SpaceApiProps.v
theories/SpecEnergy.v
theories/Proofs/EnergyPf.v
theories/Props/EnergyProps.v
theories/Model/NewPoly.v
theories/Proofs/NewPolyPf.v
theories/Props/NewPolyProps.v
theories/SpecFrame.v
theories/Proofs/FramePf.v
theories/Props/FrameProps.v
theories/SpecDepth.v
theories/Proofs/GjkMin.v
theories/Proofs/Complete.v
theories/Props/DepthProps.v
theories/Props/CompleteProps.v
theories/Model/UseHash.v
theories/Props/UseHashProps.v
theories/Model/EachArb.v
theories/Props/EachArbProps.v
theories/Model/Slerp.v
theories/Props/TransProps.v
theories/Model/Reindex.v
theories/Props/ReindexProps.v
theories/Props/GravityProps.v
theories/Props/DefaultProps.v
theories/Props/SleepOffProps.v
theories/Model/Idle.v
theories/Props/IdleProps.v
theories/Props/TypeProps.v
