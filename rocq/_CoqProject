-Q theories Verif
theories/QcTac.v
theories/Geom.v
theories/Spec.v
theories/GeomFacts.v
theories/Relation.v
theories/Pair.v
theories/SortFacts.v
theories/PairFacts.v
theories/PairProofs.v
theories/PairThms.v
theories/Unique.v
theories/LoopThms.v
theories/Bounding.v
theories/Toward.v
theories/BoundingThms.v
theories/UnpackThms.v
theories/SweepGeo.v
theories/SweepInv.v
theories/SweepSteps.v
theories/Sweep.v
theories/Linear.v
theories/SweepCmp.v
theories/SweepLink.v
theories/SweepRun.v
theories/SweepLoop.v
theories/SweepStart.v
theories/SweepEnd.v
theories/SelectThms.v
theories/LinearMeaning.v
theories/LinearThms.v
theories/LinearComplete.v
theories/Contour.v
theories/Labelled.v
theories/Filter.v
theories/Mixed.v
theories/Parity.v
theories/Counting.v
theories/SpecShape.v
theories/SpecSides.v
theories/ShrinkThms.v
theories/ConnectThms.v
theories/Tracing.v
theories/Shaped.v
theories/Holey.v
theories/TraceThms.v
theories/RegionThms.v
theories/OrientThms.v
theories/NaryThms.v
theories/Erase.v
theories/Flow.v
theories/Lonely.v
theories/Beneath.v
theories/Labels.v
theories/LabelEnd.v
theories/Outline.v
theories/Classify.v
theories/Telescope.v
theories/MixedThms.v
theories/MixedComplete.v
theories/EvenOdd.v
theories/Shapes.v
theories/Polygons.v
theories/Sides.v
theories/EvenStraight.v
theories/SpecLocate.v
theories/FilterThms.v
theories/MixedProps.v
theories/Flip.v
theories/ShapedThms.v
theories/ShapedProps.v
theories/Rectangle.v
theories/Locate.v
theories/Cycle.v
theories/Arranged.v
theories/Surround.v
theories/CoupledThms.v
theories/RegionProps.v
theories/MixedMinus.v
theories/LinearProps.v
theories/SweepOrder.v
theories/SpecSweep.v
theories/SweepPieces.v
theories/Examples.v
theories/PropPair.v
theories/PropBox.v
theories/PropLinear.v
theories/PropShape.v
theories/PropMixed.v
theories/PropShaped.v
theories/QueueThms.v
theories/QueueProps.v
theories/PropSweep.v
theories/PropQueue.v
theories/PropFilter.v
theories/PropRegion.v
theories/Loops.v
theories/FollowThms.v
theories/Faces.v
theories/SimpleThms.v
theories/TidyThms.v
theories/TracedLoops.v
theories/HoleyLoop.v
theories/ShapedComplete.v
theories/HoleyThms.v
theories/HoleyProps.v
theories/CompleteProps.v
theories/SeparateThms.v
theories/SimpleCheck.v
theories/HoleyNest.v
theories/Nesting.v
theories/Forest.v
theories/Noncross.v
theories/NestTraced.v
theories/SpecNest.v
theories/SpecTurn.v
theories/SpecReach.v
theories/GeneralPos.v
theories/Degree.v
theories/NestProps.v
theories/Turning.v
theories/Reach.v
theories/ReachProps.v
theories/PropHoley.v
theories/PropComplete.v
theories/PropSeparate.v
theories/PropNest.v
theories/PropMild.v
theories/PropTurning.v
theories/PropReach.v
theories/Fill.v
theories/Germs.v
theories/Shift.v
theories/Walks.v
theories/Bridge.v
theories/Rooms.v
theories/Classes.v
theories/Chambers.v
theories/SpecChamber.v
theories/ChamberProps.v
theories/PropChamber.v
theories/PointProps.v
theories/PropPoints.v
theories/Borders.v
theories/Corners.v
theories/SpecCanon.v
theories/Ordered.v
theories/CanonProps.v
theories/PropCanon.v
theories/SpecNode.v
theories/Nodes.v
theories/Fragments.v
theories/NodeProps.v
theories/NaryNodes.v
theories/PropNode.v
theories/MergeCuts.v
theories/MergeThms.v
theories/PropMerge.v
theories/SpecCut.v
theories/PartCuts.v
theories/PartProps.v
theories/PartMixed.v
theories/PartEnds.v
theories/PropPart.v
theories/PartOne.v
theories/PropPartOne.v
theories/PartSorted.v
theories/PropPartSorted.v
