-Q theories Verif
theories/Base/QcX.v
theories/Base/Py.v
theories/Model/Plytypes.v
theories/Model/Geom1d.v
theories/Spec/PointSet1.v
theories/Model/Types2d.v
theories/Model/Aabb.v
theories/Model/Primitive2d.v
theories/Model/Frangle2d.v
theories/Spec/Plane.v
theories/Proofs/PyP.v
theories/Proofs/ExtOrd.v
theories/Proofs/Geom1dP.v
theories/Proofs/Geom1dM.v
theories/Props/Geom1dProps.v
theories/Props/AabbProps.v
theories/Proofs/PolyP.v
theories/Props/Primitive2dProps.v
theories/Proofs/WindingP.v
theories/Proofs/WindingQ.v
theories/Proofs/WindingR.v
theories/Props/LocateProps.v
theories/Props/Frangle2dProps.v
theories/Model/SegmentTree.v
theories/Model/Quadtree.v
theories/Model/CellMerger.v
theories/Proofs/MergerP.v
theories/Proofs/MergerQ.v
theories/Props/SegmentTreeProps.v
theories/Props/QuadtreeProps.v
theories/Props/CellMergerProps.v
theories/Model/Geom2d.v
theories/Spec/Region.v
theories/Proofs/Geom2dP.v
theories/Proofs/SimplifyP.v
theories/Proofs/NearP.v
theories/Proofs/Geom2dOps.v
theories/Props/Geom2dProps.v
theories/Base/PyDict.v
theories/Model/Sheetplex.v
theories/Proofs/DictP.v
theories/Proofs/SheetplexP.v
theories/Props/SheetplexProps.v
theories/Spec/Fingers.v
theories/Model/Frames.v
theories/Spec/Space.v
theories/Proofs/FingerP.v
theories/Props/FingerProps.v
theories/Model/Sheetbuild.v
theories/Proofs/BufferP.v
theories/Proofs/SheetbuildP.v
theories/Props/SheetbuildProps.v
theories/Spec/Tiling.v
theories/Spec/Double.v
theories/Model/Heuristics.v
theories/Proofs/HeuristicsP.v
theories/Proofs/RoundP.v
theories/Proofs/ClusterP.v
theories/Proofs/HeuStepsP.v
theories/Props/HeuristicsProps.v
theories/Model/Writer.v
theories/Props/WriterProps.v
theories/Model/Canned.v
theories/Props/CannedProps.v
theories/Props/AssignProps.v
theories/Model/Scan2d.v
theories/Proofs/SweepOrd.v
theories/Proofs/SweepP.v
theories/Proofs/SweepL.v
theories/Proofs/SweepInv.v
theories/Proofs/SweepMain.v
theories/Props/Scan2dProps.v
theories/Model/Arrangement2d.v
theories/Proofs/PlanarP.v
theories/Proofs/ArrVertexP.v
theories/Spec/Subdivision.v
theories/Proofs/SubdivP.v
theories/Proofs/ArrGraphP.v
theories/Proofs/ArrInitP.v
theories/Proofs/ArrTraceP.v
theories/Proofs/ArrSampleP.v
theories/Proofs/MergerInP.v
theories/Proofs/ArrSoundP.v
theories/Proofs/MergerFuelP.v
theories/Proofs/ArrFuelP.v
theories/Props/Arrangement2dProps.v
theories/Props/SetOpsProps.v
theories/Proofs/CreateP.v
theories/Props/JointProps.v
theories/Proofs/SpaceP.v
theories/Props/SpaceProps.v
theories/Props/EndToEnd.v
theories/Model/CreateSheets.v
theories/Model/Fstr.v
theories/Proofs/CreateSheetsP.v
theories/Props/CreateSheetsProps.v
theories/Props/FstrProps.v
theories/Spec/Hull.v
theories/Spec/Simple.v
theories/Proofs/ReachP.v
theories/Proofs/JumpP.v
theories/Proofs/CoverP.v
theories/Proofs/AngleP.v
theories/Proofs/RibbonP.v
theories/Proofs/RibbonQ.v
theories/Proofs/RibbonR.v
theories/Proofs/OctagonP.v
theories/Proofs/RibbonS.v
theories/Props/BufferProps.v
theories/Props/BufferExactProps.v
theories/Proofs/AreaP.v
theories/Spec/Area.v
theories/Proofs/MergerKeepP.v
theories/Proofs/LevelP.v
theories/Proofs/PolyCellsP.v
theories/Proofs/FlatP.v
theories/Props/AreaProps.v
theories/Props/TransformProps.v
theories/Spec/Crisp.v
theories/Proofs/CrispP.v
theories/Proofs/CrispQ.v
theories/Props/CrispProps.v
theories/Proofs/NestP.v
theories/Proofs/ArrTotalP.v
theories/Proofs/ArrRayP.v
theories/Proofs/NestOrdP.v
theories/Proofs/ArrTotalQ.v
theories/Proofs/ArrTotalR.v
theories/Spec/Jordan.v
theories/Proofs/JordanP.v
theories/Proofs/JordanQ.v
theories/Props/JordanProps.v
theories/Props/ArrTotalProps.v
theories/Spec/Steps.v
theories/Proofs/StepsP.v
theories/Props/StepsProps.v
theories/Proofs/BufSharpP.v
theories/Proofs/BufSharpQ.v
theories/Props/BufferSharpProps.v
theories/Proofs/RunSharpP.v
theories/Props/RunSharpProps.v
theories/Props/FingerAreaProps.v
theories/Spec/Trim.v
theories/Proofs/TrimP.v
theories/Proofs/TrimQ.v
theories/Props/TrimProps.v
theories/Spec/Cut.v
theories/Proofs/CutP.v
theories/Proofs/CutQ.v
theories/Props/CutProps.v
theories/Props/MeshProps.v
theories/Proofs/AssemblyP.v
theories/Proofs/SupportP.v
theories/Props/AssemblyProps.v
theories/Proofs/InteractP.v
theories/Props/InteractProps.v
theories/Proofs/FullP.v
theories/Props/CompleteProps.v
theories/Model/SpaceMesh.v
theories/Spec/Shadow.v
theories/Proofs/TriangleP.v
theories/Props/SpaceMeshProps.v
theories/Props/GapProps.v
theories/Props/PlainProps.v
theories/Props/MeshAssemblyProps.v
theories/Model/RaySlow.v
theories/Props/RayProps.v
theories/Proofs/OutcomeP.v
theories/Proofs/OutcomeQ.v
theories/Proofs/OutcomeR.v
theories/Proofs/OutcomeS.v
theories/Proofs/OutcomeT.v
theories/Props/OutcomeProps.v
theories/Props/MeshOutcomeProps.v
theories/Proofs/OutcomeU.v
theories/Props/MultiFailProps.v
theories/Props/TakerProps.v
theories/Props/IrrelevantProps.v
theories/Props/NeighbourProps.v
theories/Spec/Path.v
theories/Model/Draw.v
theories/Props/DrawProps.v
theories/Props/FailMsgProps.v
theories/Props/RoundProps.v
theories/Props/RoundAssignProps.v
theories/Props/RoundRunProps.v
theories/Model/FstrFull.v
theories/Props/FstrFullProps.v
theories/Props/SwapProps.v
theories/Props/MapProps.v
theories/Model/Seeds.v
theories/Props/SeedProps.v
theories/Props/RoundMeshProps.v
theories/Props/WidthRunProps.v
theories/Props/DxfProps.v
theories/Model/OutFile.v
theories/Props/OutFileProps.v
