-Q theories Verif
theories/Num.v
theories/Vec.v
theories/Transform.v
theories/TransformProps.v
theories/Params.v
theories/ParamsProps.v
theories/Coords.v
theories/CoordsProps.v
theories/Bezier.v
theories/BezierLem.v
theories/BezierProps.v
theories/BezierDiffProps.v
theories/Gen.v
theories/GenProps.v
theories/GenDiffProps.v
theories/Interp.v
theories/Curve.v
theories/CurveLem.v
theories/CurveProps.v
theories/ArcLem.v
theories/ArcProps.v
theories/Chain.v
theories/ChainLem.v
theories/ChainProps.v
theories/NurbsProps.v
theories/GearMath.v
theories/GearLem.v
theories/Tooth.v
theories/Wrapper.v
theories/MeshAngleProps.v
theories/MeshLem.v
theories/MeshNormal.v
theories/MeshConj.v
theories/MeshProps.v
theories/MeshDistProps.v
theories/MeshContactProps.v
theories/BevelProps.v
theories/World.v
theories/WorldLem.v
theories/HistoryProps.v
theories/Info.v
theories/InfoProps.v
theories/HelicalProps.v
theories/CrownProps.v
theories/Cycloid.v
theories/CycloidLem.v
theories/CycloidProps.v
theories/Rack.v
theories/RackProps.v
theories/Loa.v
theories/LoaProps.v
theories/RefLines.v
theories/RefLinesProps.v
theories/Profile.v
theories/ProfileLem.v
theories/ProfileProps.v
theories/ThickProps.v
theories/Build.v
theories/BuildProps.v
theories/Convert.v
theories/ConvertProps.v
theories/NurbConvProps.v
theories/Recipe.v
theories/RecipeProps.v
theories/Fillet.v
theories/FilletProps.v
theories/FlankProps.v
theories/ReduceProps.v
theories/Teeth.v
theories/RackConjProps.v
theories/UndercutProps.v
theories/ConeFlankProps.v
theories/LowerProps.v
theories/OctoidProps.v
theories/CrownRackProps.v
theories/RisingLem.v
theories/Report.v
theories/ReportProps.v
theories/SpurProps.v
theories/RadiiProps.v
theories/OutlineProps.v
theories/ApartProps.v
theories/TightProps.v
theories/Extra.v
theories/ExtraProps.v
theories/IndexProps.v
theories/OctoidLem.v
theories/OctoidFlankProps.v
theories/Blank.v
theories/BlankProps.v
theories/BevelMeshProps.v
theories/RackFillet.v
theories/RackFilletProps.v
theories/Faces.v
theories/FacesProps.v
theories/Part.v
theories/PartProps.v
theories/Cutter.v
theories/CutterProps.v
theories/Choose.v
theories/ChooseProps.v
theories/ConeBaseProps.v
theories/DefaultProps.v
theories/ClimbLem.v
theories/ReliefProps.v
theories/FitProps.v
theories/HelixPartProps.v
theories/CycPart.v
theories/CycPartProps.v
theories/Boundary.v
theories/BoundaryProps.v
theories/RadialProps.v
theories/Swap.v
theories/SwapProps.v
theories/FromChain.v
theories/FromChainProps.v
theories/OldInvolute.v
theories/OldInvoluteProps.v
theories/Collapse.v
theories/CollapseProps.v
theories/Intersect.v
theories/IntersectProps.v
theories/Corner.v
theories/CornerProps.v
