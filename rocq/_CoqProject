-Q theories Verif
theories/Base.v
theories/SerModel.v
theories/SerSpec.v
theories/SerProofs.v
theories/SerTypes.v
theories/SerProps.v
theories/Base64Model.v
theories/Base64Spec.v
theories/Base64Proofs.v
theories/Base64Props.v
theories/GraphModel.v
theories/GraphSpec.v
theories/GraphProofs.v
theories/GraphSerProofs.v
theories/GraphCompProofs.v
theories/GraphProps.v
theories/Cost.v
theories/CostFloat.v
theories/DijkstraModel.v
theories/DijkstraSpec.v
theories/DijkstraProofs.v
theories/DijkstraProps.v
theories/AstarModel.v
theories/AstarSpec.v
theories/AstarProofs.v
theories/AstarProps.v
theories/Assoc.v
theories/PlannerModel.v
theories/PlannerProofs.v
theories/PlannerOpt.v
theories/PlannerProps.v
theories/WalkModel.v
theories/WalkProps.v
theories/VoxelModel.v
theories/VoxelSpec.v
theories/VoxelProofs.v
theories/VoxelGeom.v
theories/VoxelGeomProofs.v
theories/VoxelFloat.v
theories/EigenSerModel.v
theories/EigenSerProofs.v
theories/EigenSerProps.v
theories/VoxelSer.v
theories/VoxelProps.v
theories/DynGridModel.v
theories/DynGridSpec.v
theories/DynGridProofs.v
theories/DynGridFloat.v
theories/DynGridProps.v
theories/KnnModel.v
theories/KnnProofs.v
theories/KnnProps.v
theories/DistMatrixModel.v
theories/DistMatrixProps.v
theories/HelpersModel.v
theories/HelpersProps.v
theories/PrngModel.v
theories/PrngProps.v
theories/HierModel.v
theories/HierProofs.v
theories/HierProps.v
theories/KmeansModel.v
theories/KmeansProps.v
theories/PrmModel.v
theories/PrmProofs.v
theories/PrmProps.v
theories/RrtModel.v
theories/RrtProofs.v
theories/RrtProps.v
theories/DtwModel.v
theories/DtwProps.v
theories/HausdorffModel.v
theories/HausdorffProps.v
theories/PathModel.v
theories/PathFloat.v
theories/PathProps.v
theories/ResampleProps.v
theories/MathModel.v
theories/MathProps.v
theories/TimingModel.v
theories/TimingProps.v
theories/DeformModel.v
theories/DeformProps.v
theories/TrajectoryModel.v
theories/TrajectoryProps.v
theories/SelfCollisionModel.v
theories/SelfCollisionProps.v
theories/ZlibModel.v
theories/ZlibProps.v
theories/TotpModel.v
theories/TotpVec.v
theories/TotpArc.v
theories/TotpPath.v
theories/TotpLookup.v
theories/TotpRoute.v
theories/TotpSmooth.v
theories/TotpProps.v
theories/TotpTrajModel.v
theories/TotpLimitProps.v
theories/TotpTraj.v
theories/TotpTrajProps.v
theories/TotpWitnessProps.v
theories/TotpStepProps.v
theories/GaussModel.v
theories/Gauss.v
theories/TruncNormProps.v
theories/GaussProps.v
theories/NeighbourModel.v
theories/NeighbourProps.v
theories/MapHelpModel.v
theories/MapHelpProps.v
theories/RotColorModel.v
theories/RotColorProps.v
theories/SmallModel.v
theories/SmallProps.v
theories/GeoModel.v
theories/GeoAlg.v
theories/GeoProps.v
theories/RotModel.v
theories/RotProps.v
theories/RotDistProps.v
theories/EVecModel.v
theories/EVecProps.v
theories/EAngleProps.v
theories/EConeProps.v
theories/EConvModel.v
theories/EConvProps.v
theories/ELinModel.v
theories/ELinProps.v
theories/EFitProps.v
theories/LinkModel.v
theories/LinkProps.v
theories/LinkTreeProps.v
theories/LinkKinProps.v
theories/LinkJacProps.v
theories/SeModel.v
theories/SeProps.v
theories/Se3Props.v
theories/RosSerModel.v
theories/RosSerProps.v
theories/LinkMoreProps.v
theories/TpsMath.v
theories/TpsSolve.v
theories/TpsModel.v
theories/TpsProps.v
theories/VecMathModel.v
theories/VecMathProps.v
theories/FkFastModel.v
theories/FkFastProps.v
theories/MvnModel.v
theories/MvnProps.v
theories/LogModel.v
theories/LogProps.v
theories/ListenerModel.v
theories/ListenerProps.v
theories/ConvModel.v
theories/ConvProps.v
theories/TotpVelProps.v
theories/PrintModel.v
theories/PrintProps.v
theories/PlannerNear.v
theories/PlannerNearProps.v
theories/AlignedModel.v
theories/AlignedProps.v
theories/PyBase.v
theories/PyAlgModel.v
theories/PyAlgProps.v
theories/PyPathModel.v
theories/PyPathProps.v
theories/PyPlanModel.v
theories/PyPlanProps.v
theories/PyTfModel.v
theories/PyTfProps.v
theories/PyColorModel.v
theories/PyColorProps.v
theories/PyFsModel.v
theories/PyFsProps.v
theories/PyConvModel.v
theories/PyConvProps.v
theories/PyCatchModel.v
theories/PyCatchProps.v
theories/PyListenModel.v
theories/PyListenProps.v
theories/PyRosModel.v
theories/PyRosProps.v
theories/PyRtfModel.v
theories/PyRtfProps.v
theories/RrtBiasModel.v
theories/RrtBiasProps.v
theories/ParamModel.v
theories/ParamProps.v
theories/TimingTableModel.v
theories/TimingTableProps.v
theories/PyScriptModel.v
theories/PyScriptProps.v
theories/ConsoleModel.v
theories/ConsoleProps.v
theories/RgbaModel.v
theories/RgbaRound.v
theories/RgbaProps.v
theories/VoxelMakeModel.v
theories/VoxelMakeProps.v
theories/ChunkModel.v
theories/ChunkFloat.v
theories/ChunkProps.v
theories/RegionProps.v
theories/FloatPrintModel.v
theories/FloatPrintProofs.v
theories/FloatPrintProps.v
theories/MathMoreModel.v
theories/MathMoreProps.v
theories/InterpFloatModel.v
theories/InterpFloatProps.v
theories/TotpSwitchProps.v
theories/TotpAccProps.v
theories/StreamModel.v
theories/StreamProps.v
theories/LinkViewModel.v
theories/LinkViewProps.v
theories/TotpStraightProps.v
theories/PiBounds.v
theories/RevoluteFloatModel.v
theories/RevoluteFloatProps.v
theories/TextModel.v
theories/TextProps.v
theories/TotpBackProps.v
theories/LayoutProps.v
theories/VecFloatModel.v
theories/VecFloatProps.v
theories/AvgFloatModel.v
theories/AvgFloatProps.v
theories/NodeModel.v
theories/NodeProps.v
theories/EigenFloatModel.v
theories/EigenFloatProps.v
theories/PhaseModel.v
theories/PhaseProps.v
theories/UnitFloatModel.v
theories/UnitFloatProps.v
theories/PathLenFloatModel.v
theories/PathLenFloatProps.v
theories/PyRoundModel.v
theories/PyRoundProps.v
theories/VecDistModel.v
theories/VecDistProps.v
theories/WDotModel.v
theories/WDotProps.v
