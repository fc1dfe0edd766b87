-Q theories Verif
theories/AngleModel.v
theories/AngleProof.v
theories/AngleProof2.v
theories/AngleProps.v
theories/AngleSpec.v
theories/Base.v
theories/BesideModel.v
theories/BesideProof.v
theories/BesideProps.v
theories/BesideSpec.v
theories/BoxIntModel.v
theories/BoxIntProof.v
theories/BoxIntProps.v
theories/BoxIntSpec.v
theories/BoxModel.v
theories/BoxProof.v
theories/BoxProps.v
theories/BoxSpec.v
theories/BspModel.v
theories/BspProof.v
theories/BspProof2.v
theories/BspProof3.v
theories/BspProof4.v
theories/BspProps.v
theories/BspSpec.v
theories/ClipModel.v
theories/ClipProof.v
theories/ClipProps.v
theories/ClipSpec.v
theories/CmpModel.v
theories/CmpProof.v
theories/CmpProps.v
theories/CmpSpec.v
theories/CollinearModel.v
theories/CollinearProof.v
theories/CollinearProps.v
theories/CollinearSpec.v
theories/ColourModel.v
theories/ColourProps.v
theories/ColourSpec.v
theories/CongrModel.v
theories/CongrProof.v
theories/CongrProps.v
theories/CongrSpec.v
theories/CurveModel.v
theories/CurveProof.v
theories/CurveProps.v
theories/CurveSpec.v
theories/CutModel.v
theories/CutProof.v
theories/CutProof2.v
theories/CutProof3.v
theories/CutProof4.v
theories/CutProof5.v
theories/CutProps.v
theories/CutSpec.v
theories/CvxModel.v
theories/CvxProof.v
theories/CvxProof10.v
theories/CvxProof11.v
theories/CvxProof12.v
theories/CvxProof13.v
theories/CvxProof2.v
theories/CvxProof3.v
theories/CvxProof4.v
theories/CvxProof5.v
theories/CvxProof6.v
theories/CvxProof7.v
theories/CvxProof8.v
theories/CvxProof9.v
theories/CvxProps.v
theories/CvxSpec.v
theories/DcelModel.v
theories/DcelProof.v
theories/DcelProof2.v
theories/DcelProps.v
theories/DcelSpec.v
theories/DistModel.v
theories/DistProof.v
theories/DistProps.v
theories/DistSpec.v
theories/EberlyModel.v
theories/EberlyProof.v
theories/EberlyProps.v
theories/ExprLifeModel.v
theories/ExprLifeProof.v
theories/ExprLifeSpec.v
theories/ExprModel.v
theories/ExprProof.v
theories/ExprProps.v
theories/ExprSpec.v
theories/FixedModel.v
theories/FixedProof.v
theories/FixedProps.v
theories/FixedSpec.v
theories/FloatBoxProps.v
theories/FloatGridModel.v
theories/FloatGridProof.v
theories/FloatGridProof2.v
theories/FloatGridProps.v
theories/FloatGridSpec.v
theories/FloatIntervalModel.v
theories/FloatIntervalProof.v
theories/FloatIntervalProps.v
theories/FloatIntervalSpec.v
theories/FloatLinIntModel.v
theories/FloatLinIntProof.v
theories/FloatLinIntProps.v
theories/FloatLinIntSpec.v
theories/FloatModel.v
theories/FloatNormModel.v
theories/FloatNormProof.v
theories/FloatNormProps.v
theories/FloatNormSpec.v
theories/FloatOrderModel.v
theories/FloatOrderProof.v
theories/FloatOrderProps.v
theories/FloatOrderSpec.v
theories/FloatOrientProps.v
theories/FloatPolyModel.v
theories/FloatPolyProof.v
theories/FloatPolyProps.v
theories/FloatPolySpec.v
theories/FloatProof.v
theories/FloatProof2.v
theories/FloatProof3.v
theories/FloatProps.v
theories/FloatSimpleModel.v
theories/FloatSimpleProps.v
theories/FloatSpec.v
theories/FloodModel.v
theories/FloodProof.v
theories/FloodProps.v
theories/FloodSpec.v
theories/GrahamModel.v
theories/GrahamProof.v
theories/GrahamProps.v
theories/GrahamSpec.v
theories/GridModel.v
theories/GridProof.v
theories/GridProps.v
theories/GridSpec.v
theories/HandyModel.v
theories/HandyProps.v
theories/HandySpec.v
theories/HomogModel.v
theories/HomogProps.v
theories/HomogSpec.v
theories/IntervalModel.v
theories/IntervalProps.v
theories/KdModel.v
theories/KdProof.v
theories/KdProps.v
theories/KdSpec.v
theories/LinInt3Proof.v
theories/LinIntModel.v
theories/LinIntProof.v
theories/LinIntProps.v
theories/LinIntSpec.v
theories/LupModel.v
theories/LupProof.v
theories/LupProps.v
theories/LupSpec.v
theories/MappedModel.v
theories/MappedProps.v
theories/MappedSpec.v
theories/MatrixModel.v
theories/MatrixProof.v
theories/MatrixProps.v
theories/MemoModel.v
theories/MemoProof.v
theories/MemoProps.v
theories/MemoSpec.v
theories/MeshModel.v
theories/MeshProof.v
theories/MeshProof2.v
theories/MeshProof3.v
theories/MeshProof4.v
theories/MeshProof5.v
theories/MeshProps.v
theories/MeshSpec.v
theories/MixedModel.v
theories/MixedProps.v
theories/MixedSpec.v
theories/MovBoxModel.v
theories/MovBoxProof.v
theories/MovBoxProof2.v
theories/MovBoxProps.v
theories/MovBoxSpec.v
theories/OffsetModel.v
theories/OffsetProof.v
theories/OffsetProps.v
theories/OffsetSpec.v
theories/OrientModel.v
theories/OrientProof.v
theories/OrientProps.v
theories/OrientReal.v
theories/OrientSpec.v
theories/OwalkModel.v
theories/OwalkProof.v
theories/OwalkProof2.v
theories/OwalkProps.v
theories/OwalkSpec.v
theories/PathModel.v
theories/PathProof.v
theories/PathProof2.v
theories/PathProps.v
theories/PathSpec.v
theories/PfillModel.v
theories/PfillProof.v
theories/PfillProof2.v
theories/PfillProof3.v
theories/PfillProof4.v
theories/PfillProof5.v
theories/PfillProps.v
theories/PfillSpec.v
theories/PiModel.v
theories/PiProof.v
theories/PiProof2.v
theories/PiProof3.v
theories/PiProps.v
theories/PiSpec.v
theories/PlanarModel.v
theories/PlanarProof.v
theories/PlanarProof2.v
theories/PlanarProof3.v
theories/PlanarProof4.v
theories/PlanarProof5.v
theories/PlanarProof6.v
theories/PlanarProof7.v
theories/PlanarProps.v
theories/PlanarSpec.v
theories/PolarModel.v
theories/PolarProof.v
theories/PolarProps.v
theories/PolarSpec.v
theories/PolyBoxModel.v
theories/PolyBoxProof.v
theories/PolyBoxProps.v
theories/PolyDistModel.v
theories/PolyDistProof.v
theories/PolyDistProps.v
theories/PolyDistSpec.v
theories/PolygonBorderProof.v
theories/PolygonConvexProof.v
theories/PolygonModel.v
theories/PolygonProof.v
theories/PolygonProps.v
theories/PolygonSpec.v
theories/ProductModel.v
theories/ProductProps.v
theories/ProductSpec.v
theories/RBase.v
theories/RangeModel.v
theories/RangeProof.v
theories/RangeProof2.v
theories/RangeProps.v
theories/RangeSpec.v
theories/RayProof.v
theories/RdpModel.v
theories/RdpProof.v
theories/RdpProps.v
theories/RdpSpec.v
theories/SatModel.v
theories/SatProof.v
theories/SatProof2.v
theories/SatProof3.v
theories/SatProof4.v
theories/SatProps.v
theories/SatSpec.v
theories/ScoreModel.v
theories/ScoreProps.v
theories/ScoreSpec.v
theories/SimplifyModel.v
theories/SimplifyProof.v
theories/SimplifyProof2.v
theories/SimplifyProps.v
theories/SimplifySpec.v
theories/SolidModel.v
theories/SolidProof.v
theories/SolidProof2.v
theories/SolidProof3.v
theories/SolidProof4.v
theories/SolidProof5.v
theories/SolidProof6.v
theories/SolidProof7.v
theories/SolidProps.v
theories/SolidSpec.v
theories/SphPolyModel.v
theories/SphPolyProof.v
theories/SphPolyProps.v
theories/SphPolySpec.v
theories/SphereModel.v
theories/SphereProof.v
theories/SphereProps.v
theories/SphereSpec.v
theories/StretchModel.v
theories/StretchProof.v
theories/StretchProps.v
theories/StretchSpec.v
theories/SubseqModel.v
theories/SubseqProof.v
theories/SubseqProps.v
theories/SweepModel.v
theories/SweepProof1.v
theories/SweepProof2.v
theories/SweepProof3.v
theories/SweepProof4.v
theories/SweepProof5.v
theories/SweepProps.v
theories/SweepSpec.v
theories/TolPlanarProof.v
theories/TolPlanarProps.v
theories/TolProof.v
theories/TolProps.v
theories/TolSpec.v
theories/TriModel.v
theories/TriProof.v
theories/TriProps.v
theories/TrimModel.v
theories/TrimProof.v
theories/TrimProof2.v
theories/TrimProof3.v
theories/TrimProps.v
theories/TrimReal.v
theories/TrimSpec.v
theories/VisModel.v
theories/VisProof.v
theories/VisProof2.v
theories/VisProof3.v
theories/VisProof4.v
theories/VisProps.v
theories/VisSpec.v
theories/VoxelModel.v
theories/VoxelProof.v
theories/VoxelProps.v
theories/VoxelSpec.v
theories/WhereModel.v
theories/WhereProps.v
theories/WhereSpec.v
theories/ZonoProof.v
