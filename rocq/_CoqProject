-Q theories Verif
theories/Base.v
theories/BaseLemmas.v
theories/MathModel.v
theories/Fermat.v
theories/MathProofs.v
theories/SieveProofs.v
theories/MathProofs2.v
theories/MathProps.v
theories/Tac.v
theories/RandIntModel.v
theories/RandIntProofs.v
theories/RandIntProps.v
theories/RndModel.v
theories/RandSeqModel.v
theories/RandSpec.v
theories/RndLemmas.v
theories/SortLemmas.v
theories/ShuffleProofs.v
theories/DistinctProofs.v
theories/BracketProofs.v
theories/PartitionProofs.v
theories/PermProofs.v
theories/RandMiscProofs.v
theories/RandWitness.v
theories/RandSeqProps.v
theories/SeqModel.v
theories/SeqSpec.v
theories/SeqProofs.v
theories/SeqProps.v
theories/GraphModel.v
theories/GraphSpec.v
theories/GraphClientSpec.v
theories/UnionFindProofs.v
theories/GraphProofs.v
theories/GraphProofs2.v
theories/DiGraphProofs.v
theories/GraphWitness.v
theories/GraphClaims.v
theories/GraphProps.v
theories/RegexModel.v
theories/FloatModel.v
theories/InputModel.v
theories/InputSpec.v
theories/InputClient.v
theories/RegexProofs.v
theories/InputProofs.v
theories/InputProofs2.v
theories/InputProofs3.v
theories/InputProofs4.v
theories/InputProps.v
theories/ArgsModel.v
theories/ArgsSpec.v
theories/ArgsClient.v
theories/ArgsProofs.v
theories/ArgsProps.v
theories/ConstraintModel.v
theories/ConstraintSpec.v
theories/ConstraintProofs.v
theories/ConstraintProofs2.v
theories/ConstraintProps.v
theories/GenModel.v
theories/GenSpec.v
theories/GenProofs.v
theories/GenProofs2.v
theories/GenOpsModel.v
theories/GenProofs3.v
theories/GenProps.v
theories/GenOpsSpec.v
theories/GenOpsProofs.v
theories/GenOpsProofs2.v
theories/GenOpsProofs3.v
theories/GenOpsProofs4.v
theories/GenOpsProofs5.v
theories/GenOpsProps.v
theories/GenMakeModel.v
theories/GenMakeSpec.v
theories/GenMakeProofs.v
theories/GenMakeProofs2.v
theories/GenMakeProofs3.v
theories/GenMakeProofs4.v
theories/GenMakeProofs5.v
theories/GenMakeProps.v
theories/GenRandSpec.v
theories/GenRandProofs.v
theories/GenRandProofs2.v
theories/GenRandProps.v
theories/GenTreeSpec.v
theories/GenTreeProofs.v
theories/GenTreeProofs2.v
theories/GenTreeProofs3.v
theories/GenTreeProofs4.v
theories/GenTreeProps.v
theories/RngModel.v
theories/RngSpec.v
theories/RngProofs.v
theories/RngProofs2.v
theories/RngProofs3.v
theories/RngProps.v
theories/Pocklington.v
theories/Primes256.v
theories/RngProofs4.v
theories/RngProofs5.v
theories/RngProps2.v
theories/AesModel.v
theories/AesSpec.v
theories/AesProofs.v
theories/AesProofs2.v
theories/AesProofs3.v
theories/AesProps.v
theories/PngModel.v
theories/PngSpec.v
theories/PngProofs.v
theories/PngProofs2.v
theories/PngProofs3.v
theories/PngProofs4.v
theories/PngProofs5.v
theories/PngProps.v
theories/PngEndsProofs.v
theories/PngEndsProps.v
theories/GeoModel.v
theories/GeoSpec.v
theories/GeoProofs.v
theories/GeoProofs2.v
theories/GeoProofs3.v
theories/GeoProps.v
theories/PassModel.v
theories/PassSpec.v
theories/PassProofs.v
theories/PassProps.v
theories/CollModel.v
theories/CollSpec.v
theories/CollProofs.v
theories/CollProps.v
theories/ConvexModel.v
theories/ConvexSpec.v
theories/ConvexProofs.v
theories/ConvexProofs2.v
theories/ConvexProofs3.v
theories/ConvexProofs6.v
theories/ConvexProofs4.v
theories/ConvexProofs5.v
theories/ConvexProps.v
theories/DegModel.v
theories/DegSpec.v
theories/DegProofs.v
theories/DegProofs2.v
theories/DegProofs3.v
theories/DegProofs4.v
theories/DegProps.v
theories/FlowModel.v
theories/FlowSpec.v
theories/FlowProofs.v
theories/FlowProofs2.v
theories/FlowProofs3.v
theories/FlowProofs4.v
theories/FlowProofs5.v
theories/FlowProps.v
theories/SimpleModel.v
theories/SimpleSpec.v
theories/SimpleProofs.v
theories/SimpleProofs2.v
theories/SimpleProofs3.v
theories/SimpleProofs4.v
theories/SimpleProps.v
theories/UniformProofs.v
theories/UniformProofs2.v
theories/UniformProofs3.v
theories/UniformProofs4.v
theories/UniformProps.v
theories/OutModel.v
theories/OutSpec.v
theories/OutProofs.v
theories/OutProps.v
theories/OutWordsProofs.v
theories/OutWordsProps.v
theories/PipeModel.v
theories/PipeSpec.v
theories/PipeProofs.v
theories/PipeProofs2.v
theories/PipeProps.v
theories/ReportModel.v
theories/ReportSpec.v
theories/ReportProofs.v
theories/ReportProps.v
theories/PrimeSpec.v
theories/PrimeProofs.v
theories/PrimeProps.v
theories/SvgModel.v
theories/SvgSpec.v
theories/SvgProofs.v
theories/SvgProps.v
theories/FloatSpec.v
theories/FloatProofs.v
theories/FloatProofs2.v
theories/RealModel.v
theories/RealSpec.v
theories/RealProofs.v
theories/RealProofs2.v
theories/RealProofs3.v
theories/RealProofs4.v
theories/RealProofs5.v
theories/RealProofs6.v
theories/RealProofs7.v
theories/RealProofs8.v
theories/RealProps.v
theories/ExchangeProofs.v
theories/ExchangeProps.v
theories/GrowSpec.v
theories/GrowProofs.v
theories/GrowProps.v
theories/EngineModel.v
theories/EngineSpec.v
theories/EngineProofs.v
theories/EngineProps.v
theories/TightProofs.v
theories/TightProps.v
theories/RealFormSpec.v
theories/RealFormProofs.v
theories/RealFormProps.v
theories/FloatProofs3.v
theories/FloatEqProofs.v
theories/FloatEqProps.v
theories/InitModel.v
theories/InitSpec.v
theories/InitProofs.v
theories/InitProps.v
theories/FloatLess.v
theories/FloatLessProps.v
theories/ExampleModel.v
theories/ExampleSpec.v
theories/ExampleProofs.v
theories/ExampleProofs2.v
theories/ExampleProofs3.v
theories/ExampleProps.v
theories/GenExModel.v
theories/GenExSpec.v
theories/GenExProofs.v
theories/GenExProps.v
theories/ArrangeSpec.v
theories/ArrangeProofs.v
theories/ArrangeProofs2.v
theories/ArrangeProofs3.v
theories/ArrangeProps.v
theories/DecimalSpec.v
theories/DecimalModel.v
theories/DecimalProofs.v
theories/DecimalProofs2.v
theories/DecimalProofs3.v
theories/DecimalProps.v
theories/ColorModel.v
theories/ColorSpec.v
theories/ColorProofs.v
theories/ColorProofs2.v
theories/ColorProps.v
theories/PrintModel.v
theories/PrintSpec.v
theories/PrintProofs.v
theories/PrintProofs2.v
theories/PrintProofs3.v
theories/PrintProps.v
theories/GeneralModel.v
theories/GeneralSpec.v
theories/GeneralProofs.v
theories/GeneralProofs2.v
theories/SvgDocModel.v
theories/SvgDocSpec.v
theories/SvgDocProofs.v
theories/SvgDocProofs2.v
theories/SvgDocProofs3.v
theories/SvgDocProofs4.v
theories/SvgDocProofs5.v
theories/SvgDocProps.v
theories/VisModel.v
theories/VisSpec.v
theories/VisProofs.v
theories/VisProofs2.v
theories/VisProofs3.v
theories/VisProofs4.v
theories/VisProps.v
theories/LogTextModel.v
theories/LogTextSpec.v
theories/LogTextProofs.v
theories/LogTextProofs2.v
theories/LogTextProofs3.v
theories/LogTextProps.v
theories/UtilModel.v
theories/UtilSpec.v
theories/UtilProofs.v
theories/UtilProofs2.v
theories/UtilProps.v
theories/ClosureModel.v
theories/ClosureProofs.v
theories/ClosureProps.v
theories/ReadModel.v
theories/ReadSpec.v
theories/ReadProofs.v
theories/ReadProofs2.v
theories/ReadProps.v
theories/RestProofs.v
theories/RestProps.v
theories/EngineFitProofs.v
theories/EngineFitProofs2.v
theories/EngineFitLaws.v
theories/EngineFitProps.v
theories/RejectSpec.v
theories/RejectProofs.v
theories/RejectProps.v
theories/MsgModel.v
theories/MsgSpec.v
theories/MsgProofs.v
theories/MsgProps.v
theories/GapSpec.v
theories/GapProofs.v
theories/GapProps.v
theories/PairModel.v
theories/PairSpec.v
theories/PairProofs.v
theories/PairProps.v
theories/UtilProofs3.v
theories/UtilProps2.v
theories/EngineFitProofs3.v
theories/EngineFitProps2.v
theories/AuditSpec.v
theories/AuditProofs.v
theories/AuditProofs2.v
theories/AuditProps.v
theories/AuditMsgSpec.v
theories/AuditMsgProofs.v
theories/AuditMsgProps.v
theories/HullModel.v
theories/HullSpec.v
theories/HullProofs.v
theories/HullProofs2.v
theories/HullProofs3.v
theories/HullProofs4.v
theories/HullProps.v
theories/AuditProofs4.v
theories/AuditProps2.v
theories/AuditProofs3.v
theories/AuditProps3.v
theories/PolyModel.v
theories/PolySpec.v
theories/PolyProofs.v
theories/PolyProofs2.v
theories/PolyProofs3.v
theories/PolyProofs4.v
theories/PolyProps.v
theories/HackModel.v
theories/HackProofs.v
theories/HackProofs2.v
theories/HackProofs3.v
theories/HackProofs4.v
theories/HackSpec.v
theories/HackProofs5.v
theories/HackProofs6.v
theories/HackProofs7.v
theories/HackProps.v
theories/ArchModel.v
theories/ArchSpec.v
theories/ArchProofs.v
theories/ArchProps.v
theories/ArchProofs2.v
theories/ArchProps2.v
