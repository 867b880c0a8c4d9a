-Q theories Verif
theories/AreaModel.v
theories/AreaProofs.v
theories/AreaProofs2.v
theories/AreaProofs3.v
theories/AreaProps.v
theories/AreaSpec.v
theories/ArrayModel.v
theories/ArrayProofs.v
theories/ArrayProps.v
theories/Base.v
theories/BaseFacts.v
theories/BgModel.v
theories/BgProofs.v
theories/BgProps.v
theories/BgSpec.v
theories/BoostCheck.v
theories/BoostModel.v
theories/BoostModel2.v
theories/BoostProofs.v
theories/BoostProofs2.v
theories/BoostProofs3.v
theories/BoostProofs4.v
theories/BoostProps.v
theories/BoostProps2.v
theories/BoostSpec.v
theories/BoundedCheck.v
theories/BoundedModel.v
theories/BoundedModel2.v
theories/BoundedProofs.v
theories/BoundedProofs2.v
theories/BoundedProps.v
theories/BoundedProps2.v
theories/BoundedSpec.v
theories/BoundedSpec2.v
theories/BoxHitModel.v
theories/BoxHitProps.v
theories/BoxHitSpec.v
theories/BoxModel.v
theories/BoxProofs.v
theories/BoxProps.v
theories/CPlcModel.v
theories/CPlcProofs.v
theories/CPlcProps.v
theories/CPlcSpec.v
theories/CSiloModel.v
theories/CSiloProofs.v
theories/CSiloProps.v
theories/CSiloSpec.v
theories/CTessModel.v
theories/CTessProofs.v
theories/CTessProofs2.v
theories/CTessProofs3.v
theories/CTessProofs4.v
theories/CTessProofs5.v
theories/CTessProps.v
theories/CTessSpec.v
theories/CannedModel.v
theories/CannedProps.v
theories/CannedSpec.v
theories/CellMeasModel.v
theories/CellMeasProofs.v
theories/CellMeasProps.v
theories/CellMeasSpec.v
theories/CheckModel.v
theories/CheckProofs.v
theories/CheckProofs2.v
theories/CheckProofs3.v
theories/CheckProofs4.v
theories/CheckProps.v
theories/CheckSpec.v
theories/ClipModel.v
theories/ClipProofs.v
theories/ClipProofs2.v
theories/ClipSpec.v
theories/CollModel.v
theories/ContModel.v
theories/ContProofs.v
theories/ContProps.v
theories/ContSpec.v
theories/Csg3Model.v
theories/Csg3Proofs.v
theories/Csg3Proofs2.v
theories/Csg3Proofs3.v
theories/Csg3Proofs4.v
theories/Csg3Proofs5.v
theories/Csg3Proofs6.v
theories/Csg3Props.v
theories/Csg3Spec.v
theories/CsgModel.v
theories/CsgProofs.v
theories/CsgProofs2.v
theories/CsgProofs3.v
theories/CsgProofs4.v
theories/CsgProps.v
theories/CsgSpec.v
theories/CutModel.v
theories/CutProofs.v
theories/CutProofs2.v
theories/CutProofs3.v
theories/CutProofs4.v
theories/CutProofs5.v
theories/CutProofs6.v
theories/CutProofs7.v
theories/CutProps.v
theories/CutSpec.v
theories/DegenProps.v
theories/DegenProps2.v
theories/DistModel.v
theories/DistProofs.v
theories/DistProofs2.v
theories/DistProofs3.v
theories/DistProps.v
theories/DistSpec.v
theories/EdgeMaskModel.v
theories/EdgeMaskProofs.v
theories/EdgeMaskProofs2.v
theories/EdgeMaskProofs3.v
theories/EdgeMaskProofs4.v
theories/EdgeMaskProofs5.v
theories/EdgeMaskProps.v
theories/EdgeMaskSpec.v
theories/ErrModel.v
theories/ErrProps.v
theories/ErrSpec.v
theories/ExchangeModel.v
theories/ExchangeProofs.v
theories/ExchangeProofs2.v
theories/ExchangeProps.v
theories/ExchangeSpec.v
theories/FaceSortModel.v
theories/FaceSortProofs.v
theories/FaceSortProofs2.v
theories/FaceSortProofs3.v
theories/FaceSortProofs4.v
theories/FaceSortProofs5.v
theories/FaceSortProps.v
theories/FaceSortSpec.v
theories/HashModel.v
theories/HashProofs.v
theories/HashProofs2.v
theories/HashProps.v
theories/HashSpec.v
theories/Hull3Model.v
theories/Hull3Proofs.v
theories/Hull3Proofs2.v
theories/Hull3Proofs3.v
theories/Hull3Proofs4.v
theories/Hull3Proofs5.v
theories/Hull3Proofs6.v
theories/Hull3Props.v
theories/Hull3Spec.v
theories/HullModel.v
theories/HullProofs.v
theories/HullProofs2.v
theories/HullProofs3.v
theories/HullProofs4.v
theories/HullProofs5.v
theories/HullProps.v
theories/HullSpec.v
theories/KeyMapModel.v
theories/KeyMapProofs.v
theories/KeyMapProps.v
theories/LineModel.v
theories/LineProofs.v
theories/LineProofs2.v
theories/LineProofs3.v
theories/LineProps.v
theories/LineSpec.v
theories/MeshCheck.v
theories/MeshEditorModel.v
theories/MeshEditorProofs.v
theories/MeshEditorProofs2.v
theories/MeshEditorProofs3.v
theories/MeshEditorProofs4.v
theories/MeshEditorProofs5.v
theories/MeshEditorProofs6.v
theories/MeshEditorProps.v
theories/MeshEditorSpec.v
theories/MeshModel.v
theories/MeshProofs.v
theories/MeshProofs2.v
theories/MeshProps.v
theories/MeshSpec.v
theories/MpiModel.v
theories/MpiProofs.v
theories/MpiProofs2.v
theories/MpiSpec.v
theories/NearModel.v
theories/NearProofs.v
theories/NearProofs2.v
theories/NearProps.v
theories/NearSpec.v
theories/NeighborModel.v
theories/NeighborProofs.v
theories/NeighborProofs2.v
theories/NeighborProofs3.v
theories/NeighborProofs4.v
theories/NeighborProofs5.v
theories/NeighborProps.v
theories/NeighborProps2.v
theories/NeighborSpec.v
theories/OffModel.v
theories/OffProofs.v
theories/OffProps.v
theories/OffSpec.v
theories/PLCModel.v
theories/PLCProofs.v
theories/PLCProofs2.v
theories/PLCProps.v
theories/PLCSpec.v
theories/Plane.v
theories/PlaneFacts.v
theories/PointMapModel.v
theories/PointMapProofs.v
theories/PointMapProps.v
theories/PointModel.v
theories/PointProps.v
theories/PointSpec.v
theories/PolygonModel.v
theories/PolygonProofs.v
theories/PolygonProofs2.v
theories/PolygonProps.v
theories/PolygonSpec.v
theories/QCoordModel.v
theories/QCoordProofs.v
theories/QCoordProps.v
theories/QCoordSpec.v
theories/QuantMeshModel.v
theories/QuantMeshProofs.v
theories/QuantMeshProofs2.v
theories/QuantMeshProofs3.v
theories/QuantMeshProofs4.v
theories/QuantMeshProps.v
theories/QuantMeshSpec.v
theories/Rank.v
theories/RayCircleModel.v
theories/RayCircleProofs.v
theories/RayCircleProps.v
theories/RayCircleSpec.v
theories/RayModel.v
theories/RayProofs.v
theories/RayProofs2.v
theories/RayProps.v
theories/RaySpec.v
theories/RingsModel.v
theories/RingsProps.v
theories/RingsSpec.v
theories/SerialDistModel.v
theories/SerialDistProofs.v
theories/SerialDistProofs2.v
theories/SerialDistProofs3.v
theories/SerialDistProps.v
theories/SerialDistSpec.v
theories/SerializeModel.v
theories/SerializeProofs.v
theories/SerializeProps.v
theories/SerializeSpec.v
theories/SiloModel.v
theories/SiloProofs.v
theories/SiloProofs2.v
theories/SiloProofs3.v
theories/SiloProps.v
theories/SiloProps2.v
theories/SiloProps3.v
theories/SiloSpec.v
theories/Simp3Model.v
theories/Simp3Proofs.v
theories/Simp3Proofs2.v
theories/Simp3Proofs3.v
theories/Simp3Proofs4.v
theories/Simp3Proofs5.v
theories/Simp3Proofs6.v
theories/Simp3Props.v
theories/Simp3Spec.v
theories/SimplifyModel.v
theories/SimplifyProofs.v
theories/SimplifyProofs2.v
theories/SimplifyProofs3.v
theories/SimplifyProofs4.v
theories/SimplifyProofs5.v
theories/SimplifyProofs6.v
theories/SimplifyProps.v
theories/SimplifySpec.v
theories/StdAlg.v
theories/TessModel.v
theories/TessProofs.v
theories/TessProofs2.v
theories/TessProps.v
theories/TessSpec.v
theories/TesslModel.v
theories/TesslProofs.v
theories/TesslProps.v
theories/TesslSpec.v
theories/TriCheck.v
theories/TriModel.v
theories/TriProofs.v
theories/TriProofs10.v
theories/TriProofs11.v
theories/TriProofs2.v
theories/TriProofs3.v
theories/TriProofs4.v
theories/TriProofs5.v
theories/TriProofs6.v
theories/TriProofs7.v
theories/TriProofs8.v
theories/TriProofs9.v
theories/TriProps.v
theories/TriSpec.v
theories/Voro2Model.v
theories/Voro2Proofs.v
theories/Voro2Proofs2.v
theories/Voro2Proofs3.v
theories/Voro2Props.v
theories/Voro2Spec.v
theories/VoroModel.v
theories/VoroProofs.v
theories/VoroProofs2.v
theories/VoroProofs3.v
theories/VoroProofs4.v
theories/VoroProps.v
theories/VoroSpec.v
theories/WithinModel.v
theories/WithinProofs.v
theories/WithinProofs2.v
theories/WithinProofs3.v
theories/WithinProofs4.v
theories/WithinProofs5.v
theories/WithinProps.v
theories/WithinSpec.v
