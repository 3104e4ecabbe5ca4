-Q theories Verif
theories/AdjModel.v
theories/AdjProofs.v
theories/AlgModel.v
theories/AlgProofs.v
theories/AngleProofs.v
theories/ArticProofs.v
theories/ArticSound.v
theories/BfsProofs.v
theories/BinaryModel.v
theories/BinaryProofs.v
theories/BitCmpProofs.v
theories/BlockForest.v
theories/BlockProofs.v
theories/BoundedModel.v
theories/BoundedProofs.v
theories/BoundedTerm.v
theories/BridgeProofs.v
theories/BufReadModel.v
theories/BufReadProofs.v
theories/BufferProofs.v
theories/BuiltModel.v
theories/CallModel.v
theories/ChordModel.v
theories/ChordProofs.v
theories/ColorProofs.v
theories/ComposeProofs.v
theories/ContainerModel.v
theories/ContainerProofs.v
theories/ConvModel.v
theories/ConvProofs.v
theories/ConvSpec.v
theories/ConvexProofs.v
theories/CostModel.v
theories/CostProofs.v
theories/CrossModel.v
theories/CrossProofs.v
theories/DefMapModel.v
theories/DevIterModel.v
theories/DevIterProofs.v
theories/DeviceModel.v
theories/DeviceProofs.v
theories/DfsProofs.v
theories/DfsResults.v
theories/EqSeqModel.v
theories/ExcGraphProofs.v
theories/ExcModel.v
theories/ExcProofs.v
theories/ExprModel.v
theories/ExprProofs.v
theories/ExtremeModel.v
theories/ExtremeProofs.v
theories/FCrossModel.v
theories/FCrossProofs.v
theories/FDistModel.v
theories/FDistProofs.v
theories/FExtModel.v
theories/FExtProofs.v
theories/FGeoModel.v
theories/FGeoProofs.v
theories/FHullProofs.v
theories/FLineModel.v
theories/FLineProofs.v
theories/FNearModel.v
theories/FNearProofs.v
theories/FPolyModel.v
theories/FPolyProofs.v
theories/FileModel.v
theories/FileProofs.v
theories/FloatTextModel.v
theories/FloatTextProofs.v
theories/FnTypeModel.v
theories/FormatModel.v
theories/FormatProofs.v
theories/GeoModel.v
theories/GeoProofs.v
theories/GraphExamples.v
theories/GraphModel.v
theories/HullProofs.v
theories/IntTextModel.v
theories/IntTextProofs.v
theories/IntTypes.v
theories/IterModel.v
theories/IterProofs.v
theories/LazyModel.v
theories/LazyProofs.v
theories/LimModel.v
theories/ListLemmas.v
theories/LiteralProofs.v
theories/LogicModel.v
theories/MCrossModel.v
theories/MDistModel.v
theories/MDistProofs.v
theories/MExtModel.v
theories/MGeoModel.v
theories/MGeoProofs.v
theories/MNearProofs.v
theories/MPolyModel.v
theories/MapModel.v
theories/MapProofs.v
theories/NearestProofs.v
theories/NodeModel.v
theories/NodeProofs.v
theories/NumericModel.v
theories/ObjMapModel.v
theories/ObjMapProofs.v
theories/OrderProofs.v
theories/Outcome.v
theories/PolyModel.v
theories/PolyProofs.v
theories/PowProofs.v
theories/PropAdj.v
theories/PropAlg.v
theories/PropBinary.v
theories/PropBounded.v
theories/PropBufRead.v
theories/PropBuilt.v
theories/PropCall.v
theories/PropColor.v
theories/PropCompose.v
theories/PropConnect.v
theories/PropContainer.v
theories/PropConv.v
theories/PropCost.v
theories/PropCross.v
theories/PropDefMap.v
theories/PropDevIter.v
theories/PropDevice.v
theories/PropEqSeq.v
theories/PropExc.v
theories/PropExpr.v
theories/PropExtra.v
theories/PropExtreme.v
theories/PropFCross.v
theories/PropFDist.v
theories/PropFExt.v
theories/PropFGeo.v
theories/PropFLine.v
theories/PropFNear.v
theories/PropFPoly.v
theories/PropFile.v
theories/PropFloat.v
theories/PropFnType.v
theories/PropFormat.v
theories/PropGeo.v
theories/PropGraph.v
theories/PropIntText.v
theories/PropIter.v
theories/PropLazy.v
theories/PropLim.v
theories/PropLogic.v
theories/PropMCross.v
theories/PropMDist.v
theories/PropMExt.v
theories/PropMGeo.v
theories/PropMNear.v
theories/PropMPoly.v
theories/PropNode.v
theories/PropNumeric.v
theories/PropObjMap.v
theories/PropOrder.v
theories/PropPoly.v
theories/PropRange.v
theories/PropReach.v
theories/PropRead.v
theories/PropReal.v
theories/PropRebind.v
theories/PropRng.v
theories/PropScalarCmp.v
theories/PropScalarOp.v
theories/PropShort.v
theories/PropString.v
theories/PropTangent.v
theories/PropTenMem.v
theories/PropTerm.v
theories/PropTrans.v
theories/PropUnitFlush.v
theories/PropVEL.v
theories/PropVec.v
theories/RandomProofs.v
theories/RangeModel.v
theories/RangeProofs.v
theories/ReadModel.v
theories/ReadProofs.v
theories/RealModel.v
theories/RealProofs.v
theories/RebindModel.v
theories/RelabelProofs.v
theories/RingProofs.v
theories/RngModel.v
theories/ScalarCmpModel.v
theories/ScalarOpModel.v
theories/SeqModel.v
theories/SeqProofs.v
theories/ShortModel.v
theories/ShortProofs.v
theories/StringModel.v
theories/StringProofs.v
theories/TangentModel.v
theories/TangentProofs.v
theories/TarjanExact.v
theories/TarjanProofs.v
theories/TenMemModel.v
theories/TenMemProofs.v
theories/TensorProofs.v
theories/TermProofs.v
theories/TransModel.v
theories/TransProofs.v
theories/UnitFlushModel.v
theories/UnitFlushProofs.v
theories/VELModel.v
theories/VecModel.v
theories/VecProofs.v
theories/WindProofs.v
