-Q theories Verif

theories/Base.v
theories/RouteSpec.v
theories/KeyMask.v
theories/PairModel.v
theories/PairProofs.v
theories/PairSort.v
theories/PairProps.v
theories/RangeModel.v
theories/RangeProofs.v
theories/RangeProps.v
theories/DefaultModel.v
theories/DefaultProofs.v
theories/DefaultProps.v
theories/CheckerModel.v
theories/CheckerProofs.v
theories/CheckerProps.v
theories/Json.v
theories/TablesModel.v
theories/TablesProofs.v
theories/TablesProps.v
theories/UtilModel.v
theories/UtilProofs.v
theories/UtilProps.v
theories/OrderedModel.v
theories/OrderedProofs.v
theories/OrderedProps.v
theories/Dict.v
theories/AllocModel.v
theories/AllocProofs.v
theories/AllocProps.v
theories/SliceModel.v
theories/SliceProofs.v
theories/SliceProps.v
theories/PlacementsModel.v
theories/PlacementsProofs.v
theories/PlacementsProps.v
theories/SdramModel.v
theories/SdramProofs.v
theories/SdramProps.v
theories/RegionModel.v
theories/RegionProofs.v
theories/RegionProps.v
theories/PartModel.v
theories/PartProofs.v
theories/PartProps.v
theories/GraphModel.v
theories/GraphProofs.v
theories/GraphProps.v
theories/TreeModel.v
theories/TreeProofs.v
theories/TreeProps.v
theories/MachModel.v
theories/LdfModel.v
theories/LdfProofs.v
theories/LdfProps.v
theories/PathModel.v
theories/PathProofs.v
theories/PathProps.v
theories/RPartModel.v
theories/RPartProofs.v
theories/RPartProps.v
theories/TargetsModel.v
theories/TargetsProofs.v
theories/TargetsProps.v
theories/BfsModel.v
theories/BfsProofs.v
theories/BfsProps.v
theories/ConvModel.v
theories/ConvProofs.v
theories/ConvProps.v
theories/FixedModel.v
theories/FixedProofs.v
theories/FixedProps.v
theories/TagsModel.v
theories/TagsProofs.v
theories/TagsProps.v
theories/GenModel.v
theories/GenProofs.v
theories/GenProps.v
theories/ValidModel.v
theories/ValidProofs.v
theories/ValidProps.v
theories/DeviceModel.v
theories/DeviceProofs.v
theories/DeviceProps.v
theories/TextModel.v
theories/TextProofs.v
theories/TextProps.v
theories/PlacerModel.v
theories/PlacerProofs.v
theories/PlacerFinal.v
theories/PlacerProps.v
theories/RouterModel.v
theories/RouterProofs.v
theories/RouterTables.v
theories/RouterPlan.v
theories/RouterFinal.v
theories/RouterProps.v
theories/SplitterModel.v
theories/SplitterProofs.v
theories/SplitterFinal.v
theories/SplitterProps.v
theories/RouterSuccess.v
theories/ChainModel.v
theories/ChainProofs.v
theories/ChainProps.v
theories/MapModel.v
theories/MapProofs.v
theories/MapProps.v
theories/InfoModel.v
theories/InfoProofs.v
theories/InfoProps.v
theories/FixProofs.v
theories/FixChain.v
theories/FixProps.v
theories/FixMap.v
theories/FixMapProps.v
theories/DataModel.v
theories/DataProofs.v
theories/DataProps.v
theories/ShrinkProofs.v
theories/ShrinkProps.v
theories/FixAlloc.v
theories/FixSuccess.v
theories/FixSuccessProps.v
theories/CsvModel.v
theories/CsvProofs.v
theories/CsvProps.v
theories/VertexModel.v
theories/VertexProofs.v
theories/VertexProps.v
theories/MergingProofs.v
theories/MergingProps.v
theories/PairFull.v
theories/KeyOrder.v
theories/WholeProofs.v
theories/WholeMap.v
theories/WholeProps.v
theories/DetourProofs.v
theories/FaultProofs.v
theories/FaultMap.v
theories/FaultProps.v
theories/EqModel.v
theories/EqProofs.v
theories/EqProps.v
theories/SdramBelow.v
theories/PlacerFixed.v
theories/TagsPorts.v
theories/RouterErrors.v
theories/OrderedMax.v
theories/Ends.v
theories/PlacerTotal.v
theories/AllocEnds.v
theories/FixedEnds.v
theories/GenEnds.v
theories/PairEnds.v
theories/ValidEnds.v
theories/EndsProps.v
theories/DriverProofs.v
theories/CoverMerged.v
theories/RouterEnds.v
theories/VerifyModel.v
theories/VerifyProps.v
theories/FailModel.v
theories/FailProofs.v
theories/FailProps.v
theories/CheckedRange.v
theories/CheckedProofs.v
theories/CheckedChain.v
theories/CheckedProps.v
theories/ValidChainModel.v
theories/ValidChainProofs.v
theories/ValidChainProps.v
theories/MergedMapProps.v
theories/SplitterEnds.v
theories/OrderedEnds.v
theories/HexProofs.v
theories/HexProps.v
theories/ChipsProps.v
theories/SourcesProofs.v
theories/SourcesProps.v
theories/LabelsProofs.v
theories/RepeatedProofs.v
theories/ReachProofs.v
theories/KeyParts.v
theories/KeyPartsProps.v
theories/RangeFill.v
theories/RangeFillProps.v
theories/PairAgain.v
theories/PairAgainProps.v
theories/DeviceMap.v
theories/DeviceMapProps.v
theories/CheckedMap.v
theories/CheckedMapProps.v
theories/Counted.v
theories/CountedProps.v
theories/Spread.v
theories/SpreadProps.v
theories/PlacerRefuse.v
theories/PlacerRefuseProps.v
theories/RangeKeepProps.v
theories/ChipEstimate.v
theories/ChipEstimateProps.v
theories/OrderedAgain.v
theories/RangeCover.v
theories/OrderedAgainProps.v
theories/RangeChain.v
theories/RangeChainProps.v
theories/ComposeProps.v
theories/DataFailProps.v
theories/CoverHolds.v
theories/PairCoverProps.v
theories/ReportProps.v
theories/DrawModel.v
theories/DrawProps.v
theories/PartRegionModel.v
theories/PartRegionProps.v
theories/LimitProps.v
theories/CountProps.v
