-Q theories Verif
theories/CoreModel.v
theories/CoreSpec.v
theories/CoreProofs.v
theories/CoreProps.v
theories/AlgModel.v
theories/AlgSpec.v
theories/AlgProofs.v
theories/AlgTheoryProofs.v
theories/AlgCompleteProofs.v
theories/AlgConfluenceProofs.v
theories/AlgNormalProofs.v
theories/AlgContextProofs.v
theories/AlgFinalProofs.v
theories/AlgWitnessProofs.v
theories/AlgProps.v
theories/PauliModel.v
theories/PauliSpec.v
theories/PauliProofs.v
theories/PauliFinalProofs.v
theories/PauliWitnessProofs.v
theories/PauliProps.v
theories/LocModel.v
theories/LocSpec.v
theories/LocNumberProofs.v
theories/LocSortProofs.v
theories/LocProofs.v
theories/LocProps.v
theories/EnumModel.v
theories/EnumSpec.v
theories/EnumProofs.v
theories/PartitionProofs.v
theories/DictModel.v
theories/DictSpec.v
theories/DictProofs.v
theories/DictLocProofs.v
theories/DictInstProofs.v
theories/CacheModel.v
theories/CacheProofs.v
theories/DictProps.v
theories/FieldModel.v
theories/FieldProofs.v
theories/SymModel.v
theories/SymSpec.v
theories/SymProofs.v
theories/SymFinalProofs.v
theories/SymInstModel.v
theories/SymInstProofs.v
theories/SymWitnessProofs.v
theories/SymMoreProofs.v
theories/ChshProofs.v
theories/SymProps.v
theories/ParModel.v
theories/ParProofs.v
theories/MatModel.v
theories/MatSpec.v
theories/MatProofs.v
theories/MatRunProofs.v
theories/MatInstModel.v
theories/MatInstSpec.v
theories/MatInstProofs.v
theories/MatStarProofs.v
theories/MatWitnessProofs.v
theories/MatFinalProofs.v
theories/MatProps.v
theories/PolyModel.v
theories/PolySpec.v
theories/PolyProofs.v
theories/PolyOpsProofs.v
theories/PolyTableProofs.v
theories/PolyOrderProofs.v
theories/PolyBasisModel.v
theories/PolyBasisProofs.v
theories/PolyWitnessProofs.v
theories/PolyFinalProofs.v
theories/RawModel.v
theories/RawSpec.v
theories/ChshWitnessProofs.v
theories/PolyProps.v
theories/RawProofs.v
theories/RawInstProofs.v
theories/RawTableProofs.v
theories/RawFinalProofs.v
theories/RawProps.v
theories/BitsetModel.v
theories/BitsetSpec.v
theories/BitsetProofs.v
theories/BitsetProps.v
theories/TreeModel.v
theories/TreeSpec.v
theories/TreeProofs.v
theories/TreeProps.v
theories/SmallVecModel.v
theories/SmallVecSpec.v
theories/SmallVecProofs.v
theories/SmallVecProps.v
theories/LockModel.v
theories/LockSpec.v
theories/LockProofs.v
theories/StorageModel.v
theories/StorageSpec.v
theories/StorageProofs.v
theories/StorageFinalProofs.v
theories/StorageProps.v
theories/UtfModel.v
theories/UtfSpec.v
theories/UtfProofs.v
theories/UtfProps.v
theories/CombModel.v
theories/CombSpec.v
theories/CombProofs.v
theories/CombFinalProofs.v
theories/CombProps.v
theories/TensorModel.v
theories/TensorSpec.v
theories/TensorProofs.v
theories/TensorFinalProofs.v
theories/SquareModel.v
theories/SquareSpec.v
theories/SquareProofs.v
theories/TensorWitnessProofs.v
theories/TensorProps.v
theories/ProbModel.v
theories/ProbSpec.v
theories/ProbProofs.v
theories/ProbTensorProofs.v
theories/ProbFinalProofs.v
theories/ProbCorrProofs.v
theories/ProbCorrFinalProofs.v
theories/ProbConvertProofs.v
theories/ProbWitnessProofs.v
theories/ProbProps.v
theories/UtilModel.v
theories/UtilSpec.v
theories/UtilProofs.v
theories/UtilProps.v
theories/RuleModel.v
theories/RuleSpec.v
theories/RuleProofs.v
theories/RuleMakeProofs.v
theories/RuleOrientProofs.v
theories/RuleBookProofs.v
theories/RuleLoopProofs.v
theories/RuleFinalProofs.v
theories/RuleUniqueProofs.v
theories/RuleThmProofs.v
theories/RuleWitnessProofs.v
theories/RuleRealProofs.v
theories/RuleProps.v
theories/SiteModel.v
theories/SiteSpec.v
theories/SiteBitProofs.v
theories/SiteShiftProofs.v
theories/SiteRowProofs.v
theories/SiteWordProofs.v
theories/SiteCanonProofs.v
theories/SiteFinalProofs.v
theories/SiteThmProofs.v
theories/SiteOpenProofs.v
theories/SiteWitnessProofs.v
theories/SiteProps.v
theories/FacModel.v
theories/FacSpec.v
theories/FacProofs.v
theories/FacRunProofs.v
theories/FacMapProofs.v
theories/FacParProofs.v
theories/FacDoneProofs.v
theories/FacThmProofs.v
theories/FacWitnessProofs.v
theories/FacProps.v
theories/POsgModel.v
theories/POsgSpec.v
theories/POsgProofs.v
theories/POsgListProofs.v
theories/POsgAllProofs.v
theories/POsgChainProofs.v
theories/POsgRingProofs.v
theories/POsgPairProofs.v
theories/POsgFillProofs.v
theories/POsgMoveProofs.v
theories/POsgTorusProofs.v
theories/POsgAliasProofs.v
theories/POsgTopProofs.v
theories/POsgWitnessProofs.v
theories/POsgProps.v
theories/InfModel.v
theories/InfSpec.v
theories/InfProofs.v
theories/InfLayoutProofs.v
theories/InfSimpProofs.v
theories/InfCompleteProofs.v
theories/InfFactorProofs.v
theories/InfAverageProofs.v
theories/InfExpectProofs.v
theories/InfSeenProofs.v
theories/InfMomentProofs.v
theories/InfTopProofs.v
theories/InfDictProofs.v
theories/InfFinalProofs.v
theories/InfWitnessProofs.v
theories/InfProps.v
theories/FTabModel.v
theories/FTabSpec.v
theories/FTabListProofs.v
theories/FTabProofs.v
theories/FTabTableProofs.v
theories/FTabProductProofs.v
theories/FTabValueProofs.v
theories/FTabPolyProofs.v
theories/FTabExpandProofs.v
theories/FTabWitnessProofs.v
theories/FTabProps.v
theories/ExtMatModel.v
theories/ExtMatSpec.v
theories/ExtMatProofs.v
theories/ExtMatParProofs.v
theories/ExtMatProgProofs.v
theories/ExtMatWitnessProofs.v
theories/ExtMatProps.v
theories/GrpModel.v
theories/GrpSpec.v
theories/GrpCutProofs.v
theories/GrpDiminoProofs.v
theories/GrpFinalProofs.v
theories/GrpWitnessProofs.v
theories/GrpProps.v
theories/RepModel.v
theories/RepSpec.v
theories/RepListProofs.v
theories/RepMapProofs.v
theories/RepFinalProofs.v
theories/RepWitnessProofs.v
theories/RepProps.v
theories/RepParModel.v
theories/RepParProofs.v
theories/RepParFinalProofs.v
theories/RepParProps.v
theories/DerModel.v
theories/DerSpec.v
theories/DerCoreProofs.v
theories/DerProofs.v
theories/DerFinalProofs.v
theories/DerThmProofs.v
theories/DerWitnessProofs.v
theories/DerProps.v
theories/MsModel.v
theories/MsSpec.v
theories/MsProofs.v
theories/MsInvProofs.v
theories/MsHistProofs.v
theories/MsThreadProofs.v
theories/MsThmProofs.v
theories/MsWitnessProofs.v
theories/MsProps.v
theories/BasModel.v
theories/BasSpec.v
theories/BasProofs.v
theories/BasMatProofs.v
theories/BasFinalProofs.v
theories/BasThmProofs.v
theories/BasWitnessProofs.v
theories/BasProps.v
theories/AriModel.v
theories/AriSpec.v
theories/AriProofs.v
theories/AriMulProofs.v
theories/AriMul2Proofs.v
theories/AriValProofs.v
theories/AriThmProofs.v
theories/AriWitnessProofs.v
theories/AriProps.v
theories/ImpModel.v
theories/ImpSpec.v
theories/ImpProofs.v
theories/ImpRunProofs.v
theories/ImpThmProofs.v
theories/ImpFinalProofs.v
theories/ImpWitnessProofs.v
theories/ImpProps.v
theories/MtenModel.v
theories/MtenSpec.v
theories/MtenProofs.v
theories/MtenRunProofs.v
theories/MtenWitnessProofs.v
theories/MtenProps.v
theories/LazyModel.v
theories/LazySpec.v
theories/LazyProofs.v
theories/LazyRunProofs.v
theories/LazyWitnessProofs.v
theories/LazyProps.v
theories/RangeModel.v
theories/RangeSpec.v
theories/RangeProofs.v
theories/RangeRunProofs.v
theories/RangeWitnessProofs.v
theories/RangeProps.v
theories/QueueModel.v
theories/QueueSpec.v
theories/QueueProofs.v
theories/QueueStepProofs.v
theories/QueueRunProofs.v
theories/QueueWitnessProofs.v
theories/QueueProps.v
theories/TransModel.v
theories/TransSpec.v
theories/TransProofs.v
theories/TransRunProofs.v
theories/TransProps.v
theories/SubsModel.v
theories/SubsSpec.v
theories/SubsProofs.v
theories/SubsWitnessProofs.v
theories/SubsProps.v
theories/ArgModel.v
theories/ArgSpec.v
theories/ArgProofs.v
theories/ArgCallProofs.v
theories/ArgWitnessProofs.v
theories/ArgProps.v
theories/TextModel.v
theories/TextSpec.v
theories/TextProofs.v
theories/TextNameProofs.v
theories/TextTableProofs.v
theories/TextWordProofs.v
theories/TextSceneProofs.v
theories/TextWitnessProofs.v
theories/TextProps.v
theories/SugModel.v
theories/SugSpec.v
theories/SugProofs.v
theories/SugWitnessProofs.v
theories/SugProps.v
theories/IdxModel.v
theories/IdxSpec.v
theories/IdxProofs.v
theories/IdxFinalProofs.v
theories/IdxWitnessProofs.v
theories/IdxProps.v
theories/RbmModel.v
theories/RbmSpec.v
theories/RbmProofs.v
theories/RbmFinalProofs.v
theories/RbmWitnessProofs.v
theories/RbmProps.v
theories/PdcModel.v
theories/PdcSpec.v
theories/PdcProofs.v
theories/PdcRunProofs.v
theories/PdcFinalProofs.v
theories/PdcProps.v
theories/MonModel.v
theories/MonSpec.v
theories/MonProofs.v
theories/MonWriteProofs.v
theories/MonFinalProofs.v
theories/MonProps.v
theories/RecModel.v
theories/RecSpec.v
theories/RecProofs.v
theories/RecFinalProofs.v
theories/RecProps.v
theories/PioModel.v
theories/PioSpec.v
theories/PioProofs.v
theories/PioWitnessProofs.v
theories/PioProps.v
theories/StgModel.v
theories/StgSpec.v
theories/StgProofs.v
theories/StgTableProofs.v
theories/StgWitnessProofs.v
theories/StgProps.v
theories/RowModel.v
theories/RowSpec.v
theories/RowProofs.v
theories/RowWitnessProofs.v
theories/RowProps.v
theories/CopModel.v
theories/CopSpec.v
theories/CopProofs.v
theories/CopFinalProofs.v
theories/CopWitnessProofs.v
theories/CopProps.v
theories/AopModel.v
theories/AopSpec.v
theories/AopProofs.v
theories/AopFinalProofs.v
theories/AopWitnessProofs.v
theories/AopProps.v
theories/WopModel.v
theories/WopSpec.v
theories/WopProofs.v
theories/WopProps.v
theories/RimModel.v
theories/RimSpec.v
theories/RimProofs.v
theories/RimTextProofs.v
theories/RimProps.v
theories/RexModel.v
theories/RexSpec.v
theories/RexProofs.v
theories/RexProps.v
