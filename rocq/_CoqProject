-Q theories Verif
theories/Base.v
theories/LogicalXidModel.v
theories/LogicalXidProofs.v
theories/LogicalXidLemmas.v
theories/LogicalXidProps.v
theories/ExtentsModel.v
theories/ExtentsSpec.v
theories/ExtentsProofs.v
theories/ExtentsLemmas.v
theories/ExtentsProps.v
theories/SavepointModel.v
theories/SavepointSpec.v
theories/SavepointProofs.v
theories/SavepointLemmas.v
theories/SavepointProps.v
theories/CommandModel.v
theories/CommandSpec.v
theories/CommandProofs.v
theories/CommandProps.v
theories/UnlinkModel.v
theories/UnlinkSpec.v
theories/UnlinkProofs.v
theories/UnlinkProps.v
theories/SeqBufModel.v
theories/SeqBufSpec.v
theories/SeqBufProofs.v
theories/SeqBufProps.v
theories/OBufModel.v
theories/OBufSpec.v
theories/OBufProofs.v
theories/OBufLemmas.v
theories/OBufProps.v
theories/UcmModel.v
theories/UcmSpec.v
theories/UcmProofs.v
theories/UcmLemmas.v
theories/UcmSearch.v
theories/UcmProps.v
theories/XidMapModel.v
theories/XidMapSpec.v
theories/XidMapProofs.v
theories/XidMapProps.v
theories/XminModel.v
theories/XminSpec.v
theories/XminProofs.v
theories/XminProps.v
theories/XidFlushModel.v
theories/XidFlushSpec.v
theories/XidFlushLemmas.v
theories/XidFlushProofs.v
theories/XidFlushProps.v
theories/UndoRetModel.v
theories/UndoRetSpec.v
theories/UndoRetProofs.v
theories/UndoRetProps.v
theories/UndoAllocModel.v
theories/UndoAllocSpec.v
theories/UndoAllocProofs.v
theories/UndoAllocProps.v
theories/UndoReadModel.v
theories/UndoReadSpec.v
theories/UndoReadProofs.v
theories/UndoReadCalm.v
theories/UndoReadProps.v
theories/PackedModel.v
theories/PackedSpec.v
theories/PackedProofs.v
theories/PackedProps.v
theories/LatchModel.v
theories/LatchSpec.v
theories/LatchProofs.v
theories/LatchQueue.v
theories/LatchSem.v
theories/LatchProps.v
theories/PkEncModel.v
theories/PkEncSpec.v
theories/PkEncProofs.v
theories/PkEncProps.v
theories/KeyBmModel.v
theories/KeyBmSpec.v
theories/KeyBmLemmas.v
theories/KeyBmProofs.v
theories/KeyBmFixed.v
theories/KeyBmProps.v
theories/RowModel.v
theories/RowSpec.v
theories/RowLemmas.v
theories/RowInv.v
theories/RowLock.v
theories/RowRead.v
theories/RowProps.v
theories/WalModel.v
theories/WalSpec.v
theories/WalLemmas.v
theories/WalProofs.v
theories/WalProps.v
theories/RecSpec.v
theories/RecModel.v
theories/RecLemmas.v
theories/RecProofs.v
theories/RecProps.v
theories/RecParModel.v
theories/RecParProofs.v
theories/RecParProps.v
theories/IdemSpec.v
theories/IdemModel.v
theories/IdemProofs.v
theories/IdemProps.v
theories/KeySpec.v
theories/KeyModel.v
theories/KeyProofs.v
theories/PageSearchModel.v
theories/PageSearchSpec.v
theories/PageSearchProofs.v
theories/PageSearchProps.v
theories/FastpathModel.v
theories/FastpathProofs.v
theories/FastpathSpec.v
theories/FastpathProps.v
theories/RangeSpec.v
theories/RangeModel.v
theories/RangeProofs.v
theories/RangeProps.v
theories/S3PartModel.v
theories/S3PartSpec.v
theories/S3PartProofs.v
theories/S3PartProps.v
theories/S3QueueModel.v
theories/S3QueueSpec.v
theories/S3QueueProofs.v
theories/S3QueueProps.v
theories/CatOrdModel.v
theories/CatOrdSpec.v
theories/CatOrdProofs.v
theories/CatOrdProps.v
theories/RelFilesModel.v
theories/RelFilesSpec.v
theories/RelFilesProofs.v
theories/RelFilesProps.v
theories/ToastModel.v
theories/ToastSpec.v
theories/ToastProofs.v
theories/ToastProps.v
theories/PageIoModel.v
theories/PageIoSpec.v
theories/PageIoProofs.v
theories/PageIoProps.v
theories/TupleFmtModel.v
theories/TupleFmtSpec.v
theories/TupleFmtProofs.v
theories/TupleFmtProps.v
theories/RewindModel.v
theories/RewindSpec.v
theories/RewindProofs.v
theories/RewindProps.v
theories/CicModel.v
theories/CicSpec.v
theories/CicProofs.v
theories/CicProps.v
theories/BuildModel.v
theories/BuildSpec.v
theories/BuildProofs.v
theories/BuildProps.v
theories/CowModel.v
theories/CowSpec.v
theories/CowProofs.v
theories/CowProps.v
theories/CatSerModel.v
theories/CatSerSpec.v
theories/CatSerProofs.v
theories/CatSerProps.v
theories/SecIxModel.v
theories/SecIxSpec.v
theories/SecIxProofs.v
theories/SecIxProps.v
theories/UniqModel.v
theories/UniqSpec.v
theories/UniqProofs.v
theories/UniqProps.v
theories/BtrModel.v
theories/BtrSpec.v
theories/BtrProofs.v
theories/BtrRunProofs.v
theories/BtrProps.v
theories/PgImgModel.v
theories/PgImgSpec.v
theories/PgImgProofs.v
theories/PgImgRunProofs.v
theories/PgImgProps.v
theories/PgChunkModel.v
theories/PgChunkSpec.v
theories/PgChunkProofs.v
theories/PgChunkOpProofs.v
theories/PgChunkEditProofs.v
theories/PgChunkReplaceProofs.v
theories/PgChunkRemoveProofs.v
theories/PgChunkJoinProofs.v
theories/PgChunkMergeProofs.v
theories/PgChunkCutProofs.v
theories/PgChunkSplitProofs.v
theories/PgChunkRunProofs.v
theories/PgChunkPageProofs.v
theories/PgReorgModel.v
theories/PgReorgSpec.v
theories/PgReorgProofs.v
theories/PgReorgPutProofs.v
theories/PgReorgRepProofs.v
theories/PgReorgMainProofs.v
theories/PgReorgOwnProofs.v
theories/PgReorgProps.v
theories/ParScanModel.v
theories/ParScanSpec.v
theories/ParScanProofs.v
theories/ParScanStepProofs.v
theories/ParScanTotalProofs.v
theories/ParScanRunProofs.v
theories/ParScanEndProofs.v
theories/ParScanProps.v
theories/ParRangeModel.v
theories/ParRangeProps.v
theories/ParArrModel.v
theories/ParArrProps.v
theories/LeafMergeModel.v
theories/LeafMergeProps.v
theories/LeafBitmapModel.v
theories/LeafBitmapProps.v
theories/LeafBmHistModel.v
theories/LeafBmHistProps.v
