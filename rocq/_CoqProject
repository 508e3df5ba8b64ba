-Q theories Verif
theories/BytesModel.v
theories/BytesProofs.v
theories/BytesProps.v
theories/ValueModel.v
theories/ValueProofs.v
theories/ValueProps.v
theories/SortModel.v
theories/SortProofs.v
theories/ChoicesModel.v
theories/ChoicesProofs.v
theories/ChoicesProofs2.v
theories/ChoicesProofs3.v
theories/ChoicesProps.v
theories/SortProps.v
theories/OidsModel.v
theories/OidText.v
theories/OidsProofs.v
theories/OidsProps.v
theories/BloomModel.v
theories/BloomProofs.v
theories/BloomProps.v
theories/AllocModel.v
theories/AllocProofs.v
theories/AllocProps.v
theories/FileModel.v
theories/FileProofs.v
theories/ChunkModel.v
theories/ChunkProofs.v
theories/ChunkProps.v
theories/PoolModel.v
theories/PoolProofs.v
theories/PoolProps.v
theories/FilePoolModel.v
theories/FilePoolProps.v
theories/ConstsModel.v
theories/ConstsProps.v
theories/ApplyModel.v
theories/ApplyProps.v
theories/RefsModel.v
theories/RefsProps.v
theories/SlotmapModel.v
theories/TableProofs.v
theories/SlotmapProofs.v
theories/SlotmapProps.v
theories/SchemapModel.v
theories/SchemapProps.v
theories/HashtableModel.v
theories/HashtableProofs.v
theories/HashtableProps.v
theories/HashsetModel.v
theories/HashsetProofs.v
theories/HashsetProps.v
theories/EqhashModel.v
theories/EqhashProofs.v
theories/EqhashProps.v
theories/BigintModel.v
theories/BigintProofs.v
theories/BigintProofs2.v
theories/BigintProofs3.v
theories/BigintProofs4.v
theories/BigintProps.v
theories/NumbersModel.v
theories/NumbersProofs.v
theories/NumbersProofs2.v
theories/NumbersProofs3.v
theories/NumbersProofs4.v
theories/NumbersProps.v
theories/ArithProps.v
theories/HashopModel.v
theories/HashopProofs.v
theories/HashopProps.v
theories/DtypeModel.v
theories/DtypeProofs.v
theories/DtypeProofs2.v
theories/DtypeProofs3.v
theories/DtypeProofs4.v
theories/DtypeProps.v
theories/XtypeModel.v
theories/XtypeProofs.v
theories/XtypeProofs2.v
theories/XtypeProofs3.v
theories/XtypeProofs4.v
theories/XtypeProofs5.v
theories/XtypeProps.v
theories/SeqModel.v
theories/SeqSpec.v
theories/SeqProofs.v
theories/SeqProofs2.v
theories/SeqProofs3.v
theories/SeqProps.v
theories/TextModel.v
theories/UriModel.v
theories/UriProofs.v
theories/UriProps.v
theories/PrintModel.v
theories/PrintProofs.v
theories/PrintProofs2.v
theories/PrintProps.v
theories/IndexModel.v
theories/IndexProofs.v
theories/IndexProofs2.v
theories/IndexProps.v
theories/JsonModel.v
theories/JsonProofs.v
theories/JsonProofs2.v
theories/JsonProps.v
theories/ArgModel.v
theories/ArgProps.v
theories/HashModel.v
theories/HashProofs.v
theories/HashProps.v
theories/FileIndexModel.v
theories/FileIndexProofs.v
theories/FileIndexProps.v
theories/ScopedProps.v
theories/ScopedCodecProps.v
theories/WalkModel.v
theories/WalkProofs.v
theories/WalkProps.v
theories/FramesModel.v
theories/FramesProofs.v
theories/FramesProps.v
theories/HashIndexModel.v
theories/HashIndexProofs.v
theories/HashIndexProps.v
theories/QuasiquoteModel.v
theories/QuasiquoteProofs.v
theories/QuasiquoteProps.v
theories/TextMatchModel.v
theories/TextMatchSpec.v
theories/TextMatchProofs.v
theories/TextToolsModel.v
theories/TextToolsSpec.v
theories/TextToolsProofs.v
theories/TextMatchProps.v
theories/TextToolsProps.v
theories/EnvModel.v
theories/EnvSpec.v
theories/EnvProofs.v
theories/EnvProofs2.v
theories/EnvProofs3.v
theories/EnvProofs4.v
theories/EnvProofs5.v
theories/EnvProps.v
theories/StreamModel.v
theories/StreamSpec.v
theories/StreamProofs.v
theories/StreamProofs2.v
theories/StreamProofs3.v
theories/StreamProofs4.v
theories/StreamProps.v
theories/SymbolModel.v
theories/SymbolProofs.v
theories/SymbolProps.v
theories/PoolCacheModel.v
theories/PoolCacheSpec.v
theories/PoolCacheProofs.v
theories/PoolCacheProofs2.v
theories/PoolCacheProofs3.v
theories/PoolCacheProps.v
theories/TailModel.v
theories/TailSpec.v
theories/TailProofs.v
theories/TailProofs2.v
theories/TailProofs3.v
theories/TailProofs4.v
theories/TailProps.v
theories/LambdaModel.v
theories/LambdaSpec.v
theories/LambdaProofs.v
theories/LambdaProps.v
theories/FutureModel.v
theories/FutureProofs.v
theories/FutureProps.v
theories/ControlModel.v
theories/ControlSpec.v
theories/ControlProofs.v
theories/ControlProps.v
theories/ChoiceCtlModel.v
theories/ChoiceCtlProofs.v
theories/ChoiceCtlProps.v
theories/ExtremeModel.v
theories/ExtremeProps.v
