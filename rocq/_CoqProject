-Q theories Verif
theories/Base.v
theories/Wire.v
theories/WireSpec.v
theories/WireProofs.v
theories/WireConsume.v
theories/WireFacts.v
theories/Coder.v
theories/MapTables.v
theories/Value.v
theories/WireVal.v
theories/Desc.v
theories/Encoder.v
theories/Sizer.v
theories/Decoder.v
theories/MsgSpec.v
theories/ValFacts.v
theories/Writes.v
theories/ScalarProofs.v
theories/EncProofs.v
theories/SizeProofs.v
theories/EncFacts.v
theories/Sample.v
theories/DescProofs.v
theories/DecSpec.v
theories/DecScalar.v
theories/DecMap.v
theories/DecProofs.v
theories/DecFacts.v
theories/DecFacts2.v
theories/SampleDec.v
theories/DecFacts3.v
theories/DecFacts4.v
theories/PoolProofs.v
theories/FastMaps.v
theories/Props_Wire.v
theories/Props_Encode.v
theories/Props_Desc.v
theories/Props_Decode.v
theories/Props_Decode2.v
theories/RoundSpec.v
theories/RoundTrip.v
theories/RoundFacts.v
theories/Props_Round.v
theories/Span.v
theories/SpanProofs.v
theories/Cache.v
theories/CacheProofs.v
theories/Props_Runtime.v
theories/GoStr.v
theories/TagParse.v
theories/StrFacts.v
theories/TagSpec.v
theories/TagProofs.v
theories/Parse.v
theories/ParseProofs.v
theories/SampleGo.v
theories/Props_Parse.v
theories/GenField.v
theories/GenSpec.v
theories/GenFieldProofs.v
theories/GenMsgProofs.v
theories/Props_Gen.v
theories/GenNames.v
theories/NameSpec.v
theories/NameProofs.v
theories/ConflictProofs.v
theories/Props_Names.v
theories/Props_Api.v
theories/Verify.v
theories/VerifySpec.v
theories/VerifyProofs.v
theories/Props_Verify.v
theories/Directive.v
theories/DirectiveSpec.v
theories/DirectiveProofs.v
theories/Props_Directive.v
theories/Scope.v
theories/ScopeSpec.v
theories/ScopeProofs.v
theories/ScopeCheck.v
theories/Props_Scope.v
theories/Load.v
theories/LoadSpec.v
theories/LoadProofs.v
theories/Props_Load.v
theories/Hist.v
theories/HistSpec.v
theories/HistProofs.v
theories/HistInv.v
theories/HistFin.v
theories/HistMain.v
theories/HistEnd.v
theories/HistAgain.v
theories/Props_Hist.v
theories/GenEnum.v
theories/EnumSpec.v
theories/EnumProofs.v
theories/GenPkg.v
theories/PkgSpec.v
theories/PkgProofs.v
theories/Props_Enum.v
theories/Heap.v
theories/EncoderH.v
theories/SizerH.v
theories/HeapSpec.v
theories/HeapProofs.v
theories/HeapTyped.v
theories/Props_Heap.v
theories/Pools.v
theories/PoolSys.v
theories/PoolCalls.v
theories/PoolRun.v
theories/Props_Pool.v
theories/GenImport.v
theories/ImportSpec.v
theories/WriterSpec.v
theories/ImportProofs.v
theories/WriterProofs.v
theories/Props_Import.v
theories/HMem.v
theories/HDecoder.v
theories/OwnSpec.v
theories/OwnMem.v
theories/OwnPost.v
theories/OwnCell.v
theories/OwnDec.v
theories/OwnDec2.v
theories/OwnDec3.v
theories/OwnDec4.v
theories/HeapDecSpec.v
theories/Props_HeapDec.v
theories/GenGetter.v
theories/GetterSpec.v
theories/GetterProofs.v
theories/Props_Getter.v
theories/StrLit.v
theories/StrLitSpec.v
theories/StrLitProofs.v
theories/Props_StrLit.v
theories/Paths.v
theories/PathSpec.v
theories/PathProofs.v
theories/Props_Path.v
theories/Comments.v
theories/CommentSpec.v
theories/CommentProofs.v
theories/Props_Comment.v
theories/Listen.v
theories/ListenSpec.v
theories/ListenProofs.v
theories/Props_Listen.v
theories/TreeSpec.v
theories/TreeMem.v
theories/TreePost.v
theories/TreeDec.v
theories/Props_Tree.v
theories/HEncoder.v
theories/MarSpec.v
theories/MarMem.v
theories/MarProofs.v
theories/Props_Mar.v
theories/AtnTable.v
theories/Atn.v
theories/LexFile.v
theories/LexSpec.v
theories/LexFileSpec.v
theories/LexDfa.v
theories/LexProofs.v
theories/LexLayout.v
theories/LexFileProofs.v
theories/Props_Lex.v
theories/LexCache.v
theories/LexCacheProofs.v
theories/Props_LexCache.v
theories/ParserNames.v
theories/Parser.v
theories/ParserSpec.v
theories/Sll.v
theories/ParserProofs.v
theories/ParserFull.v
theories/ParserPredict.v
theories/SllProofs.v
theories/Props_Parser.v
theories/IdentProofs.v
theories/Props_Ident.v
theories/Walk.v
theories/SpellSpec.v
theories/WalkProofs.v
theories/WalkNodes.v
theories/WalkDefs.v
theories/WalkFile.v
theories/Props_Walk.v
theories/Props_Sll.v
theories/ParserTable.v
theories/Patn.v
theories/PatnSpec.v
theories/PatnProofs.v
theories/Props_Patn.v
theories/Compile.v
theories/CompileSpec.v
theories/CompileProofs.v
theories/CompileMsgs.v
theories/CompileScope.v
theories/Props_Compile.v
theories/GoScan.v
theories/GoSyntax.v
theories/GenText.v
theories/TextSpec.v
theories/GoScanProofs.v
theories/GoReadProofs.v
theories/GenTextProofs.v
theories/GenTextFile.v
theories/GenTextImport.v
theories/Props_Text.v
theories/FileComments.v
theories/FileCommentSpec.v
theories/FileCommentProofs.v
theories/FileCommentTokens.v
theories/Props_FileComment.v
theories/CompileText.v
theories/CompileTextSpec.v
theories/CompileTextProofs.v
theories/Props_CompileText.v
theories/PackageSpec.v
theories/PackageProofs.v
theories/Props_Package.v
theories/Props_PackageGet.v
theories/WrapSearch.v
theories/WrapSpec.v
theories/WrapProofs.v
theories/Props_Wrap.v
theories/ServiceGen.v
theories/ServiceSpec.v
theories/Props_Service.v
theories/Placing.v
theories/PlacingSpec.v
theories/PlacingProofs.v
theories/Props_Placing.v
