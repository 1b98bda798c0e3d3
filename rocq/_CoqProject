-Q theories Verif
theories/Base.v
theories/TextEditModel.v
theories/TextEditSpec.v
theories/TextEditProofs.v
theories/TextEditProofs2.v
theories/TextEditProps.v
theories/LineEndingsModel.v
theories/LineEndingsSpec.v
theories/LineEndingsProofs.v
theories/LineEndingsProps.v
theories/LspTextModel.v
theories/LspTextSpec.v
theories/LspTextProofs.v
theories/LspTextProofs2.v
theories/LspTextProps.v
theories/SemTokensModel.v
theories/SemTokensSpec.v
theories/SemTokensProofs.v
theories/SemTokensProps.v
theories/CompletionEditsModel.v
theories/CompletionEditsProps.v
theories/HighlightsModel.v
theories/HighlightsSpec.v
theories/HighlightsProofs.v
theories/HighlightsProps.v
theories/SyntaxKind.v
theories/TokenSetModel.v
theories/TokenSetProps.v
theories/RankingModel.v
theories/RankingProps.v
theories/RequestsModel.v
theories/RequestsProps.v
theories/AddressModel.v
theories/AddressProps.v
theories/FileSetModel.v
theories/FileSetProps.v
theories/WorkspaceModel.v
theories/WorkspaceProofs.v
theories/WorkspaceProps.v
theories/ParserModel.v
theories/ParserSpec.v
theories/ParserProofs.v
theories/ParserProofs2.v
theories/ParserProps.v
theories/TreeSinkModel.v
theories/TreeSinkSpec.v
theories/TreeSinkProps.v
theories/ItemScopeModel.v
theories/ItemScopeProps.v
theories/NameResModel.v
theories/NameResProps.v
theories/UnifyModel.v
theories/UnifyProps.v
theories/TyModel.v
theories/TyProps.v
theories/InferModel.v
theories/InferProofs.v
theories/InferResolve.v
theories/InferTotal.v
theories/InferProps.v
theories/DepsModel.v
theories/DepsProofs.v
theories/DepsProps.v
theories/LexerModel.v
theories/LexerSpec.v
theories/LexerProofs.v
theories/LexerProps.v
theories/TreeDiffModel.v
theories/TreeDiffSpec.v
theories/TreeDiffProofs.v
theories/TreeDiffProps.v
theories/GrammarBase.v
theories/GrammarModel.v
theories/GrammarDisc.v
theories/GrammarDiscAll.v
theories/GrammarTot.v
theories/GrammarTotAll.v
theories/GrammarProps.v
theories/PrecSpec.v
theories/PrecRun.v
theories/PrecBasics.v
theories/PrecProofs.v
theories/PrecProps.v
theories/GrammarSafe.v
theories/GrammarSafeAll.v
theories/GrammarSafeProps.v
theories/GrammarKeep.v
theories/GrammarKeepAll.v
theories/GrammarKeepProps.v
theories/ShapeSpec.v
theories/ShapeBasics.v
theories/ShapeFacts.v
theories/ShapeDefs.v
theories/ShapeTypes.v
theories/ShapeOps.v
theories/ShapeExprs.v
theories/ShapeItems.v
theories/ShapeProps.v
theories/LexerNumberProps.v
theories/EditorModel.v
theories/EditorSpec.v
theories/EditorProofs.v
theories/EditorOrder.v
theories/EditorApply.v
theories/EditorProps.v
theories/UseGroupSpec.v
theories/UseGroupProofs.v
theories/UseGroupProps.v
theories/UnusedImportsModel.v
theories/UnusedImportsSpec.v
theories/UnusedImportsProofs.v
theories/UnusedImportsProps.v
theories/SelectionModel.v
theories/SelectionProofs.v
theories/SelectionProps.v
theories/SignatureModel.v
theories/SignatureProofs.v
theories/SignatureProps.v
theories/UsagesModel.v
theories/UsagesProps.v
theories/RenameModel.v
theories/RenameProofs.v
theories/RenameProps.v
theories/LocModel.v
theories/LocProps.v
theories/WalkModel.v
theories/WalkTyping.v
theories/WalkSolve.v
theories/WalkRun.v
theories/WalkPat.v
theories/WalkProofs.v
theories/WalkProps.v
theories/PatProps.v
theories/LowerModel.v
theories/LowerProps.v
theories/FixModel.v
theories/FixProps.v
theories/OutlineModel.v
theories/OutlineProps.v
theories/InlayModel.v
theories/InlayProps.v
theories/CountModel.v
theories/CountProps.v
theories/LabelModel.v
theories/LabelProps.v
