-Q theories Verif
theories/Base.v
theories/BaseFacts.v
theories/RustPrim.v
theories/SpecPrim.v
theories/RustPrimFacts.v
theories/Utf8.v
theories/Utf8Facts.v
theories/Types.v
theories/RustPrimFacts2.v
theories/Spec.v
theories/RustCodec.v
theories/TypesFacts.v
theories/DecodeFacts.v
theories/SerializeFacts.v
theories/Evolution.v
theories/EvolutionFacts.v
theories/EvolutionFacts2.v
theories/EvolutionFacts3.v
theories/PrimExtra.v
theories/Properties1.v
theories/Examples1.v
theories/Fields.v
theories/FieldsFacts.v
theories/Visits.v
theories/VisitsFacts.v
theories/TruncFacts.v
theories/Chunks.v
theories/ChunksFacts.v
theories/Writer.v
theories/WriterFacts.v
theories/TruncFacts2.v
theories/Properties2.v
theories/Examples2.v
theories/TsPrim.v
theories/TsCodec.v
theories/TsPrimFacts.v
theories/TsSerFacts.v
theories/TsSpec.v
theories/TsDecFacts.v
theories/TsDecFacts2.v
theories/TsItems.v
theories/TsTyped.v
theories/TsTop.v
theories/Properties3.v
theories/Examples3.v
theories/Identifier.v
theories/IdentSpec.v
theories/IdentFacts.v
theories/TsNames.v
theories/NamesFacts.v
theories/Properties4.v
theories/Examples4.v
theories/Tokenizer.v
theories/TokenSpec.v
theories/TokenFacts.v
theories/TokenFacts2.v
theories/Schema.v
theories/Parser.v
theories/ParseSpec.v
theories/ParserFacts.v
theories/ParserFacts2.v
theories/Properties5.v
theories/Examples5.v
theories/Printer.v
theories/PrintSpec.v
theories/PrinterFacts.v
theories/PrinterFacts2.v
theories/Properties6.v
theories/Examples6.v
theories/Validator.v
theories/ValidSpec.v
theories/ValidatorFacts.v
theories/CycleFacts.v
theories/TreeFacts.v
theories/DefectFacts.v
theories/Properties7.v
theories/Examples7.v
theories/ModuleTree.v
theories/ModuleSpec.v
theories/ModuleFacts.v
theories/CodeFacts.v
theories/Properties8.v
theories/Examples8.v
theories/Loader.v
theories/LoadSpec.v
theories/LoadFacts.v
theories/Commands.v
theories/CommandSpec.v
theories/PlainFiles.v
theories/CommandFacts.v
theories/Properties9.v
theories/Examples9.v
theories/RustSyntax.v
theories/RustGen.v
theories/RustText.v
theories/TsSyntax.v
theories/TsGen.v
theories/TsText.v
theories/RustSem.v
theories/RustValue.v
theories/RustEval.v
theories/RustAtlasFacts.v
theories/RustSerFacts.v
theories/RustReadFacts.v
theories/RustDeserFacts.v
theories/RustFromFacts.v
theories/RustSpec.v
theories/RustLinkFacts.v
theories/RustTop.v
theories/RustTypes.v
theories/RustTypesFacts.v
theories/Properties10.v
theories/Examples10.v
theories/PlainFacts.v
theories/Properties11.v
theories/Examples11.v
theories/TsSem.v
theories/TsEval.v
theories/TsPreludeFacts.v
theories/TsPreludeFacts2.v
theories/TsPreludeFacts3.v
theories/TsValue.v
theories/TsSimBase.v
theories/TsLoops.v
theories/TsAtlasFacts.v
theories/TsAtlasFacts2.v
theories/TsAtlasFacts3.v
theories/TsSerSim.v
theories/TsSerSim2.v
theories/TsDeserSim.v
theories/TsDeserSim2.v
theories/TsDeserSim3.v
theories/TsDeserSim4.v
theories/TsApi.v
theories/TsLinkFacts.v
theories/TsProgram.v
theories/TsClear.v
theories/TsTypes.v
theories/TsTypesFacts.v
theories/TsOutFacts.v
theories/Properties12.v
theories/Properties13.v
theories/Properties14.v
theories/Examples12.v
theories/Properties15.v
theories/Examples13.v
theories/Report.v
theories/ReportSpec.v
theories/ReportFacts.v
theories/Located.v
theories/LexErrSpec.v
theories/LexErrFacts.v
theories/LocatedFacts.v
theories/LocatedSpec.v
theories/LocatedFacts2.v
theories/LocatedFacts3.v
theories/LocatedFacts4.v
theories/LocatedFacts5.v
theories/LocatedFacts6.v
theories/LocatedFacts7.v
theories/Properties16.v
theories/Examples14.v
theories/Reporting.v
theories/ReportingSpec.v
theories/ReportingFacts.v
theories/ReportingFacts2.v
theories/ReportingFacts3.v
theories/ReportingFacts4.v
theories/ReportingFacts5.v
theories/Properties17.v
theories/Examples15.v
theories/RustPrelude.v
theories/RustPreludeSem.v
theories/RustPreludeFacts.v
theories/RustPreludeFacts2.v
theories/Properties18.v
theories/Examples16.v
theories/RustGrammar.v
theories/RustGrammarFacts.v
theories/RustGrammarFacts2.v
theories/RustGrammarFacts3.v
theories/RustGrammarFacts4.v
theories/RustGrammarFacts5.v
theories/RustGrammarFacts6.v
theories/Properties19.v
theories/Examples17.v
theories/TsGrammar.v
theories/TsGrammarFacts.v
theories/TsGrammarFacts2.v
theories/TsGrammarFacts3.v
theories/TsGrammarFacts4.v
theories/TsGrammarFacts5.v
theories/TsGrammarFacts6.v
theories/TsGrammarFacts7.v
theories/Properties20.v
theories/Examples18.v
theories/Cli.v
theories/CliSpec.v
theories/CliFacts.v
theories/Properties21.v
theories/Examples19.v
theories/RustTyping.v
theories/RustTypingFacts.v
theories/RustTypingFacts2.v
theories/RustTypingFacts3.v
theories/RustTypingFacts4.v
theories/RustTypingFacts5.v
theories/RustTypingFacts6.v
theories/Properties22.v
theories/Examples20.v
theories/RustPreludeTyping.v
theories/RustPreludeTypingFacts.v
theories/Properties23.v
theories/Examples21.v
theories/TsScoping.v
theories/TsScopingFacts.v
theories/TsScopingFacts2.v
theories/TsScopingFacts3.v
theories/Properties24.v
theories/Examples22.v
theories/Footprint.v
theories/FootprintFacts.v
theories/FootprintTs.v
theories/FootprintTs2.v
theories/Properties25.v
theories/Examples23.v
theories/CompactFacts.v
theories/Properties26.v
theories/Examples24.v
theories/ForwardFacts.v
theories/Properties27.v
theories/Examples25.v
theories/RelayFacts.v
theories/Properties28.v
theories/Examples26.v
