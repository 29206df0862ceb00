-Q theories Verif
theories/Base.v
theories/Tokens.v
theories/Tokenizer.v
theories/ParserCore.v
theories/ParserBody.v
theories/SpecTokens.v
theories/SpecStream.v
theories/ByteFacts.v
theories/LoopFacts.v
theories/StringFacts.v
theories/FloatFacts.v
theories/NumberFacts.v
theories/LexFacts.v
theories/LexTotal.v
theories/NextFacts.v
theories/TokenProps.v
theories/TokenProps2.v
theories/TokenProps3.v
theories/TokenProps4.v
theories/PropertiesTokenizer.v
theories/AbstractParser.v
theories/ParserExec.v
theories/ParserTerminates.v
theories/SpecParser.v
theories/Replay.v
theories/ParserProps.v
theories/ParserProps2.v
theories/PropertiesParser.v
theories/HintParser.v
theories/SpecTrivia.v
theories/SpecHints.v
theories/BraceHints.v
theories/Brackets.v
theories/SlashHints.v
theories/RightHints.v
theories/LexSuffix.v
theories/TriviaFacts.v
theories/Respacing.v
theories/SpecGrammar.v
theories/GrammarFirst.v
theories/GrammarRules.v
theories/GrammarSound.v
theories/Precedence.v
theories/CompleteBase.v
theories/CompleteFor.v
theories/CompleteProperty.v
theories/CompleteStatement.v
theories/CompleteRest.v
theories/GrammarComplete.v
theories/SpecBrackets.v
theories/SpecLanguage.v
theories/GrammarFacts.v
theories/SpecWindows.v
theories/Windows.v
theories/DerivationInv.v
theories/ParserGrammar.v
theories/ParserGrammar2.v
theories/Restricted.v
theories/SourceLanguage.v
theories/Coverage.v
theories/SpecDeviations.v
theories/Deviations.v
theories/PropertiesGrammar.v
theories/PropertiesLanguage.v
theories/PropertiesDeviations.v
theories/SpecNumbers.v
theories/Rounding.v
theories/Accuracy.v
theories/Fractions.v
theories/PropertiesNumbers.v
theories/SpecWork.v
theories/Work.v
theories/WorkEnd.v
theories/WorkExec.v
theories/WorkLinear.v
theories/PropertiesWork.v
theories/SpecShapes.v
theories/Shapes.v
theories/ShapeSource.v
theories/PropertiesShapes.v
theories/SpecDepth.v
theories/Depth.v
theories/DepthSource.v
theories/PropertiesDepth.v
theories/Formatter.v
theories/SpecFormatter.v
theories/FormatterFacts.v
theories/FormatterTokens.v
theories/Nodes.v
theories/PropertiesFormatter.v
theories/SpecNodes.v
theories/NodeItems.v
theories/NodeTokens.v
theories/NodeText.v
theories/PropertiesNodes.v
theories/Statements.v
theories/SpecStatements.v
theories/StatementItems.v
theories/StatementTokens.v
theories/StatementText.v
theories/PropertiesStatements.v
theories/SpecFaithful.v
theories/LayoutFacts.v
theories/ReadNodes.v
theories/ReadStatements.v
theories/FaithfulText.v
theories/PropertiesFaithful.v
theories/SpecPhrases.v
theories/PhraseFacts.v
theories/PhraseText.v
theories/PropertiesPhrases.v
theories/SpecSemicolons.v
theories/Semicolons.v
theories/OneLine.v
theories/SpecSequel.v
theories/Sequel.v
theories/PropertiesSemicolons.v
theories/Modules.v
theories/SpecModules.v
theories/ModuleText.v
theories/SpecFaithfulModules.v
theories/FaithfulModules.v
theories/PropertiesModules.v
theories/SpecBeginnings.v
theories/Beginnings.v
theories/PropertiesBeginnings.v
theories/SpecEnclose.v
theories/Enclose.v
theories/Unwrap.v
theories/PropertiesEnclose.v
theories/SpecContext.v
theories/Context.v
theories/PropertiesContext.v
theories/SpecWrapping.v
theories/Wrapping.v
theories/PropertiesWrapping.v
theories/SpecBundle.v
theories/Bundle.v
theories/PropertiesBundle.v
theories/SpecSurround.v
theories/Surround.v
theories/PropertiesSurround.v
theories/SpecFed.v
theories/Fed.v
theories/PropertiesFed.v
theories/Jsx.v
theories/SpecJsx.v
theories/JsxText.v
theories/PropertiesJsx.v
theories/Patterns.v
theories/SpecPatterns.v
theories/PatternText.v
theories/PropertiesPatterns.v
