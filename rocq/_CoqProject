-Q theories Verif
theories/Base.v
theories/Token.v
theories/Lexer.v
theories/LexerFacts.v
theories/LexerFacts2.v
theories/LexerCases.v
theories/LexerStep.v
theories/LexerStream.v
theories/LexerSpec.v
theories/LexerProofs.v
theories/LexerTheorems.v
theories/LexerTheorems2.v
theories/LexerTheorems3.v
theories/PropertiesLexer1.v
theories/TokenSpec.v
theories/TokenProofs.v
theories/TokenTheorems.v
theories/PropertiesLexer2.v
theories/Relex.v
theories/Relex2.v
theories/SymbolRef.v
theories/SymbolProofs.v
theories/PropertiesLexer3.v
theories/StringSpec.v
theories/StringProofs.v
theories/StringProofs2.v
theories/PropertiesLexer4.v
theories/Tree.v
theories/Node.v
theories/Visit.v
theories/TreeFacts.v
theories/TreeSpec.v
theories/NodeProofs.v
theories/PrintProofs.v
theories/VisitProofs.v
theories/VisitTheorems.v
theories/VisitInj.v
theories/VisitTyped.v
theories/UpdateProofs.v
theories/VisitEvents.v
theories/RangeProofs.v
theories/Punctuated.v
theories/PunctuatedSpec.v
theories/PunctuatedProofs.v
theories/PropertiesTree1.v
theories/PropertiesTree2.v
theories/ParserState.v
theories/Parsers.v
theories/ParserSpec.v
theories/ParserLogic.v
theories/ParserSafe1.v
theories/ParserSafe2.v
theories/ParserSafe3.v
theories/ParserSafe4.v
theories/ParserSafe5.v
theories/ParserSafe6.v
theories/ParserTop.v
theories/ParserTheorems.v
theories/PropertiesParser1.v
theories/GrammarSpec.v
theories/ParserMono.v
theories/ParserClean.v
theories/ParserClean1.v
theories/ParserClean2.v
theories/ParserClean3.v
theories/ParserClean4.v
theories/ParserAccept.v
theories/Precedence.v
theories/GrammarSound.v
theories/GrammarAccept.v
theories/GrammarFacts.v
theories/PropertiesParser2.v
theories/GrammarClear.v
theories/ClearForms.v
theories/ParserComplete.v
theories/ParserComplete1.v
theories/ParserComplete2.v
theories/ParserComplete3.v
theories/ParserComplete4.v
theories/PropertiesParser3.v
theories/PropertiesParser4.v
theories/RoundSpec.v
theories/Round1.v
theories/Round2.v
theories/Round3.v
theories/Round4.v
theories/Round5.v
theories/Round6.v
theories/Round7.v
theories/Round8.v
theories/Round9.v
theories/Round10.v
theories/Round11.v
theories/Round12.v
theories/Round13.v
theories/Round14.v
theories/Exact1.v
theories/Exact2.v
theories/Exact3.v
theories/Exact4.v
theories/Exact5.v
theories/PropertiesParser5.v
theories/PropertiesParser6.v
theories/VersionSpec.v
theories/Version1.v
theories/Version2.v
theories/PropertiesParser7.v
theories/LayoutSpec.v
theories/Layout1.v
theories/Layout2.v
theories/Layout3.v
theories/Layout4.v
theories/PropertiesParser8.v
theories/ScanSpec.v
theories/Scan1.v
theories/Scan2.v
theories/Scan3.v
theories/Scan4.v
theories/Scan5.v
theories/Scan6.v
theories/PropertiesLexer5.v
theories/ReprintSpec.v
theories/Reprint1.v
theories/PropertiesParser9.v
theories/Reprint2.v
theories/Construct.v
theories/ConstructSpec.v
theories/Construct1.v
theories/Construct2.v
theories/Construct3.v
theories/Construct4.v
theories/Construct5.v
theories/Construct6.v
theories/PropertiesConstruct.v
theories/OrderSpec.v
theories/Order1.v
theories/Order2.v
theories/Order3.v
theories/Order4.v
theories/Order5.v
theories/Order6.v
theories/Order7.v
theories/ParserRun.v
theories/ErrorSpec.v
theories/Errors1.v
theories/Errors2.v
theories/PropertiesParser10.v
theories/Ranges1.v
theories/Ranges2.v
theories/Ranges3.v
theories/Ranges4.v
theories/Ranges5.v
theories/PropertiesParser11.v
theories/SoundLex.v
theories/Sound0.v
theories/Sound1.v
theories/Sound2.v
theories/Sound3.v
theories/Sound4.v
theories/Sound5.v
theories/Sound6.v
theories/Sound7.v
theories/Sound8.v
theories/Sound9.v
theories/PropertiesParser12.v
theories/Kept1.v
theories/Kept2.v
theories/PropertiesParser13.v
theories/Compare.v
theories/Compare1.v
theories/PropertiesOrder.v
theories/ConstructSpec2.v
theories/Construct7.v
theories/Construct8.v
theories/Construct9.v
theories/PropertiesConstruct2.v
theories/Message.v
theories/MessageSpec.v
theories/Messages1.v
theories/Messages2.v
theories/PropertiesMessage.v
theories/Access.v
theories/AccessSpec.v
theories/Access1.v
theories/PropertiesAccess.v
