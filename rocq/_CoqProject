-Q theories Verif
theories/Base.v
theories/Utf8.v
theories/Token.v
theories/Strconv.v
theories/Ext.v
theories/Lexer.v
theories/Ast.v
theories/Env.v
theories/Diag.v
theories/Parser.v
theories/LexSpec.v
theories/LexerProofs.v
theories/LexOne.v
theories/LexSpec2.v
theories/LexSeq.v
theories/LexHang.v
theories/LexWords.v
theories/SliceModel.v
theories/SliceProofs.v
theories/Props_Lexer.v
theories/ParseSpec.v
theories/ParseStream.v
theories/ParseFacts.v
theories/ParseSound.v
theories/ParseLoop.v
theories/ParseTop.v
theories/ParseComplete.v
theories/ParseFileC.v
theories/ParseShape.v
theories/ParseSource.v
theories/StrconvSpec.v
theories/StrconvProofs.v
theories/ParseUnique.v
theories/ParseTree.v
theories/ParseNoPanic.v
theories/Doc.v
theories/DocProofs.v
theories/DocText.v
theories/ParseFuel.v
theories/ParseFrame.v
theories/EnvProofs.v
theories/ParseTwin.v
theories/ParseTokens.v
theories/ParseLoose.v
theories/ParseTried.v
theories/Print.v
theories/Repl.v
theories/Props_Parser.v
theories/Props_Parser2.v
theories/Props_Tree.v
theories/Props_NoCrash.v
theories/Props_Doc.v
theories/Props_Repl.v
theories/Validators.v
theories/Props_Runtime.v
theories/Walk.v
theories/Props_Walk.v
theories/Codegen.v
theories/Props_Codegen.v
theories/Cli.v
theories/CliProofs.v
theories/Props_Report.v
theories/Props_Cli.v
theories/ParseDup.v
theories/Props_Occur.v
theories/Props_Diag.v
theories/Props_Text.v
theories/LexSpec3.v
theories/Props_LexFull.v
theories/Props_Ends.v
theories/Main.v
theories/Props_Main.v
theories/Json.v
theories/JsonSpec.v
theories/Utf8Proofs.v
theories/JsonProofs.v
theories/JsonEnc.v
theories/TreeSpec.v
theories/TreeJson.v
theories/ConfigSpec.v
theories/ConfigProofs.v
theories/Props_Json.v
theories/Scanner.v
theories/Props_Scanner.v
theories/Config.v
theories/Props_Config.v
theories/GoSpec.v
theories/Props_GoFile.v
theories/Props_Says.v
theories/GoFmt.v
theories/Props_Messages.v
theories/Props_TreeText.v
theories/Cddl.v
theories/GoCbor.v
theories/GoCheck.v
theories/Props_Meaning.v
theories/Props_Lossy.v
theories/ParseLayout.v
theories/ParseRename.v
theories/Props_Layout.v
theories/Props_Rename.v
theories/ParseLocal.v
theories/Props_Append.v
theories/ParseConcat.v
theories/Props_Concat.v
theories/RepoTests.v
theories/Props_Order.v
theories/Props_Blocks.v
theories/Props_Reformat.v
theories/Props_Session.v
theories/Rfc.v
theories/RfcProofs.v
theories/Props_Rfc.v
theories/Props_Forget.v
theories/Props_Prec.v
theories/Props_Pieces.v
theories/GoRead.v
theories/Props_Read.v
theories/Texts.v
theories/Props_Texts.v
theories/Props_Generate.v
theories/Props_Recover.v
theories/Props_Size.v
theories/ParseEnv.v
theories/Props_EnvUse.v
theories/ParseLits.v
theories/Props_Literals.v
theories/ParseMove.v
theories/Props_Move.v
theories/ParseNotes.v
theories/Props_Notes.v
theories/Props_Project.v
theories/Props_Again.v
theories/Props_Unread.v
theories/Props_Header.v
theories/Shared.v
theories/Props_Shared.v
theories/Props_Twice.v
theories/ParseMap.v
theories/Props_Crlf.v
theories/Props_Stray.v
theories/HeapWalk.v
theories/Props_Modify.v
theories/SharedEnv.v
theories/Props_SharedEnv.v
theories/Props_InTheWay.v
