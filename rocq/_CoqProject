-Q theories Verif

theories/Text.v
theories/Kind.v
theories/Green.v
theories/SpecParser.v
theories/Lexer.v
theories/Winnow.v
theories/Grammar.v
theories/LexerFacts.v
theories/Sem.v
theories/Lossless.v
theories/Total.v
theories/Bounds.v
theories/Lang.v
theories/TokForm.v
theories/Shape.v
theories/Debug.v
theories/ThmParser.v
theories/Red.v
theories/Unique.v
theories/Doc.v
theories/ThmTree.v
theories/LineIndex.v
theories/Cursor.v
theories/ThmPos.v
theories/Ast.v
theories/Binder.v
theories/Preorder.v
theories/SpecBinder.v
theories/BinderFacts.v
theories/BinderDefs.v
theories/Blocks.v
theories/Nav.v
theories/NavSpec.v
theories/NavFacts.v
theories/ThmNav.v
theories/RefFacts.v
theories/ThmRefs.v
theories/SymCases.v
theories/TokKinds.v
theories/ThmRename.v
theories/InstrMeta.v
theories/Types.v
theories/Check.v
theories/CheckFacts.v
theories/CheckMsgs.v
theories/ThmCheck.v
theories/ThmDup.v
theories/ThmLiteral.v
theories/SpecTypes.v
theories/SigFacts.v
theories/ThmTypeck.v
theories/Features.v
theories/SemTok.v
theories/ThmStructure.v
theories/SpecHeader.v
theories/HeaderFacts.v
theories/Counts.v
theories/ThmCalls.v
theories/ThmSymbols.v
theories/Hover.v
theories/SpecHover.v
theories/HoverFacts.v
theories/ThmHover.v
theories/SpecSemTok.v
theories/ThmSemTok.v
theories/SpecSyntax.v
theories/ThmSyntax.v
theories/Action.v
theories/SpecAction.v
theories/ThmAction.v
theories/InstrNames.v
theories/Completion.v
theories/SpecCompletion.v
theories/ThmCompletion.v
theories/SpecKeyword.v
theories/ThmKeyword.v
theories/Salsa.v
theories/SpecSalsa.v
theories/SalsaFacts.v
theories/ThmSalsa.v
theories/Service.v
theories/Server.v
theories/SpecServer.v
theories/ThmServer.v
theories/Format.v
theories/SpecFormat.v
theories/FmtLang.v
theories/FmtPieces.v
theories/FmtSteps.v
theories/FmtTrivia.v
theories/FmtRun.v
theories/FmtNode.v
theories/FmtTree.v
theories/FmtDoc.v
theories/FmtParse.v
theories/FmtRequest.v
theories/ThmFormat.v
theories/ThmIgnore.v
theories/ThmGoto.v
theories/ThmPrepare.v
theories/SpecComplete.v
theories/LexAccept.v
theories/TokAccept.v
theories/Streams.v
theories/Describe.v
theories/DescribeSound.v
theories/Descriptions.v
theories/Complete.v
theories/ThmComplete.v
theories/Respace.v
theories/Relex.v
theories/ThmReparse.v
theories/FmtEmit.v
theories/FmtPlain.v
theories/FmtFlags.v
theories/FmtGap.v
theories/FmtSame.v
theories/FmtAlike.v
theories/FmtTidy.v
theories/FmtAgain.v
theories/ThmAgain.v
theories/SpecLayout.v
theories/FmtLayout.v
theories/ThmLayout.v
theories/FmtTwice.v
theories/FmtWalk.v
theories/ThmTwice.v
theories/SpecInstr.v
theories/ThmInstr.v
theories/SpecRename.v
theories/ThmRenamed.v
theories/SpecRegroup.v
theories/Regroup.v
theories/ThmRegroup.v
theories/SpecAlike.v
theories/Alike.v
theories/AlikeNav.v
theories/AlikeCheck.v
theories/AlikeDoc.v
theories/ThmAlike.v
theories/SpecTypeReport.v
theories/ThmTypeReport.v
theories/ThmAlpha.v
theories/SpecAlikeMore.v
theories/AlikeMore.v
theories/ThmAlikeMore.v
theories/SpecAlikeTok.v
theories/AlikeTok.v
theories/ThmAlikeTok.v
theories/SpecAlikeHover.v
theories/AlikeHover.v
theories/ThmAlikeHover.v
theories/ThmUndo.v
theories/SpecValid.v
theories/ThmValid.v
theories/ThmRange.v
theories/ThmSession.v
theories/ThmAccept.v
theories/SpecAlikeComp.v
theories/AlikeComp.v
theories/AlikeParen.v
theories/ThmAlikeComp.v
theories/ThmLines.v
theories/ThmWidth.v
theories/ThmOthers.v
theories/SpecAlikeAct.v
theories/AlikeAct.v
theories/ThmAlikeAct.v
theories/SpecInverse.v
theories/ThmInverse.v
theories/ThmRenameBack.v
theories/SpecSlots.v
theories/ThmSlots.v
theories/ThmSlotHints.v
theories/ThmSlotDups.v
