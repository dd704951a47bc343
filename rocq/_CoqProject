-Q theories Verif
theories/Base.v
theories/Token.v
theories/Grammar.v
theories/PegSpec.v
theories/MatchProofs.v
theories/MatchProofs2.v
theories/MatchProofs3.v
theories/Wf.v
theories/MatchProofs4.v
theories/MatchObs.v
theories/PropMatch.v
theories/Utf8.v
theories/Utf8Proofs.v
theories/Scanner.v
theories/ScannerSpec.v
theories/ScannerProofs.v
theories/ScannerProofs2.v
theories/ScannerProofs3.v
theories/ScannerProofs4.v
theories/ScannerProofs5.v
theories/ScanDet.v
theories/ScanRun.v
theories/ScanInit.v
theories/Tokenize.v
theories/ScanObs.v
theories/ScanModes.v
theories/TokenizeProofs.v
theories/PropScan.v
theories/ScanClean.v
theories/PropScan2.v
theories/ScanLine.v
theories/PropLine.v
theories/Matcher.v
theories/MatcherProofs.v
theories/PropMatcher.v
theories/Compiler.v
theories/GramSyntax.v
theories/PegTools.v
theories/CompilerProofs.v
theories/CompilerBack.v
theories/CompilerTop.v
theories/CompilerMore.v
theories/CompilerDen.v
theories/PropCompiler.v
theories/Interp.v
theories/Calc.v
theories/CalcSpec.v
theories/CalcProofs.v
theories/CalcValue.v
theories/CalcActs.v
theories/CalcTop.v
theories/PropCalc.v
theories/MatchInv.v
theories/PropInterp.v
theories/Extractor.v
theories/ExtractSpec.v
theories/ExtractProofs.v
theories/PropExtract.v
theories/PrintBack.v
theories/PrintToks.v
theories/PropCode.v
theories/CodeLang.v
theories/PropCode2.v
theories/QValue.v
theories/PropValue.v
theories/Float53.v
theories/CalcSim.v
theories/PropFloat.v
theories/PropCmplx.v
theories/Qlang.v
theories/QlangTop.v
theories/QlangSpec.v
theories/QlangEx.v
theories/PropCtrl.v
theories/PropVars.v
theories/QHoare.v
theories/PropCall.v
theories/PropClass.v
theories/Gen.v
theories/GenSpec.v
theories/GenProofs.v
theories/GenRead.v
theories/GenTop.v
theories/PropGen.v
theories/QText.v
theories/QTidy.v
theories/QStep.v
theories/PegRel.v
theories/QGlue.v
theories/QParse.v
theories/QFwd.v
theories/QFwd2.v
theories/QEval.v
theories/QExpr.v
theories/QEmbed.v
theories/QExprP.v
theories/PropText.v
theories/QSafe.v
theories/QSafeP.v
theories/QSafeE.v
theories/QSafeT.v
theories/PropStack.v
theories/PropEmbed.v
theories/QWhile.v
theories/QWhileP.v
theories/PropWhile.v
theories/QMono.v
theories/QEnds.v
theories/PropMono.v
theories/QFun.v
theories/QFunP.v
theories/QFunK.v
theories/QRead.v
theories/PropFun.v
theories/QCont.v
theories/QContSpec.v
theories/QContP.v
theories/PropCont.v
theories/PropExit.v
theories/PropIndex.v
theories/QInterp.v
theories/MarkCheck.v
theories/PropObj.v
theories/Cmd.v
theories/PropCmd.v
theories/PropGenCmd.v
theories/Repl.v
theories/PropSession.v
theories/StaticInterp.v
theories/PropStatic.v
theories/Reuse.v
theories/PropReuse.v
theories/GramLang.v
theories/QOdd.v
theories/QConv.v
theories/PropAccept.v
theories/PropRat.v
