-Q theories Verif
theories/Base.v
theories/MTokenizer.v
theories/SJson.v
theories/PTokenizer.v
theories/MLit.v
theories/SUnicode.v
theories/PLit.v
theories/TTokenizer.v
theories/TLit.v
theories/SFormula.v
theories/MBinTree.v
theories/PBinTree.v
theories/SEvents.v
theories/MSession.v
theories/PSession.v
theories/SMerge.v
theories/PMerge.v
theories/TBinTree.v
theories/MFastVal.v
theories/MMath.v
theories/SNum.v
theories/PFastVal.v
theories/PQuote.v
theories/PMath.v
theories/PFloat.v
theories/TFastVal.v
theories/MExpr.v
theories/SExpr.v
theories/PExpr.v
theories/TExpr.v
theories/MTransform.v
theories/MMatcher.v
theories/MTree.v
theories/SDoc.v
theories/PTree.v
theories/PTrace.v
theories/PWf.v
theories/TSkip.v
theories/SCompile.v
theories/PCompile.v
theories/SFilter.v
theories/PPlace.v
theories/SSat.v
theories/PFun.v
theories/PSites.v
theories/PHeap.v
theories/PEval.v
theories/SEarly.v
theories/PEarly.v
theories/PMatch.v
theories/SSem.v
theories/SStatus.v
theories/PSem.v
theories/PCheck.v
theories/SExamples.v
theories/TCompile.v
theories/PReset.v
theories/TReset.v
theories/TMatch.v
theories/TStatus.v
theories/PBal.v
theories/PCut.v
theories/TEarly.v
theories/TCut.v
theories/TKind.v
theories/TDefects.v
theories/PTerm.v
theories/SProper.v
theories/PTermHeap.v
theories/TTerm.v
theories/SSafe.v
theories/PSafe.v
theories/PSafeHeap.v
theories/TSafe.v
theories/MCompact.v
theories/SCompact.v
theories/TCompact.v
theories/MStats.v
theories/SStats.v
theories/TStats.v
theories/MExprJson.v
theories/SExprJson.v
theories/TExprJson.v
theories/SNames.v
theories/TNames.v
theories/MComposer.v
theories/SComposer.v
theories/PComposer.v
theories/PRemove.v
theories/TComposer.v
theories/MSlow.v
theories/SSlow.v
theories/PSlow.v
theories/TSlow.v
theories/MText.v
theories/MSimple.v
theories/SText.v
theories/PText.v
theories/TText.v
theories/SSimple.v
theories/PSimpleWords.v
theories/PSimpleField.v
theories/PSimple.v
theories/PSimpleCall.v
theories/PSimpleChain.v
theories/PSimpleFuel.v
theories/PSimpleTerm.v
theories/PSimpleTree.v
theories/PSimpleEnds.v
theories/TSimple.v
theories/MShared.v
theories/SShared.v
theories/PShared.v
theories/PCalm.v
theories/TShared.v
theories/MReuse.v
theories/PReuse.v
theories/TReuse.v
theories/MGrammar.v
theories/SGrammar.v
theories/PGrammar.v
theories/PGrammarSafe.v
theories/TGrammar.v
theories/TOperator.v
theories/SReads.v
theories/PReads.v
theories/TReads.v
theories/SDate.v
theories/PDate.v
theories/TDate.v
theories/SNumber.v
theories/PNumber.v
theories/TNumber.v
theories/MPrint.v
theories/SPrint.v
theories/PPrint.v
theories/TPrint.v
theories/STight.v
theories/PTight.v
theories/PTightChain.v
theories/TTight.v
theories/SParen.v
theories/PParen.v
theories/TParen.v
theories/MShow.v
theories/SShow.v
theories/PShow.v
theories/TShow.v
theories/SRef.v
theories/PRef.v
theories/TRef.v
theories/MDefShow.v
theories/SDefShow.v
theories/PDefHeap.v
theories/PDefShow.v
theories/TDefShow.v
theories/PNearest.v
theories/SRound.v
theories/PRound.v
theories/TRound.v
theories/SArith.v
theories/PArith.v
theories/TArith.v
theories/SOrder.v
theories/TOrder.v
theories/SJsonFilter.v
theories/TJsonFilter.v
theories/STextFilter.v
theories/TTextFilter.v
