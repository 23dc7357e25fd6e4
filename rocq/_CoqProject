-Q theories Verif

theories/Chars.v
theories/Peg.v
theories/Ast.v
theories/Print.v
theories/Lexical.v
theories/Grammar.v
theories/Regex.v
theories/Preprocess.v
theories/Query.v
theories/Evaluate.v
theories/PegProps.v
theories/Totality.v
theories/PegSpec.v
theories/PegEquiv.v
theories/Gen.v
theories/Spec.v
theories/Throws.v
theories/QueryProofs.v
theories/NonEmpty.v
theories/SpecNodes.v
theories/Nodes.v
theories/AccessProofs.v
theories/TextLemmas.v
theories/SpecClauses.v
theories/NodeProps.v
theories/ColumnProofs.v
theories/RegexProps.v
theories/RegexPrio.v
theories/SpecRewrite.v
theories/ParenProofs.v
theories/RewriteProofs.v
theories/RewriteBest.v
theories/RewriteSound.v
theories/RewriteExact.v
theories/RewriteMain.v
theories/MeaningProofs.v
theories/SpecLexical.v
theories/LexProofs.v
theories/LexProofs2.v
theories/First.v
theories/Calc.v
theories/Operand.v
theories/SelectProofs.v
theories/TopProofs.v
theories/LexDec.v
theories/SpecFloats.v
theories/FloatProofs.v
theories/ChainProofs.v
theories/SpecContent.v
theories/ContentCalc.v
theories/ContentLeaves.v
theories/ContentTokens.v
theories/ContentOut.v
theories/ContentNames.v
theories/ContentShapes.v
theories/ContentExpr.v
theories/ContentPred.v
theories/ContentQuery.v
theories/SpecSpelling.v
theories/SpellCalc.v
theories/SpellLeaves.v
theories/SpellProofs.v
theories/SpellMain.v
theories/SpellUse.v
theories/MappingProofs.v
theories/Properties1.v
theories/Properties2.v
theories/Properties3.v
theories/Properties4.v
theories/Properties5.v
theories/Properties6.v
theories/Properties7.v
theories/Properties8.v
theories/SpecCase.v
theories/SpecCaseResult.v
theories/CaseLex.v
theories/CaseParse.v
theories/CaseMain.v
theories/CasePre.v
theories/CaseUse.v
theories/Properties9.v
theories/Properties10.v
theories/Look.v
theories/Tight.v
theories/SpecCanon.v
theories/AstInd.v
theories/PrintEq.v
theories/TestDefs.v
theories/Tests1.v
theories/Tests2.v
theories/Tests3.v
theories/CanonBase.v
theories/CanonLex.v
theories/CanonGeo.v
theories/CanonHead.v
theories/CanonLead.v
theories/CanonFun.v
theories/CanonPrim.v
theories/CanonVal.v
theories/CanonCond.v
theories/CanonJt.v
theories/CanonJoin.v
theories/CanonSel.v
theories/CanonGeom.v
theories/CanonQuery.v
theories/CanonAll.v
theories/SpecNorm.v
theories/NormProofs.v
theories/SkipInv.v
theories/Around.v
theories/Written.v
theories/Properties11.v
theories/SpecFine.v
theories/FineProofs.v
theories/Invert.v
theories/FineRun.v
theories/Greedy.v
theories/Lead.v
theories/SubNodes.v
theories/SpecUsual.v
theories/FineLex.v
theories/Properties12.v
theories/SpecWhite.v
theories/WhiteLex.v
theories/WhitePeg.v
theories/WhiteProofs.v
theories/Properties13.v
theories/Compose.v
theories/Properties14.v
theories/SpecBehind.v
theories/RewriteNot.v
theories/Properties15.v
theories/SpecSystem.v
theories/SysLex.v
theories/SysPeg.v
theories/SysProofs.v
theories/Properties16.v
theories/SpecFlags.v
theories/FlagProofs.v
theories/Properties17.v
theories/SpecMoved.v
theories/MovedProofs.v
theories/Properties18.v
theories/SpecUploads.v
theories/MappingLocal.v
theories/UploadProofs.v
theories/Properties19.v
theories/SpecBrackets.v
theories/BracketProofs.v
theories/Properties20.v
theories/Work.v
theories/WorkProofs.v
theories/Properties21.v
theories/Properties22.v
theories/WorkUpper.v
theories/WorkOpen.v
theories/Properties23.v
theories/Depth.v
theories/DepthProofs.v
theories/Properties24.v
theories/Api.v
theories/ApiProofs.v
theories/Properties25.v
theories/RegexCost.v
theories/RegexCostProofs.v
theories/RegexDepth.v
theories/RegexLower.v
theories/Properties26.v
theories/Properties27.v
theories/RewriteSize.v
theories/Properties28.v
theories/SpecStatement.v
theories/StatementProofs.v
theories/MinusText.v
theories/Properties29.v
theories/FormatSize.v
theories/Properties30.v
theories/SpecRebuild.v
theories/RebuildProofs.v
theories/Properties31.v
theories/SpecNumbers.v
theories/NumberProofs.v
theories/Properties32.v
theories/EmptyParts.v
theories/EmptyProofs.v
theories/Properties33.v
theories/SpecDigits.v
theories/DigitProofs.v
theories/Properties34.v
theories/Predicate.v
theories/Properties35.v
theories/SpecTrail.v
theories/TrailLex.v
theories/TrailLand.v
theories/TrailPeg.v
theories/TrailProofs.v
theories/Properties36.v
theories/SpecAlphabet.v
theories/AlphabetProofs.v
theories/AlphabetMoved.v
theories/BracketMoved.v
theories/Properties37.v
theories/TreeSize.v
theories/TreeGrow.v
theories/Properties38.v
theories/SpecNested.v
theories/NestedProofs.v
theories/Properties39.v
theories/SpecShort.v
theories/RewriteShort.v
theories/Properties40.v
theories/Properties41.v
theories/RewriteTwice.v
theories/Properties42.v
theories/Properties43.v
theories/Properties44.v
theories/Properties45.v
