-Q theories Verif
theories/Base.v
theories/CharSet.v
theories/Source.v
theories/Dst.v
theories/Pattern.v
theories/Parser.v
theories/Session.v
theories/SourceProofs.v
theories/SpecSource.v
theories/SourceHist.v
theories/Rel.v
theories/Safety.v
theories/Keep.v
theories/Limit.v
theories/Resume.v
theories/Chunk.v
theories/SpecSession.v
theories/SessionProofs.v
theories/SessionThms.v
theories/Big.v
theories/BigMk.v
theories/BigLeaf.v
theories/BigSound.v
theories/BigComplete.v
theories/SpecPeg.v
theories/Leaf.v
theories/PegSound.v
theories/PegTerm.v
theories/SpecTerm.v
theories/SpecCut.v
theories/Term.v
theories/SpecRun.v
theories/Run.v
theories/Comb.v
theories/Blind.v
theories/BlindThms.v
theories/Local.v
theories/SpecValue.v
theories/LocalThms.v
theories/Unary.v
theories/Transparent.v
theories/Group.v
theories/SpecLeaf.v
theories/LeafThms.v
theories/EvDoes.v
theories/EvReq.v
theories/Shape.v
theories/Fill.v
theories/Frame.v
theories/Atomic.v
theories/SpecCollect.v
theories/Collect.v
theories/Element.v
theories/Quiet.v
theories/Gather.v
theories/SpecSkip.v
theories/Under.v
theories/SpecFold.v
theories/Fold.v
theories/Demo.v
theories/Pieces.v
theories/SpecText.v
theories/RoundTrip.v
theories/SpecMath.v
theories/MathDemo.v
theories/MathThms.v
theories/TermThms.v
theories/CutThms.v
theories/Properties.v
theories/SkipAlone.v
theories/PropertiesGrammar.v
theories/PropertiesValues.v
theories/PropertiesLeaves.v
theories/PropertiesCollect.v
theories/PropertiesSkip.v
theories/PropertiesMath.v
theories/PropertiesTerm.v
theories/SpecType.v
theories/TypeMem.v
theories/TypeInv.v
theories/TypeThms.v
theories/PropertiesType.v
theories/SpecGrow.v
theories/Grow.v
theories/GrowThms.v
theories/PropertiesGrow.v
theories/Conformance.v
theories/Shift.v
theories/SpecStream.v
theories/Stream.v
theories/SkipFront.v
theories/StreamThms.v
theories/StreamList.v
theories/StreamSeq.v
theories/PropertiesStream.v
theories/SpecGuide.v
theories/Guide.v
theories/GuideThms.v
theories/Nest.v
theories/NestThms.v
theories/PropertiesGuide.v
theories/SpecNil.v
theories/NilThms.v
theories/SpecLaws.v
theories/LawsThms.v
theories/PropertiesLaws.v
theories/PropertiesCut.v
theories/SpecLang.v
theories/LangThms.v
theories/LangRun.v
theories/LangDemo.v
theories/PropertiesLang.v
theories/SpecAttr.v
theories/SpecBound.v
theories/AttrMem.v
theories/AttrSound.v
theories/AttrComplete.v
theories/AttrRun.v
theories/PropertiesAttr.v
theories/BoundMem.v
theories/BoundSound.v
theories/BoundComplete.v
theories/BoundRun.v
theories/PropertiesBound.v
theories/SpecWrite.v
theories/WriteThms.v
theories/WriteRun.v
theories/SpecJson.v
theories/JsonDemo.v
theories/JsonRead.v
theories/PropertiesWrite.v
theories/SpecWait.v
theories/WaitThms.v
theories/PropertiesWait.v
theories/SpecValueLaws.v
theories/ValueLaws.v
theories/PropertiesValueLaws.v
theories/Expr.v
theories/SpecExpr.v
theories/ExprThms.v
theories/PropertiesExpr.v
theories/SkipLocal.v
theories/PropertiesSkipLocal.v
theories/SpecExprVal.v
theories/ExprVal.v
theories/PropertiesExprVal.v
theories/SpecExprBound.v
theories/ExprBound.v
theories/PropertiesExprBound.v
theories/SpecMarks.v
theories/MarkCount.v
theories/MarkBound.v
theories/PropertiesMarks.v
theories/SpecSteps.v
theories/Cost.v
theories/StepsThms.v
theories/StepsRec.v
theories/PropertiesSteps.v
theories/SpecResume.v
theories/ResumeThms.v
theories/PropertiesResume.v
theories/BoundLaws.v
theories/PropertiesBoundLaws.v
theories/LocalAny.v
theories/Program.v
theories/SpecProgram.v
theories/ProgramThms.v
theories/PropertiesProgram.v
theories/Copy.v
theories/CopyThms.v
theories/PropertiesCopy.v
theories/SpecSpell.v
theories/SpecSpellValue.v
theories/SpellThms.v
theories/SpellRun.v
theories/SpellValueThms.v
theories/SpellValueRun.v
theories/JsonComments.v
theories/JsonCommentsRead.v
theories/PropertiesSpell.v
theories/SpecReady.v
theories/Ready.v
theories/PropertiesReady.v
theories/Open.v
theories/FirstRun.v
theories/SpecAwait.v
theories/Await.v
theories/PropertiesAwait.v
theories/SpecAwaitSkip.v
theories/AwaitSkip.v
theories/PropertiesAwaitSkip.v
theories/SpecAwaitAny.v
theories/AwaitAny.v
theories/PropertiesAwaitAny.v
theories/Move.v
theories/MoveThms.v
theories/MoveLoss.v
theories/PropertiesMove.v
theories/PropertiesLeaky.v
