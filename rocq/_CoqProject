-Q theories Verif
theories/Base.v
theories/Stream.v
theories/Node.v
theories/Rule.v
theories/Parse.v
theories/Grammar.v
theories/Print.v
theories/RepoTests.v
theories/RepoSamples.v
theories/StreamFacts.v
theories/PosFacts.v
theories/SpecStream.v
theories/CallFacts.v
theories/PropsStream.v
theories/Conc.v
theories/ConcFacts.v
theories/PropsConc.v
theories/SpecRule.v
theories/SpecError.v
theories/TermFacts.v
theories/TermSpec.v
theories/EvalInv.v
theories/EvalFuel.v
theories/RuleFacts.v
theories/PropsRule.v
theories/SpecEval.v
theories/SemFacts.v
theories/SpecEv.v
theories/EvFacts.v
theories/EvDet.v
theories/TextFacts.v
theories/EvalSem.v
theories/WfDec.v
theories/PropsEval.v
theories/SpecPlace.v
theories/SpecFault.v
theories/PlaceFacts.v
theories/PropsPlace.v
theories/SpecWhy.v
theories/WhyFacts.v
theories/PropsWhy.v
theories/SpecChoice.v
theories/ChoiceFacts.v
theories/PropsChoice.v
theories/SpecBlock.v
theories/BlockFacts.v
theories/SpecTerm.v
theories/LoopFacts.v
theories/BoundFacts.v
theories/GrowFacts.v
theories/ExclFacts.v
theories/PropsBlock.v
theories/SpecNode.v
theories/NodeFacts.v
theories/NodeText.v
theories/NodeLean.v
theories/NodeExact.v
theories/PropsNode.v
theories/SpecDriver.v
theories/DriverFacts.v
theories/DriverMore.v
theories/DriverErr.v
theories/PropsDriver.v
theories/SpecParse.v
theories/ParseFacts.v
theories/NotationFacts.v
theories/SpecGrammar.v
theories/GrammarFacts.v
theories/GrammarText.v
theories/ClosedFacts.v
theories/ParseMono.v
theories/SpecPrint.v
theories/PrintFacts.v
theories/ReadFacts.v
theories/HistoryFacts.v
theories/PropsParse.v
theories/PropsGrammar.v
theories/Refuse.v
theories/SpecRefuse.v
theories/RefuseFacts.v
theories/StopTerm.v
theories/StopFacts.v
theories/Show.v
theories/Message.v
theories/SpecMessage.v
theories/MessageFacts.v
theories/PropsError.v
theories/SpecShow.v
theories/ShowFacts.v
theories/DrawFacts.v
theories/PropsShow.v
theories/Complain.v
theories/SpecComplain.v
theories/ComplainFacts.v
theories/PropsRefuse.v
theories/SpecSerial.v
theories/OutlineFacts.v
theories/SerialFacts.v
theories/PropsSerial.v
theories/Detail.v
theories/SpecDetail.v
theories/DetailFacts.v
theories/PropsDetail.v
theories/Cli.v
theories/SpecCli.v
theories/CliFacts.v
theories/PropsCli.v
theories/SpecLL.v
theories/LLFacts.v
theories/LLDec.v
theories/SpecLang.v
theories/LangFacts.v
theories/LLMain.v
theories/PropsLL.v
theories/LLKnown.v
theories/JsonLex.v
theories/JsonSafe.v
theories/SpecJson.v
theories/JsonLang.v
theories/JsonValue.v
theories/EraseFacts.v
theories/JsonTree.v
theories/JsonText.v
theories/JsonDriver.v
theories/PropsJson.v
theories/SpecJsonData.v
theories/JsonData.v
theories/JsonDataDrive.v
theories/PropsJsonData.v
theories/SpecStill.v
theories/StillFacts.v
theories/RaiseFacts.v
theories/SpecBones.v
theories/BonesFacts.v
theories/SpecMarks.v
theories/MarksFacts.v
theories/PropsRaise.v
theories/SpecSpare.v
theories/SpareFacts.v
theories/PropsSpare.v
theories/PropsStill.v
theories/StepFacts.v
theories/PropsStep.v
theories/SpecAfresh.v
theories/AfreshFacts.v
theories/PropsAfresh.v
theories/SpecSteady.v
theories/SteadyFacts.v
theories/PropsSteady.v
theories/SpecFirm.v
theories/FirmFacts.v
theories/PropsFirm.v
theories/SpecEmbedJson.v
theories/JsonEmbed.v
theories/PropsEmbedJson.v
theories/SpecEnds.v
theories/RawEnds.v
theories/RepCircle.v
theories/PropsEnds.v
theories/SpecRename.v
theories/RenameFacts.v
theories/PropsRename.v
theories/SpecRefactor.v
theories/RefactorFacts.v
theories/PropsRefactor.v
theories/RawExact.v
theories/PropsExact.v
theories/SpecLayout.v
theories/LayoutFacts.v
theories/LayoutRaw.v
theories/LayoutDec.v
theories/PropsLayout.v
theories/LookFacts.v
theories/LookEval.v
theories/LookRule.v
theories/PropsLook.v
theories/SpecReread.v
theories/RereadFacts.v
theories/PropsReread.v
theories/SpecOrder.v
theories/OrderFacts.v
theories/PropsOrder.v
theories/Bytes.v
theories/BytesFacts.v
theories/BytesRule.v
theories/PropsBytes.v
theories/Slices.v
theories/SliceFacts.v
theories/SliceEval.v
theories/SliceDrive.v
theories/PropsSlices.v
theories/SliceAst.v
theories/SliceFresh.v
theories/SliceMerge.v
theories/PropsSliceAst.v
theories/SpecArith.v
theories/SpecLines.v
theories/ArithLex.v
theories/ArithSafe.v
theories/ArithLang.v
theories/ArithNum.v
theories/ArithExpr.v
theories/ArithRule.v
theories/ArithLook.v
theories/ArithLines.v
theories/ArithDrive.v
theories/PropsArith.v
theories/PropsArithRoot.v
theories/SpecProperty.v
theories/SureFacts.v
theories/PropRules.v
theories/PropLine.v
theories/PropDrive.v
theories/PropsProperty.v
