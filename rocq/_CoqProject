-Q theories Verif
theories/Base.v
theories/Types.v
theories/Repair.v
theories/Result.v
theories/Recovery.v
theories/Prims.v
theories/Layout.v
theories/Combinators.v
theories/Grammar.v
theories/Api.v
theories/Lexer.v
theories/ModelTests.v
theories/Spec.v
theories/Fuel.v
theories/Simulation.v
theories/EditInv.v
theories/EditSpec.v
theories/LocSpec.v
theories/Locations.v
theories/RepInd.v
theories/ApiSpec.v
theories/ApiProofs.v
theories/Examples.v
theories/PropsRecovery.v
theories/LexProofs.v
theories/PropsLexer.v
theories/PegSpec.v
theories/PegProofs.v
theories/PropsPeg.v
theories/LawSpec.v
theories/Lim.v
theories/Laws.v
theories/BindAssoc.v
theories/AltLaws.v
theories/Prios.v
theories/LawLift.v
theories/PropsLaws.v
theories/RunLemmas.v
theories/PropsChoice.v
theories/SingleSpec.v
theories/PropsSingle.v
theories/ManySpec.v
theories/PropsMany.v
theories/PropsResult.v
theories/LayoutSpec.v
theories/PropsLayout.v
theories/Budget.v
theories/PropsBudget.v
theories/TermSpec.v
theories/Term.v
theories/LangInv.v
theories/PropsTerm.v
theories/PropsTotal.v
theories/FirstSpec.v
theories/First.v
theories/PropsFirst.v
theories/CongrSpec.v
theories/Congr.v
theories/PropsCongr.v
theories/Delay.v
theories/DelaySpec.v
theories/PropsDelay.v
theories/Heap.v
theories/HeapSpec.v
theories/HeapProofs.v
theories/HeapSim.v
theories/HeapComb.v
theories/PropsHeap.v
theories/DiagSpec.v
theories/DiagProofs.v
theories/PropsDiag.v
theories/RecSpec.v
theories/RecProofs.v
theories/PropsRec.v
theories/MonoSpec.v
theories/Mono.v
theories/PropsMono.v
theories/LLSpec.v
theories/LL.v
theories/PropsLL.v
theories/PropsPrim.v
theories/PatchSpec.v
theories/Patch.v
theories/PropsPatch.v
theories/ExpSpec.v
theories/Exp.v
theories/ExpAll.v
theories/PropsExp.v
theories/PropsOnline.v
theories/ParamSpec.v
theories/Param.v
theories/PropsParam.v
theories/Cost.v
theories/CostSpec.v
theories/CostProofs.v
theories/PropsCost.v
theories/CostFull.v
theories/CostFullProofs.v
theories/PropsCostFull.v
theories/Stateful.v
theories/StatefulSpec.v
theories/StatefulProofs.v
theories/StatefulSim.v
theories/PropsStateful.v
theories/Depth.v
theories/DepthFull.v
theories/DepthProofs.v
theories/DepthFullProofs.v
theories/DepthBound.v
theories/PropsDepth.v
theories/Json.v
theories/JsonSpec.v
theories/JsonProofs.v
theories/PropsFill.v
theories/JsonLL.v
theories/JsonPatch.v
theories/PropsJson.v
theories/JsonText.v
theories/JsonTests.v
theories/JsonTextSpec.v
theories/JsonTextProofs.v
theories/JsonTextMain.v
theories/PropsJsonText.v
theories/Readme.v
theories/ReadmeSpec.v
theories/ReadmeProofs.v
theories/ReadmeLL.v
theories/PropsReadme.v
theories/ExpLen.v
theories/PropsExpLen.v
theories/FuseSpec.v
theories/Fuse.v
theories/PropsFuse.v
theories/JsonScan.v
theories/JsonScanProofs.v
theories/PropsScan.v
theories/PropsScanPos.v
theories/JsonScanTests.v
theories/Yamlish.v
theories/YamlishSpec.v
theories/YamlishProofs.v
theories/YamlishErr.v
theories/PropsYamlish.v
theories/Chain.v
theories/ChainProofs.v
theories/PropsChain.v
theories/Interp.v
theories/Interrupt.v
theories/InterpProofs.v
theories/PropsInterrupt.v
theories/Regex.v
theories/RegexSpec.v
theories/RegexProofs.v
theories/RegexClients.v
theories/ClientsRe.v
theories/RegexEq.v
theories/RegexTransfer.v
theories/PropsRegex.v
theories/PropsLocStr.v
theories/HeapGen.v
theories/HeapRel.v
theories/Threads.v
theories/PropsThreads.v
theories/PropsRefactor.v
theories/TupleParser.v
theories/PropsTuple.v
theories/Late.v
theories/PropsLate.v
theories/PropsMaybe.v
theories/MendSpec.v
theories/Mend.v
theories/PropsMend.v
theories/RegexText.v
theories/RegexTextProofs.v
theories/PropsRegexText.v
theories/MissSpec.v
theories/Miss.v
theories/PropsMiss.v
theories/PropsMissJson.v
theories/PropsMissText.v
theories/ListSpec.v
theories/Lists.v
theories/PropsList.v
theories/JsonPartSpec.v
theories/PropsListJson.v
theories/GapSpec.v
theories/Gap.v
theories/PropsGap.v
theories/PropsGapJson.v
theories/Tutorial.v
theories/TutorialSpec.v
theories/TutorialProofs.v
theories/TutorialTexts.v
theories/PropsTutorial.v
theories/CloseSpec.v
theories/Close.v
theories/PropsClose.v
theories/PropsCloseReadme.v
theories/PropsCloseJson.v
theories/StatefulPegSpec.v
theories/StatefulPeg.v
theories/PropsStatefulPeg.v
theories/WrongSpec.v
theories/Wrong.v
theories/PropsWrong.v
theories/PropsWrongJson.v
theories/EffectSpec.v
theories/EffectRun.v
theories/Effect.v
theories/EffectComplete.v
theories/PropsEffect.v
theories/LaterSpec.v
theories/Later.v
theories/PropsLater.v
theories/ReplaySpec.v
theories/Replay.v
theories/PropsReplay.v
theories/PropsReplayJson.v
theories/Shut.v
theories/PropsShut.v
theories/PropsErrJson.v
theories/PropsErrExact.v
theories/PropsErrText.v
theories/RegexGroup.v
theories/StatefulStop.v
theories/PropsStop.v
theories/ScanPatch.v
theories/TallySpec.v
theories/TallyCost.v
theories/PropsTally.v
theories/RTallySpec.v
theories/RTallyCost.v
theories/PropsRTally.v
theories/MoreCalls.v
theories/PropsMoreCalls.v
theories/RepCount.v
theories/PropsRepCount.v
theories/Straight.v
theories/PropsStraight.v
theories/PropsOnce.v
