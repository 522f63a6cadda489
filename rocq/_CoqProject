-Q theories Verif
theories/Base.v
theories/Path.v
theories/Types.v
theories/Values.v
theories/Levels.v
theories/Errors.v
theories/Format.v
theories/Parser.v
theories/TypeSpec.v
theories/ValueSpec.v
theories/FormatProofs.v
theories/Wp.v
theories/PosSpec.v
theories/Scan.v
theories/IncSpec.v
theories/Induct.v
theories/Include.v
theories/ParserEq.v
theories/Fuel.v
theories/Syntax.v
theories/AgreeBase.v
theories/AgreeLeaf.v
theories/Agree.v
theories/AgreeMain.v
theories/AgreeTop.v
theories/LangSpec.v
theories/PropData.v
theories/PropLoad.v
theories/PropLang.v
theories/PropLit.v
theories/EvalProofs.v
theories/Render.v
theories/PropScope.v
theories/PropNames.v
theories/Roundtrip.v
theories/PropRound.v
theories/PropOps.v
theories/Runtime.v
theories/PropRuntime.v
theories/Disk.v
theories/PropDisk.v
theories/History.v
theories/PropHistory.v
theories/Complete.v
theories/Unique.v
theories/PropComplete.v
theories/Prefix.v
theories/PropText.v
theories/LexSpec.v
theories/Lex.v
theories/PropLex.v
theories/PropStep.v
theories/Keeps.v
theories/Spot.v
theories/FaultBase.v
theories/FaultSound.v
theories/FaultKinds.v
theories/FaultVal.v
theories/FaultBlame.v
theories/FaultDone.v
theories/FaultSeq.v
theories/FaultAtom.v
theories/FaultName.v
theories/FaultChain.v
theories/FaultItems.v
theories/FaultAll.v
theories/PropFault.v
theories/PropBlame.v
theories/IncSem.v
theories/IncSemProofs.v
theories/Back.v
theories/PropInclude.v
theories/Api.v
theories/PropApi.v
theories/Stream.v
theories/PropStream.v
theories/PropPath.v
theories/PropChars.v
theories/PropMsg.v
theories/PropLayout.v
theories/Stack.v
theories/LevelsProofs.v
theories/LevelsBound.v
theories/StackProofs.v
theories/PropStack.v
theories/Locality.v
theories/PropFiles.v
theories/AlphaSpec.v
theories/Alpha.v
theories/PropAlpha.v
theories/StackSpec.v
theories/Count.v
theories/CountProofs.v
theories/PropWork.v
theories/Walk.v
theories/PropWalk.v
theories/Share.v
theories/PropShare.v
theories/Refactor.v
theories/Relate.v
theories/PropRefactor.v
theories/PropMove.v
theories/Afresh.v
theories/AfreshProofs.v
theories/AfreshConv.v
theories/AfreshOp.v
theories/Replace.v
theories/ReplaceProofs.v
theories/PropAfresh.v
theories/PropReplace.v
theories/Changing.v
theories/PropChanging.v
theories/Drop.v
theories/PropDrop.v
theories/PropType.v
theories/PropErrEq.v
theories/Reorg.v
theories/ReorgProofs.v
theories/PropReorg.v
theories/AnyInc.v
theories/Amid.v
theories/AmidProofs.v
theories/PropAmid.v
theories/Header.v
theories/PropHeader.v
theories/PropCases.v
theories/FirstFault.v
theories/PropFirst.v
theories/FieldNames.v
theories/FieldEval.v
theories/FieldText.v
theories/PropFieldNames.v
theories/Edits.v
theories/EditEval.v
theories/PropEdit.v
theories/Constants.v
theories/ConstEval.v
theories/PropConstants.v
theories/Sizes.v
theories/SizeProofs.v
theories/SizeLoad.v
theories/PropSize.v
theories/Clients.v
theories/PropClient.v
theories/IdCount.v
theories/PropIds.v
theories/Revalue.v
theories/PropRevalue.v
theories/PropWritten.v
theories/PropFlat.v
theories/PropAtLeast.v
theories/Assumptions.v
