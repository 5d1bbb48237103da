-Q theories Verif
theories/IntModel.v
theories/IntProofs.v
theories/PropertiesInt.v
theories/SortModel.v
theories/DomainSortProofs.v
theories/TarjanProofs.v
theories/PropertiesSort.v
theories/LoopModel.v
theories/LoopSpec.v
theories/LoopLists.v
theories/LoopCount.v
theories/LoopKeys.v
theories/LoopOrder.v
theories/LoopGen.v
theories/LoopSimplify.v
theories/LoopBox.v
theories/LoopCube.v
theories/LoopMain.v
theories/LoopBridge.v
theories/LoopFun.v
theories/LoopExamples.v
theories/PropertiesLoop.v
theories/ClastModel.v
theories/ClastSpec.v
theories/ClastBounds.v
theories/ClastGuards.v
theories/ClastModulo.v
theories/ClastHeader.v
theories/ClastDivs.v
theories/ClastMain.v
theories/ClastCmp.v
theories/ClastExamples.v
theories/ClastTotal.v
theories/ClastReturns.v
theories/ClastReady.v
theories/ClastEnd.v
theories/PropertiesClast.v
theories/PropertiesReturns.v
theories/PprintModel.v
theories/CReader.v
theories/PprintSpec.v
theories/PprintLex.v
theories/PprintParse.v
theories/PprintExpr.v
theories/PprintStmt.v
theories/ClastPrint.v
theories/ClastNames.v
theories/PprintEnd.v
theories/PropertiesPprint.v
theories/ProgramModel.v
theories/ProgramSpec.v
theories/ProgramScalars.v
theories/ProgramBlock.v
theories/ProgramLoopBlock.v
theories/ProgramMain.v
theories/ProgramBox.v
theories/PropertiesProgram.v
theories/StrideModel.v
theories/StrideProofs.v
theories/StrideBox.v
theories/PropertiesStride.v
theories/FilterModel.v
theories/FilterSpec.v
theories/FilterProofs.v
theories/PropertiesFilter.v
theories/NamesModel.v
theories/NamesSpec.v
theories/NamesProofs.v
theories/PropertiesNames.v
theories/OptionsModel.v
theories/OptionsSpec.v
theories/OptionsProofs.v
theories/PropertiesOptions.v
theories/HeapModel.v
theories/HeapSpec.v
theories/HeapProofs.v
theories/HeapInv.v
theories/PropertiesHeap.v
theories/RowModel.v
theories/RowSpec.v
theories/RowProofs.v
theories/RowDefine.v
theories/RowReduce.v
theories/PropertiesRow.v
theories/DivModel.v
theories/DivSpec.v
theories/DivProofs.v
theories/PropertiesDiv.v
theories/TextModel.v
theories/TextSpec.v
theories/TextProofs.v
theories/PropertiesText.v
theories/InputModel.v
theories/InputSpec.v
theories/InputProofs.v
theories/PropertiesInput.v
theories/TerminateSpec.v
theories/TerminateLists.v
theories/TerminateProofs.v
theories/TerminateBox.v
theories/TerminateAlloc.v
theories/PropertiesTerminate.v
theories/StopSpec.v
theories/StopProofs.v
theories/PropertiesStop.v
theories/FileReader.v
theories/FileModel.v
theories/FileSpec.v
theories/FileLex.v
theories/FileParse.v
theories/FileText.v
theories/FileRead.v
theories/FileMain.v
theories/FileCall.v
theories/FileRun.v
theories/FileEnd.v
theories/EndSpec.v
theories/LoopFrom.v
theories/EndProofs.v
theories/PropertiesFile.v
theories/PropertiesEnd.v
theories/IslModel.v
theories/IslSpec.v
theories/IslProofs.v
theories/PropertiesIsl.v
theories/FReader.v
theories/FReal.v
theories/FSpec.v
theories/FParse.v
theories/FExpr.v
theories/FStmt.v
theories/FEnd.v
theories/FExact.v
theories/FFile.v
theories/LoopNoStride.v
theories/LoopOtl.v
theories/FClast.v
theories/PropertiesFortran.v
theories/ToolModel.v
theories/ToolSpec.v
theories/ToolProofs.v
theories/ToolPlain.v
theories/LoopFuel.v
theories/ToolTotal.v
theories/PropertiesTool.v
theories/PropertiesPlain.v
theories/PropertiesAnswer.v
theories/LibraryModel.v
theories/LibrarySpec.v
theories/PropertiesLibrary.v
theories/ImportModel.v
theories/ImportSpec.v
theories/PropertiesImport.v
theories/UnrollModel.v
theories/UnrollSpec.v
theories/PropertiesUnroll.v
theories/SplitModel.v
theories/SplitSpec.v
theories/PropertiesSplit.v
theories/BackendModel.v
theories/BackendSpec.v
theories/BackendSets.v
theories/PropertiesBackend.v
theories/StrideLowerModel.v
theories/PropertiesStrideLower.v
theories/ClosedSpec.v
theories/PropertiesClosed.v
theories/BackendCode.v
theories/PropertiesBackendCode.v
theories/ReduceModel.v
theories/ReduceSpec.v
theories/ReduceSets.v
theories/PropertiesReduce.v
theories/PropertiesReduceCode.v
theories/TreeHeapModel.v
theories/TreeHeapSpec.v
theories/TreeHeapOwn.v
theories/TreeHeapProofs.v
theories/TreeHeapInv.v
theories/PropertiesTreeHeap.v
theories/PDumpModel.v
theories/PDumpSpec.v
theories/PDumpProofs.v
theories/PropertiesPDump.v
theories/MessageModel.v
theories/PropertiesMessage.v
theories/ColumnModel.v
theories/PropertiesColumn.v
theories/RowWalkModel.v
theories/PropertiesRowWalk.v
theories/ConvertModel.v
theories/PropertiesConvert.v
theories/ChainModel.v
theories/PropertiesChain.v
theories/SlotModel.v
theories/PropertiesSlot.v
theories/CombineModel.v
theories/PropertiesCombine.v
