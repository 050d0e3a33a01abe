-Q theories Verif

theories/Base.v
theories/ByteSet.v
theories/Cst.v
theories/Parser.v
theories/Ast.v
theories/SelfGrammar.v
theories/TableGen.v
theories/FromCst.v
theories/ExamplesModel.v
theories/RefTables.v
theories/Conformance.v
theories/Spec_ByteSet.v
theories/ByteSetProofs.v
theories/ByteSetTime.v
theories/Props_ByteSet.v
theories/Spec_Parse.v
theories/Spec_Tree.v
theories/ParserProofs.v
theories/TreeProofs.v
theories/ParseApi.v
theories/WalkProofs.v
theories/Concurrent.v
theories/ConcurrentProofs.v
theories/ParseApi2.v
theories/Props_Parser.v
theories/Spec_Grammar.v
theories/Spec_Table.v
theories/GrammarProofs.v
theories/TGFirsts.v
theories/TGFollows.v
theories/TGTable.v
theories/TGMain.v
theories/TGCells.v
theories/TGClosed.v
theories/TGParse.v
theories/TGNames.v
theories/TGCheck.v
theories/Props_TableGen.v
theories/Examples.v
theories/Spec_Convert.v
theories/ConvertProofs.v
theories/Props_Convert.v
theories/Spec_Bnf.v
theories/BnfDet.v
theories/BnfPrint.v
theories/BnfParser.v
theories/BnfWords.v
theories/BnfTrees.v
theories/Checked.v
theories/Props_Bnf.v
theories/NulProofs.v
theories/ConvertText.v
theories/NulText.v
theories/JsonParser.v
theories/Spec_Json.v
theories/JsonWords.v
theories/JsonTrees.v
theories/JsonDet.v
theories/Props_Json.v
theories/Spec_ParseTree.v
theories/TGTrees.v
theories/Spec_Time.v
theories/TGTime.v
theories/Props_Trees.v
theories/Spec_Reading.v
theories/Props_Reading.v
theories/ConvertConcurrent.v
theories/ConvertConcurrentProofs.v
theories/Props_ConvertConcurrent.v
theories/Spec_Viable.v
theories/TGViable.v
theories/Props_Viable.v
theories/Spec_LeftRec.v
theories/TGLeftRec.v
theories/Props_LeftRec.v
theories/Spec_Reorder.v
theories/TGReorder.v
theories/Props_Reorder.v
theories/TestTools.v
theories/Spec_TestTools.v
theories/TestToolsProofs.v
theories/Props_TestTools.v
theories/SliceMem.v
theories/ParserMem.v
theories/Spec_Mem.v
theories/ParserMemProofs.v
theories/Props_Mem.v
theories/TGHandled.v
theories/Props_Handled.v
theories/Spec_Override.v
theories/TGOverride.v
theories/Props_Override.v
theories/Spec_Outcome.v
theories/TGOutcome.v
theories/Props_Outcome.v
theories/TableGenOutput.v
theories/TGOutput.v
theories/Props_Output.v
theories/Spec_Lookup.v
theories/Props_Lookup.v
theories/Spec_Size.v
theories/Props_Size.v
theories/TableGenMem.v
theories/Spec_GenMem.v
theories/TGMem.v
theories/Props_GenMem.v
theories/FromCstMem.v
theories/ConvertMem.v
theories/Props_ConvertMem.v
theories/ParserInt.v
theories/Props_Int.v
theories/Spec_Stack.v
theories/Props_Stack.v
theories/TGWords.v
theories/Readers.v
theories/Spec_Readers.v
theories/Props_Readers.v
theories/WalkAny.v
theories/Spec_Walk.v
theories/Props_Walk.v
theories/Spec_Sub.v
theories/TGSub.v
theories/Props_Sub.v
theories/TGExchange.v
theories/Props_Exchange.v
theories/Spec_Predict.v
theories/TGPredict.v
theories/Props_Predict.v
theories/Props_Pipeline.v
theories/Spec_Extend.v
theories/TGExtend.v
theories/Props_Extend.v
theories/Spec_Foreign.v
theories/Props_Foreign.v
theories/Messages.v
theories/Spec_Messages.v
theories/MessagesProofs.v
theories/Props_Messages.v
theories/Histories.v
theories/Spec_Histories.v
theories/Props_Histories.v
theories/ConcurrentMany.v
theories/Spec_Concurrent.v
theories/Props_Concurrent.v
theories/Spec_Programs.v
theories/ProgramsProofs.v
theories/Props_Programs.v
theories/Spec_Printing.v
theories/PrintProofs.v
theories/Props_Printing.v
theories/Spec_Cells.v
theories/Props_Cells.v
theories/FromCstAny.v
theories/Spec_AnyNode.v
theories/AnyNodeProofs.v
theories/Props_AnyNode.v
theories/Spec_Grow.v
theories/Props_Grow.v
theories/Spec_StdJson.v
theories/StdJson.v
theories/Props_StdJson.v
theories/FromCstTime.v
theories/ConvertTime.v
theories/Props_ConvertTime.v
theories/Spec_Renumber.v
theories/Renumber.v
theories/Props_Renumber.v
theories/Spec_Recode.v
theories/Recode.v
theories/Props_Recode.v
theories/TableGenTime.v
theories/Spec_GenTime.v
theories/GenTime.v
theories/GenTimeLow.v
theories/Props_GenTime.v
theories/Spec_Respell.v
theories/Respell.v
theories/Props_Respell.v
theories/FromCstDepth.v
theories/ConvertDepth.v
theories/Props_Depth.v
theories/Spec_Helper.v
theories/Helper.v
theories/Props_Helper.v
theories/Spec_Repeat.v
theories/Props_Repeat.v
theories/Spec_Reduce.v
theories/Reduce.v
theories/Props_Reduce.v
theories/Spec_Combine.v
theories/Combine.v
theories/Props_Combine.v
theories/Spec_Lead.v
theories/Lead.v
theories/Props_Lead.v
theories/Spec_Alloc.v
theories/ParserTime.v
theories/ParserAlloc.v
theories/Props_Alloc.v
theories/Spec_Layout.v
theories/Layout.v
theories/Props_Layout.v
theories/Spec_SetVars.v
theories/ByteSetMem.v
theories/ByteSetMemProofs.v
theories/Props_SetVars.v
theories/Spec_Repair.v
theories/Repair.v
theories/Props_Repair.v
theories/GoFmt.v
theories/GoFmtProofs.v
theories/GoFmtProofs2.v
theories/TestFiles.v
theories/RefTexts.v
theories/Spec_TestFiles.v
theories/Props_TestFiles.v
theories/Spec_TableSize.v
theories/TGAlloc.v
theories/TGWide.v
theories/Props_TableSize.v
theories/ExecuteTests.v
theories/Spec_ExecuteTests.v
theories/Props_ExecuteTests.v
theories/TableGenConc.v
theories/Spec_GenConc.v
theories/GenConcProofs.v
theories/GenConcRel.v
theories/GenConcInv.v
theories/Props_GenConc.v
theories/ParserConc.v
theories/Spec_ParserConc.v
theories/ParserConcProofs.v
theories/ParserConcRel.v
theories/ParserConcInv.v
theories/Props_ParserConc.v
theories/PipeConc.v
theories/Spec_PipeConc.v
theories/PipeConcInv.v
theories/Props_PipeConc.v
theories/ConvertConc.v
theories/Spec_ConvertConc.v
theories/ConvertConcProofs.v
theories/ConvertConcInv.v
theories/Props_ConvertConc.v
theories/MixConc.v
theories/Spec_MixConc.v
theories/MixConcProofs.v
theories/Props_MixConc.v
theories/PipeAll.v
theories/Spec_PipeAll.v
theories/PipeAllProofs.v
theories/Props_PipeAll.v
theories/Spec_EndConc.v
theories/Props_EndConc.v
