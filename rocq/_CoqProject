-Q theories Verif

theories/M_Types.v
theories/M_Base.v
theories/M_Utf8.v
theories/M_Str.v
theories/M_Trans.v
theories/M_Strconv.v
theories/M_StrTrans.v
theories/M_Equal.v
theories/M_Match.v
theories/M_Obj.v
theories/M_Grammar.v
theories/M_Production.v
theories/S_Gram.v
theories/S_Peg.v
theories/S_Core.v
theories/L_Fuel.v
theories/L_Peg.v
theories/L_PegComp.v
theories/L_Leaf.v
theories/L_Inv.v
theories/S_Text.v
theories/L_Utf8.v
theories/L_CoreInv.v
theories/L_LeafInv.v
theories/L_Core.v
theories/L_Core2.v
theories/P_Core.v
theories/S_Str.v
theories/L_Str.v
theories/L_Text.v
theories/P_Str.v
theories/S_Place.v
theories/L_Place.v
theories/P_Place.v
theories/S_Trans.v
theories/L_Trans.v
theories/P_Trans.v
theories/S_Obj.v
theories/L_Obj.v
theories/P_Obj.v
theories/M_Extra.v
theories/S_Lang.v
theories/L_Lang.v
theories/S_Extra.v
theories/L_Extra.v
theories/P_Extra.v
theories/M_LineCol.v
theories/S_LineCol.v
theories/L_LineCol.v
theories/P_LineCol.v
theories/M_Traverse.v
theories/S_Traverse.v
theories/L_Traverse.v
theories/P_Traverse.v
theories/M_Tracer.v
theories/S_Tracer.v
theories/L_Tracer.v
theories/P_Tracer.v
theories/M_Indirect.v
theories/L_Indirect.v
theories/P_Indirect.v
theories/M_Box.v
theories/S_Box.v
theories/L_Box.v
theories/P_Box.v
theories/M_Csv.v
theories/M_Formula.v
theories/S_Csv.v
theories/L_Csv.v
theories/L_CsvBack.v
theories/P_Csv.v
theories/S_Formula.v
theories/L_FormulaTree.v
theories/L_FormulaProd.v
theories/S_Err.v
theories/L_Err.v
theories/L_FormulaLex.v
theories/L_FormulaText.v
theories/L_Swap.v
theories/L_FormulaParse.v
theories/L_Formula.v
theories/P_Formula.v
theories/M_Torpn.v
theories/S_Torpn.v
theories/L_Torpn.v
theories/P_Torpn.v
theories/M_Marshal.v
theories/S_Marshal.v
theories/L_Marshal.v
theories/P_Marshal.v
theories/M_Heap.v
theories/S_Heap.v
theories/L_Heap.v
theories/L_HeapRun.v
theories/L_HeapUse.v
theories/P_Heap.v
theories/S_Match.v
theories/L_Match.v
theories/P_Match.v
theories/M_Time.v
theories/S_Time.v
theories/L_Time.v
theories/P_Time.v
theories/M_Slice.v
theories/S_Slice.v
theories/L_Slice.v
theories/P_Slice.v
theories/M_Float.v
theories/S_Float.v
theories/L_Float.v
theories/P_Float.v
theories/S_Ident.v
theories/L_Ident.v
theories/P_Ident.v
theories/S_Rec.v
theories/L_Rec.v
theories/P_Rec.v
theories/M_Err.v
theories/S_ErrText.v
theories/L_ErrText.v
theories/P_Err.v
theories/S_Bound.v
theories/L_Bound.v
theories/P_Bound.v
theories/S_IntTok.v
theories/L_IntTok.v
theories/P_IntTok.v
theories/M_Wasm.v
theories/P_Wasm.v
theories/M_Refl.v
theories/S_Refl.v
theories/L_Refl.v
theories/P_Refl.v
theories/M_Boxes.v
theories/S_Boxes.v
theories/L_Boxes.v
theories/P_Boxes.v
theories/S_NumErr.v
theories/L_NumErr.v
theories/P_NumErr.v
theories/S_MarshalX.v
theories/L_MarshalX.v
theories/P_MarshalX.v
theories/S_FormulaRead.v
theories/L_FormulaRead.v
theories/P_FormulaRead.v
theories/M_FloatAll.v
theories/S_FloatAll.v
theories/L_FloatAll.v
theories/L_FloatUse.v
theories/P_FloatAll.v
theories/M_Quote.v
theories/S_Quote.v
theories/L_Quote.v
theories/P_Quote.v
theories/M_World.v
theories/M_TorpnMem.v
theories/L_World.v
theories/L_TorpnMem.v
theories/P_TorpnMem.v
theories/L_Exact.v
theories/M_Reuse.v
theories/S_Reuse.v
theories/L_Reuse.v
theories/P_Reuse.v
theories/S_Blur.v
theories/L_Blur.v
theories/L_BlurLib.v
theories/M_Shared.v
theories/S_Shared.v
theories/L_Shared.v
theories/L_BlurUse.v
theories/P_Blur.v
theories/P_Shared.v
theories/L_TimeAll.v
theories/P_TimeAll.v
theories/M_Format.v
theories/S_Format.v
theories/L_Format.v
theories/L_FormatUse.v
theories/L_Single.v
theories/P_Format.v
theories/S_Equal.v
theories/L_Equal.v
theories/P_Equal.v
theories/M_CsvAny.v
theories/S_CsvAny.v
theories/P_CsvAny.v
theories/M_Intro.v
theories/P_Intro.v
theories/P_Tests.v
theories/M_Live.v
theories/S_Live.v
theories/L_Live.v
theories/P_Live.v
theories/M_DeepMem.v
theories/S_DeepMem.v
theories/L_DeepMem.v
theories/P_DeepMem.v
theories/S_Laws.v
theories/L_Laws.v
theories/P_Laws.v
theories/M_Count.v
theories/S_Count.v
theories/L_CountW.v
theories/L_Count.v
theories/L_CountMax.v
theories/L_CountMin.v
theories/L_CsvCount.v
theories/P_Count.v
theories/S_CountTrace.v
theories/L_CountTrace.v
theories/P_CountTrace.v
theories/M_CountRule.v
theories/S_CountRule.v
theories/L_CountRule.v
theories/L_CountTable.v
theories/L_CountFormula.v
theories/L_CountUnits.v
theories/L_CountSum.v
theories/P_CountRule.v
theories/M_Reach.v
theories/S_Reach.v
theories/L_Reach.v
theories/L_ReachLib.v
theories/L_ReachUse.v
theories/P_Reach.v
theories/M_Depth.v
theories/S_Depth.v
theories/L_Depth.v
theories/L_DepthFormula.v
theories/L_DepthLow.v
theories/P_Depth.v
theories/L_CsvSettle.v
theories/P_CsvSettle.v
theories/S_Agree.v
theories/L_Agree.v
theories/P_Agree.v
theories/S_CsvJoin.v
theories/L_CsvJoin.v
theories/P_CsvJoin.v
theories/S_Compose.v
theories/L_Compose.v
theories/P_Compose.v
theories/S_Spacing.v
theories/L_Spacing.v
theories/P_Spacing.v
theories/S_Viable.v
theories/L_Viable.v
theories/P_Viable.v
theories/L_CsvPrefix.v
theories/P_CsvPrefix.v
theories/L_Exchange.v
theories/P_Exchange.v
theories/L_CsvCells.v
theories/P_CsvCells.v
theories/L_LineOrder.v
theories/P_LineOrder.v
theories/L_Message.v
theories/P_Message.v
theories/P_Tokens.v
theories/L_CsvKept.v
theories/P_CsvKept.v
theories/L_Operands.v
theories/P_Operands.v
theories/L_TimeOrder.v
theories/P_TimeOrder.v
