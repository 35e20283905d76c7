-Q theories Verif
theories/M_Alloc.v
theories/M_Arith.v
theories/M_Attr.v
theories/M_Callback.v
theories/M_ClearAll.v
theories/M_Comb.v
theories/M_Compare.v
theories/M_Conc.v
theories/M_CplxRules.v
theories/M_DefText.v
theories/M_Defs.v
theories/M_Eval.v
theories/M_FixedList.v
theories/M_Float.v
theories/M_FreeQ.v
theories/M_Functional.v
theories/M_Graphics.v
theories/M_Hash.v
theories/M_Heap.v
theories/M_InputForm.v
theories/M_Interrupt.v
theories/M_LibAssign.v
theories/M_LibBool.v
theories/M_LibCalc.v
theories/M_LibComplex.v
theories/M_LibExp.v
theories/M_LibExpand.v
theories/M_LibInf.v
theories/M_LibList.v
theories/M_LibManip.v
theories/M_LibMat.v
theories/M_LibNum.v
theories/M_LibPoly.v
theories/M_LibPower.v
theories/M_LibSolve.v
theories/M_LibTrig.v
theories/M_List.v
theories/M_Match.v
theories/M_Matrix.v
theories/M_Module.v
theories/M_N.v
theories/M_Num.v
theories/M_NumTheory.v
theories/M_OpForm.v
theories/M_Order.v
theories/M_Package.v
theories/M_Parallel.v
theories/M_Parse.v
theories/M_Pause.v
theories/M_Prime.v
theories/M_Print.v
theories/M_Random.v
theories/M_RealFn.v
theories/M_Replace.v
theories/M_ReplacePart.v
theories/M_Save.v
theories/M_Script.v
theories/M_Simplify.v
theories/M_Sort.v
theories/M_Streams.v
theories/M_String.v
theories/M_Syntax.v
theories/M_TeX.v
theories/M_TimeCount.v
theories/M_Timed.v
theories/M_Trace.v
theories/M_Unique.v
theories/P_Algebra.v
theories/P_Alloc.v
theories/P_Arith.v
theories/P_Arith2.v
theories/P_Basel.v
theories/P_Call.v
theories/P_Callback.v
theories/P_Comb.v
theories/P_Compare.v
theories/P_Complex.v
theories/P_Cplx.v
theories/P_Defs.v
theories/P_Defs2.v
theories/P_Defs3.v
theories/P_Defs4.v
theories/P_Defs5.v
theories/P_Eval.v
theories/P_Eval2.v
theories/P_Eval3.v
theories/P_Eval4.v
theories/P_Float.v
theories/P_Functional.v
theories/P_Hash.v
theories/P_Heap.v
theories/P_Heap2.v
theories/P_InputForm.v
theories/P_InputForm2.v
theories/P_Iter.v
theories/P_LibExpand.v
theories/P_LibExpand2.v
theories/P_LibNum.v
theories/P_LibNum2.v
theories/P_LibNum3.v
theories/P_LibPoly.v
theories/P_List.v
theories/P_MatchComplete.v
theories/P_MatchComplete2.v
theories/P_MatchFuel.v
theories/P_MatchNames.v
theories/P_MatchSound.v
theories/P_Matrix.v
theories/P_Num.v
theories/P_NumTheory.v
theories/P_OpForm.v
theories/P_OpForm2.v
theories/P_Order.v
theories/P_OrderNum.v
theories/P_OrderTrans.v
theories/P_OrderZero.v
theories/P_Parse.v
theories/P_Polar.v
theories/P_Print.v
theories/P_Replace.v
theories/P_Sort.v
theories/S_Alloc.v
theories/S_Arith.v
theories/S_Call.v
theories/S_Cases.v
theories/S_Comb.v
theories/S_Compare.v
theories/S_Complex.v
theories/S_Defs.v
theories/S_Eval.v
theories/S_Field.v
theories/S_Functional.v
theories/S_Graphics.v
theories/S_Heap.v
theories/S_InputForm.v
theories/S_Iter.v
theories/S_LibBool.v
theories/S_LibList.v
theories/S_LibNum.v
theories/S_List.v
theories/S_MReal.v
theories/S_Match.v
theories/S_Matrix.v
theories/S_N.v
theories/S_Num.v
theories/S_NumTheory.v
theories/S_OpForm.v
theories/S_Order.v
theories/S_Parallel.v
theories/S_Parse.v
theories/S_Polar.v
theories/S_Prime.v
theories/S_Print.v
theories/S_Real.v
theories/S_Replace.v
theories/S_SameQ.v
theories/S_Solve.v
theories/S_Sort.v
theories/S_Streams.v
theories/S_String.v
theories/S_Syntax.v
theories/S_Trig.v
theories/T_Alloc.v
theories/T_AppendTo.v
theories/T_Arith.v
theories/T_Assign.v
theories/T_Attr.v
theories/T_Call.v
theories/T_Callback.v
theories/T_Cases.v
theories/T_ClearAll.v
theories/T_Comb.v
theories/T_Compare.v
theories/T_CondExpr.v
theories/T_CplxRules.v
theories/T_DefText.v
theories/T_Defs.v
theories/T_Defs2.v
theories/T_Eval.v
theories/T_Eval2.v
theories/T_Eval3.v
theories/T_Eval4.v
theories/T_Eval5.v
theories/T_FixedList.v
theories/T_FlatRule.v
theories/T_For.v
theories/T_FreeQ.v
theories/T_Functional.v
theories/T_Graphics.v
theories/T_Heap.v
theories/T_InputForm.v
theories/T_Interrupt.v
theories/T_Iter.v
theories/T_Iter2.v
theories/T_LibBool.v
theories/T_LibCalc.v
theories/T_LibComplex.v
theories/T_LibComplex2.v
theories/T_LibExp.v
theories/T_LibExpand.v
theories/T_LibExpand2.v
theories/T_LibInf.v
theories/T_LibList.v
theories/T_LibManip.v
theories/T_LibMat.v
theories/T_LibNum.v
theories/T_LibPoly.v
theories/T_LibPower.v
theories/T_LibSolve.v
theories/T_LibSolve2.v
theories/T_LibTrig.v
theories/T_List.v
theories/T_MReal.v
theories/T_MRealInf.v
theories/T_Match.v
theories/T_Matrix.v
theories/T_Module.v
theories/T_Module2.v
theories/T_N.v
theories/T_N2.v
theories/T_Num.v
theories/T_NumTheory.v
theories/T_OpForm.v
theories/T_Order.v
theories/T_Package.v
theories/T_Parallel.v
theories/T_Parse.v
theories/T_Pause.v
theories/T_Prime.v
theories/T_Print.v
theories/T_Random.v
theories/T_RealFn.v
theories/T_Repeated.v
theories/T_Replace.v
theories/T_Replace2.v
theories/T_ReplacePart.v
theories/T_SameQ.v
theories/T_Save.v
theories/T_Script.v
theories/T_SetDelayed.v
theories/T_Simplify.v
theories/T_Sort.v
theories/T_Sow.v
theories/T_Streams.v
theories/T_String.v
theories/T_TeX.v
theories/T_TimeCount.v
theories/T_Timed.v
theories/T_Trace.v
theories/T_Unique.v
theories/T_With.v
