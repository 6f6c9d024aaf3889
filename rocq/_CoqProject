-Q theories Verif
theories/Base.v
theories/Numerals.v
theories/Output.v
theories/U64.v
theories/Literals.v
theories/PropNumbers.v
theories/Store.v
theories/StoreProof.v
theories/PropStore.v
theories/Libc.v
theories/LibcNum.v
theories/PropLibc.v
theories/Reader.v
theories/PropReader.v
theories/Ast.v
theories/EvalConst.v
theories/Cond.v
theories/Enum.v
theories/PropConst.v
theories/Asm.v
theories/AsmProof.v
theories/Elf.v
theories/PropAsm.v
theories/PropAsm2.v
theories/X86.v
theories/X86Proof.v
theories/X86Sem.v
theories/PropX86.v
theories/Layout.v
theories/PropLayout.v
theories/Env.v
theories/PropEnv.v
theories/NMach.v
theories/NLink.v
theories/NPtr.v
theories/PropPtr.v
theories/Text.v
theories/PropText.v
theories/Decls.v
theories/PropDecls.v
theories/ShLocals.v
theories/PropShLocals.v
theories/ShHeap.v
theories/PropShHeap.v
theories/ShStr.v
theories/PropShStr.v
theories/ShRead.v
theories/PropShRead.v
theories/Parse.v
theories/Grammar.v
theories/PropParse.v
theories/CLang.v
theories/NGen.v
theories/NSupp.v
theories/NBin.v
theories/NRun.v
theories/NBop.v
theories/NEqs.v
theories/NStat.v
theories/NJudge.v
theories/NExpr.v
theories/NExpr2.v
theories/NExpr3.v
theories/NExpr4.v
theories/NStat2.v
theories/NStmt.v
theories/NSwitch.v
theories/NCall.v
theories/NRt.v
theories/NMain.v
theories/CProg.v
theories/NProg.v
theories/NMono.v
theories/NLab.v
theories/NSetup.v
theories/NWhole.v
theories/NWhole2.v
theories/NWhole3.v
theories/NWhole4.v
theories/NWhole5.v
theories/PropNative.v
theories/PropNative2.v
theories/PropNative3.v
theories/PropNative4.v
theories/PropNative5.v
theories/ShArith.v
theories/ShExpr.v
theories/ShCSem.v
theories/ShEqs.v
theories/ShFacts.v
theories/ShFacts2.v
theories/ShSyn.v
theories/ShSem.v
theories/ShMain.v
theories/ShMain2.v
theories/ShMain3.v
theories/ShMain4.v
theories/ShMain5.v
theories/ShMain6.v
theories/PropShArith.v
theories/Lex.v
theories/PropLex.v
theories/Macro.v
theories/MacroProof.v
theories/MacroProof2.v
theories/PropMacro.v
theories/ShStmt.v
theories/ShStmtProof.v
theories/PropShStmt.v
theories/ShCall.v
theories/ShCallProof.v
theories/PropShCall.v
theories/ShNames.v
theories/PropShNames.v
theories/ShPrintf.v
theories/PropShPrintf.v
theories/PropShPrintf2.v
theories/ParseStmt.v
theories/GrammarStmt.v
theories/PropParseStmt.v
theories/ShProg.v
theories/ShLock.v
theories/ShProg1.v
theories/ShProg2.v
theories/ShProg3.v
theories/ShProg4.v
theories/ShProg5.v
theories/PropShProg.v
theories/Paste.v
theories/PasteProof.v
theories/PasteStore.v
theories/PropPaste.v
theories/ShNest.v
theories/ShNest1.v
theories/ShNest2.v
theories/ShNest3.v
theories/ShNest4.v
theories/ShNest5.v
theories/ShNest6.v
theories/ShNest7.v
theories/PropShNest.v
theories/PropAccept.v
theories/ShGlobal.v
theories/ShGlobal1.v
theories/ShGlobal2.v
theories/ShGlobal3.v
theories/ShGlobal4.v
theories/PropShGlobal.v
theories/Ctype.v
theories/Stdio.v
theories/PropStdio.v
theories/Define.v
theories/PropDefine.v
theories/FrontEnd.v
theories/PropFront.v
theories/PropFront2.v
theories/PropFront3.v
