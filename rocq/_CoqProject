-Q theories Verif
theories/Ast.v
theories/Semantics.v
theories/Dict.v
theories/IrModel.v
theories/IrProofs.v
theories/IrProofs2.v
theories/IrProofs3.v
theories/IrProofs4.v
theories/IrProofs5.v
theories/IrProofs6.v
theories/Properties_IR.v
theories/OptProofs.v
theories/OptProofs2.v
theories/Properties_Opt.v
theories/SmtPrelude.v
theories/SmtProofs.v
theories/Properties_Smt.v
theories/RktModel.v
theories/ListOps.v
theories/RktProofs.v
theories/Properties_Rkt.v
theories/UtilModel.v
theories/UtilProofs.v
theories/Properties_Util.v
theories/ObjModel.v
theories/TensModel.v
theories/LibSem.v
theories/TensProofs.v
theories/AxProofs.v
theories/TensDemo.v
theories/TensDemo2.v
theories/Properties_Tens.v
theories/SynthModel.v
theories/SynthProofs.v
theories/Properties_Synth.v
theories/TopoModel.v
theories/TopoProofs.v
theories/Properties_Topo.v
theories/SpecModel.v
theories/SpecProofs.v
theories/SpecProofs2.v
theories/SpecProofs3.v
theories/Properties_Spec.v
theories/PyModel.v
theories/PySem.v
theories/PyProofs.v
theories/PyProofs2.v
theories/PyProofs3.v
theories/PyProofs4.v
theories/PyProofs5.v
theories/Properties_Py.v
theories/LlModel.v
theories/LlSem.v
theories/LlProofs.v
theories/LlProofs2.v
theories/LlProofs3.v
theories/LlProofs4.v
theories/LlProofs5.v
theories/LlProofs6.v
theories/LlProofs7.v
theories/Properties_Ll.v
theories/Properties_Ll2.v
theories/LoopModel.v
theories/LoopProofs.v
theories/Properties_Loop.v
theories/PassModel.v
theories/PassProofs.v
theories/Properties_Pass.v
theories/Properties_Obj.v
theories/GenModel.v
theories/GenProofs.v
theories/Properties_Gen.v
theories/SexpModel.v
theories/SexpProofs.v
theories/SmtPrint.v
theories/SmtText.v
theories/SmtPrintProofs.v
theories/SmtDecode.v
theories/SmtMeaning.v
theories/Properties_Text.v
theories/RosPrint.v
theories/RosText.v
theories/RosProofs.v
theories/Properties_Ros.v
theories/SygRead.v
theories/SygText.v
theories/SygProofs.v
theories/Properties_Syg.v
theories/PyText.v
theories/PyGram.v
theories/PyShape.v
theories/PyParse.v
theories/PyMean.v
theories/Properties_PyText.v
theories/VcModel.v
theories/VcSem.v
theories/VcProofs1.v
theories/VcProofs2.v
theories/VcProofs3.v
theories/VcProofs4.v
theories/VcProofs5.v
theories/VcProofs6.v
theories/Properties_Vc.v
theories/OptProofs3.v
theories/OptProofs4.v
theories/OptProofs5.v
theories/NpModel.v
theories/NpSem.v
theories/NpProofs.v
theories/NpProofs2.v
theories/NpProofs3.v
theories/NpProofs4.v
theories/NpProofs5.v
theories/Properties_Np.v
theories/GdModel.v
theories/GdSem.v
theories/GdProofs1.v
theories/GdProofs2.v
theories/GdProofs3.v
theories/GdProofs4.v
theories/GdProofs5.v
theories/GdProofs6.v
theories/GdProofs7.v
theories/GdProofs8.v
theories/GdProofs9.v
theories/GdProofs10.v
theories/Properties_Gd.v
theories/LmModel.v
theories/LmSem.v
theories/LmProofs.v
theories/LmProofs2.v
theories/LmProofs3.v
theories/LmProofs4.v
theories/LmProofs5.v
theories/LmProofs6.v
theories/LmProofs7.v
theories/LmProofs8.v
theories/LmLoop.v
theories/LmLoopSem.v
theories/LmLoopProofs.v
theories/Properties_Lm.v
theories/Properties_LmLoop.v
theories/AlModel.v
theories/AlSem.v
theories/AlProofs.v
theories/AlProofs2.v
theories/AlProofs3.v
theories/Properties_Al.v
theories/GdText.v
theories/Properties_GdText.v
theories/GmModel.v
theories/GmSem.v
theories/GmProofs1.v
theories/GmProofs2.v
theories/GmProofs3.v
theories/GmProofs4.v
theories/Properties_Gm.v
theories/DslModel.v
theories/DslProofs.v
theories/Properties_Dsl.v
theories/SolModel.v
theories/SolProofs.v
theories/Properties_Sol.v
theories/SolInvModel.v
theories/Properties_SolInv.v
theories/LuModel.v
theories/LuProofs.v
theories/Properties_Lu.v
theories/PromptModel.v
theories/Properties_Prompt.v
theories/AnswerModel.v
theories/Properties_Answer.v
theories/AugModel.v
theories/Properties_Aug.v
theories/CommentModel.v
theories/Properties_Comment.v
