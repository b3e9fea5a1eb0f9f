-Q theories Verif
theories/ArithModel.v
theories/ArithProofs.v
theories/ArithProofs2.v
theories/ArmsFields.v
theories/ArmsLint.v
theories/ArmsMerge.v
theories/ArmsModel.v
theories/ArmsNorm.v
theories/ArmsOverlap.v
theories/ArmsSpec.v
theories/AsrModel.v
theories/AsrProofs.v
theories/AsrProofs2.v
theories/AsrSpec.v
theories/BlkEnv.v
theories/BlkModel.v
theories/BlkProofs.v
theories/BlkProofs2.v
theories/BlkProofs3.v
theories/BlkProofs4.v
theories/BlkProofs5.v
theories/BlkProofs6.v
theories/BlkProofs7.v
theories/BlkProofs8.v
theories/BlkProofs9.v
theories/BlkSpec.v
theories/BlkSpec2.v
theories/BoolCmpModel.v
theories/BoolCmpProofs.v
theories/BoolCmpSpec.v
theories/BoolModel.v
theories/BoolProofs.v
theories/BoolProofs2.v
theories/BoolProofs3.v
theories/BoolSpec.v
theories/BshModel.v
theories/BshProofs.v
theories/BshProofs2.v
theories/BshSpec.v
theories/CamelModel.v
theories/CamelProofs.v
theories/CamelSpec.v
theories/CargoModel.v
theories/CargoProofs.v
theories/CastModel.v
theories/CastProofs.v
theories/CastProofs2.v
theories/CastSpec.v
theories/CfgModel.v
theories/CfgProofs.v
theories/ClampModel.v
theories/ClampProofs.v
theories/CliModel.v
theories/CliMore.v
theories/CliProofs.v
theories/CliSpec.v
theories/CloBind.v
theories/CloComb.v
theories/CloEager.v
theories/CloEval.v
theories/CloFilter.v
theories/CloFrame.v
theories/CloIdent.v
theories/CloKeep.v
theories/CloLazy.v
theories/CloModel.v
theories/CloMove.v
theories/CloRet.v
theories/CloSpec.v
theories/CloVariant.v
theories/CmpModel.v
theories/CmpProofs.v
theories/CmpProofs2.v
theories/CmpSpec.v
theories/CnrModel.v
theories/CnrProofs.v
theories/CnrSpec.v
theories/ConfModel.v
theories/ConfProofs.v
theories/ConfProofs2.v
theories/ConfSpec.v
theories/ConstModel.v
theories/ConstMore.v
theories/ConstProofs.v
theories/ConstSpec.v
theories/ConstTotal.v
theories/DevModel.v
theories/DevProofs.v
theories/DevProofs2.v
theories/DevProofs3.v
theories/DevSpec.v
theories/DiffModel.v
theories/DiffProofs.v
theories/DurModel.v
theories/EagerProofs.v
theories/EffModel.v
theories/EffProofs.v
theories/EffSpec.v
theories/EntModel.v
theories/EntProofs.v
theories/EntProofs2.v
theories/EntProofs3.v
theories/EntSpec.v
theories/FloatFacts.v
theories/IitModel.v
theories/IitProofs.v
theories/IitSpec.v
theories/IlmModel.v
theories/IlmProofs.v
theories/IlmSpec.v
theories/InfModel.v
theories/InfProofs.v
theories/InfSpec.v
theories/IterEnds.v
theories/IterFilter.v
theories/IterFind.v
theories/IterFold.v
theories/IterLoops.v
theories/IterModel.v
theories/IterProofs.v
theories/IterSim.v
theories/IterSpec.v
theories/LinesModel.v
theories/LinesProofs.v
theories/LinesSpec.v
theories/LintSpec.v
theories/LitModel.v
theories/LitProofs.v
theories/LitSpec.v
theories/LogModel.v
theories/LoopModel.v
theories/LoopProofs.v
theories/LoopSpec.v
theories/MaskProofs.v
theories/MaskProofs2.v
theories/MatModel.v
theories/MatMove.v
theories/MatProofs.v
theories/MatProofs2.v
theories/MatProofs3.v
theories/McoModel.v
theories/McoProofs.v
theories/McoSpec.v
theories/MemModel.v
theories/MemProofs.v
theories/MemProofs2.v
theories/MemProofs3.v
theories/MemSpec.v
theories/MrwModel.v
theories/MrwProofs.v
theories/MrwSpec.v
theories/MsfModel.v
theories/MsfProofs.v
theories/MsfSpec.v
theories/NeedlessBoolProofs.v
theories/NumModel.v
theories/NumProofs.v
theories/NumProofs2.v
theories/NumProofs3.v
theories/NumProofs4.v
theories/NumProofs5.v
theories/NumProofs6.v
theories/NumProofs7.v
theories/NumSpec.v
theories/OrPatModel.v
theories/OrPatProofs.v
theories/OrPatProofs2.v
theories/OrPatProofs3.v
theories/OrPatProofs4.v
theories/OrPatSpec.v
theories/P_Arith.v
theories/P_Arms.v
theories/P_Asr.v
theories/P_Blk.v
theories/P_BlkCounter.v
theories/P_Bool.v
theories/P_BoolCmp.v
theories/P_Bsh.v
theories/P_Camel.v
theories/P_Cast.v
theories/P_Cli.v
theories/P_Clo.v
theories/P_Cmp.v
theories/P_Cnr.v
theories/P_Conf.v
theories/P_Const.v
theories/P_Dev.v
theories/P_Dur.v
theories/P_Eff.v
theories/P_Ent.v
theories/P_Iit.v
theories/P_Ilm.v
theories/P_Inf.v
theories/P_Iter.v
theories/P_Lit.v
theories/P_Log.v
theories/P_Loop.v
theories/P_Mat.v
theories/P_Mco.v
theories/P_Mem.v
theories/P_Mrw.v
theories/P_Msf.v
theories/P_Num.v
theories/P_OrPat.v
theories/P_Panic.v
theories/P_Pat.v
theories/P_Pick.v
theories/P_Poc.v
theories/P_Range.v
theories/P_Rcu.v
theories/P_Reindent.v
theories/P_Rng.v
theories/P_Same.v
theories/P_Sci.v
theories/P_Sip.v
theories/P_Srt.v
theories/P_Str.v
theories/P_Struct.v
theories/P_Sugg.v
theories/P_Svi.v
theories/P_Tail.v
theories/P_Tools.v
theories/P_Unw.v
theories/P_Vip.v
theories/P_Whl.v
theories/P_Wli.v
theories/PanicModel.v
theories/PanicProofs.v
theories/PanicProofs2.v
theories/PanicSpec.v
theories/PatModel.v
theories/PatProofs.v
theories/PatProofs2.v
theories/PatSpec.v
theories/PickModel.v
theories/PickProofs.v
theories/PickProofs2.v
theories/PickProofs3.v
theories/PickProofs4.v
theories/PickProofs5.v
theories/PickPut.v
theories/PocModel.v
theories/PocSpec.v
theories/RangeModel.v
theories/RangeProofs.v
theories/RcuModel.v
theories/RcuProofs.v
theories/RcuProofs2.v
theories/RcuSpec.v
theories/ReindentModel.v
theories/ReindentProofs.v
theories/ReindentSpec.v
theories/RngModel.v
theories/RngProofs.v
theories/RngProofs2.v
theories/RngSpec.v
theories/RotateModel.v
theories/RotateProofs.v
theories/RustExpr.v
theories/RustFacts.v
theories/RustInt.v
theories/RustStmt.v
theories/RustTyping.v
theories/SameAlign.v
theories/SameFinal.v
theories/SameHash.v
theories/SameIfs.v
theories/SameModel.v
theories/SameProofs.v
theories/SameQuiet.v
theories/SameRefl.v
theories/SameRun.v
theories/SameRun2.v
theories/SameRun3.v
theories/SameSearch.v
theories/SameSpec.v
theories/SatModel.v
theories/SatProofs.v
theories/SciModel.v
theories/SciProofs.v
theories/SciSpec.v
theories/SipModel.v
theories/SipProofs.v
theories/SipSpec.v
theories/SrtModel.v
theories/SrtProofs.v
theories/SrtSpec.v
theories/StdSpec.v
theories/StrChars.v
theories/StrClosure.v
theories/StrEnv.v
theories/StrInside.v
theories/StrLints.v
theories/StrModel.v
theories/StrOnce.v
theories/StrReplace.v
theories/StrSpec.v
theories/StrSplit.v
theories/StrStrip.v
theories/StructConst.v
theories/StructProofs.v
theories/StructSpec.v
theories/SuggModel.v
theories/SuggProofs.v
theories/SuggSpec.v
theories/SviModel.v
theories/SviSpec.v
theories/TabsModel.v
theories/TabsProofs.v
theories/TailModel.v
theories/TailProofs.v
theories/TailProofs2.v
theories/TailProofs3.v
theories/TailProofs4.v
theories/Text.v
theories/UnwModel.v
theories/UnwProofs.v
theories/UnwProofs2.v
theories/UnwProofs3.v
theories/UnwSpec.v
theories/UpcastComplete.v
theories/VipModel.v
theories/VipProofs.v
theories/VipSpec.v
theories/WhlModel.v
theories/WhlProofs.v
theories/WhlSpec.v
theories/WliModel.v
theories/WliProofs.v
theories/WliProofs2.v
theories/WliProofs3.v
theories/WliSpec.v
