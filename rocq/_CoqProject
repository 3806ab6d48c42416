-Q theories Verif
theories/Word.v
theories/IntRangeModel.v
theories/IntRangeSpec.v
theories/IntRangeProofs.v
theories/IntRangeOps.v
theories/IntRangeExact.v
theories/IntRangeProps.v
theories/CmpModel.v
theories/IR.v
theories/PatternMatch.v
theories/ArithRules.v
theories/ArithTac.v
theories/ArithSound1.v
theories/ArithSound2.v
theories/ArithSound3.v
theories/ArithRefuted.v
theories/ArithProps.v
theories/ParallelFor.v
theories/ParallelSched.v
theories/Interning.v
theories/ArenaModel.v
theories/IntrusiveList.v
theories/StackLayout.v
theories/SccModel.v
theories/SccProofs.v
theories/SccProps.v
theories/MulConst.v
theories/MulConstProps.v
theories/Lut.v
theories/LutProofs.v
theories/LutProps.v
theories/RangeRules.v
theories/RangeRulesProofs.v
theories/RangeRulesProps.v
theories/ConstFold.v
theories/ConstFoldProofs.v
theories/ConstFoldProps.v
theories/MemModel.v
theories/MemProofs.v
theories/MemProps.v
theories/MemStack.v
theories/Memo.v
theories/Modulo.v
theories/ModuloLoops.v
theories/PhiCopy.v
theories/Switch.v
theories/Rv64.v
theories/Magic.v
theories/DivConst.v
theories/RvMachine.v
theories/RvPeephole.v
theories/RvRelax.v
theories/RvProps.v
theories/RvFold.v
theories/RvPair.v
theories/RvCopy.v
theories/RvFoldProps.v
theories/GMir.v
theories/GCopy.v
theories/GCse.v
theories/GDead.v
theories/GConst.v
theories/GProps.v
theories/Sim.v
theories/Ssa.v
theories/SsaCfg.v
theories/SsaMerge.v
theories/SsaFwd.v
theories/SsaFwd2.v
theories/SsaWf.v
theories/SsaDom.v
theories/SsaProps.v
theories/SsaSub.v
theories/SsaVerify.v
theories/SsaEq.v
theories/SsaPhi.v
theories/SsaCse.v
theories/SsaDce.v
theories/SsaIns.v
theories/SsaGvn.v
theories/SsaValProps.v
theories/DomDfs.v
theories/DomLt.v
theories/DomAlg.v
theories/DomTree.v
theories/DomProps.v
theories/RaMir.v
theories/RaLive.v
theories/RaIv.v
theories/RaColor.v
theories/RaAlloc.v
theories/RaSim.v
theories/RaMain.v
theories/RaCore.v
theories/RaProps.v
theories/RaSpill.v
theories/RaSpillSim.v
theories/RaSpillProps.v
theories/Sched.v
theories/SchedTop.v
theories/SchedSim.v
theories/SchedModels.v
theories/SchedProps.v
theories/Isel.v
theories/IselSem.v
theories/IselStep.v
theories/IselPat.v
theories/IselLeg.v
theories/IselRun.v
theories/IselProps.v
theories/PreRa.v
theories/PreRaProof.v
theories/PreRaSim.v
theories/PreRaProps.v
theories/Addr.v
theories/AddrProof.v
theories/AddrInit.v
theories/AddrProps.v
theories/PtrAlign.v
theories/PtrAlignProps.v
theories/LdSt.v
theories/LdStPts.v
theories/LdStProof.v
theories/LdStLoad.v
theories/LdStDrop.v
theories/LdStElim.v
theories/LdStElimProof.v
theories/LdStProps.v
theories/Alias.v
theories/AliasPts.v
theories/AliasLayout.v
theories/AliasInv.v
theories/AliasProof.v
theories/AliasProps.v
theories/M2R.v
theories/M2RVal.v
theories/M2RRel.v
theories/M2RPriv.v
theories/M2RRun.v
theories/M2RSound.v
theories/M2RSyn.v
theories/M2RAlg.v
theories/M2RTop.v
theories/M2RTerm.v
theories/M2RProps.v
theories/SsaMove.v
theories/CodeMotion.v
theories/CodeMotionProps.v
theories/Ifc.v
theories/IfcProps.v
theories/PhiMg.v
theories/PhiMergeProps.v
theories/TailStore.v
theories/TailStoreProps.v
theories/Rec.v
theories/TailCall.v
theories/TailCallProof.v
theories/TailCallPass.v
theories/TailCallProps.v
theories/CondProp.v
theories/CondPropProof.v
theories/CondPropSim.v
theories/CondPropProps.v
theories/InfElim.v
theories/InfElimProps.v
theories/BlockSort.v
theories/BlockSortProps.v
theories/SmallInl.v
theories/SmallInlProof.v
theories/SmallInlProps.v
theories/SmallInlSsa.v
theories/UnusedTypes.v
theories/UnusedTypesProps.v
theories/GlobalElim.v
theories/GlobalZero.v
theories/CallOrder.v
