-Q theories Verif
theories/Mem.v
theories/MView.v
theories/SpecView.v
theories/PView.v
theories/MTraverse.v
theories/PTraverse.v
theories/PSub.v
theories/Properties_View.v
theories/Hoare.v
theories/MFlags.v
theories/MCopy.v
theories/PUpd.v
theories/PCopy.v
theories/Properties_Copy.v
theories/MNum.v
theories/SpecNum.v
theories/MBlas1.v
theories/PSum.v
theories/PBlas1.v
theories/MNorm.v
theories/PNorm.v
theories/Inst.v
theories/Properties_Blas1.v
theories/MElem.v
theories/PElem.v
theories/Properties_Elem.v
theories/SpecPivot.v
theories/MPivot.v
theories/PPivot.v
theories/Properties_Pivot.v
theories/MBase.v
theories/PBase.v
theories/Properties_Base.v
theories/MSort.v
theories/PSort.v
theories/PQsort.v
theories/PEigsort.v
theories/Properties_Sort.v
theories/MBlas2.v
theories/PMvec.v
theories/PBlas2.v
theories/Properties_Blas2.v
theories/PFrame.v
theories/SpecTrm.v
theories/MTrm.v
theories/PTrm.v
theories/Properties_Trm.v
theories/MSym.v
theories/PSym.v
theories/Properties_Sym.v
theories/MSparse.v
theories/SpecSparse.v
theories/PSparse.v
theories/PSpsort.v
theories/PSpconv.v
theories/PSpops.v
theories/Properties_Sparse.v
theories/MGemm.v
theories/PGemm.v
theories/PMatcpy.v
theories/PMult.v
theories/Properties_Gemm.v
theories/MPar.v
theories/PPar.v
theories/PFoot.v
theories/Properties_Par.v
theories/MThread.v
theories/PThread.v
theories/MQueue.v
theories/SpecQueue.v
theories/PQueue.v
theories/Properties_Queue.v
theories/MCounter.v
theories/PCounter.v
theories/Properties_Counter.v
theories/MMutex.v
theories/Properties_Mutex.v
theories/MWorkers.v
theories/PWorkers.v
theories/Properties_Workers.v
theories/MIo.v
theories/SpecJson.v
theories/PIo.v
theories/PJson.v
theories/PJsonw.v
theories/Properties_Json.v
theories/Properties_Jdoc.v
theories/MTrsm.v
theories/PTrsm.v
theories/Properties_Trsm.v
theories/MTrmm.v
theories/PTrmm.v
theories/Properties_Trmm.v
theories/MLap.v
theories/MLu.v
theories/PLap.v
theories/PLu.v
theories/PLuPiv.v
theories/Properties_Lu.v
theories/MUpdTrm.v
theories/PUpdTrm.v
theories/Properties_UpdTrm.v
theories/MChol.v
theories/SpecChol.v
theories/PCholM.v
theories/PChol.v
theories/Properties_Chol.v
theories/MSpVec.v
theories/SpecSpVec.v
theories/PSpVec.v
theories/PSpTrm.v
theories/PSpSym.v
theories/Properties_SpVec.v
theories/PSpDiag.v
theories/Properties_SpDiag.v
theories/MSpAcc.v
theories/PSpAcc.v
theories/PSpLines.v
theories/Properties_SpAcc.v
theories/Properties_SpMul.v
theories/MMm.v
theories/PMm.v
theories/Properties_Mm.v
theories/Properties_SpMm.v
theories/MEft.v
theories/SpecFloat.v
theories/PFloat.v
theories/PEft.v
theories/PEft32.v
theories/PExt.v
theories/Properties_Eft.v
theories/PRound.v
theories/Properties_Round.v
theories/MHouse.v
theories/SpecHouse.v
theories/PHouse.v
theories/PHouse2.v
theories/SpecQr.v
theories/PQrA.v
theories/MQr.v
theories/PQr.v
theories/Properties_House.v
theories/PQrB.v
theories/PUpdQr.v
theories/PQrT.v
theories/PQrF.v
theories/Properties_Qr.v
theories/MQrMul.v
theories/PQrMul.v
theories/Properties_QrMul.v
theories/SpecLs.v
theories/MQrSolve.v
theories/PQrLs.v
theories/Properties_QrSolve.v
theories/MQrBld.v
theories/PQrBld.v
theories/Properties_QrBld.v
theories/MSymm.v
theories/PSymm.v
theories/Properties_Symm.v
theories/MSyr2k.v
theories/PSyr2k.v
theories/Properties_Syr2k.v
theories/SpecBlas.v
theories/MCompat3.v
theories/Properties_Compat3.v
theories/Properties_Compat3t.v
theories/MGivens.v
theories/SpecGivens.v
theories/PGivens.v
theories/Properties_Givens.v
theories/MCompat1.v
theories/SpecBlas1.v
theories/PCompat1.v
theories/Properties_Compat1.v
theories/MCholUpd.v
theories/Properties_CholUpd.v
theories/MInv.v
theories/PInvM.v
theories/PInv.v
theories/PInv2.v
theories/PInv3.v
theories/Properties_Inv.v
theories/MLuInv.v
theories/PLuInv.v
theories/PLuInvM.v
theories/PLuInvB.v
theories/Properties_LuInv.v
theories/MInvSpd.v
theories/PInvSpdM.v
theories/PInvSpd.v
theories/PInvSpdB.v
theories/PInvSpdS.v
theories/Properties_InvSpd.v
