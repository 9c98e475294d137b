-Q theories Verif
theories/BddModel.v
theories/BddWf.v
theories/BddOps.v
theories/BddVar.v
theories/BddQuant.v
theories/BddRelprod.v
theories/BddDen.v
theories/BddSubst.v
theories/BddSize.v
theories/BddCount.v
theories/BddGc.v
theories/BddSwap.v
theories/BddSave.v
theories/BddHist.v
theories/BddThms.v
theories/Bdd_Props.v
theories/ArbModel.v
theories/ArbBase.v
theories/ArbMul.v
theories/ArbDiv.v
theories/ArbDivThm.v
theories/ArbStr.v
theories/Arb_Props.v
theories/BvModel.v
theories/BvBits.v
theories/BvTri.v
theories/BvArith.v
theories/BvDiv.v
theories/BvConv.v
theories/BvThms.v
theories/Bv_Props.v
theories/BeModel.v
theories/BeSem.v
theories/BeThms.v
theories/BeEx.v
theories/Be_Props.v
theories/CombModel.v
theories/LamSpec.v
theories/CombConf.v
theories/CombThms.v
theories/CombOpt.v
theories/CombEx.v
theories/Comb_Props.v
theories/TyModel.v
theories/TyThms.v
theories/Ty_Props.v
theories/HashModel.v
theories/HashThms.v
theories/StrModel.v
theories/StrThms.v
theories/RecModel.v
theories/RecThms.v
theories/Lib_Props.v
theories/ListModel.v
theories/ListThms.v
theories/ListSetThms.v
theories/ListSegThms.v
theories/List_Props.v
theories/TblModel.v
theories/TblThms.v
theories/Tbl_Props.v
theories/FsmOps.v
theories/FsmRel.v
theories/FsmBool.v
theories/FsmWord.v
theories/FsmDelay.v
theories/FsmExact.v
theories/Fsm_Props.v
theories/SteModel.v
theories/SteEv.v
theories/SteForce.v
theories/SteForceThms.v
theories/SteSim.v
theories/SteRun.v
theories/SteEx.v
theories/Ste_Props.v
theories/CompModel.v
theories/CompSpec.v
theories/CompKind.v
theories/CompThms.v
theories/CompGrow.v
theories/CompExpr.v
theories/CompRank.v
theories/CompLeaf.v
theories/CompEx.v
theories/Comp_Props.v
theories/IlistModel.v
theories/IlistSpec.v
theories/IlistThms.v
theories/Ilist_Props.v
theories/VnameModel.v
theories/VnameThms.v
theories/VnameMerge.v
theories/Vname_Props.v
theories/ShaModel.v
theories/ShaSpec.v
theories/ShaThms.v
theories/ShaGraph.v
theories/ShaGraphSpec.v
theories/ShaGraphThms.v
theories/Sha_Props.v
theories/IsoModel.v
theories/IsoSpec.v
theories/IsoThms.v
theories/IsoCreate.v
theories/Iso_Props.v
theories/LpRat.v
theories/LpModel.v
theories/LpBase.v
theories/LpTab.v
theories/LpSimplex.v
theories/LpPhase.v
theories/LpPhase1.v
theories/LpPhase2.v
theories/LpSpec.v
theories/LpStd.v
theories/LpTop.v
theories/LpThms.v
theories/LpCycle.v
theories/Lp_Props.v
theories/ArbMore.v
theories/ArbMore_Props.v
theories/SerModel.v
theories/SerSpec.v
theories/SerNum.v
theories/SerThms.v
theories/SerTrav.v
theories/SerTop.v
theories/SerEx.v
theories/Ser_Props.v
theories/InfModel.v
theories/InfSpec.v
theories/InfThms.v
theories/InfRun.v
theories/InfTop.v
theories/InfEnd.v
theories/InfEx.v
theories/Inf_Props.v
theories/GredModel.v
theories/GredSpec.v
theories/GredConf.v
theories/GredFail.v
theories/GredHeap.v
theories/GredParts.v
theories/GredFire.v
theories/GredThms.v
theories/GredMain.v
theories/GredEx.v
theories/Gred_Props.v
theories/RcModel.v
theories/RcSpec.v
theories/RcInv.v
theories/RcDec.v
theories/RcGc.v
theories/RcWalk.v
theories/RcFire.v
theories/RcLoop.v
theories/RcMain.v
theories/RcSim.v
theories/RcLock.v
theories/RcEx.v
theories/Rc_Props.v
theories/IoModel.v
theories/IoSpec.v
theories/IoText.v
theories/IoThms.v
theories/IoEx.v
theories/Io_Props.v
theories/OvModel.v
theories/OvSpec.v
theories/OvPath.v
theories/OvStore.v
theories/OvThms.v
theories/OvEnd.v
theories/OvEx.v
theories/Ov_Props.v
theories/OvCheck.v
theories/OvUse.v
theories/OvInf.v
theories/OvPlug.v
theories/OvFull.v
theories/OvRound.v
theories/OvTop.v
theories/OvStop.v
theories/OvTopEx.v
theories/OvCheck_Props.v
theories/ComModel.v
theories/ComSpec.v
theories/ComThms.v
theories/ComTop.v
theories/ComTable.v
theories/Com_Props.v
theories/ChoThms.v
theories/ChoEx.v
theories/Cho_Props.v
theories/PexModel.v
theories/PexSpec.v
theories/PexName.v
theories/PexThms.v
theories/PexFold.v
theories/PexEx.v
theories/Pex_Props.v
theories/MemoModel.v
theories/MemoSpec.v
theories/MemoThms.v
theories/MemoEx.v
theories/Memo_Props.v
theories/TextModel.v
theories/TextSpec.v
theories/TextThms.v
theories/TextEx.v
theories/Text_Props.v
theories/AdtModel.v
theories/AdtSpec.v
theories/AdtThms.v
theories/AdtEx.v
theories/Adt_Props.v
theories/BevModel.v
theories/BevSpec.v
theories/BevThms.v
theories/BevEx.v
theories/Bev_Props.v
theories/GenModel.v
theories/GenSpec.v
theories/GenThms.v
theories/Gen_Props.v
theories/RandModel.v
theories/RandSpec.v
theories/RandThms.v
theories/Rand_Props.v
theories/BitsModel.v
theories/BitsSpec.v
theories/BitsThms.v
theories/Bits_Props.v
theories/ParamModel.v
theories/ParamSpec.v
theories/ParamThms.v
theories/Param_Props.v
theories/BufModel.v
theories/BufSpec.v
theories/BufThms.v
theories/Buf_Props.v
