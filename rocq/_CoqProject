-Q theories Verif
theories/Base.v
theories/Spec.v
theories/Thresholds.v
theories/Table.v
theories/K2.v
theories/C0.v
theories/C0Proof.v
theories/C0Hist.v
theories/Prop_C0.v
theories/DK.v
theories/DKProof.v
theories/DKHist.v
theories/DKGuard.v
theories/DKTotal.v
theories/DKBisim.v
theories/Prop_DK.v
theories/Prop_DKLarge.v
theories/Iter.v
theories/IterProof.v
theories/DKFull.v
theories/Prop_Iter.v
theories/Serial.v
theories/Prop_Serial.v
theories/Delay.v
theories/DelayProof.v
theories/DelayBisim.v
theories/Table4.v
theories/DelayExact.v
theories/Prop_Delay.v
theories/Bits.v
theories/Union.v
theories/UnionProof.v
theories/UnionMerge.v
theories/UnionEdges.v
theories/Prop_Union.v
theories/AlgoSpec.v
theories/Algo.v
theories/AlgoProof.v
theories/TriProof.v
theories/Prop_Algo.v
theories/ViewProof.v
theories/DelayView.v
theories/Prop_DelayView.v
theories/PageRank.v
theories/PRProof.v
theories/Prop_PageRank.v
theories/Table2.v
theories/Munro.v
theories/MunroProof.v
theories/MunroTime.v
theories/Prop_DelayExact.v
theories/Table3.v
theories/Prop_Munro.v
theories/BgSpec.v
theories/Bg.v
theories/BgProof.v
theories/BgTime.v
theories/BgLife.v
theories/Prop_Bg.v
theories/Cv.v
theories/Proc.v
theories/ProcProof.v
theories/Prop_Proc.v
theories/Alias.v
theories/AliasProof.v
theories/AliasFrame.v
theories/Prop_Alias.v
theories/Prop_AlgoObj.v
theories/IterMod.v
theories/IterModProof.v
theories/Prop_IterMod.v
theories/Prop_IterMod2.v
theories/BgDelSpec.v
theories/BgDel.v
theories/BgDelTime.v
theories/Prop_BgDel.v
theories/BgSerial.v
theories/Prop_BgSerial.v
theories/BgView.v
theories/Prop_BgView.v
theories/BgIter.v
theories/Prop_BgIter.v
theories/K2Rev.v
theories/MunroSerial.v
theories/Prop_MunroSerial.v
theories/EqProof.v
theories/Prop_Eq.v
theories/Prop_Cluster.v
theories/K2Bits.v
theories/MunroView.v
theories/Prop_MunroView.v
theories/Prop_BgFoot.v
theories/Prop_BgIter2.v
theories/Prop_Iter2.v
theories/IterVal.v
theories/IterValProof.v
theories/Prop_IterVal.v
theories/IterPos.v
theories/Prop_IterAsg.v
theories/Prop_SearchOrder.v
theories/Prop_Heavy.v
theories/Prop_AlgoDel.v
theories/PRExact.v
theories/Prop_PageRank2.v
theories/Prop_MunroTri.v
theories/Prop_Load.v
theories/Prop_AlgoAll.v
theories/Prop_CountExact.v
theories/Prop_BgHide.v
theories/Prop_BgUB.v
theories/Prop_BgFew.v
theories/Prop_Reclaim.v
theories/Prop_ProcDel.v
theories/Prop_BgDelView.v
theories/Prop_CvLive.v
theories/Prop_BgHideDel.v
theories/Prop_BgIterDel.v
theories/PRFloat.v
theories/PRFloatProof.v
theories/PRFloatLoop.v
theories/PRFloatLow.v
theories/PRFloatLow2.v
theories/PRFloatLow3.v
theories/Prop_PRFloat.v
theories/Assumptions.v
