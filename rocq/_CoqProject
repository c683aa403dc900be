-Q theories Verif
theories/Mat.v
theories/ModelMeta.v
theories/SpecMeta.v
theories/MetaProofs.v
theories/PropsMeta.v
theories/ModelJac.v
theories/SpecJac.v
theories/JacProofs.v
theories/NaryProofs.v
theories/PropsJac.v
theories/V3.v
theories/ModelLeaf.v
theories/ModelExpr.v
theories/SpecLeaf.v
theories/LeafProofs.v
theories/SpecExpr.v
theories/ExprProofs.v
theories/PropsExpr.v
theories/PropsVec.v
theories/Calc.v
theories/SpecDeriv.v
theories/DerivProofs.v
theories/DerivUn.v
theories/DerivTree.v
theories/JacDef.v
theories/PropsDeriv.v
theories/SpecTotal.v
theories/TotalDeriv.v
theories/PropsTotal.v
theories/PropsLie.v
theories/PropsLieJac.v
theories/PropsSmall.v
theories/ModelFrames.v
theories/SpecFrames.v
theories/FramesProofs.v
theories/PropsFrames.v
theories/ModelUtil.v
theories/SpecUtil.v
theories/PropsUtil.v
theories/ModelApprox.v
theories/PropsApprox.v
theories/ModelCompound.v
theories/SpecCompound.v
theories/PropsCompound.v
theories/ModelEstim.v
theories/SpecEstim.v
theories/NoiseProofs.v
theories/PropsNoise.v
theories/PropsEstim.v
theories/PropsCompJac.v
theories/ModelMember.v
theories/SpecMember.v
theories/PropsMember.v
theories/ModelDyn.v
theories/SpecDyn.v
theories/DynProofs.v
theories/PropsDyn.v
theories/ModelStore.v
theories/SpecStore.v
theories/StoreProofs.v
theories/PropsStore.v
theories/ModelNum.v
theories/SpecNum.v
theories/NumProofs.v
theories/NumLimit.v
theories/PropsNum.v
theories/NumLip.v
theories/NumExp0.v
theories/NumVal.v
theories/NumTree.v
theories/NumStep.v
theories/PropsNumSmall.v
theories/PropsNumComp.v
theories/ModelView.v
theories/SpecView.v
theories/PropsView.v
theories/ModelNumDyn.v
theories/NumDyn.v
theories/PropsNumDyn.v
theories/ModelFloat.v
theories/SpecFlt.v
theories/FloatProofs.v
theories/FloatDrift.v
theories/PropsDrift.v
theories/FloatExp.v
theories/PropsExpFlt.v
theories/FloatNear.v
theories/PropsNear.v
theories/PropsLogFlt.v
theories/SpecProgram.v
theories/PropsProgram.v
theories/ModelFloatQ.v
theories/SpecFltQ.v
theories/FloatQuat.v
theories/FloatAct.v
theories/PropsQuatFlt.v
theories/PropsLists.v
theories/PropsNumMany.v
theories/FloatLog.v
theories/SpecFltLog.v
theories/FloatLog2.v
theories/PropsLogAcc.v
theories/PropsHalfTurn.v
theories/ModelFloatExpr.v
theories/SpecFltExpr.v
theories/FloatNorm.v
theories/FloatStep.v
theories/FloatStep2.v
theories/FloatShep.v
theories/FloatDiv.v
theories/FloatTree.v
theories/PropsFltExpr.v
theories/PropsShep.v
theories/PropsDivFlt.v
theories/ModelSame.v
theories/SpecSame.v
theories/PropsSame.v
theories/FloatCoef.v
theories/FloatLogJac.v
theories/FloatRtLog.v
theories/FloatExpJac.v
theories/PropsAway.v
theories/ModelConc.v
theories/SpecConc.v
theories/ConcGen.v
theories/ConcDyn.v
theories/PropsConc.v
theories/ModelFloatJac.v
theories/SpecFltJac.v
theories/FloatJac.v
theories/ExpLip.v
theories/FloatJacExp.v
theories/FloatJacLoc.v
theories/FloatJacTree.v
theories/PropsFltJac.v
theories/SpecFltNorm.v
theories/NormLib.v
theories/NormStep.v
theories/NormLoc.v
theories/NormTree.v
theories/PropsFltNorm.v
theories/ModelFloatRev.v
theories/SpecFltRev.v
theories/FloatRev.v
theories/PropsFltRev.v
