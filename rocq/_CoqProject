-Q theories Verif
theories/Rust.v
theories/Iter.v
theories/Elem.v
theories/VectorM.v
theories/MatIterM.v
theories/MatrixM.v
theories/ArithM.v
theories/OpsM.v
theories/FmtM.v
theories/FlagM.v
theories/MetaM.v
theories/SpecCommon.v
theories/Harness.v
theories/IterProofs.v
theories/OwnProofs.v
theories/ChunkProofs.v
theories/ExactProofs.v
theories/PropsOwn.v
theories/VecProofs.v
theories/MatProofs.v
theories/AccProofs.v
theories/PropsOrder.v
theories/PropsOrder2.v
theories/PropsOrder3.v
theories/PropsVec.v
theories/PropsCont.v
theories/CmpM.v
theories/PropsCmp.v
theories/PropsPanic.v
theories/SpecAlg.v
theories/Sim.v
theories/Algebra.v
theories/PropsAlg.v
theories/PropsCross.v
theories/IntM.v
theories/RatioM.v
theories/DetSmall.v
theories/PropsInt.v
theories/PropsDetInt.v
theories/DetLoop.v
theories/SpecMx.v
theories/MxLink.v
theories/MxDet.v
theories/MxSpec.v
theories/PropsDet.v
theories/PropsInv.v
theories/PropsInvLaws.v
theories/PropsNorm.v
theories/CplxM.v
theories/PropsConj.v
theories/PropsConj2.v
theories/CursorProofs.v
theories/PropsIter.v
theories/SpecFmt.v
theories/PropsFmt.v
theories/FmtProofs.v
theories/PropsDisplay.v
theories/PropsFlag.v
theories/PropsMeta.v
theories/OpsPure.v
theories/FloatM.v
theories/SpecReal.v
theories/FloatErr.v
theories/PropsFloat.v
theories/PropsFloatErr.v
theories/PropsFloatInv.v
theories/PropsFloatInt.v
theories/GJReal.v
theories/GJFloat.v
theories/GJGen.v
theories/GJGenFloat.v
theories/PropsFloatGJ.v
theories/PropsFloatLead.v
theories/RDet.v
theories/DetReal.v
theories/DetFloat.v
theories/PropsFloatDet.v
theories/DetGen.v
theories/DetGenFloat.v
theories/PropsFloatLeadDet.v
theories/PropsIntDiv.v
theories/PropsCplx.v
theories/SpecCost.v
theories/CostProofs.v
theories/PropsCost.v
theories/CostDet.v
theories/PropsCostDet.v
theories/DropM.v
theories/PropsDrop.v
theories/OpsSim.v
theories/MxInt.v
theories/PropsIntBig.v
theories/SpecSafe.v
theories/SafeProofs.v
theories/SafeLib.v
theories/SafeRest.v
theories/PropsSafe.v
theories/SpecRel.v
theories/RelProofs.v
theories/RelLib.v
theories/RelMat.v
theories/RelFmt.v
theories/PropsRel.v
theories/PropsRatio.v
theories/PropsCplxInt.v
theories/ArrM.v
theories/PropsArr.v
theories/BlockM.v
theories/SpecBlock.v
theories/BlockProofs.v
theories/PropsBlock.v
theories/ColM.v
theories/PropsCol.v
theories/SpecNan.v
theories/NanProofs.v
theories/PropsNan.v
theories/SpecPost.v
theories/FloatPost.v
theories/PropsPost.v
theories/ScaleProofs.v
theories/PropsScale.v
theories/SpecSign.v
theories/SignProofs.v
theories/PropsSign.v
theories/MonoProofs.v
theories/SpecMono.v
theories/PropsMono.v
theories/SpecPow.v
theories/PowProofs.v
theories/PropsPow.v
theories/SpecCF.v
theories/CFProofs.v
theories/PropsCF.v
theories/SpecPow2.v
theories/OpsSim2.v
theories/ZGrade.v
theories/Pow2Proofs.v
theories/PropsPow2.v
theories/NumM.v
theories/PropsNum.v
theories/PropsNum2.v
theories/PropsNum3.v
theories/PropsNum4.v
theories/ScopeM.v
theories/ScopeMutM.v
theories/SpecAccount.v
theories/AccountProofs.v
theories/AccountLib.v
theories/SpecAccountMut.v
theories/AccountMut.v
theories/AccountDet.v
theories/AccountAgree.v
theories/PropsAccount.v
theories/PropsAccount2.v
theories/SpecSource.v
theories/AccountIter.v
theories/PropsAccount3.v
theories/PropsAccount4.v
theories/OwnTests.v
theories/UnwindM.v
theories/UnwindProofs.v
theories/PropsUnwind.v
