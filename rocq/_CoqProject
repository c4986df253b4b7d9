-Q theories Verif
theories/Outcome.v
theories/Shape.v
theories/Tensor.v
theories/Mat.v
theories/Dispatch.v
theories/Ops.v
theories/Spec.v
theories/Monad.v
theories/ShapeThy.v
theories/TensorThy.v
theories/TensorThy2.v
theories/MatThy.v
theories/OpsOk.v
theories/DenseOk.v
theories/LookThy.v
theories/AddOk.v
theories/LrAddOk.v
theories/TensorThy3.v
theories/MulLrOk.v
theories/MulOk.v
theories/MmOk.v
theories/MmLrOk.v
theories/OpsMain.v
theories/Term.v
theories/Term2.v
theories/Term3.v
theories/Term4.v
theories/Term5.v
theories/Exact.v
theories/Exact2.v
theories/Calm.v
theories/Api.v
theories/Bridge.v
theories/Samples.v
theories/Inhabited.v
theories/PropsCore.v
theories/Ans.v
theories/PropsMm.v
theories/PyShape.v
theories/PropsShape.v
theories/PropsDispatch.v
theories/Types.v
theories/PropsStruct.v
theories/PropsMisc.v
theories/Ops2.v
theories/SumThy.v
theories/PropsSum.v
theories/PropsArith.v
theories/PropsLift.v
theories/PropsTake.v
theories/PropsExpr.v
theories/Block.v
theories/BlockThy.v
theories/PropsBlock.v
theories/Backend.v
theories/SpecLA.v
theories/LinAlg.v
theories/MxThy.v
theories/ClsThy.v
theories/Solve.v
theories/InvThy.v
theories/PropsInv.v
theories/SolveThy.v
theories/CholThy.v
theories/PdThy.v
theories/PropsLA.v
theories/PropsChol.v
theories/PropsLogdet.v
theories/PropsIqf.v
theories/PropsRoot.v
theories/PropsSample.v
theories/Cache.v
theories/CacheThy.v
theories/CacheThy2.v
theories/CacheThy3.v
theories/PropsCache.v
theories/Tiled.v
theories/PropsTiled.v
theories/PropsDispatch2.v
theories/PropsAlign.v
theories/PropsLrAdd.v
theories/RaiseThy.v
theories/PropsRaise.v
theories/PropsLimits.v
theories/PropsLrSum.v
theories/Objects.v
theories/PropsObj.v
theories/Replay.v
theories/PropsReplay.v
theories/PropsNumpy.v
theories/Dtypes.v
theories/PropsDtype.v
theories/PropsArrays.v
theories/Warn.v
theories/Warn2.v
theories/Warn3.v
theories/PropsWarn.v
theories/PropsWarn2.v
theories/PropsWarn3.v
theories/PropsDtype2.v
theories/PropsWarn4.v
theories/WarnTake.v
theories/Repr.v
theories/PropsRepr.v
theories/Errs.v
theories/Errs2.v
theories/PropsErrs.v
theories/PropsExpr2.v
theories/PropsLimits2.v
