-Q theories Verif
theories/Base.v
theories/Scalar.v
theories/NetSpec.v
theories/Sums.v
theories/NetAlg.v
theories/ModelArray.v
theories/ArrayProofs.v
theories/ModelTN.v
theories/TNInv.v
theories/TNOps.v
theories/TNSpec.v
theories/TNMerge.v
theories/TNDelta.v
theories/ModelHist.v
theories/TNHist.v
theories/TNValue.v
theories/TNValue2.v
theories/TNExact.v
theories/TNDeltaValue.v
theories/TNEdit.v
theories/ModelVal.v
theories/ValProofs.v
theories/TNEdit2.v
theories/ModelContract.v
theories/ContractFix.v
theories/ContractNet.v
theories/ContractTemplate.v
theories/ContractExec.v
theories/ContractMerge.v
theories/ContractMain.v
theories/ContractFlat.v
theories/ContractSched.v
theories/NameOrder.v
theories/ContractData.v
theories/ContractSession.v
theories/ContractUser.v
theories/OrderSpec.v
theories/ModelOrder.v
theories/OrderProofs.v
theories/OrderProofs2.v
theories/OrderProofs3.v
theories/OrderNet.v
theories/Examples.v
theories/Props_Edit.v
theories/OpsSpec.v
theories/ModelOps.v
theories/OpsProofs.v
theories/OpsValue.v
theories/Props_Ops.v
theories/ExamplesC.v
theories/Props_Contract.v
theories/Props_Order.v
theories/PathSpec.v
theories/ModelPath.v
theories/PathProofs.v
theories/ModelOpt.v
theories/OptProofs.v
theories/OptProofs2.v
theories/ModelDP.v
theories/DPProofs.v
theories/DPProofs2.v
theories/DPProofs3.v
theories/Props_Path.v
theories/ModelScheme.v
theories/Props_Scheme.v
theories/ModelUct.v
theories/UctSpec.v
theories/UctProofs.v
theories/UctPath.v
theories/UctSwitch.v
theories/UctSwitch2.v
theories/UctSwitch3.v
theories/UctInit.v
theories/UctInit2.v
theories/UctOps.v
theories/UctHist.v
theories/UctCost.v
theories/Props_Uct.v
theories/CircSpec.v
theories/CircSum.v
theories/CircOrder.v
theories/ModelCircuit.v
theories/CircSem.v
theories/CircShape.v
theories/CircWire.v
theories/CircStep.v
theories/CircNet.v
theories/CircCtrl.v
theories/CircWhen.v
theories/CircOp.v
theories/CircMain.v
theories/CircBuild.v
theories/CircAdj.v
theories/CircUse.v
theories/CircMul.v
theories/Props_Circuit.v
theories/DensSpec.v
theories/CircDens.v
theories/CircDensNet.v
theories/CircDensOp.v
theories/CircPure.v
theories/Props_Density.v
theories/MatSpec.v
theories/MatProofs.v
theories/ExprSpec.v
theories/CircExpr.v
theories/Complex.v
theories/GateSpec.v
theories/ModelGates.v
theories/GateProofs.v
theories/Props_Gates.v
theories/NoiseSpec.v
theories/ChanTrace.v
theories/ChanCirc.v
theories/Props_Noise.v
theories/ModelNest.v
theories/NestSpec.v
theories/NestSub.v
theories/NestEnc.v
theories/SimplifySpec.v
theories/NestGrow.v
theories/NestJoin.v
theories/NestExp.v
theories/NestThin.v
theories/NestSound.v
theories/Props_Nest.v
theories/Props_Expand.v
theories/ModelCopy.v
theories/CopySpec.v
theories/CopyProofs.v
theories/Props_Copy.v
theories/ModelObj.v
theories/ObjProofs.v
theories/ObjProofs2.v
theories/ObjFix.v
theories/Props_Obj.v
theories/ModelDeep.v
theories/DeepSpec.v
theories/DeepZero.v
theories/DeepProofs.v
theories/DeepCheck.v
theories/DeepFind.v
theories/Props_Deep.v
theories/ModelPart.v
theories/PartSpec.v
theories/PartProofs.v
theories/Props_Part.v
theories/ModelSlice.v
theories/SliceSim.v
theories/SliceTree.v
theories/SliceStem.v
theories/SliceProofs.v
theories/Props_Slice.v
theories/OptimalSpec.v
theories/OptimalProofs.v
theories/OptimalSearch.v
theories/Props_Optimal.v
theories/QaoaSpec.v
theories/ModelQaoa.v
theories/QaoaNet.v
theories/QaoaBuild.v
theories/QaoaMath.v
theories/QaoaCone.v
theories/QaoaPairs.v
theories/QaoaValue.v
theories/QaoaTask.v
theories/QaoaOpt.v
theories/Props_Qaoa.v
theories/CircFlat.v
theories/FlatSpec.v
theories/CircNest.v
theories/CircNest2.v
theories/CircNest3.v
theories/CircNest4.v
theories/Props_Flat.v
theories/ModelNoise.v
theories/NoisySpec.v
theories/NoiseAdd.v
theories/NoiseAdd2.v
theories/NoiseAdd3.v
theories/NoiseAdd4.v
theories/NoiseAdd5.v
theories/Props_AddNoise.v
theories/ModelMeasure.v
theories/MeasureSpec.v
theories/MeasEvolve.v
theories/MeasRun.v
theories/MeasExtend.v
theories/MeasFacts.v
theories/MeasFacts2.v
theories/MeasOne.v
theories/MeasState.v
theories/MeasMain.v
theories/Props_Measure.v
theories/CoreVal.v
theories/CoreSpec.v
theories/CoreNet.v
theories/CoreOps.v
theories/CoreDens.v
theories/CorePure.v
theories/CorePureOp.v
theories/CoreOp.v
theories/Props_CircContract.v
theories/ModelGhz.v
theories/GhzProofs.v
theories/Props_Ghz.v
theories/ChanOr.v
theories/ChanFid.v
theories/GhzFid.v
theories/Props_Fidelity.v
theories/ModelGrcs.v
theories/GrcsSpec.v
theories/GrcsLine.v
theories/GrcsProofs.v
theories/Props_Grcs.v
theories/ModelQec.v
theories/Props_Qec.v
theories/ModelIdle.v
theories/IdleSpec.v
theories/IdleProofs.v
theories/IdleValid.v
theories/Props_Idle.v
theories/ModelCz.v
theories/Props_Cz.v
