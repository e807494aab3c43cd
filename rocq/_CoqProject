-Q theories Verif
theories/Base.v
theories/Scalar.v
theories/Vec.v
theories/Model_Real.v
theories/Model_S2.v
theories/Model_SO3.v
theories/Model_Manifold.v
theories/Spec.v
theories/Layout.v
theories/Comp.v
theories/Indep.v
theories/Flat.v
theories/BlockMat.v
theories/MatOps.v
theories/MatProd.v
theories/MatTan.v
theories/XR.v
theories/SpecR.v
theories/RotR.v
theories/NumVec.v
theories/NumMat.v
theories/Angle.v
theories/NumQuat.v
theories/NumTree.v
theories/NumLeaf.v
theories/RotLog.v
theories/RoundTrip.v
theories/NumS2.v
theories/NumExp.v
theories/NumLog.v
theories/Close.v
theories/Relog.v
theories/Force.v
theories/Points.v
theories/Structure.v
theories/MatNum.v
theories/JacApply.v
theories/TanLeaf.v
theories/Deriv.v
theories/DerivRetr.v
theories/DerivLog.v
theories/Topo.v
theories/ExScalar.v
theories/ExR.v
theories/Properties_Structure.v
theories/Model_Views.v
theories/Properties_Views.v
theories/NumSym.v
theories/Properties_Sym.v
theories/Properties_Round.v
theories/Properties_S2.v
theories/Properties_SO3.v
theories/Properties_Points.v
theories/Properties_Matrix.v
theories/Properties_Deriv.v
theories/Properties_DerivLog.v
theories/Properties_Topology.v
theories/Random.v
theories/Drift.v
theories/Properties_Random.v
theories/Properties_Drift.v
theories/Model_Hash.v
theories/Hash.v
theories/Properties_Hash.v
theories/Model_Buffer.v
theories/Buffer.v
theories/Properties_Buffer.v
theories/Model_Object.v
theories/Heap.v
theories/ObjTree.v
theories/ObjStep.v
theories/ObjPoint.v
theories/SpecObj.v
theories/ObjFacts.v
theories/Properties_Object.v
theories/ObjVal.v
theories/ObjPath.v
theories/Properties_Point.v
theories/Model_Memory.v
theories/SpecAlias.v
theories/Alias.v
theories/Properties_Alias.v
theories/Model_Threads.v
theories/SpecThreads.v
theories/Threads.v
theories/Properties_Threads.v
theories/Model_Overlap.v
theories/Properties_Overlap.v
theories/Model_Text.v
theories/Properties_Text.v
theories/Safe.v
theories/Model_Print.v
theories/SpecPrint.v
theories/Print.v
theories/Properties_Safe.v
theories/F64.v
theories/F64Err.v
theories/F64Norm.v
theories/F64Order.v
theories/F64S2.v
theories/F64Exp.v
theories/F64Quat.v
theories/F64Mat.v
theories/F64Mat2.v
theories/F64Tree.v
theories/F64Go.v
theories/Properties_Float.v
theories/F64Log.v
theories/F64LogQ.v
theories/F64Back.v
theories/Properties_FloatLog.v
theories/F64Gs.v
theories/F64Force.v
theories/Properties_FloatForce.v
theories/TransTree.v
theories/Properties_Transport.v
theories/Properties_Mag.v
theories/Model_Release.v
theories/Release.v
theories/Properties_Release.v
theories/Finite.v
theories/Properties_Finite.v
theories/Inj.v
theories/Properties_Inj.v
theories/Subgroup.v
theories/Path.v
theories/Properties_Path.v
theories/Lip.v
theories/Properties_Lip.v
theories/Metric.v
theories/Properties_Metric.v
theories/FloatPath.v
theories/Properties_FloatPath.v
theories/F64Trans.v
theories/TransLeaf.v
theories/Properties_FloatTrans.v
theories/F64Proj.v
theories/Properties_FloatProj.v
theories/JacR.v
theories/JacLeaf.v
theories/F64Jac.v
theories/Properties_FloatJac.v
theories/JacLogR.v
theories/JacLogLeaf.v
theories/F64JacLog.v
theories/Properties_FloatJacLog.v
theories/F64Find.v
theories/Properties_FloatFind.v
theories/Model_Robot.v
theories/Properties_Robot.v
theories/F64Round.v
theories/Properties_FloatRound.v
theories/Model_Valid.v
theories/Properties_Valid.v
theories/F64Target.v
theories/Properties_FloatTarget.v
theories/F64JacMat.v
theories/Properties_FloatJacMat.v
theories/F64Rand.v
theories/Properties_FloatRand.v
theories/Properties_S2Vec.v
theories/Properties_Anti.v
theories/F64Sign.v
theories/Properties_Cover.v
theories/Properties_Still.v
theories/Properties_Sinc.v
theories/Properties_Twin.v
theories/F64Accept.v
theories/Properties_Accept.v
theories/Properties_Tested.v
theories/Properties_Born.v
