-Q theories Verif
theories/Model_Py.v
theories/Model_Driver.v
theories/Proof_Driver.v
theories/Prop_Driver.v
theories/Model_Multivalue.v
theories/Spec_Multivalue.v
theories/Prop_Multivalue.v
theories/Proof_Multivalue.v
theories/Model_Grid.v
theories/Model_Fourier.v
theories/Model_Linop.v
theories/Model_PS.v
theories/Spec_Grid.v
theories/Proof_Grid.v
theories/Lib_Csum.v
theories/Proof_Fourier.v
theories/Spec_PS.v
theories/Proof_PS.v
theories/Proof_Grid2.v
theories/Proof_GridIndex.v
theories/Proof_Sid.v
theories/Prop_Grid.v
theories/Prop_PS.v
theories/Proof_ArcDst.v
theories/Prop_ArcDst.v
theories/Model_Abcoef.v
theories/Spec_Abcoef.v
theories/Proof_Abcoef.v
theories/Prop_Abcoef.v
theories/Model_Chebyshev.v
theories/Spec_Chebyshev.v
theories/Proof_Chebyshev.v
theories/Proof_Basis.v
theories/Prop_Chebyshev.v
theories/Model_Domain.v
theories/Proof_Domain.v
theories/Spec_Domain.v
theories/Proof_Boundary.v
theories/Proof_Place.v
theories/Prop_Domain.v
theories/Model_Ext.v
theories/Model_Extend.v
theories/Spec_Ext.v
theories/Proof_Ext.v
theories/Proof_Ext2.v
theories/Spec_Extend.v
theories/Proof_Extend.v
theories/Proof_Linear.v
theories/Proof_Smooth.v
theories/Proof_Extend2.v
theories/Proof_Log.v
theories/Spec_Fd.v
theories/Proof_Taylor.v
theories/Proof_Consist.v
theories/Model_PolarFD.v
theories/Spec_PolarFD.v
theories/Proof_PolarFD.v
theories/Proof_PolarRes.v
theories/Prop_PolarFD.v
theories/Model_Ode.v
theories/Spec_Ode.v
theories/Model_ZMethod.v
theories/Proof_Ode.v
theories/Proof_ZMethod.v
theories/Model_Problems.v
theories/Proof_Taper.v
theories/Proof_ZEx.v
theories/Spec_Problems.v
theories/Proof_Bessel.v
theories/Prop_ZMethod.v
theories/Proof_Problems.v
theories/Proof_Hessian.v
theories/Proof_Corners.v
theories/Prop_Problems.v
theories/Proof_ExtendEx.v
theories/Proof_Orient.v
theories/Prop_Extend.v
theories/Spec_Inhomo.v
theories/Proof_ExtendF.v
theories/Proof_Inhomo.v
theories/Proof_InhomoEx.v
theories/Proof_Abort.v
theories/Prop_Inhomo.v
theories/Spec_Bessel.v
theories/Spec_ZRun.v
theories/Proof_BesselJ.v
theories/Model_ZRun.v
theories/Proof_Regular.v
theories/Proof_ZSing.v
theories/Proof_IzExpected.v
theories/Prop_Regular.v
theories/Proof_ZRun.v
theories/Model_Singular.v
theories/Proof_Singular.v
theories/Proof_ZRunEx.v
theories/Prop_ZRun.v
theories/Prop_Singular.v
theories/Model_MvRel.v
theories/Spec_MvRel.v
theories/Proof_MvRel.v
theories/Prop_MvRel.v
theories/Proof_Curves.v
theories/Prop_Curves.v
theories/Proof_OdeExact.v
theories/Proof_OdeProgram.v
theories/Proof_OdeEx.v
theories/Prop_OdeExact.v
theories/Spec_Debug.v
theories/Model_Debug.v
theories/Proof_Debug.v
theories/Prop_Debug.v
theories/Model_Run.v
theories/Spec_Run.v
theories/Proof_Run.v
theories/Proof_RunEx.v
theories/Prop_Run.v
theories/Model_Program.v
theories/Spec_Program.v
theories/Proof_Eig.v
theories/Proof_Program.v
theories/Prop_Program.v
theories/Model_ZProgram.v
theories/Spec_ZProgram.v
theories/Proof_ZProgram.v
theories/Prop_ZProgram.v
theories/Spec_Curve.v
theories/Proof_Gentle.v
theories/Proof_CurvePlace.v
theories/Proof_CurveFill.v
theories/Proof_CurveRun.v
theories/Proof_CurveEx.v
theories/Proof_CurveZ.v
theories/Proof_Source.v
theories/Proof_Lstsq.v
theories/Proof_Tight.v
theories/Proof_TightEx.v
theories/Prop_Curve.v
theories/Spec_OdeAcc.v
theories/Proof_OdeAcc.v
theories/Proof_Picard.v
theories/Proof_OdeSeries.v
theories/Proof_OdeExist.v
theories/Proof_OdeSing.v
theories/Proof_OdeAccEx.v
theories/Prop_OdeAcc.v
theories/Proof_Norm.v
theories/Spec_Bound.v
theories/Proof_Bound.v
theories/Proof_BoundEx.v
theories/Prop_Bound.v
theories/Model_Scripts.v
theories/Spec_Scripts.v
theories/Proof_Scripts.v
theories/Proof_Scripts2.v
theories/Proof_ScriptsEx.v
theories/Prop_Scripts.v
theories/Lib_Sm.v
theories/Proof_Acc1.v
theories/Proof_Acc2.v
theories/Proof_Acc3.v
theories/Proof_Acc4.v
theories/Proof_Acc5.v
theories/Proof_Acc6.v
theories/Spec_Accuracy.v
theories/Proof_Acc7.v
theories/Proof_Acc8.v
theories/Proof_AccEx.v
theories/Prop_Accuracy.v
theories/Model_ExtTest.v
theories/Spec_ExtTest.v
theories/Proof_ExtTest.v
theories/Proof_AccI1.v
theories/Proof_AccI2.v
theories/Proof_AccI3.v
theories/Proof_AccI4.v
theories/Proof_AccI5.v
theories/Proof_AccI6.v
theories/Proof_AccI7.v
theories/Proof_AccI8.v
theories/Prop_AccSource.v
theories/Proof_ExtTest2.v
theories/Prop_ExtTest.v
theories/Spec_PolarAcc.v
theories/Proof_PolarAcc1.v
theories/Proof_PolarAcc2.v
theories/Proof_PolarUniq.v
theories/Proof_PolarCheck.v
theories/Proof_PolarSolve.v
theories/Proof_PolarAccEx.v
theories/Prop_PolarAcc.v
theories/Spec_ACoef.v
theories/Proof_ACoef1.v
theories/Proof_ACoef2.v
theories/Proof_ACoefEx.v
theories/Prop_ACoef.v
theories/Spec_Tip.v
theories/Proof_Tip1.v
theories/Proof_Tip2.v
theories/Proof_Tip3.v
theories/Proof_Series.v
theories/Prop_Tip.v
theories/Model_Sparse.v
theories/Spec_Sparse.v
theories/Proof_Sparse.v
theories/Prop_Sparse.v
theories/Model_Cli.v
theories/Spec_Cli.v
theories/Proof_Cli.v
theories/Proof_CliRun.v
theories/Prop_Cli.v
theories/Model_MVTest.v
theories/Proof_MVTest.v
theories/Prop_MVTest.v
theories/Model_PolarTest.v
theories/Spec_PolarTest.v
theories/Proof_PolarTest.v
theories/Prop_PolarTest.v
theories/Proof_Gap.v
theories/Proof_Gap2.v
theories/Proof_Gap3.v
theories/Proof_Gap4.v
theories/Prop_Gap.v
theories/Proof_Sizes.v
theories/Model_Plot.v
theories/Spec_Plot.v
theories/Proof_Plot.v
theories/Prop_Plot.v
theories/Model_Codegen.v
theories/Spec_Codegen.v
theories/Proof_Codegen.v
theories/Prop_Codegen.v
theories/Model_Rel.v
theories/Spec_Rel.v
theories/Proof_Rel.v
theories/Prop_Rel.v
theories/Model_AbScripts.v
theories/Proof_AbScripts.v
theories/Prop_AbScripts.v
