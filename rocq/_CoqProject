-Q theories Verif
theories/M_AABM.v
theories/M_Adams.v
theories/M_BS.v
theories/M_BSDense.v
theories/M_Checked.v
theories/M_Checker.v
theories/M_Controlled.v
theories/M_CtrlRK.v
theories/M_Dense.v
theories/M_DenseRK.v
theories/M_Factory.v
theories/M_FsalSized.v
theories/M_Gsl.v
theories/M_Implicit.v
theories/M_Integrate.v
theories/M_Iter.v
theories/M_LU.v
theories/M_MArray.v
theories/M_MMStep.v
theories/M_MakeDense.v
theories/M_Midpoint.v
theories/M_Mkl.v
theories/M_Mpi.v
theories/M_MpiFsal.v
theories/M_MpiInt.v
theories/M_MpiStep.v
theories/M_Mtl.v
theories/M_Num.v
theories/M_Par.v
theories/M_Pid.v
theories/M_Plain.v
theories/M_RK.v
theories/M_Resize.v
theories/M_Run.v
theories/M_Sign.v
theories/M_Symp.v
theories/M_Ublas.v
theories/P_AABM.v
theories/P_AABM2.v
theories/P_AABMR.v
theories/P_Adams.v
theories/P_AdamsConv.v
theories/P_AdamsR.v
theories/P_BS.v
theories/P_BSDInd.v
theories/P_BSDPoly.v
theories/P_BSDR.v
theories/P_BSDVal.v
theories/P_BSDVal2.v
theories/P_BSDense.v
theories/P_BSInd.v
theories/P_BSPolyE.v
theories/P_BSR.v
theories/P_BSeries.v
theories/P_Butcher.v
theories/P_CABM.v
theories/P_Check.v
theories/P_Conv.v
theories/P_ConvOrd.v
theories/P_ConvRun.v
theories/P_Ctrl.v
theories/P_CtrlR.v
theories/P_CtrlRK.v
theories/P_CtrlRKN.v
theories/P_CtrlRKR.v
theories/P_CtrlRKT.v
theories/P_CtrlRKW.v
theories/P_CtrlTerm.v
theories/P_CtrlTermRK.v
theories/P_Dense.v
theories/P_DenseConv.v
theories/P_DenseConvDrv.v
theories/P_DenseConvRun.v
theories/P_DenseRK.v
theories/P_DenseRKR.v
theories/P_DenseRKX.v
theories/P_DenseRef.v
theories/P_DenseReplay.v
theories/P_DenseSin.v
theories/P_Det.v
theories/P_EvenPoly.v
theories/P_Extrap.v
theories/P_F64.v
theories/P_Factory.v
theories/P_Float.v
theories/P_Gragg.v
theories/P_GraggConv.v
theories/P_GraggStab.v
theories/P_Gsl.v
theories/P_IEConv.v
theories/P_Implicit.v
theories/P_Integrate.v
theories/P_Inv.v
theories/P_Iter.v
theories/P_IterD.v
theories/P_LU.v
theories/P_Lin.v
theories/P_MArray.v
theories/P_MakeDense.v
theories/P_Midpoint.v
theories/P_Mirror.v
theories/P_Mkl.v
theories/P_Mpi.v
theories/P_MpiFsal.v
theories/P_MpiInt.v
theories/P_MpiStep.v
theories/P_Mtl.v
theories/P_Neville.v
theories/P_Newton.v
theories/P_Norm.v
theories/P_OneStep.v
theories/P_OneStepX.v
theories/P_Par.v
theories/P_Pid.v
theories/P_Plain.v
theories/P_PlainA.v
theories/P_PlainR.v
theories/P_Poly.v
theories/P_PolyQuad.v
theories/P_R.v
theories/P_RK.v
theories/P_RKAll.v
theories/P_RKDense.v
theories/P_RKLin.v
theories/P_RKMem.v
theories/P_RKNamed.v
theories/P_RKOrder.v
theories/P_RKR.v
theories/P_Resize.v
theories/P_Ros.v
theories/P_RosConv.v
theories/P_RosDense.v
theories/P_RosInv.v
theories/P_RosOrd.v
theories/P_RosR.v
theories/P_RosRun.v
theories/P_RosSeries.v
theories/P_Run.v
theories/P_Symp.v
theories/P_SympConv.v
theories/P_SympOrd.v
theories/P_SympR.v
theories/P_SympRun.v
theories/P_SympZ.v
theories/P_Taylor.v
theories/P_Trees.v
theories/P_Ublas.v
theories/P_VVConv.v
theories/S_AABM.v
theories/S_Adams.v
theories/S_AdamsConv.v
theories/S_BS.v
theories/S_BSDPoints.v
theories/S_BSeries.v
theories/S_Back.v
theories/S_Check.v
theories/S_Conv.v
theories/S_Ctrl.v
theories/S_CtrlRK.v
theories/S_Dense.v
theories/S_DenseRK.v
theories/S_F64.v
theories/S_Grid.v
theories/S_IEConv.v
theories/S_Implicit.v
theories/S_Integrate.v
theories/S_Inv.v
theories/S_Iter.v
theories/S_LU.v
theories/S_Midpoint.v
theories/S_Mirror.v
theories/S_Mpi.v
theories/S_MpiInt.v
theories/S_Par.v
theories/S_Pid.v
theories/S_Quad.v
theories/S_RK.v
theories/S_Real.v
theories/S_RosConv.v
theories/S_Symp.v
theories/S_SympConv.v
theories/S_Taylor.v
theories/S_Times.v
theories/S_Ublas.v
theories/S_VVConv.v
theories/T_AABM.v
theories/T_AABMInit.v
theories/T_Adams.v
theories/T_AdamsConv.v
theories/T_AdamsDefault.v
theories/T_BS.v
theories/T_BSDConv.v
theories/T_BSPoly.v
theories/T_Back.v
theories/T_Butcher.v
theories/T_Check.v
theories/T_Conv.v
theories/T_ConvOrd.v
theories/T_Ctrl.v
theories/T_CtrlRK.v
theories/T_CtrlTerm.v
theories/T_Dense.v
theories/T_DenseConv.v
theories/T_DenseRK.v
theories/T_Factory.v
theories/T_Float.v
theories/T_FsalCalls.v
theories/T_FsalVals.v
theories/T_Gragg.v
theories/T_IEConv.v
theories/T_Implicit.v
theories/T_Integrate.v
theories/T_Iter.v
theories/T_IterDense.v
theories/T_Limit.v
theories/T_MakeDense.v
theories/T_Midpoint.v
theories/T_Mirror.v
theories/T_Mpi.v
theories/T_MpiFsal.v
theories/T_MpiInt.v
theories/T_MpiStep.v
theories/T_Par.v
theories/T_Pid.v
theories/T_Plain.v
theories/T_RK.v
theories/T_Resize.v
theories/T_RosConv.v
theories/T_Symp.v
theories/T_SympConv.v
theories/T_Ublas.v
theories/T_VVConv.v
theories/X_BS.v
theories/X_Inst.v
