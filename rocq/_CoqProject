-Q theories Verif
theories/M_Blob.v
theories/P_Blob.v
theories/T_Blob.v
theories/M_Cache.v
theories/S_Cache.v
theories/P_MemCache.v
theories/P_DiskCache.v
theories/P_Cache.v
theories/T_Cache.v
theories/M_Dtens.v
theories/S_Dtens.v
theories/P_Dtens.v
theories/T_Dtens.v
theories/M_Float.v
theories/M_Search.v
theories/P_Search.v
theories/M_Step.v
theories/M_Prop.v
theories/S_Step.v
theories/S_Prop.v
theories/P_Prop.v
theories/P_Step.v
theories/P_PropX.v
theories/S_Grid.v
theories/P_Grid.v
theories/X_Demo.v
theories/T_Step.v
theories/T_Prop.v
theories/T_Grid.v
theories/M_Expr.v
theories/S_Expr.v
theories/P_ExprSem.v
theories/P_Str.v
theories/P_Build.v
theories/P_Subs.v
theories/X_Expr.v
theories/T_Expr.v
theories/S_Diff.v
theories/P_Deriv.v
theories/P_Deriv2.v
theories/P_Deriv3.v
theories/P_Diff.v
theories/T_Diff.v
theories/M_Dag.v
theories/S_Dag.v
theories/P_Dag.v
theories/T_Dag.v
theories/M_Cmp.v
theories/M_Dec.v
theories/S_Dec.v
theories/P_Dec.v
theories/P_DecM.v
theories/P_DecF.v
theories/P_Cse.v
theories/P_Kahn.v
theories/P_Sort.v
theories/P_DecH.v
theories/P_Seg.v
theories/P_Vars.v
theories/P_DecX.v
theories/P_DecP.v
theories/X_Dec.v
theories/T_Dec.v
theories/P_Cmp.v
theories/T_Cmp.v
theories/M_Taylor.v
theories/S_Taylor.v
theories/P_Tay1.v
theories/P_Tay2.v
theories/P_Tay3.v
theories/P_Tay4.v
theories/P_Tay5.v
theories/P_Tay6.v
theories/P_Tay7.v
theories/P_Tay8.v
theories/P_Tay9.v
theories/P_Tay10.v
theories/P_Tay11.v
theories/P_TaySup.v
theories/T_Jets.v
theories/T_Taylor.v
theories/M_Stepper.v
theories/S_Stepper.v
theories/P_Stepper.v
theories/P_Stepper2.v
theories/P_Stepper3.v
theories/T_Stepper.v
theories/M_Event.v
theories/S_Event.v
theories/P_Event1.v
theories/P_Event2.v
theories/P_Event3.v
theories/P_Event4.v
theories/P_Event5.v
theories/P_Event6.v
theories/P_Event7.v
theories/P_Event8.v
theories/S_Cool.v
theories/P_Event9.v
theories/P_Event10.v
theories/X_Event.v
theories/T_Event.v
theories/M_Dfloat.v
theories/S_Dfl.v
theories/P_Dfl1.v
theories/P_Dfl2.v
theories/P_Dfl3.v
theories/T_Dfl.v
theories/M_Cout.v
theories/S_Cout.v
theories/P_Cout.v
theories/P_Cout2.v
theories/T_Cout.v
theories/M_Ens.v
theories/S_Ens.v
theories/P_Ens.v
theories/T_Ens.v
theories/M_Ctor.v
theories/S_Ctor.v
theories/P_Ctor.v
theories/T_Ctor.v
theories/M_Adj.v
theories/S_Adj.v
theories/P_Adj1.v
theories/P_Adj2.v
theories/P_Adj3.v
theories/P_Adj4.v
theories/P_Adj5.v
theories/P_Adj6.v
theories/P_Adj7.v
theories/P_Adj8.v
theories/P_Adj9.v
theories/P_Adj10.v
theories/P_Adj11.v
theories/P_Adj12.v
theories/T_Adj.v
theories/M_Var.v
theories/S_Var.v
theories/P_Var1.v
theories/P_Var2.v
theories/P_VarN.v
theories/P_Var3.v
theories/P_Var4.v
theories/P_Var5.v
theories/T_Var.v
theories/M_Cfunc.v
theories/S_Cfunc.v
theories/P_Cfunc1.v
theories/P_Cfunc2.v
theories/P_Cfunc3.v
theories/P_Cfunc4.v
theories/P_Cfunc5.v
theories/P_Cfunc6.v
theories/P_Cfunc7.v
theories/P_Cfunc8.v
theories/T_Cfunc.v
theories/S_Reg.v
theories/P_Reg1.v
theories/P_Reg2.v
theories/P_Reg3.v
theories/P_Reg4.v
theories/P_Reg5.v
theories/P_Reg6.v
theories/T_Reg.v
theories/M_Mech.v
theories/S_Mech.v
theories/P_Mech1.v
theories/P_Mech2.v
theories/P_Mech3.v
theories/P_Mech4.v
theories/T_Ham.v
theories/P_Mech5.v
theories/P_Mech6.v
theories/T_Lag.v
theories/M_Batch.v
theories/S_Batch.v
theories/P_Batch1.v
theories/P_Batch2.v
theories/P_Batch3.v
theories/P_Batch4.v
theories/X_Batch.v
theories/T_Batch.v
theories/M_Model.v
theories/S_Model.v
theories/P_Model1.v
theories/P_Model2.v
theories/P_Model3.v
theories/P_Model4.v
theories/T_Nbody.v
theories/T_Models.v
theories/M_Eop.v
theories/S_Eop.v
theories/P_Eop1.v
theories/P_Eop2.v
theories/P_Eop3.v
theories/P_Eop4.v
theories/T_Eop.v
theories/P_Ieee.v
theories/T_Ieee.v
theories/M_Net.v
theories/S_Net.v
theories/P_Net.v
theories/T_Net.v
theories/M_Frame.v
theories/S_Frame.v
theories/P_Frame.v
theories/P_Frame2.v
theories/T_Frame.v
theories/M_Kepler.v
theories/S_Kepler.v
theories/P_Kepler.v
theories/T_Kepler.v
theories/M_Rsw.v
theories/S_Rsw.v
theories/P_Rsw.v
theories/P_Rsw2.v
theories/T_Rsw.v
theories/M_Geo.v
theories/S_Geo.v
theories/P_Geo.v
theories/P_Geo2.v
theories/T_Geo.v
theories/M_Sh.v
theories/S_Sh.v
theories/P_Sh.v
theories/T_Sh.v
theories/M_Sh2.v
theories/P_Sh2.v
theories/P_Sh3.v
theories/T_Sh2.v
