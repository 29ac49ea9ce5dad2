-Q theories Verif
theories/Num.v
theories/NumR.v
theories/NumX.v
theories/M_Elliptic.v
theories/M_Line.v
theories/M_Doublet.v
theories/M_Cylinder.v
theories/M_Ring.v
theories/M_Misc.v
theories/M_Skewed.v
theories/M_Solver.v
theories/M_Turbine.v
theories/M_Farm.v
theories/M_Tictoc.v
theories/M_PlaneIO.v
theories/L_List.v
theories/L_Turbine.v
theories/L_Farm.v
theories/L_Layout.v
theories/Spec.v
theories/L_Geom.v
theories/L_Angles.v
theories/L_State.v
theories/L_TurbineX.v
theories/L_TurbineY.v
theories/L_Multi.v
theories/L_Built.v
theories/P_Turbine.v
theories/L_X.v
theories/L_Solver.v
theories/P_Farm.v
theories/P_Solver.v
theories/P_Solver2.v
theories/P_Misc.v
theories/P_IO.v
theories/SpecBS.v
theories/L_Calc.v
theories/L_Gen.v
theories/L_Dupl.v
theories/P_Line.v
theories/L_Ell.v
theories/L_Dupl2.v
theories/L_Dupl3.v
theories/L_Dupl4.v
theories/P_Elliptic.v
theories/P_Accuracy.v
theories/P_Batch.v
theories/P_Loading.v
theories/P_Grid.v
theories/P_Ground.v
theories/P_Ring.v
theories/P_Doublet.v
theories/P_Skewed.v
theories/L_Cyl.v
theories/L_Carlson.v
theories/P_Cylinder.v
theories/P_Cylinder2.v
theories/P_Cylinder3.v
theories/P_Longi.v
theories/P_Polar.v
theories/P_FarField.v
theories/P_Expansion.v
theories/P_Radii.v
theories/P_Converge.v
theories/P_Unskewed.v
theories/P_CodeConv.v
theories/P_Quad.v
theories/M_Curled.v
theories/M_Helpers.v
theories/M_Alias.v
theories/P_Curled.v
theories/P_FarOff.v
theories/P_Centre.v
theories/P_Helpers.v
theories/P_FarmHelp.v
theories/P_Nearest.v
theories/P_Errors.v
theories/P_Alias.v
theories/P_Legacy.v
theories/P_Cont.v
theories/M_Keys.v
theories/P_Keys.v
theories/P_Lines.v
theories/P_Blockage.v
theories/P_TurbineAxis.v
theories/SpecField.v
theories/P_Potential.v
theories/P_Potential2.v
theories/M_Study.v
theories/P_Study.v
theories/L_Ellipse.v
theories/P_RotorDisk.v
theories/P_ForeAft.v
theories/P_PiSpecial.v
theories/P_RingRow.v
theories/P_RingApprox.v
theories/P_CylApprox.v
theories/P_Jump.v
theories/P_Swirl.v
theories/P_Profile.v
theories/NumF.v
theories/P_Float.v
theories/P_FloatYaw.v
theories/P_FloatAxis.v
theories/P_FloatSheet.v
theories/P_FloatChain.v
theories/M_AliasLoad.v
theories/P_AliasLoad.v
theories/P_FloatGround.v
theories/M_Threads.v
theories/P_Threads.v
theories/P_Threads2.v
theories/P_Interrupt.v
theories/M_PlaneConc.v
theories/P_PlaneConc.v
theories/P_Order.v
theories/M_Shape.v
theories/P_Shape.v
theories/L_Units.v
theories/P_Units.v
theories/P_Units2.v
theories/L_Mirror.v
theories/P_Mirror.v
theories/P_MirrorSwirl.v
theories/P_MirrorLongi.v
theories/M_RelErr.v
theories/P_RelErr.v
theories/L_Homog.v
theories/P_Homog.v
theories/P_Source.v
