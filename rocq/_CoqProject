-Q theories Verif
theories/RealStruct.v
theories/Nat.v
theories/Alg.v
theories/Lin.v
theories/Ent.v
theories/Spd.v
theories/M_Block.v
theories/S_Block.v
theories/P_Block.v
theories/Log.v
theories/P_Block2.v
theories/M_BlockLog.v
theories/P_BlockLog.v
theories/T_Block.v
theories/M_SSM.v
theories/S_SSM.v
theories/P_SSM.v
theories/S_Gauss.v
theories/P_Gauss.v
theories/M_SSMLog.v
theories/P_SSMLog.v
theories/T_SSM.v
theories/S_Kalman.v
theories/M_Kalman.v
theories/P_Kalman.v
theories/P_KalmanLog.v
theories/P_Kalman2.v
theories/T_Kalman.v
theories/S_Trans.v
theories/M_Trans.v
theories/P_Trans.v
theories/P_TransLog.v
theories/T_Trans.v
theories/M_Kernel.v
theories/M_Cond.v
theories/S_Kernel.v
theories/P_Kernel.v
theories/P_Cond.v
theories/P_Cond2.v
theories/P_Cond3.v
theories/P_Cond4.v
theories/P_CondR.v
theories/T_Cond.v
theories/MCalc.v
theories/MExp.v
theories/MLyap.v
theories/M_Comb.v
theories/S_Comb.v
theories/P_Kron.v
theories/P_Comb.v
theories/P_Comb2.v
theories/P_Comb3.v
theories/M_KernelR.v
theories/S_KernelR.v
theories/P_Matern.v
theories/P_KernelR.v
theories/P_KernelR2.v
theories/P_KernelR3.v
theories/P_KernelR4.v
theories/T_Kernel.v
theories/M_Piece.v
theories/S_Piece.v
theories/P_Piece.v
theories/P_Piece2.v
theories/P_PieceR.v
theories/T_Piece.v
theories/M_Emission.v
theories/P_Emission.v
theories/M_Mean.v
theories/S_Mean.v
theories/P_Mean.v
theories/T_Mean.v
theories/M_Sort.v
theories/P_Sort.v
theories/T_Sort.v
theories/M_Models.v
theories/S_GP.v
theories/P_Elbo.v
theories/P_Models.v
theories/P_Models2.v
theories/P_Models3.v
theories/T_Models.v
theories/M_IW.v
theories/S_IW.v
theories/P_IW.v
theories/T_IW.v
theories/M_Cvi.v
theories/S_Cvi.v
theories/P_Cvi.v
theories/P_Cvi2.v
theories/P_Cvi3.v
theories/P_Cvi4.v
theories/T_Cvi.v
theories/M_Pep.v
theories/S_Pep.v
theories/P_Pep.v
theories/P_Pep2.v
theories/P_Pep3.v
theories/P_Pep4.v
theories/P_Pep5.v
theories/P_Pep6.v
theories/P_Pep7.v
theories/T_Pep.v
theories/MCont.v
theories/M_NatGrad.v
theories/S_NatGrad.v
theories/P_NatGrad.v
theories/P_NatGrad2.v
theories/P_NatGrad3.v
theories/P_NatGrad4.v
theories/P_NatGrad5.v
theories/P_NatGrad6.v
theories/P_NatGrad7.v
theories/P_NatGrad8.v
theories/T_NatGrad.v
theories/M_Space.v
theories/S_Space.v
theories/P_Space.v
theories/P_Space2.v
theories/P_Space3.v
theories/T_Space.v
theories/P_IW2.v
theories/S_Lik.v
theories/M_Lik.v
theories/P_Lik.v
theories/T_Lik.v
theories/M_Sde.v
theories/S_Sde.v
theories/P_SSMKl.v
theories/P_Sde.v
theories/P_Sde2.v
theories/P_Sde3.v
theories/P_Sde4.v
theories/T_Sde.v
theories/Stein.v
theories/MInv.v
theories/S_Dregs.v
theories/P_IW3.v
theories/M_SPep.v
theories/S_SPep.v
theories/P_SPep.v
theories/P_SPep2.v
theories/P_SPep3.v
theories/P_SPep4.v
theories/P_SPep5.v
theories/P_SPep6.v
theories/P_SPep7.v
theories/P_SPep8.v
theories/T_SPep.v
theories/M_Density.v
theories/S_Density.v
theories/P_Density.v
theories/T_Density.v
theories/GaussInt.v
theories/P_GaussInt.v
theories/P_Hermite.v
theories/S_Expect.v
theories/P_Expect.v
theories/T_Elbo.v
theories/P_Grow.v
theories/P_SPep9.v
theories/P_Units.v
theories/P_Effect.v
theories/P_Extra.v
theories/P_ExtraR.v
theories/P_Repeat.v
theories/P_SpaceCov.v
theories/P_SpaceElbo.v
theories/P_SpaceEx.v
theories/P_Sde5.v
theories/P_SparseDense.v
theories/P_Mean2.v
theories/P_IW4.v
theories/P_PredSpd.v
theories/P_PredSpd2.v
theories/M_Expr.v
theories/S_Expr.v
theories/P_Expr.v
theories/P_Expr2.v
theories/T_Expr.v
theories/P_Examples.v
theories/P_NatGrad9.v
theories/P_NatGrad10.v
theories/P_NatGrad11.v
theories/P_Indep.v
theories/P_Indep2.v
theories/S_Order.v
theories/P_Order.v
theories/P_Order2.v
theories/T_Order.v
theories/P_MeanModel.v
theories/T_Shift.v
theories/P_Cases.v
theories/P_MeanModel2.v
