-Q theories Verif
theories/M_Num.v
theories/M_Outcome.v
theories/M_Dict.v
theories/M_Stock.v
theories/M_Market.v
theories/M_Payoff.v
theories/M_Option.v
theories/S_Double.v
theories/S_Market.v
theories/L_B64.v
theories/L_Dict.v
theories/L_Stock.v
theories/L_Market.v
theories/M_Singleton.v
theories/L_Singleton.v
theories/P_Market.v
theories/S_Option.v
theories/L_Payoff.v
theories/L_Option.v
theories/P_Option.v
theories/M_Random.v
theories/M_Model.v
theories/S_Random.v
theories/L_Random.v
theories/L_Poly.v
theories/L_InvCdf.v
theories/L_RandomModel.v
theories/P_Random.v
theories/S_Partial.v
theories/S_Model.v
theories/L_Model.v
theories/P_Model.v
theories/S_Prob.v
theories/L_Gauss.v
theories/L_Martingale.v
theories/P_Martingale.v
theories/M_Regression.v
theories/M_MonteCarlo.v
theories/M_Builder.v
theories/S_MonteCarlo.v
theories/L_MonteCarlo.v
theories/L_McScale.v
theories/P_MonteCarlo.v
theories/L_Defined.v
theories/S_American.v
theories/L_American.v
theories/P_American.v
theories/P_McRelations.v
theories/S_Order.v
theories/L_Order.v
theories/L_McDouble.v
theories/S_McPaths.v
theories/L_McPaths.v
theories/L_McRound.v
theories/P_McDouble.v
theories/S_Quasi.v
theories/L_Quasi.v
theories/P_Quasi.v
theories/S_Pseudo.v
theories/L_Pseudo.v
theories/P_Pseudo.v
theories/M_Main.v
theories/S_Main.v
theories/P_Main.v
theories/P_Builder.v
theories/M_Numeric.v
theories/S_Numeric.v
theories/L_Numeric.v
theories/P_Interpolation.v
theories/P_LinearSystem.v
theories/P_Basis.v
theories/P_Regression.v
theories/M_Fdm.v
theories/S_Fdm.v
theories/L_Fdm.v
theories/P_FdmMarch.v
theories/P_FdmScheme.v
theories/M_FdmWarn.v
theories/S_FdmWell.v
theories/L_FdmPivot.v
theories/P_FdmWell.v
theories/P_FdmWarn.v
theories/P_FdmPrice.v
theories/P_FdmCompare.v
theories/S_Expect.v
theories/L_Expect.v
theories/L_Sampler.v
theories/L_Growth.v
theories/P_Growth.v
theories/S_PriceMean.v
theories/L_PriceMean.v
theories/S_Normal.v
theories/L_Normal.v
theories/L_Lognormal.v
theories/P_PriceMean.v
theories/S_Bridge.v
theories/L_Bridge.v
theories/P_Bridge.v
theories/S_Pde.v
theories/L_BlackScholes.v
theories/P_BlackScholes.v
theories/S_FdmDouble.v
theories/L_Thomas.v
theories/L_FdmDouble.v
theories/P_FdmDouble.v
theories/P_FdmScale.v
theories/M_Export.v
theories/P_Export.v
theories/M_Print.v
theories/P_Print.v
theories/S_Levy.v
theories/L_Levy.v
theories/P_Levy.v
theories/L_Mixture.v
theories/S_Merton.v
theories/L_Merton.v
theories/P_Merton.v
theories/L_ZPoly.v
theories/L_Accuracy.v
theories/L_AccTail.v
theories/P_Accuracy.v
theories/S_Discrepancy.v
theories/L_Discrepancy.v
theories/P_Discrepancy.v
theories/S_Libm.v
theories/L_Near.v
theories/L_AccDouble.v
theories/P_AccDouble.v
theories/E_RepoTests.v
theories/S_GbmDouble.v
theories/L_GbmDouble.v
theories/L_MeanDouble.v
theories/L_PathDouble.v
theories/P_GbmDouble.v
theories/S_QuasiDouble.v
theories/L_QuasiDouble.v
theories/P_QuasiDouble.v
theories/S_ExplicitDouble.v
theories/L_ExplicitDouble.v
theories/P_ExplicitDouble.v
theories/L_Convex.v
theories/P_FdmConvex.v
theories/P_ConvexDouble.v
theories/P_ConvexPrice.v
theories/P_FdmRates.v
theories/P_FdmTime.v
theories/P_Vega.v
theories/P_VegaMerton.v
theories/P_Maturity.v
theories/P_AsianMean.v
