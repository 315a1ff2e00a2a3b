-Q theories Verif
theories/Base.v
theories/Bessel.v
theories/Calc.v
theories/DualModel.v
theories/DualSpec.v
theories/DualProofs.v
theories/DualDiff.v
theories/GeoUtilsModel.v
theories/FantasyModel.v
theories/GeoUtilsSpec.v
theories/GeoUtilsProofs.v
theories/FantasyProofs.v
theories/FantasyProofs2.v
theories/FantasyProofs3.v
theories/FantasyHam.v
theories/FantasySymp.v
theories/ProgCont.v
theories/WordSeries.v
theories/WordOrder.v
theories/FantasyOrder.v
theories/FantasyOrder2.v
theories/FantasyOrder3.v
theories/FantasyGlobal.v
theories/FantasyGlobal2.v
theories/Picard.v
theories/CoordModel.v
theories/ConvModel.v
theories/CoordProofs.v
theories/CoordProofs2.v
theories/CoordProofs3.v
theories/CoordProofs4.v
theories/ConvProofs.v
theories/FantasyOrder4.v
theories/GeodesicModel.v
theories/GeodesicProofs.v
theories/FantasyGlobal3.v
theories/FantasySymm.v
theories/FantasySymm2.v
theories/FantasySymm3.v
theories/FantasySymm4.v
theories/FantasySymm5.v
theories/FantasyPlane.v
theories/FantasyShell.v
theories/FantasyCircular.v
theories/MetricModel.v
theories/MetricSpec.v
theories/MetricProofs.v
theories/MetricHamilton.v
theories/MetricProofs2.v
theories/MetricProofs3.v
theories/MetricProofs4.v
theories/MetricProofs5.v
theories/MetricProofs6.v
theories/MetricProofs7.v
theories/MetricUnify.v
theories/MetricHamilton2.v
theories/RKModel.v
theories/RKProofs.v
theories/RKOrder.v
theories/RKOrder2.v
theories/RKGlobal.v
theories/RKGlobal2.v
theories/RKProg.v
theories/MetricRK.v
theories/PicardProg.v
theories/Contin.v
theories/ConvProofs3.v
theories/CoordProofs5.v
theories/CoordProofs6.v
theories/ConvPath.v
theories/ConvProofs2.v
theories/CosmoModel.v
theories/CosmoProofs.v
theories/DualEq.v
theories/DualPow.v
theories/EmbedModel.v
theories/EmbedProofs.v
theories/SymAlg.v
theories/ExprModel.v
theories/SymModel.v
theories/PredefModel.v
theories/SymCacheModel.v
theories/SymGeo.v
theories/SymGeo2.v
theories/SymLoops.v
theories/SymMove.v
theories/SymConn.v
theories/SymCacheProofs.v
theories/SymFinal.v
theories/PredefBridge.v
theories/ExprFun.v
theories/FantasyCyclic.v
theories/FloatModel.v
theories/FloatExact.v
theories/FloatTrack.v
theories/FloatGlobal.v
theories/FloatTraj.v
theories/FantasyCarter.v
theories/FantasyRay.v
theories/FloatIEEE.v
theories/FloatMain.v
theories/FloatCarter.v
theories/FloatPlane.v
theories/GlobalHole.v
theories/Leave.v
theories/GlobalHole2.v
theories/FloatLU.v
theories/FloatLU2.v
theories/FloatLU3.v
theories/FloatLU4.v
theories/FloatLU5.v
theories/FloatRK.v
theories/FloatMetricModel.v
theories/FloatRK2.v
theories/FloatRKG.v
theories/FloatMetric.v
theories/FloatMetric2.v
theories/FloatMetric3.v
theories/FloatMetric4.v
theories/FloatMetric5.v
theories/FloatMetric6.v
theories/FloatMetric7.v
theories/FloatMetric8.v
theories/FloatVel.v
theories/MetricProofs8.v
theories/FloatFlow.v
theories/MetricKilling.v
theories/FloatInv.v
theories/MetricCarter.v
theories/GlobalMotion.v
theories/Fate.v
theories/GlobalOrbit.v
theories/FateOrbit.v
theories/Scatter.v
theories/FateOrbit2.v
theories/FateSI.v
theories/FateFlow.v
theories/FloatCoordModel.v
theories/FloatCoord.v
theories/FloatCoordMain.v
theories/FloatCart.v
theories/FloatConst.v
theories/FloatCoordExact.v
theories/FloatCoordIEEE.v
theories/FloatOut.v
theories/FloatOut2.v
theories/FloatOut3.v
theories/FloatOut4.v
theories/FloatPath.v
theories/Glue.v
theories/Forever.v
theories/ForeverSI.v
theories/ShadowModel.v
theories/PlotModel.v
theories/FractalModel.v
theories/ShadowProofs.v
theories/PlotProofs.v
theories/FractalProofs.v
theories/GeodesicDef.v
theories/SymTensorModel.v
theories/SymTensorProofs.v
theories/MiscFloat.v
theories/MiscModel.v
theories/MiscProofs.v
theories/ObjModel.v
theories/SymWitness.v
theories/SymTensorWitness.v
theories/ObjProofs.v
theories/PredefProofs.v
theories/PredefProofs2.v
theories/PredefDiag.v
theories/PredefDiag2.v
theories/PredefKN.v
theories/PredefKerr.v
theories/PredefFinal.v
theories/PredefNum.v
theories/P_Agree.v
theories/P_Carter.v
theories/P_Const.v
theories/P_Conv.v
theories/P_Coord.v
theories/SymCov.v
theories/SymCov2.v
theories/SymConf.v
theories/SymCovInst.v
theories/SymTransform.v
theories/P_Cov.v
theories/P_Dual.v
theories/P_Exists.v
theories/P_Fantasy.v
theories/P_Fate.v
theories/P_Float.v
theories/P_FloatCoord.v
theories/P_FloatFlow.v
theories/P_FloatMetric.v
theories/P_FloatOut.v
theories/P_FloatPath.v
theories/Precision.v
theories/P_Forever.v
theories/P_Fractal.v
theories/P_Geo.v
theories/P_Geodesic.v
theories/P_Metric.v
theories/P_Misc.v
theories/P_Motion.v
theories/P_Orbit.v
theories/P_Path.v
theories/P_Plot.v
theories/PredefSpecial.v
theories/P_Predef.v
theories/P_RK.v
theories/SymPair.v
theories/SymPairWitness.v
theories/P_Sym.v
theories/SymConst.v
theories/P_SymConst.v
theories/P_Symm.v
theories/P_Tensor.v
theories/P_Unify.v
theories/PredefWave.v
theories/PredefBessel.v
theories/P_Wave.v
