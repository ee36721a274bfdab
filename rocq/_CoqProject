-Q theories Verif
theories/Base.v
theories/Arr.v
theories/Lapack.v
theories/Exact.v
theories/Rng.v
theories/P_Opt.v
theories/Aware.v
theories/RangeFinders.v
theories/QB.v
theories/RingTac.v
theories/MxLib.v
theories/LapackSpec.v
theories/P_QB2.v
theories/P_RS1.v
theories/P_Stab.v
theories/P_RF.v
theories/P_QB3.v
theories/P_QBx.v
theories/LapackExists.v
theories/P_QBfin.v
theories/Properties_QB.v
theories/Pcg.v
theories/P_Pcg.v
theories/P_Pcg2.v
theories/P_Rate.v
theories/P_Rate2.v
theories/Lsqr.v
theories/P_Lsqr.v
theories/P_Iter.v
theories/P_Iter2.v
theories/P_Iter3.v
theories/Properties_Iter.v
theories/Precond.v
theories/LstSq.v
theories/SaddleSys.v
theories/P_Precond.v
theories/P_Svd.v
theories/P_Pcss1.v
theories/Chol.v
theories/P_LS.v
theories/P_LS2.v
theories/P_LS3.v
theories/P_LS4.v
theories/P_LS5.v
theories/P_LS6.v
theories/P_LS7.v
theories/Properties_LS.v
theories/P_Rate3.v
theories/P_Rate4.v
theories/P_Embed.v
theories/Properties_Rate.v
theories/Sel.v
theories/SvdEvd.v
theories/P_SvdEvd.v
theories/P_Svd1.v
theories/P_SvdNeg.v
theories/P_Evd.v
theories/P_Opt2.v
theories/P_Evd2.v
theories/P_Evd3.v
theories/P_Opt3.v
theories/Properties_Dec.v
theories/Properties_Opt.v
theories/Interp.v
theories/P_Interp.v
theories/P_Interp2.v
theories/P_Interp3.v
theories/Wrappers.v
theories/W_Interp.v
theories/F_Interp.v
theories/P_Interp4.v
theories/Properties_Interp.v
theories/Sketching.v
theories/P_Sketch.v
theories/P_Sketch2.v
theories/P_Sketch3.v
theories/P_Makers.v
theories/P_Sjlt.v
theories/P_Iso.v
theories/P_SSign.v
theories/F_Sketch.v
theories/Properties_Sketch.v
theories/Stats.v
theories/Makers.v
theories/P_Stats.v
theories/Properties_Stats.v
theories/Properties_Makers.v
theories/Drivers.v
theories/P_Frame.v
theories/P_Frame2.v
theories/P_Warn.v
theories/Properties_Frame.v
theories/Properties_Warn.v
theories/P_Drivers.v
theories/P_Embed2.v
theories/P_Embed3.v
theories/P_Prob.v
theories/Blk.v
theories/P_Prob2.v
theories/P_Blk.v
theories/P_ProbPe.v
theories/P_Evd4.v
theories/P_Prob3.v
theories/P_Prob4.v
theories/Properties_Embed.v
theories/Properties_Prob.v
theories/Properties_InterpProb.v
theories/Properties_Nys.v
theories/Shape.v
theories/P_Shape.v
theories/P_ShapeLS.v
theories/Properties_Shape.v
theories/Inexact.v
theories/P_Inexact.v
theories/P_Inexact2.v
theories/P_Inexact3.v
theories/P_Inexact4.v
theories/Properties_Inexact.v
theories/Float.v
theories/P_Float.v
theories/P_Float2.v
theories/P_Float3.v
theories/P_Float4.v
theories/P_Float5.v
theories/P_Float6.v
theories/P_Float7.v
theories/P_Float8.v
theories/P_Float9.v
theories/P_Float10.v
theories/P_Float11.v
theories/P_Float12.v
theories/FloatEvd.v
theories/FloatInterp.v
theories/P_Float13.v
theories/P_Float14.v
theories/P_Float15.v
theories/P_Float16.v
theories/Properties_Float.v
theories/Properties_FloatIter.v
theories/Properties_FloatSvd.v
theories/Properties_FloatEvd.v
theories/Properties_FloatInterp.v
theories/FloatNys.v
theories/P_Float17.v
theories/P_Float18.v
theories/P_Float19.v
theories/P_Float20.v
theories/P_Float21.v
theories/P_Float22.v
theories/P_Float23.v
theories/Properties_FloatNys.v
theories/Properties_FloatChol.v
theories/LogSpec.v
theories/P_Log.v
theories/Properties_Log.v
theories/FloatPre.v
theories/P_Float24.v
theories/P_Float25.v
theories/Properties_FloatPre.v
theories/Properties_Blk.v
theories/Properties_Drivers.v
theories/Tests.v
