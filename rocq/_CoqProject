-Q theories Verif
theories/Outcome.v
theories/RBool.v
theories/Lin.v
theories/GeoModel.v
theories/GeoSpec.v
theories/GeoProofs.v
theories/ExpProofs.v
theories/ExpSeries.v
theories/Se3Proofs.v
theories/JacSo3.v
theories/EulerProofs.v
theories/GeoMore.v
theories/P_Geo.v
theories/TypesModel.v
theories/GivensModel.v
theories/StateModel.v
theories/PdInv.v
theories/StateSpec.v
theories/StateLin.v
theories/StateEkf.v
theories/TypesProofs.v
theories/StateOps.v
theories/GivensSpec.v
theories/GivensProofs.v
theories/EquivProofs.v
theories/StateOps2.v
theories/StateOps3.v
theories/StateOps4.v
theories/StateInit.v
theories/StateOps5.v
theories/ReachModel.v
theories/ReachSpec.v
theories/StateReach.v
theories/StateFrame.v
theories/ManifoldSpec.v
theories/ManifoldProofs.v
theories/Calc3.v
theories/StateThms.v
theories/StateEx.v
theories/P_State.v
theories/P_Givens.v
theories/DbModel.v
theories/DbSpec.v
theories/DbProofs.v
theories/DbProofs2.v
theories/DbThms.v
theories/P_Db.v
theories/UpdModel.v
theories/UpdSpec.v
theories/UpdProofs.v
theories/UpdProofs2.v
theories/UpdProofs3.v
theories/UpdProofs4.v
theories/UpdProofs5.v
theories/UpdEx.v
theories/P_Update.v
theories/ImuModel.v
theories/ImuSpec.v
theories/ImuProofs.v
theories/ImuThms.v
theories/P_Imu.v
theories/InitModel.v
theories/InitSpec.v
theories/InitDongsi.v
theories/InitDongsi2.v
theories/InitProofs.v
theories/InitThms.v
theories/InitDisp.v
theories/DispSpec.v
theories/InitDisp2.v
theories/P_Init.v
theories/EvalModel.v
theories/EvalSpec.v
theories/EvalProofs.v
theories/EvalStats.v
theories/EvalAlign.v
theories/EvalAlign2.v
theories/EvalThms.v
theories/EvalErr.v
theories/P_Eval.v
theories/TrackModel.v
theories/TrackSpec.v
theories/TrackProofs.v
theories/TrackProofs2.v
theories/TrackThms.v
theories/TrackEx.v
theories/P_Track.v
theories/PropModel.v
theories/PropSpec.v
theories/PropRows.v
theories/PropRowsA.v
theories/PropProofs.v
theories/PropDisc.v
theories/PropAna.v
theories/PropThms.v
theories/RkSpec.v
theories/RkThms.v
theories/P_Prop.v
theories/SimModel.v
theories/SimSpec.v
theories/SimProofs.v
theories/SimThms.v
theories/P_Sim.v
theories/RosModel.v
theories/RosSpec.v
theories/RosProofs.v
theories/P_Ros.v
theories/CamModel.v
theories/CamSpec.v
theories/CamProofs.v
theories/P_Cam.v
theories/LandModel.v
theories/LandSpec.v
theories/LandProofs.v
theories/P_Land.v
theories/HelpModel.v
theories/HelpSpec.v
theories/HelpGeo.v
theories/HelpRep.v
theories/HelpAsm.v
theories/HelpThms.v
theories/HelpEx.v
theories/P_Help.v
theories/FeatModel.v
theories/FeatSpec.v
theories/FeatProofs.v
theories/FeatThms.v
theories/FeatGn.v
theories/FeatEx.v
theories/P_Feat.v
theories/FastModel.v
theories/FastSpec.v
theories/FastProofs.v
theories/FastThms.v
theories/P_Fast.v
theories/ZuptModel.v
theories/ZuptSpec.v
theories/ZuptProofs.v
theories/ZuptThms.v
theories/ZuptVio.v
theories/P_Zupt.v
theories/AnchorModel.v
theories/AnchorSpec.v
theories/AnchorPhi.v
theories/AnchorProofs.v
theories/AnchorTotal.v
theories/AnchorLive.v
theories/AnchorThms.v
theories/AnchorEx.v
theories/AnchorRun.v
theories/P_Anchor.v
theories/ShowModel.v
theories/ShowProofs.v
theories/ShowEx.v
theories/P_Show.v
theories/BsplModel.v
theories/BsplSpec.v
theories/BsplFind.v
theories/BsplFeed.v
theories/BsplDiff.v
theories/BsplSeg.v
theories/BsplThms.v
theories/BsplKnot.v
theories/BsplCtrl.v
theories/BsplNear.v
theories/BsplEx.v
theories/P_Bspl.v
theories/SelModel.v
theories/SelSpec.v
theories/SelUpd.v
theories/SelDb.v
theories/SelState.v
theories/SelSelect.v
theories/SelThms.v
theories/SelRun.v
theories/SelEx.v
theories/FateSpec.v
theories/FateSel.v
theories/FateThms.v
theories/FateRun.v
theories/FateEx.v
theories/P_Sel.v
theories/P_Fate.v
theories/TagSpec.v
theories/TagThms.v
theories/TagEx.v
theories/P_Tag.v
theories/StartModel.v
theories/StartSpec.v
theories/StartThms.v
theories/StartEx.v
theories/P_Start.v
theories/CpiModel.v
theories/CpiSpec.v
theories/CpiProofs.v
theories/CpiJac.v
theories/CpiEx.v
theories/P_Cpi.v
theories/CpiCovSpec.v
theories/CpiCov.v
theories/CpiCov2.v
theories/CpiCov3.v
theories/CpiCovEx.v
theories/P_CpiCov.v
theories/CeresModel.v
theories/CeresSpec.v
theories/CeresQuat.v
theories/CeresImg.v
theories/CeresImu.v
theories/CeresRows.v
theories/CeresZero.v
theories/CeresBad.v
theories/CeresLog.v
theories/CeresPrior.v
theories/CeresEx.v
theories/P_Ceres.v
theories/MleModel.v
theories/MleSpec.v
theories/MleBuild.v
theories/MleZero.v
theories/MleHand.v
theories/MleEx.v
theories/P_Mle.v
theories/DynModel.v
theories/DynSpec.v
theories/DynProofs.v
theories/DynThms.v
theories/DynSys.v
theories/DynSolve.v
theories/DynGuess.v
theories/DynTurn.v
theories/DynEx.v
theories/DynEx2.v
theories/P_Dyn.v
theories/RetriModel.v
theories/RetriSpec.v
theories/RetriProofs.v
theories/RetriThms.v
theories/RetriShow.v
theories/RetriEx.v
theories/P_Retri.v
theories/GtModel.v
theories/GtSpec.v
theories/GtProofs.v
theories/P_Gt.v
theories/GridModel.v
theories/GridSpec.v
theories/GridProofs.v
theories/GridThms.v
theories/P_Grid.v
theories/DescModel.v
theories/DescSpec.v
theories/DescProofs.v
theories/DescThms.v
theories/DescEx.v
theories/P_Desc.v
theories/SimsModel.v
theories/SimsSpec.v
theories/SimsProofs.v
theories/SimsMap.v
theories/SimsThms.v
theories/SimsEx.v
theories/SimsFed.v
theories/P_Sims.v
theories/CfgModel.v
theories/CfgSpec.v
theories/CfgProofs.v
theories/CfgThms.v
theories/CfgThms2.v
theories/CfgEx.v
theories/P_Cfg.v
theories/BatchModel.v
theories/BatchSpec.v
theories/BatchThms.v
theories/P_Batch.v
theories/FileModel.v
theories/FileSpec.v
theories/FileProofs.v
theories/FileGt.v
theories/P_File.v
theories/ErrModel.v
theories/ErrSpec.v
theories/ErrProofs.v
theories/ErrPose.v
theories/ErrThms.v
theories/ErrEx.v
theories/P_Err.v
theories/SimFileModel.v
theories/SimFileSpec.v
theories/SimFileProofs.v
theories/SimFileThms.v
theories/SimFileTop.v
theories/P_SimFile.v
theories/AdjSpec.v
theories/AdjProofs.v
theories/P_Adj.v
