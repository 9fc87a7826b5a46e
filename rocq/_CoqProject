-Q theories Verif
theories/Util.v
theories/Sparse.v
theories/Props_Data.v
theories/SchedModel.v
theories/SchedProofs.v
theories/SchedInv.v
theories/SchedReach.v
theories/Props_Sched.v
theories/DistModel.v
theories/DistProofs.v
theories/DistLive.v
theories/DistFair.v
theories/Props_Dist.v
theories/TimeGroup.v
theories/Props_Time.v
theories/SchedAdv.v
theories/SchedAdvProofs.v
theories/Props_Adv.v
theories/Props_AdvMpi.v
theories/SchedSwe.v
theories/Props_Swe.v
theories/Shared.v
theories/SharedProofs.v
theories/Props_Shared.v
theories/Props_Status.v
theories/Distr.v
theories/Props_Distr.v
theories/Layout.v
theories/Props_Layout.v
theories/Lts.v
theories/Props_Lts.v
theories/Groups.v
theories/Props_Groups.v
theories/Partition.v
theories/Comm.v
theories/Props_Part.v
theories/CommProofs.v
theories/Props_Comm.v
theories/Props_Annot.v
theories/MeshConn.v
theories/MeshSpec.v
theories/MeshSort.v
theories/MeshFaces.v
theories/MeshNorm.v
theories/MeshNormEl.v
theories/MeshTypes.v
theories/MeshHex.v
theories/MeshOrder.v
theories/MeshAll.v
theories/MeshPer.v
theories/MeshFinal.v
theories/Props_Mesh.v
theories/Props_Ids.v
theories/MatSmall.v
theories/MatMul.v
theories/Props_Mat.v
theories/MatSparse.v
theories/Props_MatSparse.v
theories/Series.v
theories/Props_Series.v
theories/Receivers.v
theories/RecvProofs.v
theories/RecvInit.v
theories/Props_Recv.v
theories/Props_Sample.v
theories/Sources.v
theories/SourceProofs.v
theories/Props_Src.v
theories/SubCell.v
theories/Props_Sub.v
theories/Fwave.v
theories/Props_Fwave.v
theories/Props_FwaveR.v
theories/Mapping.v
theories/Props_Map.v
theories/GeomV.v
theories/GeomProofs.v
theories/GeomEl.v
theories/GeomDia.v
theories/Props_GeomV.v
theories/ElGen.v
theories/Elastic.v
theories/ElSpec.v
theories/ElWave.v
theories/ElFlux.v
theories/ElTrafo.v
theories/ElMid.v
theories/ElMid2.v
theories/ElAne.v
theories/ElFluid.v
theories/ElStar.v
theories/ElCsr.v
theories/ElFace.v
theories/Props_Elastic.v
theories/Fault.v
theories/FaultMs.v
theories/FaultSpec.v
theories/FaultRot.v
theories/FaultFric.v
theories/FaultNet.v
theories/FaultSlip.v
theories/FaultHist.v
theories/Props_Fault.v
theories/Ader.v
theories/AderSpec.v
theories/AderV.v
theories/AderCk.v
theories/AderInt.v
theories/Props_Ader.v
theories/Props_AderR.v
theories/AderEl.v
theories/AderElSpec.v
theories/AderElV.v
theories/AderLtsSpec.v
theories/AderLts.v
theories/Props_AderEl.v
theories/EndSpec.v
theories/EndToEnd.v
theories/Props_End.v
theories/AderConsSpec.v
theories/AderCons.v
theories/InitFs.v
theories/InitFsV.v
theories/ElMom.v
theories/Props_AderCons.v
theories/Props_InitFs.v
theories/AderGen.v
theories/AderGenV.v
theories/MmXsmm.v
theories/XsmmSpec.v
theories/XsmmRef.v
theories/AderSg.v
theories/AderSgV.v
theories/Props_AderSg.v
theories/FakeMats.v
theories/AderFu.v
theories/CscV.v
theories/FuSpec.v
theories/FuPats.v
theories/AderFuG.v
theories/AderFuV.v
theories/Props_AderFu.v
theories/BasisEx.v
theories/BasisCode2.v
theories/BasisCode3.v
theories/BasisSpec.v
theories/BasisPoly.v
theories/BasisSafe.v
theories/Basis.v
theories/BasisModes.v
theories/EdgePre.v
theories/BasisInt.v
theories/BasisOrth.v
theories/BasisSpan.v
theories/BasisDer.v
theories/Props_Basis.v
theories/EdgePreM.v
theories/EdgePreP.v
theories/Props_EdgePre.v
theories/Extrude.v
theories/ExtrudeSpec.v
theories/ExtrudeP.v
theories/ExtrudeG.v
theories/ExtrudeW.v
theories/ExtrudeT.v
theories/Props_Extrude.v
theories/MainLoop.v
theories/MainLoopSpec.v
theories/MainLoopP.v
theories/Props_Main.v
theories/Snap.v
theories/SnapSpec.v
theories/SnapP.v
theories/Props_Snap.v
theories/Props_SnapR.v
theories/Qpts.v
theories/QptsSpec.v
theories/QptsP.v
theories/Props_Qpts.v
theories/InitP.v
theories/InitQ.v
theories/Props_InitDofs.v
theories/AdvFs.v
theories/AdvFsV.v
theories/Props_AdvFs.v
theories/AdvK.v
theories/AdvKSpec.v
theories/AdvKV.v
theories/AdvKR.v
theories/Props_AdvK.v
theories/AdvLtsSpec.v
theories/AdvLtsV.v
theories/AdvLts.v
theories/AdvConsSpec.v
theories/AdvCons.v
theories/Props_AdvLts.v
theories/Visc.v
theories/ViscSpec.v
theories/ViscV.v
theories/LeastSq.v
theories/Props_Visc.v
theories/EvModels.v
theories/EvSpec.v
theories/EvModelsV.v
theories/Props_EvModels.v
theories/SeisSetup.v
theories/SeisSetSpec.v
theories/Props_SeisSetup.v
theories/Llf.v
theories/LlfSpec.v
theories/LlfV.v
theories/LlfW.v
theories/LlfE.v
theories/LlfG.v
theories/LlfH.v
theories/Props_Llf.v
theories/ScQuad.v
theories/ScQuadSpec.v
theories/ScQuadV.v
theories/ScQuadW.v
theories/Props_ScQuad.v
theories/ScProj.v
theories/ScProjSpec.v
theories/ScProjV.v
theories/ScProjL.v
theories/ScProjInv.v
theories/Props_ScProj.v
theories/ScLine.v
theories/ScLineSpec.v
theories/ScLineV.v
theories/Props_ScLine.v
theories/SubGrid.v
theories/SubGridSpec.v
theories/SubGridV.v
theories/SubGridW.v
theories/Props_SubGrid.v
theories/IbWriter.v
theories/IbWriterSpec.v
theories/IbWriterV.v
theories/Props_IbWriter.v
theories/SuperCell.v
theories/SuperCellSpec.v
theories/SuperCellV.v
theories/Props_SuperCell.v
theories/ScInit.v
theories/ScInitSpec.v
theories/ScInitV.v
theories/Props_ScInit.v
theories/Props_ScInitQ.v
theories/Props_ScInitL.v
theories/LiDup.v
theories/LiDupSpec.v
theories/LiDupV.v
theories/Props_LiDup.v
theories/ScData.v
theories/ScDataSpec.v
theories/Props_ScData.v
theories/Props_ScDataP.v
theories/ErrOut.v
theories/ErrOutSpec.v
theories/Props_ErrOut.v
