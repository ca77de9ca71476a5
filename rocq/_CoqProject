-Q theories Verif
theories/Base.v
theories/BaseP.v
theories/StackM.v
theories/StackSpec.v
theories/StackP.v
theories/Thm_Stack.v
theories/GraphRec.v
theories/GraphM.v
theories/GraphSpec.v
theories/GSimp.v
theories/LinkP.v
theories/GraphP.v
theories/GraphP2.v
theories/GraphP3.v
theories/GraphP4.v
theories/GraphP5.v
theories/GraphP6.v
theories/GraphP7.v
theories/GraphEx.v
theories/Thm_Graph.v
theories/Thm_Hide.v
theories/CopySpec.v
theories/CopyP.v
theories/Thm_Copy.v
theories/ListM.v
theories/ListSpec.v
theories/ListP.v
theories/Thm_List.v
theories/StrBufM.v
theories/StrBufSpec.v
theories/StrBufP.v
theories/Thm_StrBuf.v
theories/ExtM.v
theories/ExtSpec.v
theories/ExtP.v
theories/Thm_Ext.v
theories/DFSM.v
theories/DFSSpec.v
theories/DFSP.v
theories/DFSP2.v
theories/DFSP3.v
theories/DFSP4.v
theories/DFSP5.v
theories/DFSP6.v
theories/DFSP7.v
theories/Thm_DFS.v
theories/MoveP.v
theories/Thm_Move.v
theories/RandM.v
theories/RandSpec.v
theories/RandP.v
theories/RandP2.v
theories/RandP3.v
theories/RandP4.v
theories/Thm_Rand.v
theories/StrFileM.v
theories/StrFileSpec.v
theories/StrFileP.v
theories/Thm_StrFile.v
theories/G6M.v
theories/G6Spec.v
theories/G6P.v
theories/G6P2.v
theories/G6P3.v
theories/G6P4.v
theories/G6P5.v
theories/G6P6.v
theories/Thm_G6.v
theories/TestM.v
theories/TestSpec.v
theories/OrbitP.v
theories/TestP.v
theories/TestP2.v
theories/TestP3.v
theories/TestP4.v
theories/TestP5.v
theories/Thm_Test.v
theories/ObsSpec.v
theories/ObsP.v
theories/ObsP2.v
theories/ObsP3.v
theories/ObsP4.v
theories/ObsP5.v
theories/ObsP6.v
theories/ObsP7.v
theories/Thm_Obs.v
theories/EmbM0.v
theories/EmbM.v
theories/EmbSpec.v
theories/EmbP.v
theories/EmbP2.v
theories/EmbP3.v
theories/Thm_Emb.v
theories/InitM.v
theories/InitSpec.v
theories/InitP.v
theories/Thm_Init.v
theories/DrawM.v
theories/DrawSpec.v
theories/DrawP.v
theories/DrawP2.v
theories/DrawP3.v
theories/Thm_Draw.v
theories/IOM.v
theories/IOSpec.v
theories/IOP.v
theories/IOP2.v
theories/IOP3.v
theories/IOP4.v
theories/IOP5.v
theories/IOP6.v
theories/IOP7.v
theories/IOP8.v
theories/IOP9.v
theories/Thm_IO.v
theories/DrawIOM.v
theories/DrawIOSpec.v
theories/DrawIOP.v
theories/Thm_DrawIO.v
theories/FaceP.v
theories/GeoP.v
theories/GeoP2.v
theories/EmbInv.v
theories/EmbStep.v
theories/EmbTree.v
theories/EmbWalk.v
theories/EmbUp.v
theories/EmbJoin.v
theories/EmbDown.v
theories/FanP.v
theories/EmbFan.v
theories/EmbC1.v
theories/EmbC2.v
theories/EmbC3.v
theories/EmbC4.v
theories/PlI.v
theories/PlI2.v
theories/IsoKK.v
theories/IsoKA.v
theories/IsoKI.v
theories/IsoKU.v
theories/IsoKP.v
theories/IsoKB.v
theories/IsoKX.v
theories/IsoKY.v
theories/IsoKY2.v
theories/EmbDown2.v
theories/EmbDown3.v
theories/EmbDown4.v
theories/EmbLoop.v
theories/EmbOrient.v
theories/EmbEuler.v
theories/EmbFin.v
theories/EmbedSpec.v
theories/EmbInit.v
theories/EmbInit2.v
theories/EmbInit3.v
theories/EmbInit4.v
theories/EmbInit5.v
theories/PlanSpec.v
theories/OutSpec.v
theories/OutP.v
theories/EmbedP.v
theories/Thm_Embed.v
theories/PlanP.v
theories/PlanE.v
theories/PlanDec.v
theories/PlanO.v
theories/Thm_Planar.v
theories/Thm_Outer.v
theories/IsoM.v
theories/EmbStor.v
theories/IsoP1.v
theories/IsoP2.v
theories/IsoP3.v
theories/IsoP4.v
theories/IsoO.v
theories/IsoO2.v
theories/IsoX.v
theories/IsoX2.v
theories/IsoX3.v
theories/IsoX4.v
theories/IsoK.v
theories/IsoI.v
theories/IsoF.v
theories/IsoT.v
theories/IsoB.v
theories/Thm_Iso.v
theories/IsoKM.v
theories/NcP.v
theories/PlV.v
theories/PlV2.v
theories/PlV3.v
theories/IsoKZ.v
theories/IsoKZ2.v
theories/IsoKC.v
theories/IsoKD.v
theories/IsoKE.v
theories/IsoKF.v
theories/IsoKW.v
theories/EmbU.v
theories/IsoKV.v
theories/SubdP.v
theories/Thm_IsoK.v
theories/EndSpec.v
theories/SortEP.v
theories/Thm_End.v
theories/RotP.v
theories/DirP.v
theories/Thm_Text.v
theories/ReadyP.v
theories/Thm_Read.v
theories/RoomP.v
theories/AgainSpec.v
theories/Thm_Again.v
theories/AppM.v
theories/Thm_App.v
theories/Thm_AppAll.v
theories/TransM.v
theories/Thm_Trans.v
theories/SpecM.v
theories/Thm_Spec.v
theories/SaveM.v
theories/Thm_Save.v
