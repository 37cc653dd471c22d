-Q theories Verif
theories/Base.v
theories/Lib.v
theories/ModelCommon.v
theories/Model2.v
theories/ModelV.v
theories/CommonFacts.v
theories/Spec2.v
theories/Struct2.v
theories/Clip2.v
theories/HPoly.v
theories/HShift.v
theories/HInt.v
theories/RealNum.v
theories/Reduce2.v
theories/SumR.v
theories/Spec2R.v
theories/Mom2.v
theories/Cons2.v
theories/Shift2.v
theories/Misc2.v
theories/Green2.v
theories/Small2.v
theories/Wit2.v
theories/Glue2.v
theories/Props2.v
theories/VoxFacts.v
theories/Convex2.v
theories/IBox.v
theories/Vox2.v
theories/GlueV2.v
theories/PropsV2.v
theories/Model3.v
theories/Spec3.v
theories/Orb3.v
theories/Cut3.v
theories/Struct3.v
theories/Clip3.v
theories/Reduce3.v
theories/FaceSpec3.v
theories/Face3.v
theories/Spec3R.v
theories/Mom3.v
theories/Geo3.v
theories/CutSum3.v
theories/Cons3.v
theories/Shift3.v
theories/Graph3.v
theories/Small3.v
theories/Trans3.v
theories/Shape3.v
theories/Faces3.v
theories/Fail3.v
theories/Grow3.v
theories/Glue3.v
theories/Props3.v
theories/ModelV3.v
theories/Vox3.v
theories/Prism3.v
theories/GlueV3.v
theories/PropsV3.v
theories/ModelGood.v
theories/SpecGood.v
theories/Flood.v
theories/Conn.v
theories/Good3.v
theories/ThreeConn.v
theories/GlueG3.v
theories/PropsG3.v
theories/ModelN.v
theories/SpecN.v
theories/PermsN.v
theories/HeapPos.v
theories/HeapN.v
theories/TransN.v
theories/InitN.v
theories/GoodN.v
theories/CubeN.v
theories/ModelNC.v
theories/GlueN.v
theories/PropsN.v
theories/WalkN.v
theories/CloseN.v
theories/InsN.v
theories/SpecNC.v
theories/CutN.v
theories/ClipN.v
theories/CellsN.v
theories/SpecNP.v
theories/PolyN.v
theories/TruncN.v
theories/NearN.v
theories/HullN.v
theories/ShapesN.v
theories/PropsNC.v
theories/ModelNV.v
theories/SpecNR.v
theories/RedN.v
theories/FlagR.v
theories/BoxVolN.v
theories/FlagN.v
theories/SplitN.v
theories/SpecNV.v
theories/VoxN.v
theories/BoxVoxN.v
theories/SpecNaN.v
theories/NanN.v
theories/PropsNV.v
theories/FlagX.v
theories/FrameN.v
theories/FlagF.v
theories/UniqN.v
theories/OffN.v
theories/MonoN.v
theories/SpecNJ.v
theories/DisN.v
theories/ContN.v
theories/UniqJ.v
theories/VoxJ.v
theories/ClipJ.v
theories/PropsNJ.v
theories/SpecC3.v
theories/Conv3.v
theories/HullC3.v
theories/FlagC3.v
theories/VolC3.v
theories/LimC3.v
theories/SqzC3.v
theories/VoxC3.v
theories/InitC3.v
theories/GlueC3.v
theories/PropsC3.v
theories/SpecC2.v
theories/LoopC2.v
theories/HullC2.v
theories/ClipC2.v
theories/InitC2.v
theories/JordJ.v
theories/AreaC2.v
theories/MomC2.v
theories/RastC2.v
theories/GlueC2.v
theories/PropsC2.v
theories/SpecI.v
theories/IntJ.v
theories/NearB.v
theories/DivJ.v
theories/IntC2.v
theories/PropsI2.v
theories/IntC3.v
theories/PropsI3.v
theories/SpecF3.v
theories/RoomC3.v
theories/RoomF3.v
theories/PipeF3.v
theories/PropsF3.v
theories/ModelB.v
theories/SpecB.v
theories/InitP.v
theories/InitP2.v
theories/BrepEx.v
theories/InitP3.v
theories/InitP4.v
theories/InitP5.v
theories/InitP6.v
theories/InitP7.v
theories/PropsB.v
theories/PropsB2.v
theories/ModelBR.v
theories/SpecBR.v
theories/BrepO.v
theories/BrepW.v
theories/BrepF.v
theories/BrepC.v
theories/PropsBR.v
theories/RndNum.v
theories/SpecR3.v
theories/RndC3.v
theories/RndE3.v
theories/PropsR3.v
theories/SpecR2.v
theories/RndC2.v
theories/RndE2.v
theories/RndA2.v
theories/PropsR2.v
theories/RndM2.v
theories/RndV2.v
theories/PropsRV2.v
theories/RndM3.v
theories/PropsRM3.v
theories/SpecL3.v
theories/RndF3.v
theories/RndA3.v
theories/RndG3.v
theories/PropsRF3.v
theories/RndV3.v
theories/PropsRV3.v
theories/MeetJ.v
theories/SpecM3.v
theories/MeetC3.v
theories/PropsM3.v
theories/SpecM2.v
theories/MeetC2.v
theories/PropsM2.v
theories/FarkJ.v
theories/SpecH.v
theories/FarkC.v
theories/FarkG.v
theories/PropsH.v
theories/ProjJ.v
theories/ProjN.v
theories/SpecP3.v
theories/ProjC3.v
theories/ProjG3.v
theories/ProjC2.v
theories/PropsP3.v
theories/SpecPN.v
theories/ProjGN.v
theories/ShearJ.v
theories/PropsPN.v
theories/SpecQ3.v
theories/PolyQ3.v
theories/PolyG3.v
theories/BrepQ3.v
theories/PropsQ3.v
theories/SpecRT.v
theories/RotRT.v
theories/BrepRT.v
theories/BalN.v
theories/GoodBal.v
theories/GlueRT.v
theories/PropsRT.v
theories/PropsBal.v
theories/ClipApp.v
theories/ClipAppR.v
theories/PropsCA.v
theories/SpecEq.v
theories/Eqv.v
theories/Eqv3.v
theories/EqvR3.v
theories/EqvF3.v
theories/Eqv2.v
theories/EqvR2.v
theories/PropsEq.v
theories/FanOrd3.v
theories/Units.v
theories/PropsU.v
theories/SpecEqN.v
theories/EqvN.v
theories/EqvNR.v
theories/PropsEqN.v
theories/SpecEqNS.v
theories/EqvNS.v
theories/PropsEqNS.v
