-Q theories Verif
theories/AidModel.v
theories/AidProofs.v
theories/AidProofs2.v
theories/AidProofs3.v
theories/AidProofs4.v
theories/AidProofs5.v
theories/AidProps.v
theories/AidSpec.v
theories/AngModel.v
theories/AngProofs.v
theories/AngProofs2.v
theories/AngProofs3.v
theories/AngProofs4.v
theories/AngProofs5.v
theories/AngProps.v
theories/AngSpec.v
theories/AtomModel.v
theories/AtomProofs.v
theories/AtomProofs2.v
theories/AtomProofs3.v
theories/AtomProofs4.v
theories/AtomProofs5.v
theories/AtomProps.v
theories/AtomSpec.v
theories/BndModel.v
theories/BndProofs.v
theories/BndProofs2.v
theories/BndProofs3.v
theories/BndProofs4.v
theories/BndProofs5.v
theories/BndProofs6.v
theories/BndProps.v
theories/BndSpec.v
theories/BoxModel.v
theories/BoxProofs.v
theories/BoxProofs2.v
theories/BoxProofs3.v
theories/BoxProofs4.v
theories/BoxProofs5.v
theories/BoxProps.v
theories/BoxSpec.v
theories/BrdModel.v
theories/BrdProofs.v
theories/BrdProps.v
theories/BrdSpec.v
theories/BzpModel.v
theories/BzpProofs.v
theories/BzpProps.v
theories/BzpSpec.v
theories/CacheModel.v
theories/CacheProofs.v
theories/CacheProofs2.v
theories/CacheProps.v
theories/CacheSpec.v
theories/ContModel.v
theories/ContProofs.v
theories/ContProofs2.v
theories/ContProps.v
theories/ContSpec.v
theories/CoulModel.v
theories/CoulProofs.v
theories/CoulProofs2.v
theories/CoulProofs3.v
theories/CoulProps.v
theories/CoulSpec.v
theories/Cpx.v
theories/DirModel.v
theories/DirProofs.v
theories/DirProps.v
theories/DirSpec.v
theories/DosModel.v
theories/DosProofs.v
theories/DosProofs2.v
theories/DosProofs3.v
theories/DosProofs4.v
theories/DosProps.v
theories/DosSpec.v
theories/EigModel.v
theories/EigProofs.v
theories/EigProofs2.v
theories/EigProps.v
theories/EigSpec.v
theories/ElemModel.v
theories/ElemProofs.v
theories/ElemProps.v
theories/ElemSpec.v
theories/EnvModel.v
theories/EnvProofs.v
theories/EnvProps.v
theories/EnvSpec.v
theories/EwModel.v
theories/EwProofs.v
theories/EwProofs2.v
theories/EwProofs3.v
theories/EwProofs4.v
theories/EwProps.v
theories/EwSpec.v
theories/FitModel.v
theories/FitProofs.v
theories/FitProofs2.v
theories/FitProofs3.v
theories/FitProofs4.v
theories/FitProofs5.v
theories/FitProofs6.v
theories/FitProps.v
theories/FitSpec.v
theories/FoldProofs.v
theories/FoldProofs10.v
theories/FoldProofs11.v
theories/FoldProofs12.v
theories/FoldProofs13.v
theories/FoldProofs14.v
theories/FoldProofs15.v
theories/FoldProofs2.v
theories/FoldProofs3.v
theories/FoldProofs4.v
theories/FoldProofs5.v
theories/FoldProofs6.v
theories/FoldProofs7.v
theories/FoldProofs8.v
theories/FoldProofs9.v
theories/FoldProps.v
theories/FoldSpec.v
theories/FrcProofs.v
theories/FrcProofs10.v
theories/FrcProofs11.v
theories/FrcProofs2.v
theories/FrcProofs3.v
theories/FrcProofs4.v
theories/FrcProofs5.v
theories/FrcProofs6.v
theories/FrcProofs7.v
theories/FrcProofs8.v
theories/FrcProofs9.v
theories/FrcProps.v
theories/FrcSpec.v
theories/GamModel.v
theories/GamProofs.v
theories/GamProofs2.v
theories/GamProofs3.v
theories/GamProofs4.v
theories/GamProofs5.v
theories/GamProofs6.v
theories/GamProps.v
theories/GamSpec.v
theories/GapModel.v
theories/GapProofs.v
theories/GapProofs2.v
theories/GapProps.v
theories/GapSpec.v
theories/GeomModel.v
theories/GeomProofs.v
theories/GeomProofs2.v
theories/GeomProofs3.v
theories/GeomProps.v
theories/GeomSpec.v
theories/GndProofs.v
theories/GndProofs10.v
theories/GndProofs11.v
theories/GndProofs12.v
theories/GndProofs13.v
theories/GndProofs14.v
theories/GndProofs2.v
theories/GndProofs3.v
theories/GndProofs4.v
theories/GndProofs5.v
theories/GndProofs6.v
theories/GndProofs7.v
theories/GndProofs8.v
theories/GndProofs9.v
theories/GndProps.v
theories/GndSpec.v
theories/GridModel.v
theories/GridProofs.v
theories/GridProps.v
theories/GridSpec.v
theories/IndModel.v
theories/IndProofs.v
theories/IndProps.v
theories/IndSpec.v
theories/InvLin.v
theories/InvModel.v
theories/InvProofs.v
theories/InvProofs10.v
theories/InvProofs11.v
theories/InvProofs12.v
theories/InvProofs13.v
theories/InvProofs14.v
theories/InvProofs15.v
theories/InvProofs2.v
theories/InvProofs3.v
theories/InvProofs4.v
theories/InvProofs5.v
theories/InvProofs6.v
theories/InvProofs7.v
theories/InvProofs8.v
theories/InvProofs9.v
theories/InvProps.v
theories/InvSpec.v
theories/IoModel.v
theories/IoProofs.v
theories/IoProofs2.v
theories/IoProofs3.v
theories/IoProps.v
theories/IoSpec.v
theories/IplModel.v
theories/IplProofs.v
theories/IplProofs2.v
theories/IplProps.v
theories/IplSpec.v
theories/KptModel.v
theories/KptProofs.v
theories/KptProofs2.v
theories/KptProps.v
theories/KptSpec.v
theories/KsModel.v
theories/KsProofs.v
theories/KsProofs2.v
theories/KsProofs3.v
theories/KsProofs4.v
theories/KsProofs5.v
theories/KsProps.v
theories/KsSpec.v
theories/LrModel.v
theories/LrProofs.v
theories/LrProofs2.v
theories/LrProofs3.v
theories/LrProps.v
theories/LrSpec.v
theories/MblModel.v
theories/MblProofs.v
theories/MblProps.v
theories/MblSpec.v
theories/MixModel.v
theories/MixProofs.v
theories/MixProofs2.v
theories/MixProofs3.v
theories/MixProps.v
theories/MixSpec.v
theories/MpModel.v
theories/MpProofs.v
theories/MpProofs10.v
theories/MpProofs11.v
theories/MpProofs2.v
theories/MpProofs3.v
theories/MpProofs4.v
theories/MpProofs5.v
theories/MpProofs6.v
theories/MpProofs7.v
theories/MpProofs8.v
theories/MpProofs9.v
theories/MpProps.v
theories/MpSpec.v
theories/NetProofs.v
theories/NetProofs10.v
theories/NetProofs2.v
theories/NetProofs3.v
theories/NetProofs4.v
theories/NetProofs5.v
theories/NetProofs6.v
theories/NetProofs7.v
theories/NetProofs8.v
theories/NetProofs9.v
theories/NetProps.v
theories/NetSpec.v
theories/OccModel.v
theories/OccProofs.v
theories/OccProps.v
theories/OccSpec.v
theories/OutModel.v
theories/OutProofs.v
theories/OutProps.v
theories/OutSpec.v
theories/PairModel.v
theories/PairProofs.v
theories/PairProofs2.v
theories/PairProofs3.v
theories/PairProps.v
theories/PairSpec.v
theories/PkpModel.v
theories/PkpProofs.v
theories/PkpProps.v
theories/PkpSpec.v
theories/RdfModel.v
theories/RdfProofs.v
theories/RdfProps.v
theories/RdfSpec.v
theories/RhoModel.v
theories/RhoProofs.v
theories/RhoProofs2.v
theories/RhoProofs3.v
theories/RhoProofs4.v
theories/RhoProofs5.v
theories/RhoProofs6.v
theories/RhoProofs7.v
theories/RhoProps.v
theories/RhoSpec.v
theories/ScaModel.v
theories/ScaProofs.v
theories/ScaProofs2.v
theories/ScaProofs3.v
theories/ScaProps.v
theories/ScaSpec.v
theories/SkModel.v
theories/SkProofs.v
theories/SkProofs2.v
theories/SkProofs3.v
theories/SkProofs4.v
theories/SkProofs5.v
theories/SkProofs6.v
theories/SkProofs7.v
theories/SkProofs8.v
theories/SkProps.v
theories/SkSpec.v
theories/SkfModel.v
theories/SkfProofs.v
theories/SkfProofs2.v
theories/SkfProofs3.v
theories/SkfProofs4.v
theories/SkfProofs5.v
theories/SkfProofs6.v
theories/SkfProofs7.v
theories/SkfProps.v
theories/SkfSpec.v
theories/SplModel.v
theories/SplProofs.v
theories/SplProofs2.v
theories/SplProofs3.v
theories/SplProps.v
theories/SplSpec.v
theories/StbModel.v
theories/StbProofs.v
theories/StbProofs2.v
theories/StbProofs3.v
theories/StbProofs4.v
theories/StbProofs5.v
theories/StbProofs6.v
theories/StbProofs7.v
theories/StbProps.v
theories/StbSpec.v
theories/SysModel.v
theories/SysProofs.v
theories/SysProofs2.v
theories/SysProofs3.v
theories/SysProofs4.v
theories/SysProofs5.v
theories/SysProofs6.v
theories/SysProofs7.v
theories/SysProofs8.v
theories/SysProps.v
theories/SysSpec.v
theories/TabModel.v
theories/TabProofs.v
theories/TabProps.v
theories/TabSpec.v
theories/TimerModel.v
theories/TimerProofs.v
theories/TimerProps.v
theories/TimerSpec.v
theories/UtilModel.v
theories/UtilProofs.v
theories/UtilProps.v
theories/Vec.v
theories/VmdModel.v
theories/VmdProofs.v
theories/VmdProps.v
theories/VmdSpec.v
theories/VtkModel.v
theories/VtkProofs.v
theories/VtkProps.v
theories/VtkSpec.v
theories/XcfModel.v
theories/XcfProofs.v
theories/XcfProps.v
theories/XcfSpec.v
theories/YlmModel.v
theories/YlmProofs.v
theories/YlmProofs2.v
theories/YlmProofs3.v
theories/YlmProofs4.v
theories/YlmProps.v
theories/YlmSpec.v
