-Q theories Verif
theories/StencilModel.v
theories/StencilSpec.v
theories/StencilProofs.v
theories/AccessModel.v
theories/StreamModel.v
theories/StreamSpec.v
theories/AccessProofs.v
theories/StreamProofs.v
theories/RaceModel.v
theories/RaceProofs.v
theories/GridModel.v
theories/GridProofs.v
theories/StreamProofs2.v
theories/StencilProofs2.v
theories/PropsStencil.v
theories/PropsStream.v
theories/IndexModel.v
theories/IndexProofs.v
theories/PropsIndex.v
theories/CommModel.v
theories/CommSpec.v
theories/CommProofs.v
theories/CommProofs2.v
theories/PropsComm.v
theories/PerAccModel.v
theories/PerAccSpec.v
theories/PerAccProofs.v
theories/PropsPerAcc.v
theories/RealLib.v
theories/RateModel.v
theories/RateSpec.v
theories/RateProofs.v
theories/RateProofs2.v
theories/PropsRate.v
theories/StatModel.v
theories/StatSpec.v
theories/StatProofs.v
theories/PropsStat.v
theories/EqModel.v
theories/EqSpec.v
theories/EqProofs.v
theories/PropsEq.v
theories/MomModel.v
theories/MomProofs.v
theories/PropsMom.v
theories/LinLib.v
theories/LinQ.v
theories/TransSpec.v
theories/TransModel.v
theories/TransProofs.v
theories/TransProofs2.v
theories/TransProofs3.v
theories/PropsTrans.v
theories/CumModel.v
theories/CumProofs.v
theories/CumProofs2.v
theories/CumProofs3.v
theories/CumProofs4.v
theories/PropsCum.v
theories/CollModel.v
theories/CollSpec.v
theories/CollProofs.v
theories/CollProofs2.v
theories/CollProofs3.v
theories/CollProofs4.v
theories/CollProofs5.v
theories/CollProofs6.v
theories/CollProofs7.v
theories/PropsColl.v
theories/MacroModel.v
theories/MacroSpec.v
theories/MacroProofs.v
theories/MacroProofs2.v
theories/PropsMacro.v
theories/BoundModel.v
theories/BoundSpec.v
theories/BoundProofs.v
theories/BoundProofs2.v
theories/BoundProofs3.v
theories/BoundProofs4.v
theories/BoundProofs5.v
theories/BoundProofs6.v
theories/BoundProofs7.v
theories/BoundProofs8.v
theories/BoundProofs9.v
theories/BoundProofs10.v
theories/PropsBound.v
theories/ModeModel.v
theories/ModeSpec.v
theories/ModeProofs.v
theories/ModeProofs2.v
theories/ModeProofs3.v
theories/ModeProofs4.v
theories/PropsMode.v
theories/PsmModel.v
theories/PsmProofs.v
theories/PropsPsm.v
theories/ConfigModel.v
theories/ConfigSpec.v
theories/ConfigProofs.v
theories/PropsConfig.v
theories/SparseModel.v
theories/SparseSpec.v
theories/SparseProofs.v
theories/SparseProofs2.v
theories/SparseProofs3.v
theories/PropsSparse.v
theories/StepModel.v
theories/StepSpec.v
theories/StepProofs.v
theories/StepProofs2.v
theories/PropsStep.v
theories/SplitModel.v
theories/SplitProofs.v
theories/PropsSplit.v
theories/KernelModel.v
theories/KernelSpec.v
theories/KernelProofs.v
theories/KernelProofs2.v
theories/KernelProofs3.v
theories/PropsKernel.v
theories/FluctModel.v
theories/FluctSpec.v
theories/FluctProofs.v
theories/FluctProofs2.v
theories/PropsFluct.v
theories/SimpModel.v
theories/SimpSpec.v
theories/SimpProofs.v
theories/SimpProofs2.v
theories/SimpProofs3.v
theories/SimpProofs4.v
theories/SimpProofs5.v
theories/PropsSimp.v
theories/PhaseModel.v
theories/PhaseSpec.v
theories/PhaseProofs.v
theories/EnergyModel.v
theories/EnergySpec.v
theories/EnergyProofs.v
theories/EnergyProofs2.v
theories/EnergyProofs3.v
theories/EnergyProofs4.v
theories/EnergyProofs5.v
theories/EnergyProofs6.v
theories/PropsPhase.v
theories/CorrModel.v
theories/CorrSpec.v
theories/CorrProofs.v
theories/CorrProofs2.v
theories/PropsCorr.v
theories/WallModel.v
theories/WallSpec.v
theories/WallProofs.v
theories/WallProofs2.v
theories/WallProofs3.v
theories/PropsWall.v
theories/AcModel.v
theories/AcSpec.v
theories/AcProofs.v
theories/AcProofs2.v
theories/AcProofs3.v
theories/AcProofs4.v
theories/PropsAc.v
theories/PtModel.v
theories/PtSpec.v
theories/PtProofs.v
theories/PtProofs2.v
theories/PtProofs3.v
theories/PropsPt.v
theories/ChModel.v
theories/ChSpec.v
theories/ChProofs.v
theories/ChProofs2.v
theories/ChProofs3.v
theories/ChProofs4.v
theories/PropsCh.v
theories/IniModel.v
theories/IniSpec.v
theories/IniProofs.v
theories/IniProofs2.v
theories/PropsIni.v
theories/EosModel.v
theories/EosSpec.v
theories/EosProofs.v
theories/EosProofs2.v
theories/PropsEos.v
theories/NphModel.v
theories/NphSpec.v
theories/NphProofs.v
theories/NphProofs2.v
theories/NphProofs3.v
theories/PropsNph.v
theories/SpxModel.v
theories/SpxSpec.v
theories/SpxProofs.v
theories/SpxProofs2.v
theories/SpxProofs3.v
theories/PropsSpx.v
theories/InbModel.v
theories/InbSpec.v
theories/InbProofs.v
theories/InbProofs2.v
theories/InbProofs3.v
theories/InbProofs4.v
theories/InbProofs5.v
theories/PropsInb.v
theories/ChanModel.v
theories/ChanSpec.v
theories/ChanProofs.v
theories/ChanProofs2.v
theories/ChanProofs3.v
theories/ChanProofs4.v
theories/ChanProofs5.v
theories/PropsChan.v
theories/OldModel.v
theories/OldSpec.v
theories/OldProofs.v
theories/OldProofs2.v
theories/OldProofs3.v
theories/PropsOld.v
theories/StabSpec.v
theories/StabProofs.v
theories/StabProofs2.v
theories/StabProofs3.v
theories/StabProofs4.v
theories/PropsStab.v
theories/SymSpec.v
theories/SymProofs.v
theories/SymProofs2.v
theories/SymProofs3.v
theories/SymProofs4.v
theories/SymProofs5.v
theories/PropsSym.v
theories/WaveSpec.v
theories/WaveProofs.v
theories/WaveProofs2.v
theories/PropsWave.v
theories/ScnModel.v
theories/ScnSpec.v
theories/ScnProofs.v
theories/ScnProofs2.v
theories/ScnProofs3.v
theories/ScnProofs4.v
theories/PropsScn.v
theories/AdvSpec.v
theories/AdvProofs.v
theories/AdvProofs2.v
theories/PropsAdv.v
theories/TrackModel.v
theories/TrackSpec.v
theories/TrackProofs.v
theories/TrackProofs2.v
theories/PropsTrack.v
theories/SpRunModel.v
theories/SpRunSpec.v
theories/SpRunProofs.v
theories/PropsSpRun.v
theories/CoupModel.v
theories/CoupSpec.v
theories/CoupProofs.v
theories/CoupProofs2.v
theories/CoupProofs3.v
theories/CoupProofs4.v
theories/CoupProofs5.v
theories/PropsCoup.v
theories/QeModel.v
theories/QeSpec.v
theories/QeProofs.v
theories/QeProofs2.v
theories/QeProofs3.v
theories/QeProofs4.v
theories/PropsQe.v
theories/SymProofs6.v
theories/SymProofs7.v
theories/PropsSymC.v
theories/CinModel.v
theories/CinSpec.v
theories/CinProofs.v
theories/CinProofs2.v
theories/PropsCin.v
theories/CeModel.v
theories/CeSpec.v
theories/CeProofs.v
theories/CeProofs2.v
theories/CeProofs3.v
theories/CeProofs4.v
theories/CeProofs5.v
theories/CeProofs6.v
theories/PropsCe.v
theories/SteadyModel.v
theories/SteadySpec.v
theories/SteadyProofs.v
theories/SteadyProofs2.v
theories/SteadyProofs3.v
theories/SteadyProofs4.v
theories/SteadyProofs5.v
theories/PropsSteady.v
theories/MicroModel.v
theories/MicroSpec.v
theories/MicroProofs.v
theories/MicroProofs2.v
theories/PropsMicro.v
theories/StrainModel.v
theories/StrainSpec.v
theories/StrainProofs.v
theories/PropsStrain.v
theories/PostModel.v
theories/PostSpec.v
theories/PostProofs.v
theories/PostProofs2.v
theories/PropsPost.v
theories/MemModel.v
theories/MemSpec.v
theories/MemProofs.v
theories/PropsMem.v
theories/FieldModel.v
theories/FieldSpec.v
theories/FieldProofs.v
theories/PropsField.v
theories/LensModel.v
theories/LensSpec.v
theories/LensProofs.v
theories/PropsLens.v
theories/InitModel.v
theories/InitSpec.v
theories/InitProofs.v
theories/PropsInit.v
theories/SgsModel.v
theories/SgsSpec.v
theories/SgsProofs.v
theories/PropsSgs.v
theories/ImgModel.v
theories/ImgSpec.v
theories/ImgProofs.v
theories/PropsImg.v
theories/DropsModel.v
theories/DropsSpec.v
theories/DropsProofs.v
theories/PropsDrops.v
theories/ExpModel.v
theories/ExpSpec.v
theories/ExpProofs.v
theories/PropsExp.v
