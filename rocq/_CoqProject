-Q theories Verif
theories/DataModel.v
theories/DataProofs.v
theories/DataProofs2.v
theories/DataThms.v
theories/LinAlg.v
theories/KrigModel.v
theories/CholProofs.v
theories/LinQR.v
theories/KrigProofs.v
theories/KrigProofs2.v
theories/KrigProofs3.v
theories/KrigThms.v
theories/LooProofs.v
theories/PathProofs.v
theories/FdProofs.v
theories/LooThms.v
theories/RealAux.v
theories/Rinst.v
theories/LikModel.v
theories/LikProofs.v
theories/LikThms.v
theories/ReduceModel.v
theories/ReduceProofs.v
theories/ReduceThms.v
theories/ParamModel.v
theories/ParamProofs.v
theories/ParamThms.v
theories/FrameModel.v
theories/FrameProofs.v
theories/ConfigModel.v
theories/ConfigProofs.v
theories/StateThms.v
theories/RealAux2.v
theories/MaternModel.v
theories/MaternProofs.v
theories/MaternPsd.v
theories/MaternPsd2.v
theories/MaternCov.v
theories/MaternCovProofs.v
theories/InitModel.v
theories/InitProofs.v
theories/MaternThms.v
theories/FlModel.v
theories/PriorModel.v
theories/PriorProofs.v
theories/PriorMat.v
theories/PriorThms.v
theories/SelectModel.v
theories/SelectProofs.v
theories/SelectThms.v
theories/SmcModel.v
theories/SmcProofs.v
theories/SmcProofs2.v
theories/SmcThms.v
theories/MhModel.v
theories/MhProofs.v
theories/MhProofs2.v
theories/MhProofs3.v
theories/MhMat.v
theories/MhThms.v
theories/MhMatThms.v
theories/NutsModel.v
theories/NutsProofs.v
theories/NutsProofs2.v
theories/NutsProofs3.v
theories/NutsProofs4.v
theories/NutsProofs5.v
theories/NutsProofs6.v
theories/NutsThms.v
theories/GaussProofs.v
theories/ScoreModel.v
theories/ScoreProofs.v
theories/ScoreThms.v
theories/DesignModel.v
theories/DesignProofs.v
theories/DesignThms.v
theories/DiagModel.v
theories/DiagProofs.v
theories/DiagThms.v
theories/DiagThms2.v
theories/DiagThms3.v
theories/SvgdModel.v
theories/SvgdProofs.v
theories/SvgdThms.v
theories/SvgdThms2.v
theories/SvgdThms3.v
theories/PostModel.v
theories/PostThms.v
theories/PostThms2.v
theories/PostSvgdModel.v
theories/PostSvgdThms.v
theories/ContractThms.v
theories/StateThms2.v
theories/InitThms.v
theories/TestfunModel.v
theories/TestfunThms.v
theories/PriorCritModel.v
theories/PriorCritThms.v
theories/KnnModel.v
theories/KnnThms.v
theories/UtilsModel.v
theories/UtilsThms.v
theories/InitLoaderModel.v
theories/InitLoaderThms.v
theories/NutsRunModel.v
theories/NutsRunProofs.v
theories/NutsRunThms.v
theories/RemapModel.v
theories/RemapProofs.v
theories/RemapThms.v
theories/RemapLoaderThms.v
theories/QuantModel.v
theories/QuantProofs.v
theories/QuantThms.v
theories/FrameSetModel.v
theories/FrameSetThms.v
theories/ParamMemModel.v
theories/ParamMemThms.v
theories/ReportModel.v
theories/ReportThms.v
theories/MhPoolModel.v
theories/MhPoolThms.v
theories/MlModel.v
theories/MlThms.v
theories/MlThms2.v
theories/ParamNamesModel.v
theories/ParamNamesThms.v
theories/OrderModel.v
theories/OrderProofs.v
theories/OrderThms.v
theories/UpdProofs.v
theories/UpdThms.v
theories/GradModel.v
theories/GradProofs.v
theories/GradThms.v
theories/LinkProofs.v
theories/LinkThms.v
theories/UnitsProofs.v
theories/UnitsThms.v
theories/UnitsPrior.v
theories/UnitsMatThms.v
theories/PlotModel.v
theories/PlotProofs.v
theories/PlotThms.v
theories/DiagPlotModel.v
theories/DiagPlotThms.v
theories/ReplModel.v
theories/ReplProofs.v
theories/ReplReal.v
theories/ReplThms.v
theories/VagueProofs.v
theories/VagueReal.v
theories/VagueThms.v
theories/InfoProofs.v
theories/InfoThms.v
theories/BasisThms.v
theories/DispModel.v
theories/DispSpec.v
theories/DispProofs.v
theories/DispTable.v
theories/DispThms.v
theories/NormProofs.v
theories/NormThms.v
theories/FishThms.v
theories/FarProofs.v
theories/FarThms.v
theories/IndepThms.v
theories/SmoothReal.v
theories/SmoothThms.v
theories/ProposalModel.v
theories/ProposalThms.v
theories/SmcLogModel.v
theories/SmcLogThms.v
theories/ConstThms.v
theories/SymThms.v
theories/LinBackModel.v
theories/LinBackThms.v
theories/RhatModel.v
theories/RhatThms.v
theories/StatModel.v
theories/StatThms.v
theories/SeedModel.v
theories/SeedThms.v
theories/LawModel.v
theories/LawThms.v
theories/CloseThms.v
theories/ConvModel.v
theories/ConvThms.v
theories/AxisModel.v
theories/AxisThms.v
theories/SodfModel.v
theories/SodfThms.v
theories/NutsPlotModel.v
theories/NutsPlotThms.v
theories/DtypeModel.v
theories/DtypeThms.v
theories/NullModel.v
theories/NullThms.v
theories/NutsFlowThms.v
theories/MhVerdictThms.v
