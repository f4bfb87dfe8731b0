-Q theories Verif
theories/PyCommon.v
theories/NatDivLia.v
theories/CommonProofs.v
theories/SegTreeSpec.v
theories/SegTreeModel.v
theories/SegTreeProofs.v
theories/SegTreeProofs2.v
theories/SegTreeProofs3.v
theories/SegTreeProofs4.v
theories/SegTreeProofs5.v
theories/SegTreeProps.v
theories/ReplayModel.v
theories/ReplaySpec.v
theories/ReplayProofs.v
theories/ReplayProps.v
theories/PrioModel.v
theories/PrioSpec.v
theories/PrioProofs.v
theories/PrioProofs2.v
theories/PrioProofs3.v
theories/PrioProofs4.v
theories/PrioProofs5.v
theories/PrioProps.v
theories/TracerModel.v
theories/TracerSpec.v
theories/TracerProofs.v
theories/TracerProofs2.v
theories/TransModel.v
theories/TransSpec.v
theories/TransProofs.v
theories/TransProofs2.v
theories/TracerProps.v
theories/TransProps.v
theories/ConnectFourModel.v
theories/ConnectFourSpec.v
theories/ConnectFourProofs.v
theories/ConnectFourProofs2.v
theories/ConnectFourProofs3.v
theories/ConnectFourProps.v
theories/UtilsModel.v
theories/UtilsSpec.v
theories/UtilsProofs.v
theories/UtilsProofs2.v
theories/UtilsProofs3.v
theories/UtilsProps.v
theories/WrappersModel.v
theories/WrappersSpec.v
theories/WrappersProofs.v
theories/WrappersProofs2.v
theories/WrappersProps.v
theories/DistModel.v
theories/DistSpec.v
theories/DistProofs.v
theories/DistProofs2.v
theories/DistProofs3.v
theories/DistProps.v
theories/LossModel.v
theories/LossSpec.v
theories/LossProofs.v
theories/LossProps.v
theories/QModel.v
theories/QProofs.v
theories/QProps.v
theories/TDModel.v
theories/TDSpec.v
theories/TDProofs.v
theories/TDProofs2.v
theories/TDProofs3.v
theories/TDProofs4.v
theories/TDProps.v
theories/PolicyModel.v
theories/PolicySpec.v
theories/PolicyProofs.v
theories/PolicyProofs2.v
theories/PolicyProofs3.v
theories/PolicyProofs4.v
theories/PolicyProofs5.v
theories/PolicyProps.v
theories/CoreModel.v
theories/CoreSpec.v
theories/CoreProofs.v
theories/CoreProofs2.v
theories/CoreProps.v
theories/WorkerModel.v
theories/WorkerSpec.v
theories/WorkerProofs.v
theories/WorkerProofs2.v
theories/WorkerProps.v
theories/StochModel.v
theories/StochSpec.v
theories/StochProofs.v
theories/StochProofs2.v
theories/StochProps.v
theories/MiscModel.v
theories/MiscSpec.v
theories/MiscProofs.v
theories/MiscProofs2.v
theories/MiscProofs3.v
theories/MiscProofs4.v
theories/MiscProps.v
theories/PipeModel.v
theories/PipeSpec.v
theories/PipeProofs.v
theories/PipeProofs2.v
theories/PipeProofs3.v
theories/PipeProofs4.v
theories/PipeProofs5.v
theories/PipeProps.v
theories/MeanSpec.v
theories/MeanProofs.v
theories/DrawProofs.v
theories/DrawProps.v
theories/DrawProofs2.v
theories/DrawProofs3.v
theories/GumbelProps.v
theories/DrawProofs4.v
theories/TieProps.v
theories/CompModel.v
theories/CompSpec.v
theories/CompProofs.v
theories/CompProofs2.v
theories/CompProofs3.v
theories/CompProofs4.v
theories/CompProofs5.v
theories/CompProofs6.v
theories/CompSpec2.v
theories/CompProofs7.v
theories/CompProofs8.v
theories/CompProps.v
theories/LearnModel.v
theories/LearnSpec.v
theories/LearnProofs.v
theories/LearnProofs2.v
theories/LearnProofs3.v
theories/LearnProofs4.v
theories/LearnProofs5.v
theories/LearnProofs6.v
theories/LearnProofs7.v
theories/LearnProps.v
theories/DqnModel.v
theories/DqnSpec.v
theories/DqnProofs.v
theories/DqnProofs2.v
theories/DqnProps.v
theories/PerModel.v
theories/PerSpec.v
theories/PerProofs.v
theories/PerProps.v
theories/DensModel.v
theories/DensSpec.v
theories/DensProofs.v
theories/DensProps.v
theories/BuildModel.v
theories/BuildSpec.v
theories/BuildProofs.v
theories/BuildProofs2.v
theories/BuildProps.v
theories/EntModel.v
theories/EntSpec.v
theories/EntProofs.v
theories/EntProofs2.v
theories/EntProofs3.v
theories/EntProofs4.v
theories/EntProofs5.v
theories/EntProps.v
theories/NoiseSpec.v
theories/NoiseProofs.v
theories/NoiseProofs2.v
theories/NoiseProofs3.v
theories/NoiseProofs4.v
theories/NoiseProofs5.v
theories/NoiseProps.v
theories/PgModel.v
theories/PgSpec.v
theories/PgProofs.v
theories/PgProofs2.v
theories/PgProofs3.v
theories/PgProofs4.v
theories/PgProps.v
theories/AcModel.v
theories/AcSpec.v
theories/AcProofs.v
theories/AcProofs2.v
theories/AcProofs3.v
theories/AcProps.v
theories/PpoModel.v
theories/PpoSpec.v
theories/PpoProofs.v
theories/PpoProofs2.v
theories/PpoProps.v
theories/RoundModel.v
theories/RoundSpec.v
theories/RoundProofs.v
theories/RoundProofs2.v
theories/RoundProps.v
theories/RegModel.v
theories/RegSpec.v
theories/RegProofs.v
theories/RegProofs2.v
theories/RegProps.v
theories/DblModel.v
theories/DblSpec.v
theories/DblProofs.v
theories/DblProofs2.v
theories/DblProofs3.v
theories/DblProofs4.v
theories/DblProofs5.v
theories/DblProps.v
theories/VtModel.v
theories/VtSpec.v
theories/VtProofs.v
theories/VtProofs2.v
theories/VtProofs3.v
theories/VtProps.v
theories/PlayModel.v
theories/PlaySpec.v
theories/PlayProofs.v
theories/PlayProofs2.v
theories/PlayProofs3.v
theories/PlayProps.v
theories/DpgModel.v
theories/DpgSpec.v
theories/DpgProofs.v
theories/DpgProofs2.v
theories/DpgProofs3.v
theories/DpgProofs4.v
theories/DpgProps.v
theories/MbModel.v
theories/MbSpec.v
theories/MbProofs.v
theories/MbProofs2.v
theories/MbProofs3.v
theories/MbProofs4.v
theories/MbProps.v
theories/CatModel.v
theories/CatSpec.v
theories/CatProofs.v
theories/CatProofs2.v
theories/CatProofs3.v
theories/CatProofs4.v
theories/CatProofs5.v
theories/CatProps.v
theories/QrModel.v
theories/QrSpec.v
theories/QrProofs.v
theories/QrProofs2.v
theories/QrProps.v
theories/AdamModel.v
theories/AdamSpec.v
theories/AdamProofs.v
theories/AdamProofs2.v
theories/AdamProofs3.v
theories/AdamProps.v
theories/ChanceModel.v
theories/ChanceSpec.v
theories/ChanceProofs.v
theories/ChanceProofs2.v
theories/ChanceProps.v
theories/SchedModel.v
theories/SchedSpec.v
theories/SchedProofs.v
theories/SchedProps.v
theories/MixProps.v
