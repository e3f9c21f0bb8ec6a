-Q theories Verif
theories/Common.v
theories/ReplayModel.v
theories/ReplaySpec.v
theories/ReplayProofs.v
theories/ReplayProps.v
theories/EpisodeSpec.v
theories/CoreModel.v
theories/CoreSpec.v
theories/CoreProofs.v
theories/CoreProps.v
theories/VecCoreModel.v
theories/VecCoreSpec.v
theories/VecCoreProofs.v
theories/VecCoreProps.v
theories/DatasetModel.v
theories/DatasetSpec.v
theories/DatasetProofs.v
theories/DatasetProps.v
theories/SumTreeModel.v
theories/SumTreeSpec.v
theories/SumTreeProofs.v
theories/SumTreeProps.v
theories/SerialModel.v
theories/SerialSpec.v
theories/SerialProofs.v
theories/SerialProps.v
theories/ParamModel.v
theories/ParamSpec.v
theories/ParamProofs.v
theories/ParamProps.v
theories/PolicyModel.v
theories/PolicySpec.v
theories/PolicyProofs.v
theories/PolicyProps.v
theories/TdModel.v
theories/TdSpec.v
theories/TdProofs.v
theories/TdProps.v
theories/AdvModel.v
theories/AdvSpec.v
theories/AdvProofs.v
theories/AdvProps.v
theories/UtilModel.v
theories/UtilSpec.v
theories/UtilProofs.v
theories/UtilProps.v
theories/FeatModel.v
theories/FeatSpec.v
theories/FeatProofs.v
theories/FeatProps.v
theories/FmdpModel.v
theories/FmdpSpec.v
theories/FmdpProofs.v
theories/FmdpProps.v
theories/DpModel.v
theories/DpSpec.v
theories/DpProofs.v
theories/DpProps.v
theories/DqnModel.v
theories/DqnSpec.v
theories/DqnProofs.v
theories/DqnProps.v
theories/PgModel.v
theories/PgSpec.v
theories/PgProofs.v
theories/PgProps.v
theories/TrpoModel.v
theories/TrpoProps.v
theories/BpttModel.v
theories/BpttProps.v
theories/EnvModel.v
theories/EnvSpec.v
theories/EnvProps.v
theories/ApproxModel.v
theories/ApproxProofs.v
theories/ApproxProps.v
theories/MpModel.v
theories/MpProps.v
theories/LogModel.v
theories/LogProps.v
theories/OptModel.v
theories/OptProps.v
theories/VpolModel.v
theories/VpolProps.v
theories/Mat.v
theories/LqrModel.v
theories/LqrGrad.v
theories/LqrProps.v
theories/GaussModel.v
theories/GaussProofs.v
theories/GaussProps.v
theories/BboProps.v
theories/RepsProps.v
theories/BatchModel.v
theories/BatchProps.v
theories/ExtraModel.v
theories/ExtraProps.v
theories/BbAgentModel.v
theories/BbAgentProps.v
theories/PpoModel.v
theories/PpoProps.v
theories/AcModel.v
theories/AcProps.v
theories/SolveModel.v
theories/SolveProps.v
theories/NoiseModel.v
theories/NoiseProps.v
theories/TorchModel.v
theories/TorchProps.v
theories/TorchFitProps.v
theories/DistModel.v
theories/DistProofs.v
theories/DistProps.v
theories/HeadProps.v
theories/SacModel.v
theories/SacProps.v
theories/TpolModel.v
theories/TpolProps.v
theories/TfeatModel.v
theories/TfeatProps.v
theories/AtariModel.v
theories/AtariProps.v
theories/GymModel.v
theories/GymProps.v
theories/SpaceModel.v
theories/SpaceProps.v
theories/MjModel.v
theories/MjProofs.v
theories/MjProps.v
theories/PbModel.v
theories/PbProps.v
theories/HockeyModel.v
theories/HockeyProps.v
theories/BackendModel.v
theories/BackendProps.v
theories/MonModel.v
theories/MonProps.v
theories/SimModel.v
theories/SimProps.v
theories/ResetModel.v
theories/ResetProps.v
theories/LinkModel.v
theories/LinkProps.v
theories/SaveModel.v
theories/SaveProps.v
theories/VecInfoModel.v
theories/VecInfoProps.v
theories/VecRecModel.v
theories/VecRecProps.v
theories/DynModel.v
theories/DynProps.v
theories/MoreModel.v
theories/MoreProps.v
theories/VecPreModel.v
theories/VecPreProps.v
theories/ConvProps.v
theories/CoreTdModel.v
theories/CoreTdProps.v
theories/CoreDqnModel.v
theories/CoreDqnProps.v
theories/CoreReplayModel.v
theories/CoreReplayProps.v
theories/OnPolicyProps.v
theories/PgExpSpec.v
theories/PgExpProps.v
theories/CoreSarsaModel.v
theories/CoreSarsaProps.v
theories/CorePgModel.v
theories/CorePgProps.v
theories/GradModel.v
theories/GradSpec.v
theories/GradProofs.v
theories/GradProps.v
theories/CorePpoModel.v
theories/CorePpoProps.v
theories/CorePerModel.v
theories/CorePerProofs.v
theories/CorePerProps.v
theories/ResumeModel.v
theories/ResumeProps.v
theories/StochSpec.v
theories/StochProofs.v
theories/StochProps.v
theories/CoreFmdpModel.v
theories/CoreFmdpProps.v
theories/VecLearnModel.v
theories/VecLearnSpec.v
theories/VecLearnProofs.v
theories/VecPpoModel.v
theories/VecLearnProps.v
theories/TrpoFitModel.v
theories/TrpoFitProps.v
theories/ConRepsModel.v
theories/ConRepsSpec.v
theories/ConRepsProofs.v
theories/ConRepsMat.v
theories/ConRepsChol.v
theories/ConRepsProps.v
theories/BpttFitModel.v
theories/BpttFitProps.v
theories/SampModel.v
theories/SampSpec.v
theories/SampProofs.v
theories/SampProps.v
theories/VecSampModel.v
theories/VecSampSpec.v
theories/VecSampProofs.v
theories/VecSampSim.v
theories/VecSampRun.v
theories/VecSampExp.v
theories/VecSampProps.v
theories/EnacModel.v
theories/EnacSpec.v
theories/EnacProofs.v
theories/EnacProps.v
theories/EnacPinv.v
theories/FqiLinModel.v
theories/FqiLinSpec.v
theories/FqiLinProofs.v
theories/FqiLinProps.v
theories/LspiTabSpec.v
theories/LspiTabProofs.v
theories/LspiTabProps.v
theories/EnsFqiModel.v
theories/EnsFqiProofs.v
theories/EnsFqiProps.v
theories/RainbowModel.v
theories/RainbowProofs.v
theories/RainbowProps.v
theories/VecReplayModel.v
theories/VecReplayProofs.v
theories/VecReplayProps.v
theories/VecBbModel.v
theories/VecBbProps.v
theories/DoubleConvProps.v
theories/RqConvProps.v
theories/GlieProps.v
theories/QLambdaConvProps.v
theories/CoreBbModel.v
theories/CoreBbProps.v
theories/AuxDsModel.v
theories/AuxDsProps.v
theories/EgBatchModel.v
theories/EgBatchProps.v
theories/Td3NoiseModel.v
theories/Td3NoiseProps.v
theories/PpoClipModel.v
theories/PpoClipProps.v
theories/TrpoEntModel.v
theories/TrpoEntProps.v
theories/CrepsSchedModel.v
theories/CrepsSchedProps.v
