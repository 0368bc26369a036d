-Q theories Verif
theories/Base.v
theories/TensorModel.v
theories/TensorProofs.v
theories/TensorProps.v
theories/PartitionModel.v
theories/PartitionProofs.v
theories/PartitionProps.v
theories/DecompModel.v
theories/DecompProofs.v
theories/DecompProps.v
theories/Level1dModel.v
theories/Level1dProofs.v
theories/Level1dProps.v
theories/LevelSetsModel.v
theories/LevelSetsProofs.v
theories/LevelSetsProps.v
theories/SubspaceModel.v
theories/SubspaceProofs.v
theories/SubspaceProps.v
theories/DofModel.v
theories/DofProofs.v
theories/DofProps.v
theories/CombiSchemeModel.v
theories/CombiSchemeProofs.v
theories/CombiSchemeProps.v
theories/AssignModel.v
theories/AssignProofs.v
theories/AssignProps.v
theories/Hier1dModel.v
theories/Hier1dProofs.v
theories/HierMassProofs.v
theories/Hier1dProps.v
theories/DistHierModel.v
theories/DistHierProofs.v
theories/DistExchangeProofs.v
theories/DistPoleProofs.v
theories/DistHierProps.v
theories/HierNDModel.v
theories/HierNDProofs.v
theories/HierLinProofs.v
theories/HierNDProps.v
theories/KahanModel.v
theories/SparseGridModel.v
theories/SparseGridProofs.v
theories/CombineModel.v
theories/SparseTransferProofs.v
theories/SparseGridProps.v
theories/ReduceModel.v
theories/ReduceProofs.v
theories/VoteProofs.v
theories/CombiStepModel.v
theories/SubspaceReduceProofs.v
theories/CombiStepProofs.v
theories/CombiInitProofs.v
theories/CombiStepProps.v
theories/ReduceProps.v
theories/QcTools.v
theories/InterpModel.v
theories/InterpProofs.v
theories/LocalPartProofs.v
theories/InterpProps.v
theories/GridCommModel.v
theories/GridCommProps.v
theories/RankModel.v
theories/RankProps.v
theories/FileModel.v
theories/FileProps.v
theories/ExchangeModel.v
theories/ExchangeProps.v
theories/ThirdLevelModel.v
theories/ThirdLevelProps.v
theories/NetModel.v
theories/NetProps.v
theories/ManagerModel.v
theories/ManagerProps.v
theories/ReschedModel.v
theories/ReschedProps.v
theories/SystemModel.v
theories/SystemProofs.v
theories/SystemHatProofs.v
theories/SystemProps.v
theories/FullGridModel.v
theories/FullGridHierProofs.v
theories/FullGridProofs.v
theories/FullGridProps.v
theories/FaultModel.v
theories/FaultProofs.v
theories/FaultParamProofs.v
theories/FaultIsoProofs.v
theories/FaultProps.v
theories/KahanProofs.v
theories/KahanProps.v
theories/RecoveryModel.v
theories/RecoveryProofs.v
theories/RecoveryProps.v
theories/SystemMassProofs.v
theories/SystemMassProps.v
theories/WideModel.v
theories/WideProofs.v
theories/WideStepProofs.v
theories/WideInitProofs.v
theories/WideProps.v
theories/WideSystemModel.v
theories/WideSystemProofs.v
theories/WideSystemProps.v
theories/MigrateModel.v
theories/MigrateProofs.v
theories/MigrateProps.v
theories/TcpModel.v
theories/TcpProofs.v
theories/TcpInitProofs.v
theories/TcpProps.v
theories/TcpSystemModel.v
theories/TcpSystemProps.v
theories/PlotModel.v
theories/PlotProofs.v
theories/PlotProps.v
theories/CompressModel.v
theories/CompressProps.v
theories/CombiInterpProofs.v
theories/SystemNodalProofs.v
theories/CombiInterpProps.v
theories/HatRefineProofs.v
theories/CombiUnchangedProps.v
theories/OutputModel.v
theories/OutputProofs.v
theories/OutputProps.v
theories/CommRecoveryModel.v
theories/CommRecoveryProofs.v
theories/CommRecoveryProps.v
theories/WideChunkedModel.v
theories/WideChunkedProofs.v
theories/WideChunkedStepProofs.v
theories/WideChunkedInitProofs.v
theories/WideChunkedProps.v
theories/WideChunkedSystemModel.v
theories/WideChunkedSystemProofs.v
theories/WideChunkedSystemProps.v
theories/MinMaxModel.v
theories/MinMaxProofs.v
theories/MinMaxProps.v
theories/CornerModel.v
theories/CornerProps.v
theories/StatsModel.v
theories/StatsProps.v
theories/MonteCarloModel.v
theories/MonteCarloProps.v
theories/SimFTModel.v
theories/SimFTProofs.v
theories/SimFTProps.v
theories/SimFTNbcModel.v
theories/SimFTNbcProps.v
theories/MessagesModel.v
theories/MessagesProps.v
theories/ParamsModel.v
theories/ParamsProps.v
theories/TaskTransferModel.v
theories/TaskTransferProps.v
theories/FullGridFileModel.v
theories/FullGridFileProps.v
theories/VtkModel.v
theories/VtkProps.v
theories/SimTestModel.v
theories/SimTestProps.v
theories/HandshakeModel.v
theories/HandshakeProps.v
theories/AnyRecvModel.v
theories/AnyRecvProps.v
theories/ChunkFileModel.v
theories/ChunkFileProps.v
theories/RevokedAnswerModel.v
theories/RevokedAnswerProps.v
