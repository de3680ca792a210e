-Q theories Verif
theories/Base.v
theories/EdgeListModel.v
theories/EdgeListProofs.v
theories/CsrModel.v
theories/CsrProofs.v
theories/CsrProofs2.v
theories/CsrProofs3.v
theories/CsrProofs4.v
theories/CsrProperties.v
theories/BuildModel.v
theories/BuildProofs.v
theories/BuildProofs2.v
theories/BuildProperties.v
theories/SerialModel.v
theories/SerialProofs.v
theories/SerialProperties.v
theories/UtilModel.v
theories/UtilProofs.v
theories/UtilProperties.v
theories/BitModel.v
theories/BitProofs.v
theories/BitProperties.v
theories/ConnLib.v
theories/DsuModel.v
theories/DsuProofs.v
theories/DsuClassProofs.v
theories/DsuProperties.v
theories/KruskalModel.v
theories/KruskalProofs.v
theories/KruskalProperties.v
theories/RangeModel.v
theories/RangeProofs.v
theories/RangeProperties.v
theories/GraphLib.v
theories/BfsModel.v
theories/BfsProofs.v
theories/BfsProperties.v
theories/Pool.v
theories/ParBfsModel.v
theories/ParBfsProofs.v
theories/ParBfsProperties.v
theories/SsspModel.v
theories/SsspLib.v
theories/SsspProofs.v
theories/SsspProperties.v
theories/CcModel.v
theories/CcProofs.v
theories/CcProofs2.v
theories/CcProperties.v
theories/SumLib.v
theories/TriModel.v
theories/TriProofs.v
theories/TriProperties.v
theories/MisModel.v
theories/MisProofs.v
theories/DagProofs.v
theories/DagProofs2.v
theories/MisProperties.v
theories/SpModel.v
theories/SpProofs.v
theories/SpProperties.v
theories/FifoLib.v
theories/BfsRangeModel.v
theories/BfsRangeProofs.v
theories/BfsRangeProperties.v
theories/MmModel.v
theories/MmProofs.v
theories/MmProperties.v
theories/QcLib.v
theories/BcLib.v
theories/BcModel.v
theories/BcProofs.v
theories/BcVerProofs.v
theories/BcParProofs.v
theories/BcParProofs2.v
theories/BcProperties.v
theories/WalkModel.v
theories/WalkProofs.v
theories/WalkProperties.v
theories/KcoreModel.v
theories/KcoreTermProofs.v
theories/KcoreProofs.v
theories/KcoreProperties.v
theories/DsuHeightProofs.v
theories/DsuHeightProperties.v
theories/SsspExpProofs.v
theories/SsspExpProperties.v
theories/DfsModel.v
theories/DfsProofs.v
theories/DfsPostProofs.v
theories/DfsProperties.v
theories/ParDsModel.v
theories/ParDsProofs.v
theories/ParDsProperties.v
theories/PageRankModel.v
theories/PageRankLib.v
theories/PageRankProofs.v
theories/PageRankProperties.v
theories/FbfsModel.v
theories/FbfsProofs.v
theories/FbfsProperties.v
theories/BackModel.v
theories/BackProofs.v
theories/BackProperties.v
theories/CcxModel.v
theories/CcxProofs.v
theories/CcvModel.v
theories/CcvProofs.v
theories/CcxProperties.v
theories/CcvProperties.v
theories/LpccModel.v
theories/LpccProofs.v
theories/LpccProperties.v
theories/MmfModel.v
theories/MmfProofs.v
theories/MmfProperties.v
theories/XbfsModel.v
theories/XbfsProofs.v
theories/XbfsProperties.v
theories/PforModel.v
theories/XtriModel.v
theories/PforProofs.v
theories/XtriProofs.v
theories/PforProperties.v
theories/XtriProperties.v
theories/XdsModel.v
theories/XdsProofs.v
theories/XdsProperties.v
theories/XprModel.v
theories/XprProofs.v
theories/Xpr2Proofs.v
theories/Xpr3Proofs.v
theories/XprProperties.v
theories/Xpr4Proofs.v
theories/XbcModel.v
theories/XbcProofs.v
theories/XbcParProofs.v
theories/XbcParProofs2.v
theories/XbcProperties.v
theories/WlModel.v
theories/WlProofs.v
theories/WlProofs2.v
theories/WlProperties.v
theories/WlParModel.v
theories/WlParProofs.v
theories/WlParProperties.v
theories/BkLib.v
theories/BkModel.v
theories/BkProofs.v
theories/BkProofs2.v
theories/BkProperties.v
theories/MflowLib.v
theories/MflowModel.v
theories/MflowProofs.v
theories/MflowProofs2.v
theories/MflowProperties.v
theories/Jp2Model.v
theories/Jp2Proofs.v
theories/Jp2Properties.v
theories/TcModel.v
theories/TcProofs.v
theories/TcProperties.v
theories/BsModel.v
theories/BsProofs.v
theories/BsProperties.v
theories/MmvModel.v
theories/MmvProofs.v
theories/MmvProperties.v
theories/SrcModel.v
theories/SrcProofs.v
theories/SrcProperties.v
theories/CbModel.v
theories/CbProofs.v
theories/CbProperties.v
theories/BbModel.v
theories/BbProofs.v
theories/BbProperties.v
theories/BcbModel.v
theories/BcbProofs.v
theories/BcbProperties.v
theories/PrbModel.v
theories/PrbProofs.v
theories/PrbProperties.v
theories/ZipModel.v
theories/ZipProofs.v
theories/ZipProperties.v
theories/OrcModel.v
theories/OrcProofs.v
theories/OrcProofs2.v
theories/OrcProofs3.v
theories/OrcProofs4.v
theories/OrcProperties.v
theories/XccModel.v
theories/XccProofs.v
theories/XccProperties.v
theories/ApbModel.v
theories/ApbProofs.v
theories/ApbProperties.v
theories/SpmModel.v
theories/SpmProofs.v
theories/SpmProperties.v
theories/CtrModel.v
theories/CtrProofs.v
theories/CtrProperties.v
theories/CsrVecProperties.v
theories/ApdModel.v
theories/ApdProofs.v
theories/ApdProperties.v
theories/MmfTextProperties.v
theories/HypModel.v
theories/HypProofs.v
theories/HypProperties.v
theories/ImdbModel.v
theories/ImdbProofs.v
theories/ImdbProperties.v
theories/DblpModel.v
theories/DblpProofs.v
theories/DblpProperties.v
theories/MmSizeProperties.v
theories/KbModel.v
theories/KbProofs.v
theories/KbProperties.v
theories/ProcModel.v
theories/ProcProofs.v
theories/ProcProperties.v
theories/ItModel.v
theories/ItProofs.v
theories/ItProperties.v
theories/LogModel.v
theories/LogProperties.v
theories/TimModel.v
theories/TimProperties.v
theories/TruncProperties.v
theories/ApdEndProperties.v
theories/PrRestProperties.v
theories/LpccAnyProperties.v
theories/MmfFlagProperties.v
theories/KruskalKeyProperties.v
