-Q theories Verif

theories/OrdLib.v
theories/DbModel.v
theories/DbSpec.v
theories/DbBlockProofs.v
theories/DbOpsProofs.v
theories/DbCrashProofs.v
theories/DbRefineProofs.v
theories/DbPropsProofs.v
theories/DbProps.v
theories/ChainModel.v
theories/ChainSpec.v
theories/ChainProofs.v
theories/ChainProps.v
theories/BytesLib.v
theories/KeysModel.v
theories/KeysSpec.v
theories/KeysProofs.v
theories/KeysProps.v
theories/BitsLib.v
theories/CodecModel.v
theories/CodecSpec.v
theories/CodecProofs.v
theories/AddrProofs.v
theories/FixedProofs.v
theories/CodecProps.v
theories/PosModel.v
theories/PosSpec.v
theories/PosProofs.v
theories/PosProps.v
theories/InstrModel.v
theories/InstrSpec.v
theories/InstrProofs.v
theories/InstrProps.v
theories/VarModel.v
theories/VarSpec.v
theories/VarProofs.v
theories/VarProps.v
theories/TxHashModel.v
theories/TxHashSpec.v
theories/TxHashProofs.v
theories/TxHashProps.v
theories/EngineModel.v
theories/EngineSpec.v
theories/EngineProofs.v
theories/ExecModel.v
theories/EngineUpper.v
theories/ExecSpec.v
theories/ExecProofs.v
theories/EngineVis.v
theories/ExecFacts.v
theories/ExecProps.v
theories/ExecCases.v
theories/StorModel.v
theories/StorSpec.v
theories/StorProofs.v
theories/StorProps.v
theories/TxModel.v
theories/TxSpec.v
theories/TxProofs.v
theories/TxProps.v
theories/BlockModel.v
theories/BlockSpec.v
theories/BlockProofs.v
theories/BandProofs.v
theories/GasProofs.v
theories/ReplayProofs.v
theories/BlockProps.v
theories/IsoProofs.v
theories/LockProofs.v
theories/ParModel.v
theories/ParSpec.v
theories/CtxProofs.v
theories/ParProofs.v
theories/ParProps.v
theories/SigModel.v
theories/SigSpec.v
theories/SigProps.v
theories/PoolModel.v
theories/PoolSpec.v
theories/PoolProofs.v
theories/PoolProps.v
theories/CtrModel.v
theories/CtrSpec.v
theories/CtrProofs.v
theories/CtrProps.v
theories/OfferProps.v
theories/SwapModel.v
theories/SwapSpec.v
theories/SwapProofs.v
theories/SwapProps.v
theories/ForkModel.v
theories/ForkSpec.v
theories/ForkProofs.v
theories/ForkVotes.v
theories/ForkProps.v
theories/ChallengeModel.v
theories/ChallengeSpec.v
theories/ChallengeProofs.v
theories/ChallengeProps.v
theories/WalletModel.v
theories/WalletSpec.v
theories/WalletProofs.v
theories/WalletCache.v
theories/WalletProps.v
theories/DbIterModel.v
theories/DbIterSpec.v
theories/DbIterProofs.v
theories/DbIterMain.v
theories/DbIterProps.v
theories/MultiModel.v
theories/MultiSpec.v
theories/MultiProofs.v
theories/MultiProps.v
theories/DbMergeProofs.v
theories/DbMergeProps.v
theories/VmSafeProofs.v
theories/VmSafeProps.v
theories/VmCallProofs.v
theories/VmCallProps.v
theories/VmSortProofs.v
theories/VmEraseProofs.v
theories/VmEraseProps.v
theories/MdbModel.v
theories/MdbSpec.v
theories/MdbProofs.v
theories/MdbVerProofs.v
theories/MdbProps.v
theories/VdfModel.v
theories/VdfSpec.v
theories/VdfProofs.v
theories/VdfNextProofs.v
theories/VdfProps.v
theories/TimelordModel.v
theories/TimelordSpec.v
theories/TimelordProofs.v
theories/TimelordProps.v
theories/ReorgModel.v
theories/ReorgSpec.v
theories/ReorgProofs.v
theories/ReorgInvProofs.v
theories/ReorgRunProofs.v
theories/ReorgBackProofs.v
theories/ReorgDeepProofs.v
theories/ReorgEndProofs.v
theories/ReorgStepProofs.v
theories/ReorgProps.v
theories/FetchModel.v
theories/FetchSpec.v
theories/FetchProofs.v
theories/FetchOneProofs.v
theories/FetchProps.v
theories/RelayModel.v
theories/RelaySpec.v
theories/RelayProofs.v
theories/RelayCreditProofs.v
theories/RelaySendProofs.v
theories/RelayDeliverProofs.v
theories/RelayProps.v
theories/AddrErrSpec.v
theories/AddrErrProofs.v
theories/AddrStrProofs.v
theories/AddrErrProps.v
theories/RelayBackProofs.v
theories/CompModel.v
theories/CompSpec.v
theories/CompGen.v
theories/CompParse.v
theories/CompTree.v
theories/CompLink.v
theories/CompFull.v
theories/CompVm.v
theories/CompRun.v
theories/CompStatic.v
theories/CompSim.v
theories/CompLoad.v
theories/CompProps.v
theories/SpaceModel.v
theories/SpaceSpec.v
theories/SpaceProofs.v
theories/SpaceVerProofs.v
theories/SpaceHarvProofs.v
theories/SpaceFindProofs.v
theories/SpaceProps.v
theories/FarmModel.v
theories/FarmSpec.v
theories/FarmProofs.v
theories/FarmProps.v
theories/FarmCheck.v
theories/FarmCheckProps.v
theories/SaleModel.v
theories/SaleSpec.v
theories/SaleProofs.v
theories/HorseProofs.v
theories/SaleProps.v
theories/HistModel.v
theories/HistSpec.v
theories/HistProofs.v
theories/HistProps.v
theories/LiqModel.v
theories/LiqSpec.v
theories/LiqProofs.v
theories/LiqProps.v
theories/OfqModel.v
theories/OfqSpec.v
theories/OfqProofs.v
theories/OfqProps.v
theories/FrkModel.v
theories/FrkSpec.v
theories/FrkProofs.v
theories/FrkProps.v
theories/EstModel.v
theories/EstSpec.v
theories/EstProofs.v
theories/EstProps.v
theories/WofModel.v
theories/WofProps.v
theories/BalModel.v
theories/BalSpec.v
theories/BalProofs.v
theories/BalProps.v
theories/LstModel.v
theories/LstSpec.v
theories/LstProofs.v
theories/LstProps.v
theories/SynModel.v
theories/SynSpec.v
theories/SynProofs.v
theories/SynProps.v
theories/PolModel.v
theories/PolSpec.v
theories/PolProofs.v
theories/PolProps.v
theories/CtlModel.v
theories/CtlSpec.v
theories/CtlProofs.v
theories/CtlProps.v
theories/RdsModel.v
theories/RdsSpec.v
theories/RdsProofs.v
theories/RdsProps.v
theories/SgnModel.v
theories/SgnSpec.v
theories/SgnProofs.v
theories/SgnProps.v
theories/PrsModel.v
theories/PrsSpec.v
theories/PrsProofs.v
theories/PrsProps.v
theories/FrmModel.v
theories/FrmSpec.v
theories/FrmProofs.v
theories/FrmProps.v
theories/QtxModel.v
theories/QtxSpec.v
theories/QtxProofs.v
theories/QtxProps.v
theories/AccModel.v
theories/AccSpec.v
theories/AccProofs.v
theories/AccProps.v
theories/VrwModel.v
theories/VrwSpec.v
theories/VrwProofs.v
theories/VrwProps.v
theories/MsgModel.v
theories/MsgSpec.v
theories/MsgProps.v
theories/SwlModel.v
theories/SwlSpec.v
theories/SwlProps.v
theories/WtlModel.v
theories/WtlSpec.v
theories/WtlProps.v
theories/PaySpec.v
theories/PayProps.v
