-Q theories Verif
theories/Base.v
theories/AtomicsModel.v
theories/AtomicsSpec.v
theories/AtomicsProofs.v
theories/AtomicsProofs2.v
theories/AtomicsProps.v
theories/UFSpec.v
theories/UFRoots.v
theories/UFModel.v
theories/UFLogic.v
theories/UFFind.v
theories/UFUnite.v
theories/UFSys.v
theories/UFProps.v
theories/UFWait.v
theories/UFWaitProps.v
theories/CodecModel.v
theories/CodecSpec.v
theories/CodecProofs.v
theories/CodecList.v
theories/CodecProps.v
theories/PDModel.v
theories/PDSpec.v
theories/PDProofs.v
theories/PDProps.v
theories/ListUtil.v
theories/VSModel.v
theories/VSSpec.v
theories/VSProofs.v
theories/VSProps.v
theories/EMModel.v
theories/EMSpec.v
theories/EMProofs.v
theories/EMPar.v
theories/EMModes.v
theories/EMProps.v
theories/ISModel.v
theories/ISSpec.v
theories/ISProofs.v
theories/ISProps.v
theories/GBModel.v
theories/GBSpec.v
theories/GBProofs.v
theories/GBProps.v
theories/TXModel.v
theories/TXSpec.v
theories/TXProofs.v
theories/TXProps.v
theories/HTModel.v
theories/HTSpec.v
theories/HTProofs.v
theories/HTProps.v
theories/BKModel.v
theories/BKSpec.v
theories/BKProofs.v
theories/BKProps.v
theories/SFModel.v
theories/SFSpec.v
theories/SFProofs.v
theories/SFProps.v
theories/EMPush.v
theories/FAModel.v
theories/FASpec.v
theories/FAProofs.v
theories/FABF.v
theories/FABFLoop.v
theories/FAProps.v
theories/LPModel.v
theories/LPProofs.v
theories/LPProps.v
theories/KCModel.v
theories/KCSpec.v
theories/KCProofs.v
theories/KCProps.v
theories/HGModel.v
theories/HGSpec.v
theories/HGProofs.v
theories/HGProps.v
theories/CDModel.v
theories/CDProofs.v
theories/GCModel.v
theories/GCSpec.v
theories/GCProofs.v
theories/GCProps.v
theories/MIModel.v
theories/MISpec.v
theories/MIProofs.v
theories/MIProps.v
theories/MMModel.v
theories/MMSpec.v
theories/MMProofs.v
theories/MMGet.v
theories/MMOuter.v
theories/MMDet.v
theories/MMProps.v
theories/TCModel.v
theories/TCSpec.v
theories/TCProofs.v
theories/TCProps.v
theories/FRSpec.v
theories/FRProofs.v
theories/KRModel.v
theories/KRProofs.v
theories/KRProps.v
theories/LDModel.v
theories/LDSpec.v
theories/LDProofs.v
theories/LDProps.v
theories/HTFull.v
theories/CTModel.v
theories/CTSpec.v
theories/CTProofs.v
theories/WCProofs.v
theories/WCProps.v
theories/SPModel.v
theories/SPProofs.v
theories/SPProps.v
theories/WBModel.v
theories/WBSpec.v
theories/WBProofs.v
theories/WBRound.v
theories/DSRound.v
theories/WBProps.v
theories/AMModel.v
theories/AMSpec.v
theories/AMProofs.v
theories/AMWrite.v
theories/AMPack.v
theories/AMRepack.v
theories/AMIter.v
theories/AMProps.v
theories/SVModel.v
theories/SVProofs.v
theories/SVProps.v
theories/LTModel.v
theories/LTProofs.v
theories/LTProps.v
theories/DNModel.v
theories/DNSpec.v
theories/DNProofs.v
theories/DNGreedy.v
theories/DNProps.v
theories/BCModel.v
theories/BCSpec.v
theories/BCWalks.v
theories/BCProofs.v
theories/BCLoops.v
theories/BCFinal.v
theories/BCProps.v
theories/WPModel.v
theories/WPSpec.v
theories/WPLoop.v
theories/WPRound.v
theories/WPBFProofs.v
theories/WPProps.v
theories/CQModel.v
theories/CQSpec.v
theories/CQRec.v
theories/CQSetup.v
theories/CQCount.v
theories/CQCliques.v
theories/CQFinal.v
theories/CQProps.v
theories/GOModel.v
theories/GOSpec.v
theories/GOProofs.v
theories/GOProps.v
theories/SCModel.v
theories/SCSpec.v
theories/SCSearch.v
theories/SCFirst.v
theories/SCProofs.v
theories/SCRuns.v
theories/SCFinal.v
theories/SCProps.v
theories/BOModel.v
theories/BOLight.v
theories/BOJump.v
theories/BORound.v
theories/BOProofs.v
theories/BOFinal.v
theories/BOProps.v
theories/CVModel.v
theories/CVSpec.v
theories/CVBuckets.v
theories/CVProofs.v
theories/CVWeights.v
theories/CVFinal.v
theories/CVProps.v
theories/SNModel.v
theories/SNSpec.v
theories/SNCheck.v
theories/SNProofs.v
theories/SNProps.v
theories/BISpec.v
theories/BIModel.v
theories/BITree.v
theories/BILeaf.v
theories/BIBfs.v
theories/BIFinal.v
theories/BIProps.v
theories/FCSpec.v
theories/FCModel.v
theories/FCCount.v
theories/FCKow.v
theories/FCEsc.v
theories/FCFinal.v
theories/FCProps.v
theories/SISpec.v
theories/SIUF.v
theories/SIModel.v
theories/SIProofs.v
theories/SICluster.v
theories/SIFinal.v
theories/SIProps.v
theories/SMSpec.v
theories/SMModel.v
theories/SMProofs.v
theories/SMCount.v
theories/SMFinal.v
theories/SMProps.v
theories/NSSpec.v
theories/NSModel.v
theories/NSProofs.v
theories/NSTables.v
theories/NSProps.v
theories/CUSpec.v
theories/CUModel.v
theories/CUProofs.v
theories/CUProps.v
theories/MOSpec.v
theories/MOModel.v
theories/MOProofs.v
theories/MOProps.v
theories/PRSpec.v
theories/PRModel.v
theories/PRProofs.v
theories/PRLoops.v
theories/PRProps.v
theories/GFModel.v
theories/GFSpec.v
theories/GFProofs.v
theories/GFFiles.v
theories/GFBinary.v
theories/GFProps.v
theories/JAModel.v
theories/JATree.v
theories/JAProofs.v
theories/JASys.v
theories/JAForest.v
theories/JAWait.v
theories/JAEnd.v
theories/JAProps.v
theories/SUModel.v
theories/SUProofs.v
theories/SUForest.v
theories/SUProps.v
theories/RSModel.v
theories/RSProofs.v
theories/RSLoops.v
theories/RSProps.v
theories/BTModel.v
theories/BTSpec.v
theories/BTProofs.v
theories/BTLoops.v
theories/BTFinal.v
theories/BTProps.v
theories/PFModel.v
theories/PFSpec.v
theories/PFProofs.v
theories/PFLoops.v
theories/PFFinal.v
theories/PFProps.v
theories/YQModel.v
theories/YQSpec.v
theories/YQProofs.v
theories/YQFinal.v
theories/YQMatch.v
theories/YQProps.v
theories/CKSpec.v
theories/CKModel.v
theories/CKProofs.v
theories/CKProps.v
theories/KPSpec.v
theories/KPModel.v
theories/KPCount.v
theories/KPPeel.v
theories/KPApprox.v
theories/KPProps.v
theories/NCModel.v
theories/NCSpec.v
theories/NCProofs.v
theories/NCProps.v
theories/UGSpec.v
theories/UGModel.v
theories/UGSim.v
theories/UGProofs.v
theories/UGKout.v
theories/UGBfs.v
theories/UGProps.v
theories/TUSpec.v
theories/TUModel.v
theories/TUProofs.v
theories/TUProps.v
theories/GNSpec.v
theories/GNModel.v
theories/GNProofs.v
theories/GNRmat.v
theories/GNProps.v
theories/CZSpec.v
theories/CZModel.v
theories/CZProofs.v
theories/CZProps.v
theories/DYModel.v
theories/DYSpec.v
theories/DYProofs.v
theories/DYProps.v
theories/LBModel.v
theories/LBSpec.v
theories/LBProofs.v
theories/LBFirst.v
theories/LBRun.v
theories/LBProps.v
theories/CMModel.v
theories/CMSpec.v
theories/CMProofs.v
theories/CMProps.v
theories/ACModel.v
theories/ACSpec.v
theories/ACProofs.v
theories/ACProps.v
theories/GQModel.v
theories/GQSpec.v
theories/GQProofs.v
theories/GQProps.v
theories/RTModel.v
theories/RTSpec.v
theories/RTProofs.v
theories/RTProps.v
theories/ERModel.v
theories/ERSpec.v
theories/ERProofs.v
theories/ERProps.v
theories/FIModel.v
theories/FISpec.v
theories/FIProofs.v
theories/FIProps.v
theories/FIMModel.v
theories/FIMProps.v
