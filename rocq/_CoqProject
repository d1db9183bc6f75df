-Q theories Verif
theories/Bytes.v
theories/SMap.v
theories/Outcome.v
theories/CodecModel.v
theories/CodecSpec.v
theories/CodecProofs.v
theories/CodecProofs2.v
theories/CodecThms.v
theories/MvccModel.v
theories/MvccSpec.v
theories/MvccProofs.v
theories/MvccThms.v
theories/TxnModel.v
theories/TxnSpec.v
theories/TxnBase.v
theories/TxnMoves.v
theories/TxnHandlers.v
theories/TxnHandlers2.v
theories/TxnHandlers3.v
theories/TxnInv.v
theories/TxnRun.v
theories/TxnProofs.v
theories/TxnProofs2.v
theories/TxnProofs3.v
theories/TxnProofs4.v
theories/TxnProofs5.v
theories/TxnProofs6.v
theories/TxnProofs7.v
theories/TxnDemo.v
theories/TxnThms.v
theories/AtomSpec.v
theories/AtomProofs.v
theories/AtomDemo.v
theories/AtomThms.v
theories/AsyncBase.v
theories/AsyncSpec.v
theories/AsyncProofs.v
theories/AsyncDemo.v
theories/AsyncThms.v
theories/TxnReadModel.v
theories/TxnReadSpec.v
theories/TxnReadProofs.v
theories/TxnReadProofs2.v
theories/TxnReadProofs3.v
theories/TxnReadProofs4.v
theories/TxnReadThms.v
theories/LogModel.v
theories/LogSpec.v
theories/LogProofs.v
theories/LogProofs2.v
theories/LogProofs3.v
theories/LogProofs4.v
theories/LogProofs5.v
theories/LogThms.v
theories/GcModel.v
theories/GcSpec.v
theories/GcProofs.v
theories/GcThms.v
theories/GcTxnSpec.v
theories/GcTxnProofs.v
theories/GcTxnThms.v
theories/IdModel.v
theories/IdSpec.v
theories/IdProofs.v
theories/IdThms.v
theories/LatchModel.v
theories/LatchSpec.v
theories/LatchProofs.v
theories/LatchThms.v
theories/ConcModel.v
theories/ConcSpec.v
theories/ConcProofs.v
theories/ConcProofs2.v
theories/ConcThms.v
theories/TsoModel.v
theories/TsoSpec.v
theories/TsoProofs.v
theories/TsoThms.v
theories/AutoModel.v
theories/AutoSpec.v
theories/AutoProofs.v
theories/AutoThms.v
theories/CacheModel.v
theories/CacheSpec.v
theories/CacheProofs.v
theories/CacheProofs2.v
theories/CacheProofs3.v
theories/CacheThms.v
theories/RegModel.v
theories/RegSpec.v
theories/RegProofs.v
theories/RegProofs2.v
theories/RegProofs3.v
theories/RegProofs4.v
theories/RegProofs5.v
theories/RegProofs6.v
theories/RegThms.v
theories/KvModel.v
theories/KvSpec.v
theories/KvProofs.v
theories/KvProofs2.v
theories/KvProofs3.v
theories/KvProofs4.v
theories/KvProofs5.v
theories/KvProofs6.v
theories/KvThms.v
theories/LeaseModel.v
theories/LeaseSpec.v
theories/LeaseProofs.v
theories/LeaseProofs2.v
theories/LeaseProofs3.v
theories/LeaseProofs4.v
theories/LeaseProofs5.v
theories/LeaseThms.v
theories/WatchModel.v
theories/WatchSpec.v
theories/WatchProofs.v
theories/WatchProofs2.v
theories/WatchProofs3.v
theories/WatchProofs4.v
theories/WatchProofs5.v
theories/WatchProofs6.v
theories/WatchProofs7.v
theories/WatchThms.v
theories/RawModel.v
theories/RawSpec.v
theories/RawProofs1.v
theories/RawProofs2.v
theories/RawProofs3.v
theories/RawProofs4.v
theories/RawProofs5.v
theories/RawProofs6.v
theories/RawProofs7.v
theories/RawSearch.v
theories/RawDemo.v
theories/RawThms.v
theories/VecModel.v
theories/VecSpec.v
theories/VecProofs.v
theories/VecInvL.v
theories/VecInvW.v
theories/VecInvS.v
theories/VecInvT.v
theories/VecDemo.v
theories/VqModel.v
theories/VqSpec.v
theories/VqProofs.v
theories/VecThms.v
theories/SessModel.v
theories/SessSpec.v
theories/SessProofs.v
theories/SessInv.v
theories/SessStep.v
theories/SessStep2.v
theories/SessLive.v
theories/SessEnd.v
theories/SessDemo.v
theories/SessThms.v
theories/VrModel.v
theories/VrSpec.v
theories/VrProofs1.v
theories/VrProofs2.v
theories/VrProofs3.v
theories/VrProofs4.v
theories/VrProofs5.v
theories/VrProofs6.v
theories/VrDemo.v
theories/VrThms.v
theories/RtModel.v
theories/RtSpec.v
theories/RtProofs1.v
theories/RtProofs2.v
theories/RtProofs3.v
theories/RtProofs4.v
theories/RtDemo.v
theories/RtThms.v
theories/NmModel.v
theories/NmSpec.v
theories/NmProofs1.v
theories/NmProofs2.v
theories/NmProofs3.v
theories/NmProofs4.v
theories/NmProofs5.v
theories/NmProofs6.v
theories/NmProofs7.v
theories/NmDemo.v
theories/NmThms.v
theories/CpModel.v
theories/CpSpec.v
theories/CpProofs1.v
theories/CpProofs2.v
theories/CpProofs3.v
theories/CpProofs4.v
theories/CpProofs5.v
theories/CpThms.v
theories/ScModel.v
theories/ScSpec.v
theories/ScProofs1.v
theories/ScProofs2.v
theories/ScProofs3.v
theories/ScProofs4.v
theories/ScThms.v
theories/WqModel.v
theories/WqSpec.v
theories/WqProofs1.v
theories/WqProofs2.v
theories/WqProofs3.v
theories/WqProofs4.v
theories/WqProofs5.v
theories/WqProofs6.v
theories/WqThms.v
theories/SnModel.v
theories/SnSpec.v
theories/SnProofs1.v
theories/SnProofs2.v
theories/SnProofs3.v
theories/SnProofs4.v
theories/SnThms.v
theories/BalModel.v
theories/BalSpec.v
theories/BalProofs1.v
theories/BalProofs2.v
theories/BalProofs3.v
theories/BalDemo.v
theories/BalProofs4.v
theories/BalThms.v
theories/JbModel.v
theories/JbSpec.v
theories/JbProofs1.v
theories/JbProofs2.v
theories/JbProofs3.v
theories/JbProofs4.v
theories/JbProofs5.v
theories/JbProofs6.v
theories/JbProofs7.v
theories/JbDemo.v
theories/JbThms.v
theories/BrModel.v
theories/BrSpec.v
theories/BrProofs.v
theories/BrProofs2.v
theories/BrProofs3.v
theories/BrProofs4.v
theories/BrDemo.v
theories/BrThms.v
theories/SpModel.v
theories/SpSpec.v
theories/SpProofs.v
theories/SpProofs2.v
theories/SpProofs3.v
theories/SpDemo.v
theories/SpThms.v
theories/LkModel.v
theories/LkSpec.v
theories/LkProofs.v
theories/LkProofs2.v
theories/LkProofs3.v
theories/LkDemo.v
theories/LkThms.v
theories/DnModel.v
theories/DnSpec.v
theories/DnProofs.v
theories/DnProofs2.v
theories/DnDemo.v
theories/DnThms.v
theories/DiModel.v
theories/DiSpec.v
theories/DiProofs.v
theories/DiProofs2.v
theories/DiDemo.v
theories/DiThms.v
theories/MwModel.v
theories/MwSpec.v
theories/MwProofs.v
theories/MwProofs2.v
theories/MwDemo.v
theories/MwThms.v
theories/CiModel.v
theories/CiSpec.v
theories/CiProofs.v
theories/CiThms.v
theories/CrModel.v
theories/CrSpec.v
theories/CrProofs.v
theories/CrProofs2.v
theories/CrThms.v
