-Q theories Verif
theories/AaModel.v
theories/AaProof.v
theories/AaProp.v
theories/AbModel.v
theories/AbProp.v
theories/AgModel.v
theories/AgProof.v
theories/AgProp.v
theories/AgRing.v
theories/ArModel.v
theories/ArProof.v
theories/ArProp.v
theories/ArRun.v
theories/AvModel.v
theories/AvProof.v
theories/AvProp.v
theories/BcModel.v
theories/BcProof.v
theories/BcProp.v
theories/CaModel.v
theories/CaProp.v
theories/CbModel.v
theories/CbProof.v
theories/CbProp.v
theories/CgModel.v
theories/CgProof.v
theories/CgProp.v
theories/CmModel.v
theories/CmProof.v
theories/CmProp.v
theories/CoModel.v
theories/CoProp.v
theories/CpModel.v
theories/CpProp.v
theories/DagModel.v
theories/DagProof.v
theories/DagProp.v
theories/DfModel.v
theories/DfProof.v
theories/DfProp.v
theories/DfVal.v
theories/DfWire.v
theories/DmModel.v
theories/DmProp.v
theories/DpModel.v
theories/DpProof.v
theories/DpProp.v
theories/DtModel.v
theories/DtProof.v
theories/DtProp.v
theories/DtSpec.v
theories/EnModel.v
theories/EnProp.v
theories/EvInv.v
theories/EvModel.v
theories/EvPar.v
theories/EvProof.v
theories/EvProp.v
theories/EvProp0.v
theories/EvSerial.v
theories/EvSpec.v
theories/EvStop.v
theories/EvSync.v
theories/FtModel.v
theories/FtProof.v
theories/FtProp.v
theories/GaModel.v
theories/GaProof.v
theories/GaProp.v
theories/GvModel.v
theories/GvProof.v
theories/GvProp.v
theories/GvSpec.v
theories/HcModel.v
theories/HcPar.v
theories/HcProof.v
theories/HcProp.v
theories/ListFacts.v
theories/LnLaunch.v
theories/LnModel.v
theories/LnProof.v
theories/LnProp.v
theories/LnSpec.v
theories/LnTree.v
theories/LocModel.v
theories/LocProp.v
theories/LpModel.v
theories/LpProp.v
theories/McModel.v
theories/McProof.v
theories/McProp.v
theories/McSpec.v
theories/MidProp.v
theories/MmModel.v
theories/MmProof.v
theories/MmProp.v
theories/MmSn.v
theories/MqModel.v
theories/MqProof.v
theories/MqProp.v
theories/MuModel.v
theories/MuProp.v
theories/NdModel.v
theories/NdProof.v
theories/NdProp.v
theories/NdRun.v
theories/NdSpec.v
theories/NetModel.v
theories/NetProof.v
theories/NetSpec.v
theories/NodeProp.v
theories/NpModel.v
theories/NpProp.v
theories/PaInv.v
theories/PaMean.v
theories/PaMerge.v
theories/PaModel.v
theories/PaProp.v
theories/PaSpec.v
theories/PaText.v
theories/PaTrip.v
theories/PcDeliver.v
theories/PcModel.v
theories/PcNet.v
theories/PcProof.v
theories/PcProp.v
theories/PdExec.v
theories/PdHeap.v
theories/PdInv.v
theories/PdLeak.v
theories/PdModel.v
theories/PdMove.v
theories/PdProp.v
theories/PdRun.v
theories/PdSettle.v
theories/PdSpec.v
theories/PhModel.v
theories/PhProof.v
theories/PlModel.v
theories/PlProp.v
theories/PoModel.v
theories/PoProp.v
theories/PqModel.v
theories/PqProof.v
theories/PqProp.v
theories/PqSpec.v
theories/PsModel.v
theories/PsProof.v
theories/PsProp.v
theories/PsSpec.v
theories/PtModel.v
theories/PtProp.v
theories/RdModel.v
theories/RdProof.v
theories/ReModel.v
theories/ReProof.v
theories/ReProp.v
theories/RnModel.v
theories/RnMwc.v
theories/RnProof.v
theories/RnProp.v
theories/ScModel.v
theories/ScProof.v
theories/ScProp.v
theories/SerModel.v
theories/SerProof.v
theories/SerProp.v
theories/SerSpec.v
theories/SgModel.v
theories/SgProp.v
theories/ShModel.v
theories/ShProof.v
theories/SjModel.v
theories/SjOrder.v
theories/SjProof.v
theories/SjProp.v
theories/SjRing.v
theories/SjSpec.v
theories/SkModel.v
theories/SkProp.v
theories/SlModel.v
theories/SlProof.v
theories/SlProp.v
theories/SmModel.v
theories/SmProof.v
theories/SmProp.v
theories/SnModel.v
theories/SnProof.v
theories/SnProp.v
theories/SpArb.v
theories/SpEx.v
theories/SpModel.v
theories/SpOrder.v
theories/SpProof.v
theories/SpProp.v
theories/SpQos.v
theories/SpSched.v
theories/SpSpec.v
theories/SpWrr.v
theories/StModel.v
theories/StProp.v
theories/ThAff.v
theories/ThModel.v
theories/ThProof.v
theories/ThProp.v
theories/ThSpec.v
theories/ThStep.v
theories/TimeModel.v
theories/TimeProof.v
theories/TimeProp.v
theories/TimeSpec.v
theories/TorusModel.v
theories/TorusProof.v
theories/TorusProp.v
theories/TorusRoute.v
theories/TorusSpec.v
theories/TorusValiant.v
theories/VcModel.v
theories/VcProof.v
theories/VcProp.v
theories/WtModel.v
theories/WtProp.v
