-Q theories Verif
theories/LitModel.v
theories/LitProofs.v
theories/LitThms.v
theories/Bits.v
theories/PackModel.v
theories/PackSpec.v
theories/PackProofs.v
theories/PackThms.v
theories/SchedModel.v
theories/SchedSpec.v
theories/SchedLog2.v
theories/SchedProofs.v
theories/SchedThms.v
theories/Base.v
theories/WcModel.v
theories/WcSpec.v
theories/WcProofs.v
theories/WcThms.v
theories/WpModel.v
theories/WpSpec.v
theories/WpProofs.v
theories/WpThms.v
theories/ClModel.v
theories/ClSpec.v
theories/ClProofs.v
theories/ClThms.v
theories/AsModel.v
theories/AsSpec.v
theories/AsProofs.v
theories/AsThms.v
theories/ImModel.v
theories/ImSpec.v
theories/ImProofs.v
theories/ImThms.v
theories/BpModel.v
theories/BpSpec.v
theories/BpProofs.v
theories/BpProofs2.v
theories/BpProofs3.v
theories/BpProofs4.v
theories/BpProofs5.v
theories/BpThms.v
theories/CaModel.v
theories/CaSpec.v
theories/CaProofs.v
theories/CaProofs2.v
theories/CaProofs3.v
theories/CaProofs4.v
theories/CaProofs5.v
theories/CaProofs6.v
theories/CaProofs7.v
theories/CaThms.v
theories/SeModel.v
theories/SeSpec.v
theories/SeProofs.v
theories/SeProofs2.v
theories/SeProofs3.v
theories/SeProofs4.v
theories/SeProofs5.v
theories/SeThms.v
theories/IqModel.v
theories/IqSpec.v
theories/IqProofs.v
theories/IqProofs2.v
theories/IqThms.v
theories/PlModel.v
theories/PlSpec.v
theories/PlProofs.v
theories/PlThms.v
theories/GpModel.v
theories/GpSpec.v
theories/GpProofs.v
theories/GpThms.v
theories/MnModel.v
theories/MnSpec.v
theories/MnProofs.v
theories/MnProofs2.v
theories/MnProofs3.v
theories/MnProofs4.v
theories/MnProofs5.v
theories/MnProofs6.v
theories/MnThms.v
theories/MzModel.v
theories/MzSpec.v
theories/MzProofs.v
theories/MzProofs2.v
theories/MzProofs3.v
theories/MzProofs4.v
theories/MzProofs5.v
theories/MzProofs6.v
theories/MzProofs7.v
theories/MzProofs8.v
theories/MzThms.v
theories/BbModel.v
theories/BbSpec.v
theories/BbProofs.v
theories/BbProofs2.v
theories/BbProofs3.v
theories/BbProofs4.v
theories/BbProofs5.v
theories/BbProofs6.v
theories/BbProofs7.v
theories/BbProofs8.v
theories/BbRuns.v
theories/BbThms.v
theories/EnModel.v
theories/EnSpec.v
theories/EnProofs.v
theories/EnProofs2.v
theories/EnThms.v
theories/QfModel.v
theories/QfSpec.v
theories/QfProofs.v
theories/QfProofs2.v
theories/QfProofs3.v
theories/QfThms.v
theories/CbModel.v
theories/CbSpec.v
theories/CbProofs.v
theories/CbThms.v
theories/RdModel.v
theories/RdSpec.v
theories/RdProofs.v
theories/RdThms.v
theories/DwModel.v
theories/DwSpec.v
theories/DwProofs.v
theories/DwThms.v
theories/SbModel.v
theories/SbSpec.v
theories/SbProofs.v
theories/SbProofs2.v
theories/SbThms.v
theories/PbModel.v
theories/PbSpec.v
theories/PbProofs.v
theories/PbProofs2.v
theories/PbProofs3.v
theories/PbThms.v
theories/UfModel.v
theories/UfRun.v
theories/UfSpec.v
theories/UfProofs.v
theories/UfProofs2.v
theories/UfProofs3.v
theories/UfProofs4.v
theories/UfProofs5.v
theories/UfProofs6.v
theories/UfProofs7.v
theories/UfProofs8.v
theories/UfProofs9.v
theories/UfProofs10.v
theories/UfThms.v
theories/MqModel.v
theories/MqSpec.v
theories/MqProofs.v
theories/MqProofs2.v
theories/MqProofs3.v
theories/MqProofs4.v
theories/MqProofs5.v
theories/MqProofs6.v
theories/MqProofs7.v
theories/MqProofs8.v
theories/MqThms.v
theories/LrModel.v
theories/LrSpec.v
theories/LrProofs.v
theories/LrProofs2.v
theories/LrProofs3.v
theories/LrProofs4.v
theories/LrThms.v
theories/ElModel.v
theories/ElSpec.v
theories/ElProofs.v
theories/ElProofs2.v
theories/ElProofs3.v
theories/ElProofs4.v
theories/ElProofs5.v
theories/ElProofs6.v
theories/ElProofs7.v
theories/ElProofs8.v
theories/ElProofs9.v
theories/ElProofs10.v
theories/ElThms.v
theories/ElShots.v
theories/ElThms2.v
theories/LpSpec.v
theories/LpProofs.v
theories/RtModel.v
theories/RtProofs.v
theories/RtProofs2.v
theories/RtProofs3.v
theories/RtProofs4.v
theories/RtProofs5.v
theories/RtProofs6.v
theories/RtProofs7.v
theories/RtProofs8.v
theories/RtThms.v
theories/SrModel.v
theories/SrSpec.v
theories/SrProofs.v
theories/SrProofs2.v
theories/SrProofs3.v
theories/SrProofs4.v
theories/SrProofs5.v
theories/SrThms.v
theories/DsModel.v
theories/DsSpec.v
theories/DsProofs.v
theories/DsThms.v
theories/TjModel.v
theories/TjSpec.v
theories/TjProofs.v
theories/TjProofs2.v
theories/TjProofs3.v
theories/TjThms.v
theories/CpModel.v
theories/CpSpec.v
theories/CpProofs.v
theories/CpProofs2.v
theories/CpThms.v
theories/DgModel.v
theories/DgSpec.v
theories/DgProofs.v
theories/DgProofs2.v
theories/DgProofs3.v
theories/DgThms.v
theories/VsModel.v
theories/VsSpec.v
theories/VsProofs.v
theories/VsProofs2.v
theories/VsProofs3.v
theories/VsThms.v
theories/BkModel.v
theories/BkSpec.v
theories/BkProofs.v
theories/BkProofs2.v
theories/BkProofs3.v
theories/BkProofs4.v
theories/BkThms.v
theories/UcSpec.v
theories/UcModel.v
theories/UcProofs.v
theories/UcProofs2.v
theories/UcProofs3.v
theories/UcProofs4.v
theories/UcProofs5.v
theories/UcProofs6.v
theories/UcThms.v
theories/PsSpec.v
theories/PsModel.v
theories/PsProofs.v
theories/PsInv.v
theories/PsInvS.v
theories/PsInvR.v
theories/PsSem.v
theories/PsSemS.v
theories/PsSemC.v
theories/PsOnce.v
theories/PsEnd.v
theories/PsRun.v
theories/PsThms.v
theories/LdSpec.v
theories/LdModel.v
theories/LdProofs.v
theories/LdProofs2.v
theories/LdProofs3.v
theories/LdProofs4.v
theories/LdProofs5.v
theories/LdProofs6.v
theories/LdProofs7.v
theories/LdProofs8.v
theories/LdProofs9.v
theories/LdTopo.v
theories/LdTopoProofs.v
theories/LdRun.v
theories/LdThms.v
theories/IgSpec.v
theories/IgModel.v
theories/IgProofs.v
theories/IgProofs2.v
theories/IgProofs3.v
theories/IgProofs4.v
theories/IgProofs5.v
theories/IgRun.v
theories/IgProofs6.v
theories/IgThms.v
theories/BtSpec.v
theories/BtModel.v
theories/BtProofs.v
theories/BtProofs2.v
theories/BtProofs3.v
theories/BtProofs4.v
theories/BtProofs5.v
theories/BtProofs6.v
theories/BtThms.v
theories/AcSpec.v
theories/AcModel.v
theories/AcProofs.v
theories/AcProofs2.v
theories/AcProofs3.v
theories/AcProofs4.v
theories/AcThms.v
theories/EgModel.v
theories/EgProofs.v
theories/EgProofs2.v
theories/EgThms.v
theories/UnSpec.v
theories/UnModel.v
theories/UnProofs.v
theories/UnThms.v
theories/PwSpec.v
theories/PwModel.v
theories/PwProofs.v
theories/PwProofs2.v
theories/PwThms.v
