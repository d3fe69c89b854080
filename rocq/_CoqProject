-Q theories Verif
theories/Base.v
theories/HandleMgrModel.v
theories/HandleMgrSpec.v
theories/HandleMgrProofs.v
theories/HandleMgrProps.v
theories/Bits.v
theories/SMap.v
theories/NMap.v
theories/LpmModel.v
theories/LpmSpec.v
theories/LpmProofs.v
theories/LpmProps.v
theories/EntryListModel.v
theories/EntryListSpec.v
theories/EntryListProofs.v
theories/Bytes.v
theories/MatchUnitModel.v
theories/MatchUnitSpec.v
theories/MatchUnitProofs.v
theories/MatchUnitConseq.v
theories/MatchUnitProps.v
theories/KeyBuilderModel.v
theories/KeyBuilderSpec.v
theories/KeyBuilderProofs.v
theories/KeyBuilderProofs2.v
theories/KeyBuilderProofs3.v
theories/KeyBuilderProps.v
theories/TableModel.v
theories/TableSpec.v
theories/TableProofs.v
theories/TableProps.v
theories/ProfileModel.v
theories/ProfileSpec.v
theories/ProfileProofs.v
theories/ProfileProofs2.v
theories/ProfileProofs3.v
theories/ProfileProofs4.v
theories/ProfileProps.v
theories/MeterModel.v
theories/MeterSpec.v
theories/MeterProofs.v
theories/MeterProps.v
theories/CounterModel.v
theories/CounterSpec.v
theories/CounterProofs.v
theories/CounterProps.v
theories/QueueModel.v
theories/QueueProps.v
theories/QueueingModel.v
theories/QueueingSpec.v
theories/QueueingProofs.v
theories/QueueingProps.v
theories/BlockQModel.v
theories/BlockQProps.v
theories/PreModel.v
theories/PreSpec.v
theories/PreProofs.v
theories/PreProps.v
theories/PktBufModel.v
theories/PktBufSpec.v
theories/PktBufProps.v
theories/DataModel.v
theories/FieldModel.v
theories/FieldSpec.v
theories/FieldProofs.v
theories/FieldProps.v
theories/ExtractModel.v
theories/ExtractSpec.v
theories/ExtractProofs.v
theories/ExtractProps.v
theories/PhvModel.v
theories/PhvSpec.v
theories/PhvProofs.v
theories/PhvProofs2.v
theories/PhvProofs3.v
theories/PhvProofs4.v
theories/PhvProofs5.v
theories/PhvProofs6.v
theories/PhvProofs7.v
theories/PhvProps.v
theories/ParserModel.v
theories/ParserSpec.v
theories/ParserProofs.v
theories/ParserProofs2.v
theories/ParserProofs3.v
theories/ParserProofs4.v
theories/ParserProofs5.v
theories/ParserProps.v
theories/BufModel.v
theories/BufSpec.v
theories/BufProofs.v
theories/BufProps.v
theories/CksumModel.v
theories/CksumSpec.v
theories/CksumProofs.v
theories/CksumProps.v
theories/DeparseModel.v
theories/DeparseSpec.v
theories/DeparseProofs.v
theories/DeparseProps.v
theories/CrcTables.v
theories/CrcModel.v
theories/CrcSpec.v
theories/CrcProofs.v
theories/CrcProps.v
theories/HashModel.v
theories/HashSpec.v
theories/HashProofs.v
theories/HashProps.v
theories/ExprModel.v
theories/ExprSpec.v
theories/ExprProofs.v
theories/ExprProps.v
theories/ActionModel.v
theories/ActionSpec.v
theories/ActionProofs.v
theories/ActionProofs2.v
theories/ActionProofs3.v
theories/ActionProps.v
theories/AgeModel.v
theories/AgeSpec.v
theories/AgeProofs.v
theories/AgeProps.v
theories/LearnModel.v
theories/LearnSpec.v
theories/LearnProofs.v
theories/LearnProofs2.v
theories/LearnProps.v
theories/RegModel.v
theories/RegSpec.v
theories/RegProofs.v
theories/RegProofs2.v
theories/RegProps.v
theories/CopyModel.v
theories/CopySpec.v
theories/CopyProofs.v
theories/CopyProofs2.v
theories/CopyProps.v
theories/CopyRefute.v
theories/AccessModel.v
theories/AccessSpec.v
theories/AccessProps.v
theories/SwitchModel.v
theories/SwitchSpec.v
theories/SwitchProofs.v
theories/SwitchProofs2.v
theories/SwitchProps.v
theories/InBufModel.v
theories/InBufSpec.v
theories/InBufProps.v
theories/SerialModel.v
theories/SerialSpec.v
theories/SerialProofs.v
theories/SerialProofs2.v
theories/SerialProofs3.v
theories/SerialProofs4.v
theories/SerialProps.v
theories/PortMonModel.v
theories/PortMonSpec.v
theories/PortMonProofs.v
theories/PortMonProps.v
theories/PcapModel.v
theories/PcapSpec.v
theories/PcapProofs.v
theories/PcapProps.v
theories/NameMapModel.v
theories/NameMapSpec.v
theories/NameMapProofs.v
theories/NameMapProps.v
theories/SwapModel.v
theories/SwapSpec.v
theories/SwapProofs.v
theories/SwapProofs2.v
theories/SwapProps.v
theories/PacketModel.v
theories/PacketSpec.v
theories/PacketProofs.v
theories/PacketProofs2.v
theories/PacketProps.v
theories/LockModel.v
theories/LockSpec.v
theories/LockProofs.v
theories/LockProofs2.v
theories/LockProofs3.v
theories/LockExec.v
theories/LockProps.v
theories/PsaModel.v
theories/PsaSpec.v
theories/PsaProofs.v
theories/PsaProps.v
theories/PsaExtModel.v
theories/PsaExtSpec.v
theories/PsaExtProofs.v
theories/PsaExtProps.v
theories/PeriodicModel.v
theories/PeriodicSpec.v
theories/PeriodicProofs.v
theories/PeriodicProps.v
theories/LenModel.v
theories/LenSpec.v
theories/LenProofs.v
theories/LenProps.v
theories/LogMsgModel.v
theories/LogMsgSpec.v
theories/LogMsgProofs.v
theories/LogMsgProps.v
theories/DevMgrModel.v
theories/DevMgrSpec.v
theories/DevMgrProofs.v
theories/DevMgrProps.v
theories/BmiModel.v
theories/BmiSpec.v
theories/BmiProofs.v
theories/BmiProofs2.v
theories/BmiProps.v
theories/BmiLockModel.v
theories/BmiLockSpec.v
theories/BmiLockProofs.v
theories/BmiLockProps.v
theories/PiMcModel.v
theories/PiMcSpec.v
theories/PiMcProofs.v
theories/PiMcProps.v
theories/PiSelModel.v
theories/PiSelSpec.v
theories/PiSelProofs.v
theories/PiSelProps.v
theories/PiTblModel.v
theories/PiTblSpec.v
theories/PiTblProofs.v
theories/PiTblProofs2.v
theories/PiTblProofs3.v
theories/PiTblProofs4.v
theories/PiTblProps.v
theories/PiResModel.v
theories/PiResSpec.v
theories/PiResProofs.v
theories/PiResProps.v
theories/PiRateModel.v
theories/PiRateSpec.v
theories/PiRateProofs.v
theories/PiRateProofs2.v
theories/PiRateProps.v
theories/QRateModel.v
theories/QRateProofs.v
theories/QRateProps.v
theories/MSaveModel.v
theories/MSaveSpec.v
theories/MSaveProofs.v
theories/MSaveProofs2.v
theories/MSaveProofs3.v
theories/MSaveProps.v
theories/StfModel.v
theories/StfSpec.v
theories/StfProofs.v
theories/StfProofs2.v
theories/StfProps.v
theories/PiAdModel.v
theories/PiAdSpec.v
theories/PiAdProofs.v
theories/PiAdProps.v
theories/LWakeModel.v
theories/LWakeSpec.v
theories/LWakeProofs.v
theories/LWakeProps.v
theories/PiLcfgModel.v
theories/PiLcfgSpec.v
theories/PiLcfgProofs.v
theories/PiLcfgProps.v
theories/PiUpdModel.v
theories/PiUpdSpec.v
theories/PiUpdProps.v
theories/L2Model.v
theories/L2Spec.v
theories/L2Props.v
