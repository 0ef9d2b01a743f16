-Q theories Verif
theories/Base.v
theories/StreamModel.v
theories/StreamSpec.v
theories/StreamProofs.v
theories/StreamProofs2.v
theories/StreamProps.v
theories/ViewModel.v
theories/ViewSpec.v
theories/ViewProofs.v
theories/ViewProofs2.v
theories/ViewProofs3.v
theories/ViewProofs4.v
theories/ViewProofs5.v
theories/ViewProps.v
theories/IntModel.v
theories/IntSpec.v
theories/IntProofs.v
theories/IntProps.v
theories/StrModel.v
theories/StrSpec.v
theories/StrProofs.v
theories/StrProofs2.v
theories/StrProps.v
theories/BytesModel.v
theories/BytesSpec.v
theories/BytesProofs.v
theories/BytesProofs2.v
theories/BytesProofs3.v
theories/BytesProps.v
theories/PowModel.v
theories/PowProps.v
theories/VecModel.v
theories/VecSpec.v
theories/VecProofs.v
theories/VecProps.v
theories/AssocModel.v
theories/AssocSpec.v
theories/AssocProofs.v
theories/AssocProofs2.v
theories/AssocProofs3.v
theories/AssocProps.v
theories/AddrModel.v
theories/AddrSpec.v
theories/AddrProofs.v
theories/AddrProps.v
theories/PortModel.v
theories/PortSpec.v
theories/PortProps.v
theories/TimeModel.v
theories/TimeProps.v
theories/RefModel.v
theories/RefSpec.v
theories/RefProofs.v
theories/RefProps.v
theories/FiberPoolModel.v
theories/FiberPoolSpec.v
theories/FiberPoolProofs.v
theories/FiberPoolProps.v
theories/FiberModel.v
theories/FiberSpec.v
theories/FiberProofs.v
theories/FiberProps.v
theories/RegexpModel.v
theories/RegexpSpec.v
theories/RegexpProofs.v
theories/RegexpProps.v
theories/MimeModel.v
theories/MimeProps.v
theories/RegistryModel.v
theories/RegistrySpec.v
theories/RegistryProps.v
theories/WaitModel.v
theories/WaitSpec.v
theories/WaitProofs.v
theories/WaitProofs2.v
theories/WaitProofs3.v
theories/WaitProofs4.v
theories/WaitProofs5.v
theories/WaitProofs6.v
theories/WaitProps.v
theories/SinkModel.v
theories/SinkSpec.v
theories/SinkProofs.v
theories/SinkProofs2.v
theories/SinkProofs3.v
theories/SinkProofs4.v
theories/SinkProofs5.v
theories/SinkProofs6.v
theories/SinkProofs7.v
theories/SinkProofs8.v
theories/SinkProofs9.v
theories/SinkProps.v
theories/GrammarModel.v
theories/GrammarSpec.v
theories/GrammarProofs.v
theories/GrammarProofs2.v
theories/GrammarProofs3.v
theories/GrammarProps.v
theories/DriverModel.v
theories/DriverSpec.v
theories/DriverProofs.v
theories/DriverProofs2.v
theories/DriverProofs3.v
theories/DriverProps.v
theories/FoldModel.v
theories/FoldSpec.v
theories/FoldProofs.v
theories/FoldProofs2.v
theories/FoldProps.v
theories/FilterModel.v
theories/FilterSpec.v
theories/FilterProofs.v
theories/FilterProofs2.v
theories/FilterProofs3.v
theories/FilterProofs4.v
theories/FilterProps.v
theories/UniModel.v
theories/UniSpec.v
theories/UniProofs.v
theories/UniProofs2.v
theories/UniProofs3.v
theories/UniProofs4.v
theories/UniProps.v
theories/SinkLifeProofs.v
theories/SinkLifeProps.v
theories/RealModel.v
theories/RealSpec.v
theories/RealProofs.v
theories/RealProofs2.v
theories/RealProofs3.v
theories/RealProofs4.v
theories/RealProofs5.v
theories/RealProofs6.v
theories/RealProps.v
theories/OptModel.v
theories/OptSpec.v
theories/OptProofs1.v
theories/OptProofs2.v
theories/OptProofs3.v
theories/OptProofs4.v
theories/OptProofs5.v
theories/OptProofs6.v
theories/OptProps.v
theories/OptModel2.v
theories/OptSpec2.v
theories/OptProofs7.v
theories/OptProofs8.v
theories/OptProofs9.v
theories/OptProofs10.v
theories/OptProofs11.v
theories/OptProofs12.v
theories/OptVpProps.v
theories/OptMvModel.v
theories/OptMvSpec.v
theories/OptMvProofs.v
theories/OptMvProofs2.v
theories/OptMvProofs3.v
theories/OptMvProofs4.v
theories/OptMvProps.v
theories/LahModel.v
theories/LahSpec.v
theories/LahSpec2.v
theories/LahProofs.v
theories/LahProofs2.v
theories/LahProofs3.v
theories/LahProofs4.v
theories/LahProofs5.v
theories/LahProps.v
theories/SwitchModel.v
theories/SwitchSpec.v
theories/SwitchProofs.v
theories/SwitchProofs2.v
theories/SwitchProofs3.v
theories/SwitchProps.v
theories/PreModel.v
theories/PreSpec.v
theories/PreProofs.v
theories/PreProps.v
theories/SyncModel.v
theories/SyncSpec.v
theories/SyncProofs1.v
theories/SyncProofs2.v
theories/SyncProofs3.v
theories/SyncProofs4.v
theories/SyncProps.v
theories/TryModel.v
theories/TrySpec.v
theories/TryProofs.v
theories/TryProps.v
theories/ListSyncModel.v
theories/ListSyncSpec.v
theories/ListSyncProofs.v
theories/ListSyncProofs2.v
theories/ListSyncProps.v
theories/HandleModel.v
theories/HandleSpec.v
theories/HandleProofs.v
theories/HandleProps.v
theories/MatchModel.v
theories/MatchSpec.v
theories/MatchProofs.v
theories/MatchProofs2.v
theories/MatchProofs3.v
theories/MatchProps.v
theories/PrmModel.v
theories/PrmSpec.v
theories/PrmProofs1.v
theories/PrmProofs2.v
theories/PrmProofs3.v
theories/PrmProofs4.v
theories/PrmProofs5.v
theories/PrmProps.v
theories/UlfModel.v
theories/UlfSpec.v
theories/UlfProofs.v
theories/UlfProofs2.v
theories/UlfProofs3.v
theories/UlfProofs4.v
theories/UlfProofs5.v
theories/UlfProps.v
theories/FlatModel.v
theories/FlatSpec.v
theories/FlatProofs.v
theories/FlatProofs2.v
theories/FlatProofs3.v
theories/FlatProofs4.v
theories/FlatProps.v
theories/PfrModel.v
theories/PfrSpec.v
theories/PfrProofs.v
theories/PfrProps.v
theories/PeepModel.v
theories/PeepSpec.v
theories/PeepProofs.v
theories/PeepProps.v
