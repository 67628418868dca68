-Q theories Verif

theories/AmProofs.v
theories/AmProperties.v
theories/AmSpec.v
theories/AsmModel.v
theories/AsmProofs.v
theories/AsmProperties.v
theories/AtProperties.v
theories/AtSpec.v
theories/AwProofs.v
theories/AwProofs2.v
theories/AwProofs3.v
theories/AwProofs4.v
theories/AwProperties.v
theories/AwSpec.v
theories/AxProofs.v
theories/AxProofs2.v
theories/AxProofs3.v
theories/AxProperties.v
theories/AxSpec.v
theories/BfModel.v
theories/BfProperties.v
theories/BlModel.v
theories/BlProofs.v
theories/BlProofs2.v
theories/BlProofs3.v
theories/BlProofs4.v
theories/BlProperties.v
theories/BlSpec.v
theories/BookModel.v
theories/BookProofs.v
theories/BookProperties.v
theories/BookSpec.v
theories/ConsModel.v
theories/ConsProofs.v
theories/ConsProperties.v
theories/ConsSpec.v
theories/ConvModel.v
theories/ConvProofs.v
theories/ConvProperties.v
theories/ConvSpec.v
theories/DataModel.v
theories/DataProofs.v
theories/DataProofs2.v
theories/DataProperties.v
theories/DataSpec.v
theories/DiscApi.v
theories/DiscCall.v
theories/DiscExit.v
theories/DiscMilp.v
theories/DiscModel.v
theories/DiscProofs.v
theories/DiscProperties.v
theories/DiscSpec.v
theories/DistModel.v
theories/DistProofs.v
theories/DistProofs2.v
theories/DistProofs3.v
theories/DistProperties.v
theories/DistSpec.v
theories/DkModel.v
theories/DkProperties.v
theories/EigLib.v
theories/EmModel.v
theories/EmModel2.v
theories/EmProofs.v
theories/EmProperties.v
theories/EmProperties2.v
theories/EmProperties3.v
theories/EmProperties4.v
theories/EmSpec.v
theories/EnsModel.v
theories/EnsProofs.v
theories/EnsProperties.v
theories/EnsSpec.v
theories/EpModel.v
theories/EpProofs.v
theories/EpProofs2.v
theories/EpProofs3.v
theories/EpProofs4.v
theories/EpProofs5.v
theories/EpProperties.v
theories/EpSpec.v
theories/Err.v
theories/EtProofs.v
theories/EtProofs2.v
theories/EtProofs3.v
theories/EtProperties.v
theories/EtSpec.v
theories/EvProofs.v
theories/EvProperties.v
theories/EvSpec.v
theories/ExistLib.v
theories/ExistProperties.v
theories/ExistSpec.v
theories/FaModel.v
theories/FaProofs.v
theories/FaProofs2.v
theories/FaProofs3.v
theories/FaProofs4.v
theories/FaProperties.v
theories/FaProperties2.v
theories/FaSpec.v
theories/FpLib.v
theories/FpModel.v
theories/FpProofs.v
theories/FpProofs2.v
theories/FpProofs3.v
theories/FpProperties.v
theories/FpSpec.v
theories/FqModel.v
theories/FqProofs.v
theories/FqProperties.v
theories/FqSpec.v
theories/FrModel.v
theories/FrProofs.v
theories/FrProofs2.v
theories/FrProofs3.v
theories/FrProofs4.v
theories/FrProperties.v
theories/FrSpec.v
theories/FvProofs.v
theories/FvProofs2.v
theories/FvProofs3.v
theories/FvProofs4.v
theories/FvProofs5.v
theories/FvProofs6.v
theories/FvProofs7.v
theories/FvProperties.v
theories/FvSpec.v
theories/FwModel.v
theories/FwProofs.v
theories/FwProofs2.v
theories/FwProperties.v
theories/FwSpec.v
theories/GlModel.v
theories/GlProofs.v
theories/GlProofs2.v
theories/GlProofs3.v
theories/GlProperties.v
theories/GlSpec.v
theories/LinLib.v
theories/LotProperties.v
theories/MemModel.v
theories/MemProofs.v
theories/MemProperties.v
theories/MemSpec.v
theories/MomModel.v
theories/MomProofs.v
theories/MomProofs2.v
theories/MomProofs3.v
theories/MomProperties.v
theories/MomProperties2.v
theories/MomSpec.v
theories/NiwModel.v
theories/NiwProofs.v
theories/NiwProofs2.v
theories/NiwProperties.v
theories/NiwSpec.v
theories/OptModel.v
theories/OptProofs.v
theories/OptProofs2.v
theories/OptProofs3.v
theories/OptProofs4.v
theories/OptProofs5.v
theories/OptProofs6.v
theories/OptProofs7.v
theories/OptProofs8.v
theories/OptProperties.v
theories/OptProperties2.v
theories/OptSpec.v
theories/Pl3Model.v
theories/Pl3Proofs.v
theories/Pl3Proofs2.v
theories/Pl3Proofs3.v
theories/Pl3Proofs4.v
theories/Pl3Properties.v
theories/Pl3Spec.v
theories/PlModel.v
theories/PlProofs.v
theories/PlProofs2.v
theories/PlProofs3.v
theories/PlProofs4.v
theories/PlProperties.v
theories/PlSpec.v
theories/PoModel.v
theories/PoProofs.v
theories/PoProofs2.v
theories/PoProperties.v
theories/PoSpec.v
theories/ProbModel.v
theories/ProbProofs.v
theories/ProbProperties.v
theories/ProbRModel.v
theories/ProbRProofs.v
theories/ProbRProperties.v
theories/ProbRSpec.v
theories/ProbSpec.v
theories/ProjModel.v
theories/ProjProofs.v
theories/ProjProofs2.v
theories/ProjProofs3.v
theories/ProjProperties.v
theories/ProjSpec.v
theories/PsdLib.v
theories/QBase.v
theories/QpBase.v
theories/RBase.v
theories/RiskModel.v
theories/RiskProofs.v
theories/RiskProperties.v
theories/RiskSpec.v
theories/RxModel.v
theories/RxProofs.v
theories/RxProperties.v
theories/RxSpec.v
theories/SortLib.v
theories/SpecModel.v
theories/SpecProofs.v
theories/SpecProofs2.v
theories/SpecProofs3.v
theories/SpecProofs4.v
theories/SpecProofs5.v
theories/SpecProofs6.v
theories/SpecProofs7.v
theories/SpecProperties.v
theories/SpecProperties2.v
theories/SpecProperties3.v
theories/SpecSpec.v
theories/StModel.v
theories/StProofs.v
theories/StProofs2.v
theories/StProofs3.v
theories/StProofs4.v
theories/StProofs5.v
theories/StProofs6.v
theories/StProofs7.v
theories/StProofs8.v
theories/StProofs9.v
theories/StProperties.v
theories/StSpec.v
theories/StackProperties.v
theories/VhProperties.v
theories/WrModel.v
theories/WrProofs.v
theories/WrProofs2.v
theories/WrProofs3.v
theories/WrProofs4.v
theories/WrProofs5.v
theories/WrProofs6.v
theories/WrProofs7.v
theories/WrProofs8.v
theories/WrProperties.v
theories/WrProperties2.v
theories/WrSpec.v
