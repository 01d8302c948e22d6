-Q theories Verif
theories/PenModel.v
theories/PenSpec.v
theories/PenSpecR.v
theories/PenProofs.v
theories/PenProofs2.v
theories/PenProofs3.v
theories/PenProofs4.v
theories/PenProofs5.v
theories/PenProofs6.v
theories/PenProofs7.v
theories/PenProps.v
theories/Ext.v
theories/StepModel.v
theories/StepSpec.v
theories/StepProofs.v
theories/StepProps.v
theories/LamModel.v
theories/LamSpec.v
theories/LamProofs.v
theories/LamProps.v
theories/ArModel.v
theories/ArSpec.v
theories/ArProofs.v
theories/ArProofs2.v
theories/ArProps.v
theories/FamModel.v
theories/FamSpec.v
theories/FamProofs.v
theories/FamProps.v
theories/GlsModel.v
theories/GlsSpec.v
theories/GlsProofs.v
theories/GlsProofs2.v
theories/GlsProofs3.v
theories/GlsProps.v
theories/MvnModel.v
theories/MvnSpec.v
theories/MvnProofs.v
theories/MvnProofs2.v
theories/MvnProps.v
theories/HazModel.v
theories/HazSpec.v
theories/HazProofs.v
theories/HazProps.v
theories/MatModel.v
theories/MatSpec.v
theories/MatProofs.v
theories/MatProofs2.v
theories/MatProofs3.v
theories/MatProofs4.v
theories/MatProofs5.v
theories/MatProps.v
theories/DchModel.v
theories/DchSpec.v
theories/DchProofs.v
theories/DchProofs2.v
theories/DchProps.v
theories/FormModel.v
theories/FormSpec.v
theories/FormProofs.v
theories/FormProofs2.v
theories/FormProofs3.v
theories/FormProofs4.v
theories/FormProofs5.v
theories/FormProofs6.v
theories/FormProofs7.v
theories/FormProps.v
theories/TileModel.v
theories/TileSpec.v
theories/TileProofs.v
theories/TileProps.v
theories/HsmmModel.v
theories/HsmmSpec.v
theories/HsmmProofs.v
theories/HsmmProofs2.v
theories/HsmmProofs3.v
theories/HsmmProofs4.v
theories/HsmmProofs5.v
theories/HsmmProps.v
theories/SplModel.v
theories/SplSpec.v
theories/SplProofs.v
theories/SplProofs2.v
theories/SplProofs3.v
theories/SplProps.v
theories/AsmModel.v
theories/AsmSpec.v
theories/AsmProofs.v
theories/AsmProofs2.v
theories/AsmProofs3.v
theories/AsmProps.v
theories/FileModel.v
theories/FileSpec.v
theories/FileProofs.v
theories/FileProps.v
theories/ParModel.v
theories/ParSpec.v
theories/ParProofs.v
theories/ParProofs2.v
theories/ParProps.v
theories/PredModel.v
theories/PredSpec.v
theories/PredProofs.v
theories/PredProofs2.v
theories/PredProofs3.v
theories/PredProps.v
theories/CmpModel.v
theories/CmpSpec.v
theories/CmpProofs.v
theories/CmpProps.v
theories/RefitModel.v
theories/RefitProps.v
theories/PvalModel.v
theories/PvalSpec.v
theories/PvalProofs.v
theories/PvalProps.v
theories/HgrModel.v
theories/HgrSpec.v
theories/HgrProofs.v
theories/HgrProofs2.v
theories/HgrProofs3.v
theories/HgrProofs4.v
theories/HgrProps.v
theories/NutsModel.v
theories/NutsSpec.v
theories/NutsProofs.v
theories/NutsProofs2.v
theories/NutsProofs3.v
theories/NutsProofs4.v
theories/NutsProofs5.v
theories/NutsProofs6.v
theories/NutsProps.v
theories/RealField.v
theories/RealMat.v
theories/RealDet.v
theories/RemlModel.v
theories/RemlSpec.v
theories/RemlProofs.v
theories/RemlProofs2.v
theories/RemlProofs3.v
theories/RemlProofs4.v
theories/RemlReals.v
theories/RemlProps.v
theories/RealEigen.v
theories/ReparModel.v
theories/ReparSpec.v
theories/ReparProofs.v
theories/ReparProofs2.v
theories/ReparProofs3.v
theories/ReparProofs4.v
theories/ReparProps.v
theories/ReparModel2.v
theories/ReparSpec2.v
theories/ReparProofs5.v
theories/ReparProofs6.v
theories/ReparProps2.v
theories/JointModel.v
theories/JointSpec.v
theories/JointProofs.v
theories/JointProps.v
theories/VagueModel.v
theories/VagueSpec.v
theories/VagueProofs.v
theories/VagueProps.v
theories/StoreModel.v
theories/StoreSpec.v
theories/StoreProofs.v
theories/ConvModel.v
theories/ConvSpec.v
theories/ConvProofs.v
theories/StoreProps.v
theories/EdfProofs.v
theories/EdfProofs2.v
theories/EdfSpec.v
theories/EdfProps.v
theories/ResidModel.v
theories/ResidSpec.v
theories/ResidProofs.v
theories/ResidProofs2.v
theories/DurModel.v
theories/DurSpec.v
theories/DurProofs.v
theories/ResidProps.v
theories/RootModel.v
theories/RootProofs.v
theories/RootProps.v
theories/QrModel.v
theories/QrSpec.v
theories/QrProofs.v
theories/QrProofs2.v
theories/QrProofs3.v
theories/QrProps.v
theories/WorkModel.v
theories/WorkSpec.v
theories/WorkProofs.v
theories/WorkProps.v
theories/LoopModel.v
theories/LoopSpec.v
theories/LoopProofs.v
theories/LoopProofs2.v
theories/LoopProps.v
theories/UpdModel.v
theories/UpdSpec.v
theories/UpdProofs.v
theories/UpdProofs2.v
theories/UpdProofs3.v
theories/UpdProps.v
theories/GlamModel.v
theories/GlamSpec.v
theories/GlamProofs.v
theories/GlamProps.v
theories/HessModel.v
theories/HessSpec.v
theories/HessProofs.v
theories/HessProofs2.v
theories/HessProofs3.v
theories/HessProps.v
theories/VcorModel.v
theories/VcorSpec.v
theories/VcorProofs.v
theories/VcorProps.v
theories/SimModel.v
theories/SimSpec.v
theories/SimProofs.v
theories/SimProofs2.v
theories/SimProps.v
theories/QefsModel.v
theories/QefsSpec.v
theories/QefsProofs.v
theories/QefsProofs2.v
theories/QefsProofs3.v
theories/QefsProofs4.v
theories/QefsProofs5.v
theories/RcfMat.v
theories/QefsProps.v
theories/DiscModel.v
theories/DiscSpec.v
theories/DiscProofs.v
theories/DiscProofs2.v
theories/DiscProofs3.v
theories/DiscProofs4.v
theories/DiscProps.v
theories/BlockModel.v
theories/BlockSpec.v
theories/BlockProofs.v
theories/BlockProofs2.v
theories/BlockProps.v
theories/NestModel.v
theories/NestSpec.v
theories/NestProofs.v
theories/NestProofs2.v
theories/NestProofs3.v
theories/NestProofs4.v
theories/NestProofs5.v
theories/NestProps.v
theories/GfitModel.v
theories/GfitSpec.v
theories/GfitProofs.v
theories/GfitProofs2.v
theories/GfitProps.v
theories/GridModel.v
theories/GridSpec.v
theories/GridProofs.v
theories/GridProps.v
theories/SampModel.v
theories/SampSpec.v
theories/SampProofs.v
theories/SampProps.v
theories/SroneModel.v
theories/SroneSpec.v
theories/SroneProofs.v
theories/SroneProps.v
theories/CondModel.v
theories/CondSpec.v
theories/CondProofs.v
theories/CondProps.v
theories/IdentModel.v
theories/IdentSpec.v
theories/IdentProofs.v
theories/IdentProps.v
theories/GupdModel.v
theories/GupdSpec.v
theories/GupdProofs.v
theories/GupdProps.v
theories/SplitModel.v
theories/SplitSpec.v
theories/SplitProofs.v
theories/SplitProofs2.v
theories/SplitProps.v
theories/TermModel.v
theories/TermSpec.v
theories/TermProofs.v
theories/TermProps.v
theories/HsampModel.v
theories/HsampSpec.v
theories/HsampProofs.v
theories/HsampProps.v
theories/ResModel.v
theories/ResSpec.v
theories/ResProofs.v
theories/ResProps.v
theories/TabModel.v
theories/TabSpec.v
theories/TabProofs.v
theories/TabProps.v
theories/PrefModel.v
theories/PrefSpec.v
theories/PrefProofs.v
theories/PrefProps.v
theories/DavModel.v
theories/DavSpec.v
theories/DavProofs.v
theories/DavProps.v
theories/FinModel.v
theories/FinSpec.v
theories/FinProofs.v
theories/FinProps.v
theories/Dav2Model.v
theories/Dav2Spec.v
theories/Dav2Proofs.v
theories/Dav2Props.v
theories/DlogModel.v
theories/DlogProofs.v
theories/DlogProps.v
theories/DtrModel.v
theories/DtrSpec.v
theories/DtrProofs.v
theories/DtrProps.v
theories/Dtr2Spec.v
theories/Dtr2Proofs.v
theories/Dtr2Props.v
theories/PrmModel.v
theories/PrmProofs.v
theories/PrmProps.v
theories/BudModel.v
theories/BudSpec.v
theories/BudProofs.v
theories/BudProps.v
