-Q theories Verif
theories/Base.v
theories/SchedModel.v
theories/SchedSpec.v
theories/SchedProofs.v
theories/SchedProofs2.v
theories/SchedProps.v
theories/CompModel.v
theories/CompSpec.v
theories/CompProofs.v
theories/CompProofs2.v
theories/CompProofs3.v
theories/CompProofs4.v
theories/CompProps.v
theories/CacheModel.v
theories/CacheSpec.v
theories/CacheProofs.v
theories/CacheProps.v
theories/CtorModel.v
theories/CtorSpec.v
theories/CtorProofs.v
theories/CtorProps.v
theories/GmresModel.v
theories/GmresSpec.v
theories/GmresProofs.v
theories/GmresProofs2.v
theories/GmresProofs3.v
theories/GmresProps.v
theories/MullerModel.v
theories/MullerSpec.v
theories/MullerProofs.v
theories/MullerProps.v
theories/IndexModel.v
theories/IndexSpec.v
theories/IndexProofs.v
theories/IndexProofs2.v
theories/IndexProofs3.v
theories/IndexProps.v
theories/DofModel.v
theories/DofProps.v
theories/SymModel.v
theories/SymSpec.v
theories/SymProofs.v
theories/SymProofs2.v
theories/SymProofs3.v
theories/SymProofs4.v
theories/SymProps.v
theories/ProxyModel.v
theories/ProxySpec.v
theories/ProxyProofs.v
theories/ProxyProofs2.v
theories/ProxyProps.v
theories/RefineModel.v
theories/RefineSpec.v
theories/RefineProofs.v
theories/RefineProps.v
theories/CollModel.v
theories/CollSpec.v
theories/CollProofs.v
theories/CollProofs2.v
theories/CollProofs3.v
theories/CollProofs4.v
theories/CollProofs5.v
theories/CollProps.v
theories/AssocModel.v
theories/AssocSpec.v
theories/AssocProofs.v
theories/AssocProps.v
theories/FmmModel.v
theories/FmmSpec.v
theories/FmmProofs.v
theories/FmmProofs2.v
theories/FmmProofs3.v
theories/FmmProofs4.v
theories/FmmProps.v
theories/UnregModel.v
theories/UnregProps.v
theories/MatVecModel.v
theories/MatVecSpec.v
theories/MatVecProps.v
theories/MatModel.v
theories/MatSpec.v
theories/MatProofs.v
theories/MatProofs2.v
theories/MatProofs3.v
theories/MatProofs4.v
theories/MatProofs5.v
theories/MatProps.v
theories/MatClModel.v
theories/MatClProps.v
theories/CopyModel.v
theories/CopyProps.v
theories/CostModel.v
theories/CostSpec.v
theories/CostProofs.v
theories/CostProofs2.v
theories/CostProps.v
theories/PgModel.v
theories/PgSpec.v
theories/PgProofs.v
theories/PgProofs2.v
theories/PgProps.v
theories/PgGeoModel.v
theories/PgGeoSpec.v
theories/PgGeoProofs.v
theories/PgGeoProps.v
theories/SkModel.v
theories/SkSpec.v
theories/SkProofs.v
theories/SkProofs2.v
theories/SkProofs3.v
theories/SkProofs4.v
theories/SkProofs5.v
theories/SkProofs6.v
theories/SkProps.v
theories/SkProps2.v
theories/SkProps3.v
theories/SkProps4.v
theories/SkProps5.v
theories/IntlModel.v
theories/IntlSpec.v
theories/IntlProofs.v
theories/IntlProps.v
theories/IntlProps2.v
theories/PdeModel.v
theories/PdeSpec.v
theories/PdeProofs.v
theories/PdeProps.v
theories/PdeProps2.v
theories/PdeProps3.v
theories/PdeProps4.v
theories/PdeProps5.v
theories/GeoModel.v
theories/GeoSpec.v
theories/GeoProofs.v
theories/GeoProofs2.v
theories/GeoProofs3.v
theories/GeoProofs4.v
theories/GeoProofs5.v
theories/GeoProofs6.v
theories/GeoProps.v
theories/GeoProps2.v
theories/GeoProps3.v
theories/GeoProps4.v
theories/MaxModel.v
theories/MaxSpec.v
theories/MaxProofs.v
theories/MaxProofs2.v
theories/MaxProofs3.v
theories/MaxProps.v
theories/MaxProps2.v
theories/TsModel.v
theories/TsLeg.v
theories/TsSpec.v
theories/TsProofs.v
theories/TsProofs2.v
theories/TsProofs3.v
theories/TsProofs4.v
theories/TsProofs5.v
theories/TsProofs6.v
theories/TsDrvModel.v
theories/TsDrvSpec.v
theories/TsDrvProofs.v
theories/TsDrvProofs2.v
theories/TsProps.v
theories/TsDrvProps.v
theories/FmlModel.v
theories/FmlSpec.v
theories/FmlProofs.v
theories/FmlProofs2.v
theories/FmlProofs3.v
theories/FmlProofs4.v
theories/FmlProps.v
theories/KrnModel.v
theories/KrnSpec.v
theories/KrnProofs.v
theories/KrnProofs2.v
theories/KrnProofs3.v
theories/KrnProofs4.v
theories/KrnProofs5.v
theories/KrnProps.v
theories/AkModel.v
theories/AkSpec.v
theories/AkProofs.v
theories/AkProofs2.v
theories/AkProofs3.v
theories/AkProofs4.v
theories/AkProofs5.v
theories/AkProofs6.v
theories/AkProps.v
theories/DkModel.v
theories/DkSpec.v
theories/DkProofs.v
theories/DkProofs2.v
theories/DkProofs3.v
theories/DkProps.v
theories/SrcModel.v
theories/SrcSpec.v
theories/SrcProofs.v
theories/SrcProofs2.v
theories/SrcProps.v
theories/SkwModel.v
theories/SkwSpec.v
theories/SkwProofs.v
theories/SkwProps.v
theories/RedModel.v
theories/RedSpec.v
theories/RedProofs.v
theories/RedProofs2.v
theories/RedProps.v
theories/LpModel.v
theories/LpSpec.v
theories/LpProofs.v
theories/LpProofs2.v
theories/LpProofs3.v
theories/LpProofs4.v
theories/LpProofs5.v
theories/LpProofs6.v
theories/LpProofs7.v
theories/LpProofs8.v
theories/LpProofs9.v
theories/LpProofs10.v
theories/LpProps.v
theories/GcrSpec.v
theories/GcrProofs.v
theories/GcrProofs2.v
theories/GcrProofs3.v
theories/GcrProofs4.v
theories/GcrProps.v
theories/JfModel.v
theories/JfSpec.v
theories/JfProofs.v
theories/JfProofs2.v
theories/JfProofs3.v
theories/JfProofs4.v
theories/JfProofs5.v
theories/JfProofs6.v
theories/JfProofs7.v
theories/JfProps.v
theories/QxModel.v
theories/QxSpec.v
theories/QxProofs.v
theories/QxProofs2.v
theories/QxProps.v
theories/TagModel.v
theories/TagSpec.v
theories/TagProps.v
theories/BindModel.v
theories/BindSpec.v
theories/BindProofs.v
theories/BindProps.v
theories/TsDrvProps2.v
theories/WgModel.v
theories/WgSpec.v
theories/WgProofs.v
theories/WgProofs2.v
theories/WgSpec2.v
theories/WgProofs3.v
theories/WgProps.v
theories/PgGeoProps2.v
theories/DotModel.v
theories/DotSpec.v
theories/DotProofs.v
theories/DotProps.v
theories/VdotModel.v
theories/VdotSpec.v
theories/VdotProofs.v
theories/VdotSpec2.v
theories/VdotProofs2.v
theories/VdotProps.v
theories/DotSpec2.v
theories/DotProps2.v
theories/AvgSpec.v
theories/AvgProps.v
theories/LuModel.v
theories/LuSpec.v
theories/LuProps.v
theories/LuProps2.v
theories/PxdModel.v
theories/PxdProps.v
theories/DispModel.v
theories/DispProps.v
theories/DispProps2.v
theories/SkProps6.v
theories/MaxProps3.v
theories/LuProps3.v
theories/SkwProps2.v
theories/SrcProps2.v
theories/RedProps2.v
