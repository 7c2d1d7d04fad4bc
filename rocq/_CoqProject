-Q theories Verif
theories/Base.v
theories/FolderModel.v
theories/FolderSpec.v
theories/FolderProofs.v
theories/FolderProofs2.v
theories/FolderProperties.v
theories/IndexModel.v
theories/IndexProofs.v
theories/IndexProperties.v
theories/KernelModel.v
theories/KernelSpec.v
theories/KernelProofs.v
theories/KernelProperties.v
theories/GhostModel.v
theories/GhostSpec.v
theories/GhostProofs.v
theories/GhostProperties.v
theories/EvolveModel.v
theories/EvolveSpec.v
theories/EvolveProofs.v
theories/EvolveProperties.v
theories/SchemeModel.v
theories/SchemeSpec.v
theories/SchemeProperties.v
theories/LaplModel.v
theories/LaplProperties.v
theories/LaneModel.v
theories/LaneProperties.v
theories/AllocModel.v
theories/AllocProperties.v
theories/FieldModel.v
theories/FieldProofs.v
theories/FieldProperties.v
theories/FieldFftProperties.v
theories/ThetaModel.v
theories/ThetaProperties.v
theories/TuneModel.v
theories/TuneSpec.v
theories/TuneProofs.v
theories/TuneProperties.v
theories/LogModel.v
theories/LogProperties.v
theories/BinModel.v
theories/BinProperties.v
theories/StrModel.v
theories/StrSpec.v
theories/StrProofs.v
theories/StrWind.v
theories/StrFlux.v
theories/StrProperties.v
theories/MendModel.v
theories/MendSpec.v
theories/MendProofs.v
theories/MendVol.v
theories/MendAll.v
theories/MendProperties.v
theories/MaskModel.v
theories/MaskSpec.v
theories/MaskProofs.v
theories/MaskAll.v
theories/MaskProperties.v
theories/PadModel.v
theories/PadSpec.v
theories/PadProofs.v
theories/PadProperties.v
theories/PowModel.v
theories/PowSpec.v
theories/PowProofs.v
theories/PowProperties.v
theories/RedModel.v
theories/RedSpec.v
theories/RedProofs.v
theories/RedProperties.v
theories/TrackModel.v
theories/TrackProofs.v
theories/TrackProperties.v
theories/TagModel.v
theories/TagSpec.v
theories/TagProofs.v
theories/TagProperties.v
theories/LutModel.v
theories/LutSpec.v
theories/LutProofs.v
theories/LutProperties.v
theories/AxitonModel.v
theories/AxitonSpec.v
theories/AxitonProofs.v
theories/AxitonProperties.v
theories/FlagModel.v
theories/FlagProofs.v
theories/FlagProperties.v
theories/ConfModel.v
theories/ConfSpec.v
theories/ConfProofs.v
theories/ConfProperties.v
theories/HeadModel.v
theories/HeadSpec.v
theories/HeadProofs.v
theories/HeadProperties.v
theories/CosmoModel.v
theories/CosmoSpec.v
theories/CosmoProofs.v
theories/CosmoProperties.v
theories/CosmoStepProperties.v
theories/LenModel.v
theories/LenSpec.v
theories/LenProofs.v
theories/LenProperties.v
theories/ForceModel.v
theories/ForceSpec.v
theories/ForceProofs.v
theories/ForceProperties.v
theories/EnergyModel.v
theories/EnergySpec.v
theories/EnergyProofs.v
theories/EnergyProperties.v
theories/ConserveSpec.v
theories/ConserveProofs.v
theories/ConserveBoxProofs.v
theories/ConserveProperties.v
theories/AxionModel.v
theories/AxionSpec.v
theories/AxionProofs.v
theories/AxionProperties.v
theories/SplineModel.v
theories/SplineSpec.v
theories/SplineProofs.v
theories/SplineRowProofs.v
theories/SplineCurveProofs.v
theories/SplineProperties.v
theories/TabModel.v
theories/TabSpec.v
theories/TabProperties.v
theories/InitModel.v
theories/InitSpec.v
theories/InitProofs.v
theories/InitBoxProofs.v
theories/InitFieldProofs.v
theories/InitProperties.v
theories/RandModel.v
theories/RandSpec.v
theories/RandProperties.v
theories/SpaxModel.v
theories/SpaxSpec.v
theories/SpaxProperties.v
theories/PaxModel.v
theories/PaxSpec.v
theories/PaxProofs.v
theories/PaxModeProofs.v
theories/PaxProperties.v
theories/PaxNumberProperties.v
theories/PaxStartProperties.v
theories/PaxEnergyModel.v
theories/PaxEnergySpec.v
theories/PaxEnergyProofs.v
theories/PaxEnergyProperties.v
theories/GadModel.v
theories/GadSpec.v
theories/GadProofs.v
theories/GadProperties.v
theories/GadVelProperties.v
theories/GadHaloProperties.v
theories/WkbModel.v
theories/WkbSpec.v
theories/WkbProofs.v
theories/WkbPhaseProofs.v
theories/WkbProperties.v
theories/WkbPhaseProperties.v
theories/WkbFieldProperties.v
theories/WkbTwoProperties.v
theories/GravModel.v
theories/GravSpec.v
theories/GravProofs.v
theories/GravGridProofs.v
theories/GravProperties.v
theories/GravGridProperties.v
theories/GravRelaxProperties.v
theories/MapModel.v
theories/MapSpec.v
theories/MapProofs.v
theories/MapProperties.v
theories/MapAllProperties.v
theories/MeasModel.v
theories/MeasSpec.v
theories/MeasProofs.v
theories/MeasSaxProofs.v
theories/MeasProperties.v
theories/MeasAxiProperties.v
theories/FourModel.v
theories/FourSpec.v
theories/FourProofs.v
theories/FourProperties.v
theories/FspProperties.v
theories/RunModel.v
theories/RunSpec.v
theories/RunProofs.v
theories/RunListProperties.v
theories/RunProperties.v
theories/RunSwitchProperties.v
theories/PrepModel.v
theories/PrepSpec.v
theories/PrepProperties.v
theories/MomModel.v
theories/MomSpec.v
theories/MomProofs.v
theories/MomProperties.v
theories/MomStringProperties.v
theories/SlapModel.v
theories/SlapSpec.v
theories/SlapProofs.v
theories/SlapProperties.v
theories/SlapAxProperties.v
theories/LineModel.v
theories/LineSpec.v
theories/LineProofs.v
theories/LineProperties.v
theories/AnyModel.v
theories/AnySpec.v
theories/AnyProofs.v
theories/AnyProperties.v
theories/CoordModel.v
theories/CoordSpec.v
theories/CoordProofs.v
theories/CoordProperties.v
theories/ExpandModel.v
theories/ExpandSpec.v
theories/ExpandProofs.v
theories/ExpandProperties.v
theories/KgvModel.v
theories/KgvSpec.v
theories/KgvProofs.v
theories/KgvProperties.v
theories/NrunModel.v
theories/NrunProofs.v
theories/NrunProperties.v
theories/CommModel.v
theories/CommSpec.v
theories/CommProofs.v
theories/CommProperties.v
theories/ProfModel.v
theories/ProfSpec.v
theories/ProfProofs.v
theories/ProfProperties.v
theories/DoomModel.v
theories/DoomProperties.v
theories/SampModel.v
theories/SampProperties.v
theories/MlogModel.v
theories/MlogProperties.v
theories/DimsModel.v
theories/DimsProperties.v
