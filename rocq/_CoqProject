-Q theories Verif
theories/Base.v
theories/BaseFacts.v
theories/RBase.v
theories/CVModel.v
theories/CVSpec.v
theories/CVProofs.v
theories/CVProperties.v
theories/GAModel.v
theories/GASearchProofs.v
theories/GAOpsProofs.v
theories/GAParetoProofs.v
theories/GAProperties.v
theories/ElimModel.v
theories/ElimProofs.v
theories/ElimProperties.v
theories/ActiveModel.v
theories/ActiveProperties.v
theories/AcqModel.v
theories/AcqProofs.v
theories/AcqProperties.v
theories/DBModel.v
theories/DBSpec.v
theories/DBProofs.v
theories/DBProperties.v
theories/PrepModel.v
theories/PrepProofs.v
theories/PrepProperties.v
theories/FEModel.v
theories/FEProofs.v
theories/FEProperties.v
theories/ScreenModel.v
theories/ScreenProofs.v
theories/ScreenProperties.v
theories/LinAlg.v
theories/LogDet.v
theories/PSD.v
theories/KernModel.v
theories/KernProofs.v
theories/KernSetupProofs.v
theories/KernDefProofs.v
theories/KernScaleProofs.v
theories/KernEntryProofs.v
theories/KernProperties.v
theories/GPModel.v
theories/GPProofs.v
theories/GPMoreProofs.v
theories/GPProperties.v
theories/GPUpdateProofs.v
theories/GPUpdateProperties.v
theories/GPScaleProperties.v
theories/ErrorProperties.v
theories/GPOptProperties.v
theories/GradSpec.v
theories/GradProofs.v
theories/GradPSD.v
theories/GradKernProofs.v
theories/GPGradProofs.v
theories/GPGradProperties.v
theories/MatDeriv.v
theories/LmlModel.v
theories/LmlProofs.v
theories/LmlGradProofs.v
theories/LmlProperties.v
theories/GPIOModel.v
theories/GPIOProperties.v
theories/RidgeModel.v
theories/RidgeProofs.v
theories/RidgeFacts.v
theories/RidgeProperties.v
theories/PotModel.v
theories/PotProperties.v
theories/MaskModel.v
theories/MaskProperties.v
theories/OptModel.v
theories/OptProofs.v
theories/MLMinProperties.v
theories/MLNebProperties.v
theories/LCModel.v
theories/LCProperties.v
theories/ApiModel.v
theories/ApiProperties.v
theories/FeatModel.v
theories/FeatProperties.v
theories/FeatVecProperties.v
theories/PeriodicModel.v
theories/PeriodicProperties.v
theories/FingerModel.v
theories/FingerProperties.v
theories/NeighborProperties.v
theories/ParticleProperties.v
theories/AdsorbModel.v
theories/AdsorbProperties.v
theories/AdsorbBondProperties.v
theories/ChargeProperties.v
theories/SurfModel.v
theories/SurfProperties.v
theories/NMatModel.v
theories/NMatProperties.v
theories/GAFSModel.v
theories/GAFSProperties.v
theories/SlabUtilModel.v
theories/SlabUtilProperties.v
theories/SiteModel.v
theories/SiteProperties.v
theories/UtilModel.v
theories/UtilProperties.v
theories/IOModel.v
theories/IOProperties.v
theories/SensModel.v
theories/SensProperties.v
theories/GenGPProperties.v
theories/BootModel.v
theories/BootProperties.v
theories/PathModel.v
theories/PathProperties.v
theories/LCVarModel.v
theories/LCVarProperties.v
theories/AtomsModel.v
theories/AtomsProperties.v
theories/RegFitModel.v
theories/RegFitProperties.v
theories/CatAppModel.v
theories/CatAppProperties.v
theories/RefSlabModel.v
theories/RefSlabProperties.v
theories/FitnessModel.v
theories/FitnessProperties.v
theories/MaternPSD.v
theories/KernMoreModel.v
theories/KernMoreProperties.v
theories/HashModel.v
theories/HashProperties.v
theories/MagpieModel.v
theories/MagpieProperties.v
theories/DbFeatModel.v
theories/DbFeatProperties.v
theories/SiteFilesModel.v
theories/SiteFilesProperties.v
theories/DimModel.v
theories/DimProperties.v
theories/ScreenFitModel.v
theories/ScreenFitProperties.v
theories/ConvModel.v
theories/ConvProperties.v
theories/KernMultiProperties.v
theories/ShareModel.v
theories/ShareProperties.v
theories/MinSurrModel.v
theories/MinSurrProperties.v
theories/PathSurrModel.v
theories/PathSurrProperties.v
theories/KernFormProofs.v
theories/GPSymProperties.v
theories/RidgeTradeProperties.v
theories/KernJointProperties.v
theories/AcqIntegralProperties.v
theories/GPRidgeProperties.v
theories/GPDataProperties.v
theories/GPErrorProperties.v
theories/LogErrorModel.v
theories/LogErrorProperties.v
theories/TargetProperties.v
theories/GPNextProperties.v
theories/GPChainProperties.v
theories/StandardProperties.v
theories/SplitModel.v
theories/SplitProperties.v
theories/GPLeaveProperties.v
theories/GPFarProperties.v
theories/GPFarScaledProperties.v
theories/GPAverageProperties.v
theories/GPRatioProperties.v
theories/GPUnusedProperties.v
theories/GPConstantProperties.v
theories/NebStartProperties.v
theories/GPSetupProperties.v
theories/GPProductProperties.v
theories/GPOrderProperties.v
theories/GPScalingProperties.v
