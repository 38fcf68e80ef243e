-Q theories Verif

theories/Py.v
theories/ExpPolyModel.v
theories/ListFacts.v
theories/ExpPolyProofs.v
theories/ExpPolySpec.v
theories/ExpPolyProofs2.v
theories/ExpPolyProps.v
theories/Gauss.v
theories/Gauss2.v
theories/Gauss3.v
theories/PolyIdent.v
theories/ExpPolyIntModel.v
theories/ExpPolyIntSpec.v
theories/ExpPolyIntProofs.v
theories/ExpPolyIntProofs2.v
theories/ExpPolyIntProofs3.v
theories/ExpPolyIntProps.v
theories/ExpPolyIntWitness.v
theories/ExpPolySupport.v
theories/Fubini.v
theories/GpcmModel.v
theories/GpcmSpec.v
theories/GpcmProofs.v
theories/GpcmProofs2.v
theories/GpcmProofs3.v
theories/GpcmTotal.v
theories/GpcmInit.v
theories/GpcmPsd.v
theories/GpcmProps.v
theories/GpcmProps2.v
theories/Glue.v
theories/RgpcmModel.v
theories/RgpcmSpec.v
theories/RgpcmAbcd.v
theories/RgpcmUx.v
theories/RgpcmCov.v
theories/RgpcmPerm.v
theories/RgpcmHz.v
theories/RgpcmUz.v
theories/RgpcmInit.v
theories/RgpcmProps.v
theories/RgpcmProps2.v
theories/RgpcmRkhs.v
theories/RMat.v
theories/RChol.v
theories/RTac.v
theories/NormalModel.v
theories/NormalSpec.v
theories/NormalProofs.v
theories/NormalProps.v
theories/ApproxModel.v
theories/ApproxSpec.v
theories/ApproxProofs.v
theories/ApproxProofs2.v
theories/ApproxProofs3.v
theories/ApproxProps.v
theories/PsdModel.v
theories/PsdSpec.v
theories/PsdProofs.v
theories/PsdProps.v
theories/EssModel.v
theories/EssSpec.v
theories/EssProofs.v
theories/EssProps.v
theories/UtilModel.v
theories/UtilSpec.v
theories/UtilProofs.v
theories/UtilProofs2.v
theories/UtilProps.v
theories/FitModel.v
theories/FitSpec.v
theories/FitProofs.v
theories/FitProps.v
theories/ExpPolyCanon.v
theories/UtilProps2.v
theories/GpcmPd.v
theories/GpcmProps3.v
theories/PriorModel.v
theories/PriorProps.v
theories/GaussDom.v
theories/GaussFeat.v
theories/GaussFeat2.v
theories/GaussCausal.v
theories/GpcmFeat.v
theories/GpcmEntries.v
theories/GpcmKernel.v
theories/GpcmGood.v
theories/GpcmBridge.v
theories/GpcmWell.v
theories/GpcmEndProps.v
theories/GpcmKernelPsd.v
theories/SampleModel.v
theories/SampleProofs.v
theories/RSpectral.v
theories/SampleProps.v
theories/MinPhaseModel.v
theories/MinPhaseSpec.v
theories/MinPhaseProofs.v
theories/MinPhaseProps.v
theories/GaussLine.v
theories/IntegralSpec.v
theories/GaussN.v
theories/Tame.v
theories/TameMat.v
theories/EvidenceModel.v
theories/EvidenceSpec.v
theories/EvidenceProofs.v
theories/EvidenceProps.v
theories/LaplaceModel.v
theories/LaplaceSpec.v
theories/LaplaceProps.v
theories/FilterModel.v
theories/FilterSpec.v
theories/FilterKernel.v
theories/FilterProofs.v
theories/FilterProps.v
theories/KernelForm.v
theories/GpcmKernelPd.v
theories/RgpcmKernel.v
theories/KernelSpec.v
theories/KernelProofs.v
theories/PsdFlat.v
theories/KernelDecay.v
theories/KernelModel.v
theories/KernelProps.v
theories/OuFeat.v
theories/OuWell.v
theories/OuEntries.v
theories/RgpcmBridge.v
theories/RgpcmWell.v
theories/RgpcmGood.v
theories/RgpcmEndProps.v
theories/EssReverseSpec.v
theories/EssReverse.v
theories/EssReverseProps.v
theories/GibbsSpec.v
theories/GibbsProps.v
theories/CaConverge.v
theories/CaSpec.v
theories/CaProps.v
theories/CaEndProps.v
theories/OrderSpec.v
theories/OrderProofs.v
theories/OrderLists.v
theories/OrderProps.v
theories/UnitSpec.v
theories/UnitProofs.v
theories/UnitProps.v
theories/HashModel.v
theories/HashProofs.v
theories/PrintModel.v
theories/PrintProofs.v
theories/HashProps.v
theories/ExperimentModel.v
theories/ExperimentProps.v
theories/ErrorLineProps.v
theories/GpcmUnitSpec.v
theories/GpcmUnitProofs.v
theories/GpcmUnitEntries.v
theories/ScaleSpec.v
theories/ScaleProofs.v
theories/GpcmUnitProps.v
theories/BasisSpec.v
theories/BasisProofs.v
theories/ReorderSpec.v
theories/ReorderSpec2.v
theories/ReorderEntries.v
theories/RgpcmReorder.v
theories/ReorderProofs.v
theories/ReorderProps.v
theories/ReverseSpec.v
theories/ReverseEntries.v
theories/ReverseInit.v
theories/ReverseProps.v
theories/LoudSpec.v
theories/LoudEntries.v
theories/OutSpec.v
theories/OutProofs.v
theories/FlipProofs.v
theories/LoudInit.v
theories/LoudProps.v
theories/GrowSpec.v
theories/GrowProofs.v
theories/GrowGp.v
theories/GrowProps.v
theories/InfoSpec.v
theories/InfoProofs.v
theories/InfoProps.v
theories/NoDataProps.v
theories/MirrorSpec.v
theories/MirrorProps.v
theories/PaperModel.v
theories/PaperSpec.v
theories/PaperProofs.v
theories/PaperProps.v
theories/SplitProps.v
theories/SpectrumProofs.v
theories/SpectrumProps.v
theories/TrackModel.v
theories/TrackSpec.v
theories/TrackProps.v
theories/CompareProps.v
theories/ToyModel.v
theories/ToyProps.v
theories/ForecastModel.v
theories/ForecastProps.v
theories/InterpModel.v
theories/InterpProps.v
theories/PanelModel.v
theories/PanelProps.v
theories/ElboEffectProps.v
theories/KernelCompareModel.v
theories/KernelCompareProps.v
theories/ElboReportModel.v
theories/ElboReportProps.v
