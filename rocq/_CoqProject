-Q theories Verif
theories/SymModel.v
theories/SymProofs.v
theories/SymProps.v
theories/DictLib.v
theories/BondModel.v
theories/BondProofs.v
theories/BondProps.v
theories/IndexLib.v
theories/FuseModel.v
theories/FuseProofs.v
theories/FuseProps.v
theories/MpeModel.v
theories/MpeProofs.v
theories/MpeProps.v
theories/SignModel.v
theories/SignProofs.v
theories/SignProps.v
theories/RingLib.v
theories/BlockModel.v
theories/BlockProofs.v
theories/BlockProps.v
theories/StructModel.v
theories/StructProofs.v
theories/FuseTProofs.v
theories/FuseTProps.v
theories/SumProofs.v
theories/StructProps.v
theories/FlatModel.v
theories/FlatProofs.v
theories/FlatProps.v
theories/OrdLib.v
theories/TruncModel.v
theories/TruncProofs.v
theories/TrimProofs.v
theories/TruncProps.v
theories/StrLib.v
theories/StrProofs.v
theories/FcidumpModel.v
theories/FcidumpProofs.v
theories/FcidumpArrays.v
theories/FcidumpProps.v
theories/OptLib.v
theories/SiteModel.v
theories/SiteProofs.v
theories/SiteOps.v
theories/SiteProps.v
theories/FcidumpLines.v
theories/FermOpsModel.v
theories/FermOpsProofs.v
theories/FermOpsProps.v
theories/FermTModel.v
theories/FermTProofs.v
theories/FermNetProofs.v
theories/FermTraceProofs.v
theories/FermNetwork.v
theories/FermDaggerProofs.v
theories/FermTProps.v
theories/HeisModel.v
theories/HeisProofs.v
theories/HeisProps.v
theories/LinalgModel.v
theories/LinalgProofs.v
theories/DavidsonProofs.v
theories/LinalgProps.v
theories/SweepModel.v
theories/SweepProofs.v
theories/SweepProps.v
theories/MpsModel.v
theories/MpsChain.v
theories/MpsProofs.v
theories/MpsDot.v
theories/MpsProps.v
theories/MpoModel.v
theories/MpoDot.v
theories/MpoVert.v
theories/MpoFuse.v
theories/MpoChain.v
theories/MpoProofs.v
theories/MpoSite.v
theories/MpoMul.v
theories/MpoProps.v
theories/CanonModel.v
theories/CanonProofs.v
theories/CanonSites.v
theories/CanonChain.v
theories/CanonSweep.v
theories/CanonProps.v
theories/CompressModel.v
theories/CompressChain.v
theories/CompressSvd.v
theories/CompressCut.v
theories/CompressSites.v
theories/CompressSplit.v
theories/CompressFac.v
theories/CompressMirror.v
theories/CompressDef.v
theories/CompressSweep.v
theories/CompressProps.v
theories/QcModel.v
theories/QcProg.v
theories/QcCols.v
theories/QcAlg.v
theories/QcStep.v
theories/QcWords.v
theories/QcLayout.v
theories/QcSite.v
theories/QcChain.v
theories/QcFill.v
theories/QcProps.v
theories/BuildModel.v
theories/BuildProofs.v
theories/BuildChain.v
theories/BuildSweep.v
theories/BuildFinal.v
theories/BuildExists.v
theories/BuildLabels.v
theories/BuildProps.v
theories/TosModel.v
theories/TosProofs.v
theories/TosProps.v
theories/FullModel.v
theories/FullOps.v
theories/FullChain.v
theories/FullProofs.v
theories/FullBuild.v
theories/FullProps.v
theories/FspModel.v
theories/FspProofs.v
theories/FspRound.v
theories/FspProps.v
theories/QfullModel.v
theories/QfullGrade.v
theories/QfullProofs.v
theories/QfullProps.v
theories/GreenModel.v
theories/GreenProps.v
theories/RkModel.v
theories/RkProps.v
theories/DmModel.v
theories/DmProofs.v
theories/DmProps.v
theories/EinsumModel.v
theories/EinsumProofs.v
theories/EinsumProps.v
theories/FsvdModel.v
theories/FsvdProofs.v
theories/FsvdFact.v
theories/FsvdProps.v
theories/FsvdSvd.v
theories/FsvdTrim.v
theories/FsvdWhole.v
theories/FsvdForm.v
theories/FsvdSvdProps.v
theories/GaussModel.v
theories/GaussProofs.v
theories/GaussProps.v
theories/GaussMpsProps.v
theories/GfitModel.v
theories/GfitProofs.v
theories/GfitProps.v
theories/MeraModel.v
theories/MeraProps.v
theories/GoccModel.v
theories/GoccProofs.v
theories/GoccProps.v
theories/LogmModel.v
theories/LogmProps.v
theories/FbuildModel.v
theories/FbuildProps.v
theories/LargeModel.v
theories/LargeProps.v
theories/ConsModel.v
theories/ConsProps.v
theories/PhaseModel.v
theories/PhaseProps.v
theories/LargeOpsModel.v
theories/LargeOpsProps.v
