-Q theories Verif
theories/SRing.v
theories/LMat.v
theories/CplxR.v
theories/SymModel.v
theories/FinGroup.v
theories/FMat.v
theories/DetMC.v
theories/SymGenProofs.v
theories/SymInitProofs.v
theories/SymEqProofs.v
theories/SymPointProofs.v
theories/SymModel2.v
theories/SymTensorProofs.v
theories/SymReduceProofs.v
theories/SymNamedProofs.v
theories/SymProps.v
theories/SymMembers.v
theories/HamModel.v
theories/HamProofs.v
theories/HamTableProofs.v
theories/HamProps.v
theories/UrepModel.v
theories/UrepProofs.v
theories/UrepGenProofs.v
theories/UrepProps.v
theories/FourierModel.v
theories/FourierProofs.v
theories/BsmProofs.v
theories/SpecProofs.v
theories/FourierProps.v
theories/NbrModel.v
theories/NbrProps.v
theories/SupercellModel.v
theories/SupercellProofs.v
theories/SupercellProps.v
theories/FormatModel.v
theories/FormatProps.v
theories/WannierProps.v
theories/LossModel.v
theories/LossProps.v
theories/LinalgModel.v
theories/LinalgProps.v
theories/BlockProps.v
theories/KPathModel.v
theories/KPathProps.v
theories/FermiModel.v
theories/FermiProps.v
theories/SmearModel.v
theories/SmearCalc.v
theories/SmearProps.v
theories/TetraProps.v
theories/TetraCube.v
theories/CellProps.v
theories/DosModel.v
theories/Basel.v
theories/FermiInt.v
theories/FermiConv.v
theories/DosProps.v
theories/DosEnergy.v
theories/DosMore.v
theories/DosTight.v
theories/BulkModel.v
theories/FermiMoments.v
theories/BulkProps.v
theories/BulkWeights.v
theories/BulkHall.v
theories/EigModel.v
theories/EigProofs.v
theories/EigBase.v
theories/EigProps.v
theories/EigHess.v
theories/EigBad.v
theories/TbmModel.v
theories/TbmProps.v
theories/FitModel.v
theories/FitBase.v
theories/FitProps.v
theories/FitNorm.v
theories/FitInit.v
theories/LatModel.v
theories/LatProps.v
theories/SymModel3.v
theories/Sym3Props.v
theories/SymDivProps.v
theories/UrepModel2.v
theories/Urep2Proofs.v
theories/Urep2Props.v
theories/Urep2Symz.v
theories/UrepNamed.v
theories/QeModel.v
theories/QeProps.v
theories/QeFile.v
theories/SphereModel.v
theories/SphereProps.v
theories/CosSeries.v
theories/AsymOpsModel.v
theories/AsymOpsProps.v
theories/HamOrbModel.v
theories/HamOrbProps.v
theories/KPointsModel.v
theories/KPointsBz.v
theories/KPointsTab.v
theories/HamApply.v
theories/ChemModel.v
theories/ChemProps.v
theories/RotModel.v
theories/RotProps.v
theories/IcoProps.v
theories/SkModel.v
theories/SkProps.v
theories/SkoModel.v
theories/SkoProps.v
theories/SkoBloch.v
theories/InterpModel.v
theories/InterpProps.v
theories/HamRealModel.v
theories/HamRealProps.v
theories/BsmOpsModel.v
theories/BsmOpsProps.v
theories/NaiveEnergyProps.v
theories/UnstructModel.v
theories/UnstructProps.v
theories/InitRefModel.v
theories/InitRefProps.v
theories/BsmFileModel.v
theories/BsmFileProps.v
theories/GaussModel.v
theories/GaussPoly.v
theories/GaussProps.v
theories/GaussEx.v
theories/GaussSolve.v
theories/QePathModel.v
theories/QePathProps.v
theories/CurveModel.v
theories/CurveProps.v
theories/HeatModel.v
theories/HeatProps.v
theories/AutofitModel.v
theories/AutofitProps.v
