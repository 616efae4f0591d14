-Q theories Verif
theories/Base.v
theories/LinalgModel.v
theories/LinalgSpec.v
theories/LinalgProofs.v
theories/LinalgThms.v
theories/MpiModel.v
theories/MpiProofs.v
theories/MpiThms.v
theories/MatAlg.v
theories/RpaModel.v
theories/RpaSpec.v
theories/RpaProofs.v
theories/RpaThms.v
theories/Fring.v
theories/FourierModel.v
theories/FourierProofs.v
theories/MpiSpec.v
theories/BubbleModel.v
theories/BubbleSpec.v
theories/BubbleProofs.v
theories/BubbleThms.v
theories/ImtimeModel.v
theories/MatsubaraModel.v
theories/MatsubaraProofs.v
theories/MatsubaraThms.v
theories/BseModel.v
theories/BseSpec.v
theories/BseProofs.v
theories/BseThms.v
theories/DysonModel.v
theories/DysonSpec.v
theories/DysonProofs.v
theories/DysonThms.v
theories/GwModel.v
theories/GwSpec.v
theories/GwProofs.v
theories/GwThms.v
theories/EliashbergModel.v
theories/EliashbergSpec.v
theories/EliashbergThms.v
theories/RpaTensorModel.v
theories/RpaTensorSpec.v
theories/RpaTensorProofs.v
theories/RpaTensorThms.v
theories/SymmetryModel.v
theories/SymmetrySpec.v
theories/SymmetryProofs.v
theories/SymmetryThms.v
theories/OperatorModel.v
theories/OperatorSpec.v
theories/OperatorProofs.v
theories/OperatorThms.v
theories/KanamoriModel.v
theories/KanamoriSpec.v
theories/KanamoriThms.v
theories/RelabelThms.v
theories/HfModel.v
theories/HfSpec.v
theories/HfThms.v
theories/TimerModel.v
theories/TimerSpec.v
theories/TimerThms.v
theories/ParamModel.v
theories/ParamSpec.v
theories/ParamThms.v
theories/WannierModel.v
theories/WannierSpec.v
theories/WannierThms.v
theories/TbModel.v
theories/TbThms.v
theories/WindowModel.v
theories/WindowThms.v
theories/FreqConvModel.v
theories/FreqConvThms.v
theories/DlrFitModel.v
theories/DlrFitThms.v
theories/FermiModel.v
theories/FermiThms.v
theories/LindhardModel.v
theories/LindhardThms.v
theories/RetimeModel.v
theories/RetimeThms.v
theories/GwSolverModel.v
theories/GwSolverThms.v
theories/GwChainModel.v
theories/GwChainThms.v
theories/HfResponseModel.v
theories/HfResponseThms.v
theories/HfResponseCases.v
theories/PowerModel.v
theories/PowerThms.v
theories/PowerCases.v
theories/EliSolveThms.v
theories/DlrConstraintModel.v
theories/DlrConstraintThms.v
theories/HubbardAtomModel.v
theories/MatsubaraSum.v
theories/HubbardAtomThms.v
theories/HubbardVertexThms.v
theories/G0wModel.v
theories/G0wThms.v
theories/ContractionModel.v
theories/ContractionThms.v
theories/HfNewtonModel.v
theories/HfNewtonThms.v
theories/KgridModel.v
theories/KgridThms.v
theories/VaspModel.v
theories/VaspThms.v
theories/GfShapeModel.v
theories/GfShapeThms.v
theories/StrideThms.v
theories/GwOutputModel.v
theories/GwOutputThms.v
theories/ParamTextModel.v
theories/ParamTextThms.v
theories/GwFullModel.v
theories/GwRel.v
theories/GwFullProofs.v
theories/GwBasisThms.v
theories/GwSpinThms.v
theories/GwHermThms.v
theories/GwSymThms.v
theories/Spectral.v
theories/ConservationThms.v
theories/EliRealThms.v
theories/RpaSymThms.v
theories/RpaStabThms.v
theories/SpinRotThms.v
theories/HfBasisThms.v
theories/DynStabThms.v
theories/GwBracketModel.v
theories/EnergyZeroThms.v
theories/EnergyZeroGwThms.v
theories/BseSymThms.v
theories/UnitsThms.v
theories/GwRel2.v
theories/UnitsGwThms.v
theories/UnitsBseThms.v
theories/UnitsLindhardThms.v
theories/UnitsCases.v
theories/UtilitiesModel.v
theories/UtilitiesThms.v
theories/GwRel3.v
theories/DecoupleThms.v
theories/SublatticeProofs.v
theories/SublatticeThms.v
theories/DecoupleBseThms.v
theories/HfBoundsThms.v
theories/GwReversalThms.v
theories/HfReversalThms.v
theories/HfHoleThms.v
theories/WannierTextThms.v
theories/CompatModel.v
theories/CompatThms.v
theories/LindhardSymThms.v
theories/RpaReversalThms.v
theories/HfConserveThms.v
theories/ImpBubbleModel.v
theories/ImpBubbleThms.v
