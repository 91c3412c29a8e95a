-Q theories Verif

theories/Base.v
theories/ListFacts.v
theories/LayoutModel.v
theories/LayoutSpec.v
theories/LayoutProofs.v
theories/LayoutFacts.v
theories/LayoutFacts2.v
theories/LayoutMain.v
theories/LayoutProps.v
theories/HaloModel.v
theories/HaloProofs.v
theories/SumModel.v
theories/SumProofs.v
theories/HaloProps.v
theories/TextModel.v
theories/TextSpec.v
theories/TextProofs.v
theories/TextProps.v
theories/OutModel.v
theories/OutSpec.v
theories/OutProofs.v
theories/OutProps.v
theories/FormatModel.v
theories/FormatSpec.v
theories/FormatProofs.v
theories/FormatProps.v
theories/ComplexR.v
theories/Su3Model.v
theories/Su3Spec.v
theories/Su3Proofs.v
theories/Su3Props.v
theories/FieldModel.v
theories/FieldSpec.v
theories/FieldProofs.v
theories/FieldProps.v
theories/ColourModel.v
theories/ColourSpec.v
theories/ColourProofs.v
theories/ColourProps.v
theories/GaugeModel.v
theories/GaugeSpec.v
theories/GaugeProofs.v
theories/GaugeProofs2.v
theories/GaugeProofs3.v
theories/GaugeGeom.v
theories/GaugeProps.v
theories/LoopModel.v
theories/LoopProofs.v
theories/LoopGrid.v
theories/LoopProps.v
theories/ExpModel.v
theories/ExpSpec.v
theories/ExpProofs.v
theories/EigProofs.v
theories/RealField.v
theories/SmearProofs.v
theories/SmearProps.v
theories/MdModel.v
theories/MdSpec.v
theories/MdProofs.v
theories/MdProps.v
theories/GammaModel.v
theories/GammaSpec.v
theories/GammaProofs.v
theories/GammaProps.v
theories/DiracModel.v
theories/DiracSpec.v
theories/DiracProofs.v
theories/DiracProofs2.v
theories/DiracProps.v
theories/DiracProofs3.v
theories/SolverModel.v
theories/SolverSpec.v
theories/SolverProofs.v
theories/SolverProps.v
theories/SolverProofs2.v
theories/UpdModel.v
theories/UpdProofs.v
theories/UpdProofs2.v
theories/UpdProps.v
theories/Su2Model.v
theories/Su2Spec.v
theories/Su2Proofs.v
theories/Su2Props.v
theories/HeatProps.v
theories/ScalarModel.v
theories/ScalarSpec.v
theories/ScalarWitness.v
theories/ScalarProofs.v
theories/ScalarProofs2.v
theories/ScalarProofs3.v
theories/ScalarProps.v
theories/AdjTables.v
theories/AdjModel.v
theories/AdjSpec.v
theories/AdjProofs.v
theories/AdjProofs2.v
theories/AdjProofs3.v
theories/AdjProofs4.v
theories/AdjProofs5.v
theories/AdjProps.v
theories/BlockModel.v
theories/BlockSpec.v
theories/BlockProofs.v
theories/BlockProps.v
theories/SeedModel.v
theories/SeedProofs.v
theories/SeedProps.v
theories/MgModel.v
theories/MgSpec.v
theories/MgProofs.v
theories/MgProofs2.v
theories/MgProofs3.v
theories/MgProofs4.v
theories/MgProps.v
theories/FixModel.v
theories/FixSpec.v
theories/FixProofs.v
theories/FixProofs2.v
theories/FixProofs3.v
theories/FixProofs4.v
theories/FixProofs5.v
theories/FixProps.v
theories/ReadModel.v
theories/ReadProps.v
theories/Exp3Model.v
theories/Exp3Scalar.v
theories/Exp3RModel.v
theories/Exp3Proofs.v
theories/Exp3Props.v
theories/MomProofs.v
theories/MomProofs2.v
theories/MomProps.v
theories/PertProofs.v
theories/VecProofs.v
theories/FForceModel.v
theories/FForceProofs.v
theories/FForceProofs2.v
theories/FForceSpec.v
theories/FForceProofs3.v
theories/FForceProofs4.v
theories/FForceProofs5.v
theories/FForceWitness.v
theories/FForceProps.v
theories/SapModel.v
theories/SapSpec.v
theories/SapProofs.v
theories/SapProps.v
theories/GmresModel.v
theories/GmresSpec.v
theories/GmresProofs.v
theories/GmresProofs2.v
theories/GmresProofs3.v
theories/GmresProps.v
theories/SForceModel.v
theories/SForceSpec.v
theories/SForceProofs.v
theories/SForceProofs2.v
theories/SForceProps.v
theories/CloverModel.v
theories/CloverSpec.v
theories/CloverProofs.v
theories/CloverProofs2.v
theories/CloverProps.v
theories/EvenOddModel.v
theories/EvenOddSpec.v
theories/EvenOddProofs.v
theories/EvenOddProofs2.v
theories/EvenOddProofs3.v
theories/EvenOddProps.v
theories/CForceModel.v
theories/CForceSpec.v
theories/CForceProofs.v
theories/CForceProofs2.v
theories/CForceProofs3.v
theories/CForceProofs4.v
theories/CForceProofs5.v
theories/CForceProps.v
theories/StochModel.v
theories/StochSpec.v
theories/StochProofs.v
theories/StochProofs2.v
theories/StochProofs3.v
theories/StochProofs4.v
theories/StochProofs5.v
theories/StochProps.v
theories/MesonModel.v
theories/MesonSpec.v
theories/MesonProofs.v
theories/MesonProofs2.v
theories/MesonProofs3.v
theories/MesonProofs4.v
theories/MesonProps.v
theories/XSpaceModel.v
theories/XSpaceSpec.v
theories/XSpaceProofs.v
theories/XSpaceProofs2.v
theories/XSpaceProps.v
theories/LandauModel.v
theories/LandauSpec.v
theories/LandauProofs.v
theories/LandauProofs2.v
theories/LandauProofs3.v
theories/LandauProofs4.v
theories/LandauProofs5.v
theories/LandauProofs6.v
theories/LandauProps.v
theories/OverlapModel.v
theories/OverlapSpec.v
theories/OverlapProofs.v
theories/OverlapProofs2.v
theories/OverlapProofs3.v
theories/OverlapProofs4.v
theories/OverlapProofs5.v
theories/OverlapProofs6.v
theories/OverlapProofs7.v
theories/OverlapProps.v
theories/OverlapProofs8.v
theories/OverlapForceSpec.v
theories/OverlapProofs9.v
theories/OverlapProofs10.v
theories/OverlapForceProps.v
theories/MgSolveModel.v
theories/MgSolveSpec.v
theories/MgSolveProofs.v
theories/MgSolveProofs2.v
theories/MgSolveProps.v
theories/MinResModel.v
theories/MinResSpec.v
theories/MinResProofs.v
theories/MinResProps.v
theories/MeasModel.v
theories/MeasSpec.v
theories/MeasProofs.v
theories/MeasProps.v
