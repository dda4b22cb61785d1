-Q theories Verif
theories/Base/Field.v
theories/Base/Sums.v
theories/Base/ListUpd.v
theories/Base/Res.v
theories/BC/ConstraintsModel.v
theories/BC/ConstraintsSpec.v
theories/BC/ConstraintsProof.v
theories/BC/ConstraintsMain.v
theories/BC/EssentialModel.v
theories/BC/EssentialSpec.v
theories/BC/EssentialProof.v
theories/BC/BCProps.v
theories/Base/Scatter.v
theories/Base/Loops.v
theories/Sparse/CrsModel.v
theories/Sparse/CrsSpec.v
theories/Sparse/MatvecProof.v
theories/Sparse/SortProof.v
theories/Sparse/NonBlockProof.v
theories/Sparse/RoundTripProof.v
theories/Sparse/SparseProps.v
theories/Assembly/GraphModel.v
theories/Assembly/GraphSpec.v
theories/Assembly/GraphProof.v
theories/Assembly/AssemblyModel.v
theories/Assembly/AssemblyProof.v
theories/Assembly/NonBlockGraphProof.v
theories/Assembly/AssemblyProps.v
theories/Blas/View.v
theories/Blas/BlasModel.v
theories/Blas/BlasSpec.v
theories/Blas/BlasProof.v
theories/Blas/BlasProps.v
theories/Problem/DenseBC.v
theories/Problem/SmallSolver.v
theories/Problem/EllipticModel.v
theories/Problem/EllipticSpec.v
theories/Problem/EllipticProof.v
theories/Problem/EllipticProps.v
theories/Problem/ParabolicModel.v
theories/Problem/ParabolicSpec.v
theories/Problem/ParabolicProof.v
theories/Problem/ParabolicProps.v
theories/Problem/HyperbolicModel.v
theories/Problem/HyperbolicSpec.v
theories/Problem/HyperbolicProof.v
theories/Problem/HyperbolicProps.v
theories/Criteria/CriteriaModel.v
theories/Criteria/CriteriaSpec.v
theories/Criteria/CriteriaProof.v
theories/Criteria/CriteriaProps.v
theories/Criteria/PathModel.v
theories/Criteria/PathSpec.v
theories/Criteria/PathProof.v
theories/Criteria/PathProps.v
theories/Penalty/PenaltyModel.v
theories/Penalty/PenaltyProps.v
theories/Element/ElementModel.v
theories/Element/ElementProof.v
theories/Element/ElementSpec.v
theories/Element/ElementProps.v
theories/Element/MaterialModel.v
theories/Element/MaterialSpec.v
theories/Element/JacobiProof.v
theories/Element/MaterialProps.v
theories/Ortho/OrthoModel.v
theories/Ortho/OrthoSpec.v
theories/Ortho/OrthoProof.v
theories/Ortho/OrthoProps.v
theories/Plasticity/J2Model.v
theories/Plasticity/J2Spec.v
theories/Plasticity/J2Proof.v
theories/Plasticity/J2Props.v
theories/Plasticity/CondensationModel.v
theories/Plasticity/CondensationSpec.v
theories/Plasticity/CondensationProof.v
theories/Plasticity/CondensationProps.v
theories/Plasticity/NewtonModel.v
theories/Plasticity/NewtonProof.v
theories/Plasticity/NewtonProps.v
theories/Expr/ExprModel.v
theories/Expr/ExprSpec.v
theories/Expr/ExprParse.v
theories/Expr/ExprLex.v
theories/Expr/ExprComplete.v
theories/Expr/ExprProof.v
theories/Expr/ExprProps.v
theories/MeshMap/MapModel.v
theories/MeshMap/MapSpec.v
theories/MeshMap/TransposeProof.v
theories/MeshMap/MapProof.v
theories/MeshMap/MapProps.v
theories/LevelSet/LevelSetModel.v
theories/LevelSet/LevelSetSpec.v
theories/LevelSet/LevelSetProof.v
theories/LevelSet/LevelSetProps.v
theories/Rocket/RocketModel.v
theories/Rocket/RocketProps.v
theories/Loads/LoadsModel.v
theories/Loads/LoadsSpec.v
theories/Loads/LoadsProof.v
theories/Loads/LoadsProps.v
theories/Loads/CubatureProps.v
theories/App/AppModel.v
theories/App/AppSpec.v
theories/App/TargetProps.v
theories/App/ExportProps.v
theories/App/DataMapProps.v
theories/App/OperationProps.v
theories/Vms/VmsModel.v
theories/Vms/VmsSpec.v
theories/Vms/VmsProof.v
theories/Vms/VmsProps.v
theories/Sparse/ProductModel.v
theories/Sparse/ProductSpec.v
theories/Sparse/BlockProof.v
theories/Sparse/ProductProof.v
theories/Sparse/ProductProps.v
theories/Update/UpdateModel.v
theories/Update/UpdateSpec.v
theories/Update/UpdateProof.v
theories/Update/UpdateProps.v
theories/AugLag/AugLagModel.v
theories/AugLag/AugLagSpec.v
theories/AugLag/AugLagProof.v
theories/AugLag/AugLagProps.v
theories/Residual/ResidualModel.v
theories/Residual/ResidualSpec.v
theories/Residual/ResidualProof.v
theories/Residual/ResidualProps.v
theories/Residual/ResidualEnergyProps.v
theories/Residual/CouplingModel.v
theories/Residual/CouplingSpec.v
theories/Residual/CouplingProof.v
theories/Residual/CouplingProps.v
theories/Residual/HomogModel.v
theories/Residual/HomogProps.v
theories/Stab/StabModel.v
theories/Stab/StabSpec.v
theories/Stab/StabProof.v
theories/Stab/StabProps.v
theories/Stab/StabScaleProps.v
theories/Stab/StabUnitProps.v
theories/Stab/HeatModel.v
theories/Stab/HeatSpec.v
theories/Stab/HeatProof.v
theories/Stab/HeatProps.v
theories/Blocks/BlocksModel.v
theories/Blocks/BlocksSpec.v
theories/Blocks/BlocksProof.v
theories/Blocks/SelectProps.v
theories/Blocks/BlocksProps.v
theories/Norms/NormsModel.v
theories/Norms/NormsSpec.v
theories/Norms/NormsProof.v
theories/Norms/PNormProps.v
theories/Norms/BarlatProof.v
theories/Norms/BarlatProps.v
theories/Mass/MassModel.v
theories/Mass/MassSpec.v
theories/Mass/MassProof.v
theories/Mass/CriterionProof.v
theories/Mass/MassMomentProps.v
theories/Mass/MassExactProps.v
theories/Mass/MassCriterionProps.v
theories/Dynamics/DynModel.v
theories/Dynamics/DynSpec.v
theories/Dynamics/DynProof.v
theories/Dynamics/DynProps.v
theories/Dynamics/DynEnergyProps.v
theories/Dynamics/DynMassProps.v
theories/Nodal/NodalSpec.v
theories/Nodal/SolutionModel.v
theories/Nodal/SolutionProps.v
theories/Nodal/InitialModel.v
theories/Nodal/InitialProps.v
theories/Solvers/SolversModel.v
theories/Solvers/SolversProps.v
theories/Factory/FactoryModel.v
theories/Factory/FactorySpec.v
theories/Factory/FactoryProps.v
theories/Measures/MeasuresModel.v
theories/Measures/MeasuresSpec.v
theories/Measures/MeasuresProof.v
theories/Measures/MeasuresProps.v
theories/Plasticity/GlobalModel.v
theories/Plasticity/GlobalSpec.v
theories/Plasticity/GlobalProof.v
theories/Plasticity/GlobalProps.v
theories/Plasticity/WorkProps.v
theories/Output/OutputModel.v
theories/Output/OutputSpec.v
theories/Output/OutputProof.v
theories/Output/OutputProps.v
theories/Output/DriverProps.v
theories/Rocket/HistoryModel.v
theories/Rocket/HistoryProps.v
theories/Rocket/RocketAppModel.v
theories/Rocket/RocketAppProps.v
theories/Rocket/TextMeshModel.v
theories/Rocket/TextMeshProps.v
theories/Criteria/VolumeModel.v
theories/Criteria/VolumeProps.v
theories/Frequency/FrequencyModel.v
theories/Frequency/FrequencySpec.v
theories/Frequency/FrequencyProof.v
theories/Frequency/FrequencyProps.v
theories/Frequency/FreqProblemModel.v
theories/Frequency/FreqProblemProps.v
theories/Frequency/MisfitProps.v
theories/App/ValuesModel.v
theories/App/ValuesProps.v
theories/Diagnostics/DiagModel.v
theories/Diagnostics/DiagProps.v
theories/App/LaunchModel.v
theories/App/LaunchProps.v
theories/Residual/FrameSpec.v
theories/Residual/FrameProof.v
theories/Residual/FrameProps.v
theories/Residual/NumberProps.v
theories/Residual/UnitProps.v
theories/Residual/SupportSpec.v
theories/Residual/SupportProof.v
theories/Residual/SupportProps.v
theories/Residual/PotentialProps.v
theories/Residual/PatchSpec.v
theories/Residual/PatchProps.v
theories/Residual/Kernel.v
theories/Residual/SolveSpec.v
theories/Residual/SolveProof.v
theories/Residual/SolveProps.v
theories/Residual/Gauss.v
theories/Residual/CurveProof.v
theories/Residual/GradientSpec.v
theories/Residual/GradientProps.v
theories/Residual/ThermoSolveProps.v
theories/Residual/TransientHeatProps.v
theories/Dynamics/DynStepProps.v
theories/Dynamics/DynBalanceProps.v
theories/Residual/FollowProps.v
theories/Dynamics/DynFollowProps.v
theories/Dynamics/DynUnitProps.v
theories/Dynamics/DynSumProps.v
theories/Residual/HeatFollowProps.v
theories/Residual/HeatUnitProps.v
theories/Residual/ElectroUnitProps.v
theories/Residual/PiezoFrameProps.v
theories/Residual/PiezoFollowProps.v
theories/Expr/BingoModel.v
theories/Expr/BingoProps.v
theories/Params/ParamsModel.v
theories/Params/ParamsProps.v
theories/Params/MergeProps.v
