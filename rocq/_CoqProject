-Q theories Verif
theories/PyBase.v
theories/BQModel.v
theories/BQSpec.v
theories/BQProofs.v
theories/BQProps.v
theories/Semiring.v
theories/KleeneModel.v
theories/KleeneSpec.v
theories/KleeneProofs.v
theories/KleeneProps.v
theories/TermModel.v
theories/TermSpec.v
theories/TermProofs.v
theories/UnifyProofs.v
theories/CoverProofs.v
theories/TermProps.v
theories/SetsModel.v
theories/SetsSpec.v
theories/SetsProofs.v
theories/SetsProps.v
theories/RuleSpec.v
theories/RuleProofs.v
theories/RuleProps.v
theories/GraphModel.v
theories/GraphSpec.v
theories/GraphProofs.v
theories/GraphProps.v
theories/PruneModel.v
theories/ProgSpec.v
theories/PruneSpec.v
theories/ProgProofs.v
theories/PruneProofs.v
theories/PruneProps.v
theories/FuelProofs.v
theories/SolverModel.v
theories/ChartSpec.v
theories/ChartProofs.v
theories/ChartProps.v
theories/SolverSpec.v
theories/SolverProofs.v
theories/SolverProps.v
theories/BuiltinModel.v
theories/BuiltinSpec.v
theories/BuiltinProofs.v
theories/BuiltinProps.v
theories/NamesModel.v
theories/NamesProps.v
theories/TruncModel.v
theories/TruncProps.v
theories/IntervalModel.v
theories/IntervalProps.v
theories/UpdateModel.v
theories/UpdateSpec.v
theories/UpdateProofs.v
theories/UpdateProps.v
theories/EvalModel.v
theories/EvalSpec.v
theories/EvalProofs.v
theories/DerivProofs.v
theories/EvalProps.v
theories/TransModel.v
theories/TransSpec.v
theories/TransProofs.v
theories/UnfoldProofs.v
theories/TransProps.v
theories/LinearProofs.v
theories/LinearProps.v
theories/FoldProofs.v
theories/FoldProps.v
theories/ElimModel.v
theories/ElimProofs.v
theories/ElimProps.v
theories/SlashSpec.v
theories/SlashModel.v
theories/SlashProofs.v
theories/CoarseProofs.v
theories/SlashRules.v
theories/SlashFinal.v
theories/SlashHalts.v
theories/SlashProps.v
theories/FoldsModel.v
theories/SafeCore.v
theories/SafeModel.v
theories/SafeSpec.v
theories/SafeProofs.v
theories/SafeProps.v
theories/MagicModel.v
theories/MagicSpec.v
theories/MagicProofs.v
theories/MagicProps.v
theories/NewtonModel.v
theories/SupportProofs.v
theories/NewtonSpec.v
theories/LinsolveProofs.v
theories/NewtonProofs.v
theories/NewtonProps.v
theories/PropagateModel.v
theories/TypesSpec.v
theories/PropagateProofs.v
theories/RewriteProofs.v
theories/RewriteProps.v
theories/TypesModel.v
theories/TypesProofs.v
theories/TypesProps.v
theories/CycleModel.v
theories/CycleSpec.v
theories/CycleProofs.v
theories/CycleProps.v
theories/SccModel.v
theories/SccSpec.v
theories/SccProofs.v
theories/SccProps.v
theories/Solver2Model.v
theories/Solver2Spec.v
theories/Solver2Proofs.v
theories/Solver2Props.v
theories/SpecialModel.v
theories/SpecialSpec.v
theories/SpecialProofs.v
theories/SpecialProps.v
theories/NormalModel.v
theories/NormalSpec.v
theories/NormalProofs.v
theories/NormalProps.v
theories/LiftModel.v
theories/LiftSpec.v
theories/LiftProofs.v
theories/LiftProps.v
theories/InstantModel.v
theories/InstantSpec.v
theories/InstantProofs.v
theories/InstantProps.v
theories/RunModel.v
theories/RunSpec.v
theories/RunProofs.v
theories/RunProps.v
theories/SearchModel.v
theories/SearchSpec.v
theories/SearchProofs.v
theories/SearchProps.v
theories/DegreeModel.v
theories/DegreeSpec.v
theories/DegreeProofs.v
theories/DegreeProps.v
