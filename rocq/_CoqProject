-Q theories Verif
theories/Base/Py.v
theories/Base/ListFacts.v
theories/Sched/Model.v
theories/Sched/Spec.v
theories/Sched/BatchProofs.v
theories/Sched/QueueProofs.v
theories/Sched/PlacementProofs.v
theories/Sched/Props.v
theories/Tensors/Model.v
theories/Tensors/Spec.v
theories/Tensors/Proofs.v
theories/Tensors/AvgProofs.v
theories/Tensors/Props.v
theories/Graph/Model.v
theories/Graph/Spec.v
theories/Graph/Proofs.v
theories/Graph/Props.v
theories/Registry/Model.v
theories/Registry/Spec.v
theories/Registry/BlockProofs.v
theories/Registry/HistoryProofs.v
theories/Registry/UsesProofs.v
theories/Registry/LossProofs.v
theories/Registry/Props.v
theories/Registry/ScaleSpec.v
theories/Registry/ScaleProofs.v
theories/Registry/ScaleProps.v
theories/Train/Model.v
theories/Train/Spec.v
theories/Train/VecProofs.v
theories/Train/CtorProofs.v
theories/Train/StepProofs.v
theories/Train/QmodelProofs.v
theories/Train/MomentumProofs.v
theories/Train/PeriodicProofs.v
theories/Train/WitnessProofs.v
theories/Train/Props.v
theories/Train/DecayProps.v
theories/Train/DescentSpec.v
theories/Train/DescentProofs.v
theories/Train/DescentProps.v
theories/Train/QuadSpec.v
theories/Train/QuadProofs.v
theories/Train/QuadExample.v
theories/Train/QuadProps.v
theories/Train/UnitsSpec.v
theories/Train/UnitsProofs.v
theories/Train/UnitsProps.v
theories/Train/RotateSpec.v
theories/Train/RotateProofs.v
theories/Train/RotateProps.v
theories/Train/AffineSpec.v
theories/Train/AffineProofs.v
theories/Train/AffineProps.v
theories/Curv/Model.v
theories/Curv/Spec.v
theories/Curv/BlockProofs.v
theories/Curv/VecProofs.v
theories/Curv/LossProofs.v
theories/Curv/GradProofs.v
theories/Curv/CompProofs.v
theories/Curv/GaussProofs.v
theories/Curv/MomentProofs.v
theories/Curv/EstProofs.v
theories/Curv/NormalProofs.v
theories/Curv/Props.v
theories/Curv/RegModel.v
theories/Curv/RegSpec.v
theories/Curv/RegProofs.v
theories/Curv/RegProps.v
theories/Curv/UnitsSpec.v
theories/Curv/UnitsProofs.v
theories/Curv/UnitsProps.v
theories/Curv/EmpiricalProps.v
theories/Curv/GgnFactorProps.v
theories/Blocks/Model.v
theories/Blocks/Spec.v
theories/Blocks/MatProofs.v
theories/Blocks/PsdProofs.v
theories/Blocks/EigProofs.v
theories/Blocks/FactorProofs.v
theories/Blocks/ServeProofs.v
theories/Blocks/BlockProofs.v
theories/Blocks/StatProofs.v
theories/Blocks/SuaProofs.v
theories/Blocks/EndProofs.v
theories/Blocks/Props.v
theories/Blocks/DescentSpec.v
theories/Blocks/DescentProofs.v
theories/Blocks/DescentProps.v
theories/Blocks/EmbedModel.v
theories/Blocks/EmbedSpec.v
theories/Blocks/EmbedProofs.v
theories/Blocks/EmbedProps.v
theories/Blocks/UnitsProofs.v
theories/Blocks/UnitsProps.v
theories/Blocks/RotateSpec.v
theories/Blocks/RotateProofs.v
theories/Blocks/RotateProps.v
theories/Blocks/ExactSpec.v
theories/Blocks/ExactProofs.v
theories/Blocks/ExactProps.v
theories/Blocks/AffineSpec.v
theories/Blocks/AffineProofs.v
theories/Blocks/AffineProps.v
theories/Match/Model.v
theories/Match/Spec.v
theories/Match/MatchProofs.v
theories/Match/SatProofs.v
theories/Match/LayerProofs.v
theories/Match/Props.v
theories/Search/Model.v
theories/Search/Spec.v
theories/Search/FilterProofs.v
theories/Search/RegisterProofs.v
theories/Search/FindProofs.v
theories/Search/PlanProofs.v
theories/Search/Props.v
theories/Data/Model.v
theories/Data/Spec.v
theories/Data/Proofs.v
theories/Data/AltProofs.v
theories/Data/Props.v
theories/Keras/Callbacks.v
theories/Keras/CallbackProofs.v
theories/Keras/CallbackProps.v
theories/Keras/Config.v
theories/Keras/ConfigProofs.v
theories/Keras/ConfigProps.v
theories/Keras/Layers.v
theories/Keras/LayerSpec.v
theories/Keras/LayerProofs.v
theories/Keras/LayerProps.v
theories/Keras/SavedLossProps.v
theories/Keras/Life.v
theories/Keras/LifeSpec.v
theories/Keras/LifeProofs.v
theories/Keras/LoadProofs.v
theories/Keras/LifeProps.v
theories/Keras/BatchProps.v
theories/Series/Model.v
theories/Series/Spec.v
theories/Series/QuantProofs.v
theories/Series/Opt1Proofs.v
theories/Series/Opt2Proofs.v
theories/Series/SvdProofs.v
theories/Series/CovProofs.v
theories/Series/DataProofs.v
theories/Series/EndProofs.v
theories/Series/WitnessProofs.v
theories/Series/UseProofs.v
theories/Series/Props.v
theories/Series/DiagProps.v
theories/Ops/Tensor.v
theories/Ops/Model.v
theories/Ops/Spec.v
theories/Ops/TensorProofs.v
theories/Ops/ConvProofs.v
theories/Ops/PatchProofs.v
theories/Ops/MatrixProofs.v
theories/Ops/GradProofs.v
theories/Ops/SampleProofs.v
theories/Ops/LocationProofs.v
theories/Ops/ScaleProofs.v
theories/Ops/Depthwise.v
theories/Ops/DepthwiseSpec.v
theories/Ops/DepthwiseProofs.v
theories/Ops/Props.v
theories/Names/Model.v
theories/Names/Spec.v
theories/Names/StringProofs.v
theories/Names/ScopeProofs.v
theories/Names/VarProofs.v
theories/Names/StatProofs.v
theories/Names/InvProofs.v
theories/Names/RelabelProofs.v
theories/Names/LayerProofs.v
theories/Names/ShapeProofs.v
theories/Names/Props.v
theories/Keras/Restore.v
theories/Keras/RestoreProofs.v
theories/Keras/RestoreProps.v
theories/Replica/Model.v
theories/Replica/Spec.v
theories/Replica/CommProofs.v
theories/Replica/StepProofs.v
theories/Replica/TrainProofs.v
theories/Replica/EquivProofs.v
theories/Replica/SyncProofs.v
theories/Replica/PlainProofs.v
theories/Replica/Props.v
theories/Replica/ContextProps.v
theories/Est/Model.v
theories/Est/Spec.v
theories/Est/GradProofs.v
theories/Est/ThunkProofs.v
theories/Est/FunProofs.v
theories/Est/EntryProofs.v
theories/Est/Props.v
theories/Est/VarsModel.v
theories/Est/VarsSpec.v
theories/Est/VarsProofs.v
theories/Est/VarsProps.v
theories/Examples/Model.v
theories/Examples/Spec.v
theories/Examples/RoleProofs.v
theories/Examples/ScheduleProofs.v
theories/Examples/SizeProofs.v
theories/Examples/MiscProofs.v
theories/Examples/Props.v
theories/Diff/Model.v
theories/Diff/Spec.v
theories/Diff/GraphProofs.v
theories/Diff/DerivProofs.v
theories/Diff/ShapeProofs.v
theories/Diff/JacProofs.v
theories/Diff/HessProofs.v
theories/Diff/Arith.v
theories/Diff/Props.v
theories/Diff/GnProofs.v
theories/Diff/GnSpec.v
theories/Diff/GnProps.v
theories/Diff/Ggn.v
theories/Diff/GgnSpec.v
theories/Diff/GgnProofs.v
theories/Diff/GgnProps.v
theories/Diff/SquaredProps.v
theories/Blocks/HistoryProps.v
theories/Keras/Compile.v
theories/Keras/CompileSpec.v
theories/Keras/CompileProofs.v
theories/Keras/CompileProps.v
