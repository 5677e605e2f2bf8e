-Q theories Verif

theories/ModArithModel.v
theories/ModArithProofs.v
theories/PropertiesArith.v
theories/AlgebraModel.v
theories/AlgebraSpec.v
theories/AlgebraProofs.v
theories/TreeProofs.v
theories/PropertiesAlgebra.v
theories/LinearSimpModel.v
theories/LinearSpec.v
theories/LinearSimpProofs.v
theories/PropertiesLinear.v
theories/ClusterModel.v
theories/ClusterSpec.v
theories/ClusterProofs.v
theories/PropertiesCluster.v
theories/PipelineModel.v
theories/PipelineSpec.v
theories/EqSimpProofs.v
theories/RewriteProofs.v
theories/PipelineProofs.v
theories/ScheduleProofs.v
theories/PropertiesPipeline.v
theories/BytesModel.v
theories/StorageModel.v
theories/StorageSpec.v
theories/StorageProofs.v
theories/PropertiesStorage.v
theories/R1csModel.v
theories/R1csSpec.v
theories/R1csProofs.v
theories/PropertiesR1cs.v
theories/DagModel.v
theories/DagSpec.v
theories/RenumberProofs.v
theories/DagProofs.v
theories/WalkProofs.v
theories/FlattenProofs.v
theories/MapProofs.v
theories/PortProofs.v
theories/NameProofs.v
theories/CompiledProofs.v
theories/DagExamples.v
theories/PropertiesDag.v
theories/MemSliceModel.v
theories/MemSliceSpec.v
theories/MemSliceProofs.v
theories/PropertiesMem.v
theories/EnvModel.v
theories/EnvSpec.v
theories/EnvProofs.v
theories/PropertiesEnv.v
theories/ParserModel.v
theories/ParserSpec.v
theories/ParserProofs.v
theories/IncludeProofs.v
theories/PropertiesParser.v
theories/InputModel.v
theories/InputSpec.v
theories/InputProofs.v
theories/PropertiesInput.v
theories/BusModel.v
theories/BusSpec.v
theories/BusProofs.v
theories/LayoutProofs.v
theories/PropertiesBus.v
theories/JsonProofs.v
theories/PropertiesJson.v
theories/FrModel.v
theories/FrSpec.v
theories/FrProofs.v
theories/PropertiesFr.v
theories/DatModel.v
theories/DatSpec.v
theories/DatProofs.v
theories/PropertiesDat.v
theories/IrModel.v
theories/IrSpec.v
theories/IrProofs.v
theories/PropertiesIr.v
theories/FlowModel.v
theories/FlowSpec.v
theories/FlowProofs.v
theories/PropertiesFlow.v
theories/InputsModel.v
theories/InputsSpec.v
theories/InputsProofs.v
theories/PropertiesInputs.v
theories/SymModel.v
theories/SymSpec.v
theories/SymProofs.v
theories/SymRunProofs.v
theories/SymFilterProofs.v
theories/SymInterp.v
theories/PropertiesSym.v
theories/KnownModel.v
theories/KnownSpec.v
theories/KnownProofs.v
theories/KnownRunProofs.v
theories/KnownTermProofs.v
theories/PropertiesKnown.v
theories/SugarModel.v
theories/SugarSpec.v
theories/SugarProofs.v
theories/SugarStmtProofs.v
theories/SugarPlainProofs.v
theories/PropertiesSugar.v
theories/GoldModel.v
theories/GoldProofs.v
theories/PropertiesGold.v
theories/WasmModel.v
theories/WasmSpec.v
theories/WasmProofs.v
theories/PropertiesWasm.v
theories/CreateModel.v
theories/CreateSpec.v
theories/CreateProofs.v
theories/CreateTreeProofs.v
theories/PropertiesCreate.v
theories/AnonModel.v
theories/AnonSpec.v
theories/AnonExpProofs.v
theories/AnonArgProofs.v
theories/AnonRemoveProofs.v
theories/AnonStmtProofs.v
theories/AnonTupleProofs.v
theories/AnonTopProofs.v
theories/AnonSugarProofs.v
theories/PropertiesAnon.v
theories/ComponentModel.v
theories/ComponentSpec.v
theories/ComponentProofs.v
theories/ComponentRunProofs.v
theories/PropertiesComponent.v
theories/TranslateModel.v
theories/TranslateSpec.v
theories/TranslateProofs.v
theories/TranslateStmtProofs.v
theories/TranslateCodeProofs.v
theories/PropertiesTranslate.v
theories/ScopeModel.v
theories/ScopeSpec.v
theories/ScopeProofs.v
theories/ScopePathProofs.v
theories/ScopeRunProofs.v
theories/PropertiesScope.v
theories/TypeModel.v
theories/TypeSpec.v
theories/TypeProofs.v
theories/TypeSoundProofs.v
theories/PropertiesTypes.v
theories/InferenceModel.v
theories/PanicSpec.v
theories/PanicProofs.v
theories/InferenceProofs.v
theories/PropertiesPanic.v
theories/ConstantsModel.v
theories/ConstantsSpec.v
theories/ConstantsProofs.v
theories/ConstantsInferProofs.v
theories/ConstantsTopProofs.v
theories/PropertiesConstants.v
theories/UnconstrainedModel.v
theories/UnconstrainedSpec.v
theories/UnconstrainedProofs.v
theories/PropertiesUnconstrained.v
theories/JsonPortModel.v
theories/JsonPortSpec.v
theories/JsonPortProofs.v
theories/PropertiesJsonPort.v
theories/DeclareModel.v
theories/DeclareSpec.v
theories/DeclareProofs.v
theories/PropertiesDeclare.v
