-Q theories Verif
theories/Py.v
theories/QcTac.v
theories/QSum.v
theories/QInt.v
theories/ComparatorModel.v
theories/ComparatorSpec.v
theories/ComparatorProofs.v
theories/ComparatorProps.v
theories/DisjointModel.v
theories/DisjointSpec.v
theories/DisjointProofs.v
theories/DisjointProps.v
theories/UndirectedModel.v
theories/GraphSpec.v
theories/UndirectedSpec.v
theories/UndirectedProofs.v
theories/GraphTheory.v
theories/TraverseProofs.v
theories/TreeProofs.v
theories/UndirectedHeap.v
theories/UndirectedHeapProofs.v
theories/UndirectedFinal.v
theories/UndirectedProps.v
theories/DirectedModel.v
theories/DirectedSpec.v
theories/DirectedProofs.v
theories/FlowModel.v
theories/FlowSpec.v
theories/FlowTheory.v
theories/ResidualProofs.v
theories/DirectedFinal.v
theories/DirectedProps.v
theories/FFProofs.v
theories/FFDiverge.v
theories/FFFinal.v
theories/FFProps.v
theories/PreflowProofs.v
theories/PreflowFinal.v
theories/PreflowProps.v
theories/MatModel.v
theories/DetTheory.v
theories/MatTheory.v
theories/LinearModel.v
theories/LinearSpec.v
theories/LinearProofs.v
theories/SefProofs.v
theories/LinearInv.v
theories/DualProofs.v
theories/LinearProps.v
theories/DoubleSpec.v
theories/DoubleModel.v
theories/DoubleProofs.v
theories/DoubleProps.v
theories/BasisProofs.v
theories/BlandProofs.v
theories/SimplexProofs.v
theories/SmallProofs.v
theories/SimplexProps.v
theories/TwoPhaseProofs.v
theories/TwoPhaseProps.v
theories/LoopProps.v
theories/ParserModel.v
theories/ParserSpec.v
theories/ParserProofs.v
theories/ParserProps.v
theories/FormulationModel.v
theories/FormulationSpec.v
theories/FormulationProofs.v
theories/FormulationProps.v
theories/DetExpand.v
theories/NetSpec.v
theories/NetProofs.v
theories/MinorProofs.v
theories/IntegerModel.v
theories/IntegerSpec.v
theories/IntegerProofs.v
theories/IntegerSmall.v
theories/IntegerProps.v
theories/NetProps.v
theories/UnconstrainedModel.v
theories/UnconstrainedSpec.v
theories/UnconstrainedProofs.v
theories/UnconstrainedProps.v
theories/RrefModel.v
theories/RrefSpec.v
theories/RrefProofs.v
theories/RrefSmall.v
theories/RrefProps.v
theories/StableModel.v
theories/StableSpec.v
theories/StableProofs.v
theories/StableMinors.v
theories/StableProps.v
theories/LinearHeap.v
theories/LinearHeapSpec.v
theories/LinearHeapProofs.v
theories/LinearHeapValues.v
theories/LinearHeapProps.v
theories/Farkas.v
theories/DualityProofs.v
theories/SlackModel.v
theories/SlackSpec.v
theories/SlackProofs.v
theories/SlackProps.v
theories/BasicModel.v
theories/BasicProps.v
theories/PolyModel.v
theories/PolySpec.v
theories/PolyProofs.v
theories/PolyOrder.v
theories/PolyProps.v
theories/TextModel.v
theories/TextSpec.v
theories/TextProofs.v
theories/TextRead.v
theories/TextProps.v
theories/StepsModel.v
theories/StepsProofs.v
theories/StepsSpec.v
theories/StepsProps.v
theories/EqualModel.v
theories/EqualSpec.v
theories/EqualProofs.v
theories/EqualBuild.v
theories/EqualText.v
theories/EqualProps.v
theories/IterModel.v
theories/IterSpec.v
theories/IterProps.v
theories/ObjectModel.v
theories/ObjectSpec.v
theories/ObjectProps.v
theories/FormHeapModel.v
theories/FormHeapSpec.v
theories/FormHeapProofs.v
theories/FormHeapProps.v
theories/FloatModel.v
theories/FloatSpec.v
theories/FloatProofs.v
theories/FloatProps.v
theories/FloatLinearModel.v
theories/FloatLinearSpec.v
theories/FloatLinearProofs.v
theories/FloatLinearProps.v
theories/DependentModel.v
theories/DependentSpec.v
theories/DependentProofs.v
theories/DependentProps.v
theories/ScriptModel.v
theories/ScriptSpec.v
theories/ScriptProofs.v
theories/ScriptRows.v
theories/ScriptCompile.v
theories/ScriptProps.v
theories/RoundedModel.v
theories/RoundedSpec.v
theories/RoundedProofs.v
theories/RoundedExact.v
theories/RoundedProps.v
theories/RoundedSolveModel.v
theories/RoundedSolveSpec.v
theories/RoundedSolveProofs.v
theories/RoundedSolveProps.v
theories/RoundedRunModel.v
theories/RoundedRunSpec.v
theories/RoundedRunProofs.v
theories/RoundedRunTwo.v
theories/RoundedRunProps.v
theories/RoundedRunHang.v
theories/RoundedBranchModel.v
theories/RoundedBranchSpec.v
theories/RoundedBranchProofs.v
theories/RoundedBranchMinors.v
theories/RoundedBranchProps.v
theories/IntegerAnyProps.v
theories/RoundedScriptModel.v
theories/RoundedScriptSpec.v
theories/RoundedSefProofs.v
theories/RoundedScriptProofs.v
theories/RoundedScriptProps.v
theories/FlowFloatModel.v
theories/FlowFloatSpec.v
theories/FlowFloatProofs.v
theories/FlowFloatProps.v
theories/FlowFloatNear.v
theories/FlowFloatNearProps.v
theories/FlowFloatStop.v
theories/FlowFloatStopProps.v
