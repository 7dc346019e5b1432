-Q theories Verif
theories/Outcome.v
theories/Num.v
theories/Double.v
theories/DoubleFacts.v
theories/SparseVector.v
theories/SparseVectorFacts.v
theories/VectorSpec.v
theories/VectorProofs.v
theories/PropsVector.v
theories/OutcomeFacts.v
theories/SparseMatrix.v
theories/MatrixSpec.v
theories/MatrixFacts.v
theories/PropsMatrix.v
theories/MipTree.v
theories/TreeSpec.v
theories/TreeFacts.v
theories/TreeProofs.v
theories/PropsTree.v
theories/DoubleExact.v
theories/Problem.v
theories/MipData.v
theories/ProblemSpec.v
theories/MipDataProofs.v
theories/PropsProblem.v
theories/CutsData.v
theories/Selector.v
theories/Runner.v
theories/CutSpec.v
theories/CutProofs.v
theories/CutAlias.v
theories/PropsCuts.v
theories/Rounding.v
theories/Branching.v
theories/BranchingProofs.v
theories/PropsBranching.v
theories/Solver.v
theories/SolverSpec.v
theories/SolverProofs.v
theories/SolverUncrossed.v
theories/SolverEndless.v
theories/SolverAgain.v
theories/SolverCases.v
theories/SolverFailures.v
theories/PropsSolver.v
theories/Aggregation.v
theories/AggSpec.v
theories/AggProofs.v
theories/AggValid.v
theories/AggDefined.v
theories/AggRows.v
theories/AggNames.v
theories/AggCases.v
theories/PropsAgg.v
theories/GlopLp.v
theories/LpParams.v
theories/GlopIface.v
theories/GlopSpec.v
theories/GlopProofs.v
theories/GlopMore.v
theories/GlopRun.v
theories/GlopCases.v
theories/PropsLp.v
theories/SoplexIface.v
theories/SoplexSpec.v
theories/SoplexProofs.v
theories/SoplexMore.v
theories/SoplexBranch.v
theories/BranchCover.v
theories/SoplexCases.v
theories/SoplexRuns.v
theories/PropsSoplex.v
theories/Reader.v
theories/Params.v
theories/ReaderSpec.v
theories/ReaderProofs.v
theories/PropsReader.v
theories/Simulate.v
theories/GlopSolution.v
theories/SoplexSolution.v
theories/SoplexGetSpec.v
theories/TableauSpec.v
theories/GlopSolutionProofs.v
theories/TableauCases.v
theories/PropsTableau.v
theories/SoplexGetProofs.v
theories/PropsSpxGetters.v
theories/Whole.v
theories/WholeSpec.v
theories/WholeTables.v
theories/WholeSoplex.v
theories/WholeProofs.v
theories/WholeRun.v
theories/WholeCases.v
theories/WholeGap.v
theories/WholeUnsettled.v
theories/WholeRandom.v
theories/PropsWhole.v
theories/Own.v
theories/OwnProofs.v
theories/OwnSpec.v
theories/OwnCases.v
theories/PropsOwn.v
theories/RootQuotient.v
theories/WholeNumbers.v
theories/ParallelSpec.v
theories/ParallelProofs.v
theories/PropsParallel.v
theories/LiteralSpec.v
theories/LiteralProofs.v
theories/PropsLiterals.v
theories/EfficacySpec.v
theories/Dyadic.v
theories/EfficacyProofs.v
theories/PropsEfficacy.v
theories/ExactVectors.v
theories/PropsExact.v
theories/AngleProofs.v
theories/FreshParams.v
theories/SoplexThrow.v
theories/WholeRounds.v
theories/WholeLp.v
theories/WholeBox.v
theories/PropsAngle.v
