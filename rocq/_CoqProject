-Q theories Verif
theories/ArgBuffer.v
theories/Arith.v
theories/Async.v
theories/Base.v
theories/BenchAll.v
theories/Benchmark.v
theories/BenchmarkProgram.v
theories/BiCGMath.v
theories/BiCGSpec.v
theories/BuildScripts.v
theories/BuildScriptsFacts.v
theories/Builder.v
theories/BuilderFacts.v
theories/CGMath.v
theories/CGSpec.v
theories/Chebyshev.v
theories/CopiesCG.v
theories/CudaHandles.v
theories/ExactSum.v
theories/ExampleSystems.v
theories/Exec.v
theories/Float.v
theories/FloatBad.v
theories/FloatBiCG.v
theories/FloatBiCGSpec.v
theories/FloatCGBits.v
theories/FloatCGSpec.v
theories/FloatGMRES.v
theories/FloatGMRESSpec.v
theories/FloatLaplacian.v
theories/FloatLaplacianRun.v
theories/FloatOps.v
theories/FloatPlanner.v
theories/FloatSum.v
theories/FreshFacts.v
theories/FreshOps.v
theories/GMRESExample.v
theories/GMRESSpec.v
theories/Gpu.v
theories/GpuDense.v
theories/GpuPlanner.v
theories/GpuPlannerFacts.v
theories/GpuStreams.v
theories/GpuStreamsFacts.v
theories/Index.v
theories/IndexFacts.v
theories/IndexSpec.v
theories/InitFacts.v
theories/Initialize.v
theories/Krylov.v
theories/LaplacianCG.v
theories/LaplacianRounding.v
theories/LaplacianRow.v
theories/LaplacianStep.v
theories/Launch.v
theories/LaunchFacts.v
theories/LinAlg.v
theories/Matrix.v
theories/MatrixFacts.v
theories/MatrixSpec.v
theories/MatvecFacts.v
theories/NoCleanup.v
theories/Outcome.v
theories/Ownership.v
theories/OwnershipDrops.v
theories/OwnershipExample.v
theories/OwnershipFacts.v
theories/OwnershipInv.v
theories/OwnershipKinds.v
theories/OwnershipPlanner.v
theories/OwnershipPrograms.v
theories/OwnershipSpec.v
theories/PartitionSpec.v
theories/Peers.v
theories/PeersFacts.v
theories/Pitches.v
theories/PitchesMachine.v
theories/Planner.v
theories/PlannerFacts.v
theories/PlannerSetup.v
theories/Print.v
theories/PrintScalar.v
theories/PropsArgBuffer.v
theories/PropsBenchAll.v
theories/PropsBenchRuns.v
theories/PropsBenchmark.v
theories/PropsBenchmarkProgram.v
theories/PropsBiCG.v
theories/PropsBreakdown.v
theories/PropsBuildScripts.v
theories/PropsCG.v
theories/PropsCGConv.v
theories/PropsCGRate.v
theories/PropsConvolution.v
theories/PropsCudaHandles.v
theories/PropsDefinite.v
theories/PropsExample.v
theories/PropsFloat.v
theories/PropsFloatBiCG.v
theories/PropsFloatCG.v
theories/PropsFloatGMRES.v
theories/PropsFloatScalar.v
theories/PropsFloatTests.v
theories/PropsGMRES.v
theories/PropsGpu.v
theories/PropsGpuDense.v
theories/PropsGpuLaplacian.v
theories/PropsGpuLayout.v
theories/PropsGpuPlanner.v
theories/PropsGpuStreams.v
theories/PropsGpuTasks.v
theories/PropsInit.v
theories/PropsInitialize.v
theories/PropsKrylov.v
theories/PropsLap2D.v
theories/PropsLaplacian.v
theories/PropsLeaks.v
theories/PropsMachine.v
theories/PropsMatrix.v
theories/PropsNoCleanup.v
theories/PropsOwnership.v
theories/PropsPeers.v
theories/PropsPitches.v
theories/PropsPitchesMachine.v
theories/PropsPlanner.v
theories/PropsPrint.v
theories/PropsPrintScalar.v
theories/PropsPrograms.v
theories/PropsRandomFill.v
theories/PropsReplication.v
theories/PropsScalar.v
theories/PropsSharding.v
theories/PropsSolver.v
theories/PropsStencil.v
theories/PropsStencilCG.v
theories/PropsSystem.v
theories/PropsTaskFlags.v
theories/PropsTaskIds.v
theories/PropsTestAll.v
theories/PropsTests.v
theories/PropsTrace.v
theories/PropsVector.v
theories/PropsVectorProg.v
theories/PropsWrites.v
theories/RandomFill.v
theories/Replication.v
theories/ScalarProg.v
theories/Sched.v
theories/Sharding.v
theories/SolverExample.v
theories/SolverExample2.v
theories/SolverFacts.v
theories/Solvers.v
theories/StencilCreate.v
theories/StencilFill.v
theories/StencilFillFacts.v
theories/StencilLaunch.v
theories/StencilMachine.v
theories/StencilMachineFacts.v
theories/StencilMachineFill.v
theories/StencilPositive.v
theories/StencilRayleigh.v
theories/StencilSize.v
theories/StencilSizeFacts.v
theories/StencilSkip.v
theories/StencilSpec.v
theories/StencilTasks.v
theories/SystemExample.v
theories/TaskFlags.v
theories/TaskIds.v
theories/TestAll.v
theories/TestPrograms.v
theories/UndefFacts.v
theories/Vector.v
theories/VectorFacts.v
theories/VectorProg.v
theories/VectorSpec.v
theories/WriteFacts.v
