-Q theories Verif
theories/Base.v
theories/Par.v
theories/ParProofs.v
theories/Exec.v
theories/ExecProofs.v
theories/Fields.v
theories/FieldsProofs.v
theories/FieldMem.v
theories/FieldMemProofs.v
theories/Reduce.v
theories/ReduceProofs.v
theories/Misc.v
theories/MiscProofs.v
theories/Value.v
theories/Kernel.v
theories/KernelProofs.v
theories/Mesh.v
theories/MeshSpec.v
theories/MeshProofs.v
theories/Coeff.v
theories/FV.v
theories/Properties_Fields.v
theories/Properties_Mesh.v
theories/FVSpec.v
theories/FVProofs.v
theories/ExampleMesh.v
theories/FVProps.v
theories/CoeffProofs.v
theories/Properties_FV.v
theories/Dict.v
theories/DictProofs.v
theories/Registry.v
theories/RegistryProofs.v
theories/Properties_Core.v
theories/Database.v
theories/DatabaseProofs.v
theories/Properties_Database.v
theories/Mpi.v
theories/MpiSpec.v
theories/MpiProofs.v
theories/MpiWorldProofs.v
theories/MpiInv.v
theories/MpiMain.v
theories/Properties_Mpi.v
theories/CSR.v
theories/CSRSpec.v
theories/CSRProofs.v
theories/Ginkgo.v
theories/GinkgoProofs.v
theories/Properties_LinAlg.v
theories/Ticket.v
theories/TicketProofs.v
theories/Sparsity.v
theories/SparsitySpec.v
theories/SparsityProofs.v
theories/SparsityMain.v
theories/SparsityProps.v
theories/StencilProofs.v
theories/Properties_Sparsity.v
theories/Assembly.v
theories/AssemblySpec.v
theories/AssemblyProofs.v
theories/AssemblyProps.v
theories/Properties_Assembly.v
theories/Boundary.v
theories/BoundaryProofs.v
theories/Properties_Boundary.v
theories/CoNum.v
theories/Properties_CoNum.v
theories/Dsl.v
theories/DslSpec.v
theories/DslHeapProofs.v
theories/DslProofs.v
theories/DslAssembly.v
theories/DslFresh.v
theories/Properties_Dsl.v
theories/Properties_DslAssembly.v
theories/SparsityDet.v
theories/TimeInt.v
theories/TimeSpec.v
theories/TimeIntProofs.v
theories/TimeIntSteps.v
theories/Properties_TimeInt.v
theories/TimeIntRK.v
theories/Properties_RK.v
theories/Geometry.v
theories/Properties_Geometry.v
theories/QcLra.v
theories/FrontEnd.v
theories/SteadySolve.v
theories/Properties_Steady.v
theories/Rod.v
theories/RodCoeffs.v
theories/Transport.v
theories/TransportProofs.v
theories/Properties_Transport.v
theories/Failure.v
theories/Properties_Failure.v
theories/Properties_Debug.v
theories/Diffusion.v
theories/DiffusionProofs.v
theories/Properties_Diffusion.v
theories/Properties_ExactCore.v
theories/Properties_ExactLinAlg.v
theories/KernelRace.v
theories/AssemblyRace.v
theories/Properties_ExactFV.v
theories/Properties_ExactApp.v
theories/Properties_ExactDsl.v
theories/LeakProofs.v
theories/Properties_ExactMem.v
theories/Properties_ExactMpi.v
theories/Properties_ExactPattern.v
theories/KernelAnyArith.v
theories/FVAnyArith.v
theories/Properties_AnyArith.v
theories/KernelMixed.v
theories/AssemblyAnyArith.v
theories/Properties_Float.v
theories/Properties_Binary64.v
theories/Properties_Reduce.v
theories/Collective.v
theories/Properties_Collective.v
theories/Properties_FrontEnd.v
theories/Properties_Pressure.v
theories/Properties_Rod.v
theories/Properties_Advection.v
theories/Properties_AssemblyAny.v
theories/DomainMem.v
theories/DomainSpec.v
theories/DomainMemProofs.v
theories/Properties_Domain.v
theories/VolumeObj.v
theories/Properties_VolumeObj.v
theories/Widths.v
theories/Properties_Widths.v
theories/MeshObj.v
theories/MeshObjSpec.v
theories/MeshObjProofs.v
theories/Properties_MeshObj.v
theories/SteadyMax.v
theories/Properties_SteadyMax.v
theories/LinearSolve.v
theories/WellPosed.v
theories/Properties_WellPosed.v
theories/FloatFaces.v
theories/FloatTotal.v
theories/Properties_FloatFaces.v
theories/Properties_Outcomes.v
theories/Properties_Select.v
theories/Integrators.v
theories/Properties_Integrators.v
theories/Petsc.v
theories/Properties_Petsc.v
theories/GinkgoSolve.v
theories/Properties_GinkgoSolve.v
theories/EquationObj.v
theories/EquationSpec.v
theories/EquationProofs.v
theories/Properties_Equation.v
theories/TimeAny.v
theories/TimeAnyProofs.v
theories/Properties_Reproducible.v
theories/SkVector.v
theories/SkVectorProofs.v
theories/Properties_SkVector.v
theories/MpiSession.v
theories/Properties_MpiSession.v
theories/FloatRun.v
theories/Properties_FloatRun.v
theories/Properties_FloatExact.v
theories/ImplicitAny.v
theories/ImplicitAnyProofs.v
theories/Properties_ImplicitRuns.v
theories/TotalDistance.v
theories/Properties_TotalDistance.v
theories/FaceSums.v
theories/CoNumFloat.v
theories/Properties_CoNumFloat.v
theories/NoOscillation.v
theories/Properties_NoOscillation.v
