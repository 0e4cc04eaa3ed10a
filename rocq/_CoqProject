-Q theories Verif
theories/Base/Prelude.v
theories/Base/ZSum.v
theories/Model/Af.v
theories/Proofs/AfLemmas.v
theories/Model/Reconstruct.v
theories/Spec/Limiters.v
theories/Proofs/ReconstructLemmas.v
theories/Model/Grid.v
theories/Model/Petsc.v
theories/Spec/Domain.v
theories/Proofs/PetscLemmas.v
theories/Spec/Stencil.v
theories/Proofs/ReconstructApi.v
theories/Props/ExFvm.v
theories/Props/P01_Fvm.v
theories/Props/P05_Reconstruct.v
theories/Props/P21_Grid.v
theories/Model/Config.v
theories/Model/Boundaries.v
theories/Model/Fvm.v
theories/Spec/Lattice.v
theories/Proofs/FluxLemmas.v
theories/Spec/FvmProblem.v
theories/Spec/FvmRun.v
theories/Proofs/ConvLemmas.v
theories/Proofs/FvmLemmas.v
theories/Proofs/FvmLemmas2.v
theories/Proofs/FvmConserve.v
theories/Proofs/GhostWitness.v
theories/Spec/Mirror.v
theories/Spec/Walls.v
theories/Proofs/BoundaryLemmas.v
theories/Proofs/BoundaryRun.v
theories/Proofs/BoundaryMore.v
theories/Spec/Box.v
theories/Proofs/FvmGeneral.v
theories/Model/Validate.v
theories/Spec/Inputs.v
theories/Proofs/ValidateLemmas.v
theories/Spec/Cells.v
theories/Proofs/FvmMore.v
theories/Props/ExWalls.v
theories/Props/P13_Boundaries.v
theories/Props/P18_Validate.v
theories/Model/Integrators.v
theories/Spec/RungeKutta.v
theories/Proofs/IntegratorLemmas.v
theories/Model/Splitting.v
theories/Spec/SplitOrder.v
theories/Proofs/SplitLemmas.v
theories/Proofs/IntegratorProps.v
theories/Props/P28_Integrators.v
theories/Base/Cplx.v
theories/Model/Fft.v
theories/Model/Em.v
theories/Spec/Yee.v
theories/Spec/EmRun.v
theories/Proofs/EmLemmas.v
theories/Proofs/EmStep.v
theories/Proofs/EmGrids.v
theories/Proofs/EmInit.v
theories/Proofs/EmEnergy.v
theories/Proofs/EmVector.v
theories/Proofs/EmProps.v
theories/Proofs/EmWitness.v
theories/Props/ExEm.v
theories/Props/P34_Fields.v
theories/Spec/Dft.v
theories/Proofs/DftLemmas.v
theories/Model/Moments.v
theories/Spec/MomentSpec.v
theories/Proofs/MomentLemmas.v
theories/Model/NonRel.v
theories/Spec/Maxwellian.v
theories/Proofs/BgkLemmas.v
theories/Proofs/PhysicsProps.v
theories/Props/P51_Physics.v
theories/Model/Linear.v
theories/Spec/Waves.v
theories/Spec/LinearSpec.v
theories/Proofs/FourierLemmas.v
theories/Proofs/PoissonLemmas.v
theories/Proofs/LinearLemmas.v
theories/Proofs/LinearStep.v
theories/Proofs/LinearInv.v
theories/Proofs/LinearMore.v
theories/Proofs/LinearProps.v
theories/Proofs/LinearWitness.v
theories/Props/P40_Fourier.v
theories/Props/P43_Linear.v
theories/Model/FileIO.v
theories/Spec/Files.v
theories/Proofs/FileLemmas.v
theories/Proofs/FileMore.v
theories/Proofs/Electrostatic.v
theories/Proofs/FileWitness.v
theories/Proofs/FileProps.v
theories/Props/P24_Files.v
theories/Model/Timestep.v
theories/Model/SemiLag.v
theories/Model/Solver.v
theories/Spec/Clock.v
theories/Spec/SolverSpec.v
theories/Proofs/TimestepLemmas.v
theories/Proofs/SolverLemmas.v
theories/Proofs/HybridLemmas.v
theories/Proofs/FieldClock.v
theories/Proofs/FieldRun.v
theories/Proofs/CoupledLemmas.v
theories/Proofs/StageLemmas.v
theories/Proofs/ChargeLemmas.v
theories/Proofs/VlasovPoisson.v
theories/Proofs/SourceLemmas.v
theories/Props/ExSolver.v
theories/Props/P30_Timestep.v
theories/Model/Reductions.v
theories/Model/Units.v
theories/Model/Polar.v
theories/Model/Electronic.v
theories/Spec/Electrons.v
theories/Spec/Ranks.v
theories/Spec/Motion.v
theories/Proofs/ReductionLemmas.v
theories/Proofs/UnitLemmas.v
theories/Proofs/PolarLemmas.v
theories/Proofs/MatrixLemmas.v
theories/Proofs/ElectronLemmas.v
theories/Proofs/ElectronProps.v
theories/Props/P54_Electrons.v
theories/Proofs/BoxConserve.v
theories/Proofs/BoxMore.v
theories/Props/ExBox.v
theories/Props/P14_Box.v
theories/Spec/Interp.v
theories/Proofs/InterpLemmas.v
theories/Proofs/SemiLagLemmas.v
theories/Proofs/SemiLagProps.v
theories/Proofs/SemiLagMore.v
theories/Props/ExSemiLag.v
theories/Props/P42_SemiLag.v
theories/Spec/Symmetry.v
theories/Proofs/SchemeSym.v
theories/Proofs/SymmetryRun.v
theories/Proofs/SymmetryMore.v
theories/Props/ExSymmetry.v
theories/Props/P81_Symmetry.v
theories/Spec/VlasovMaxwell.v
theories/Spec/InitFields.v
theories/Proofs/InitFields.v
theories/Proofs/VlasovMaxwell.v
theories/Proofs/Gauss.v
theories/Proofs/VmProps.v
theories/Props/ExMaxwell.v
theories/Props/P87_Maxwell.v
theories/Spec/FieldWalls.v
theories/Proofs/FieldWalls.v
theories/Proofs/FieldBox.v
theories/Proofs/FieldImages.v
theories/Proofs/FieldBoxRun.v
theories/Proofs/FieldWitness.v
theories/Props/ExFieldWalls.v
theories/Props/P92_FieldWalls.v
theories/Spec/Converge.v
theories/Proofs/Converge.v
theories/Proofs/Affine.v
theories/Proofs/Positive.v
theories/Spec/FreeStream.v
theories/Proofs/FreeStream.v
theories/Proofs/FreeWitness.v
theories/Props/ExConverge.v
theories/Props/P97_Converge.v
theories/Spec/Hybrid.v
theories/Proofs/HybridRun.v
theories/Spec/Slide.v
theories/Proofs/Slide.v
theories/Proofs/HybridProps.v
theories/Props/ExHybrid.v
theories/Props/P102_Hybrid.v
theories/Spec/Reflect.v
theories/Proofs/ReflectFields.v
theories/Proofs/Reflect.v
theories/Props/P109_Mirror.v
theories/Model/LinearHybrid.v
theories/Spec/LinearHybrid.v
theories/Proofs/LinearHybrid.v
theories/Proofs/LinearHybridRun.v
theories/Spec/LinearHybridStage.v
theories/Proofs/LinearHybridStage.v
theories/Proofs/LinearHybridWitness.v
theories/Props/P111_LinearHybrid.v
theories/Model/Systems.v
theories/Spec/Systems.v
theories/Proofs/SystemsLemmas.v
theories/Proofs/SystemsWitness.v
theories/Props/P114_Systems.v
theories/Spec/HybridWindow.v
theories/Proofs/HybridWindow.v
theories/Props/P118_Window.v
theories/Spec/Shear.v
theories/Proofs/FvmLines.v
theories/Proofs/ShearLemmas.v
theories/Proofs/ShearRun.v
theories/Proofs/ShearProps.v
theories/Proofs/ShearWitness.v
theories/Props/P119_Shear.v
theories/Spec/Restart.v
theories/Proofs/Restart.v
theories/Proofs/RestartWitness.v
theories/Props/P121_Restart.v
theories/Spec/Poisson.v
theories/Proofs/PoissonKernel.v
theories/Proofs/PoissonRun.v
theories/Proofs/PoissonMomentum.v
theories/Proofs/PoissonSym.v
theories/Proofs/PoissonProps.v
theories/Proofs/PoissonWitness.v
theories/Props/P123_Poisson.v
theories/Spec/Energy.v
theories/Proofs/EnergyField.v
theories/Proofs/EnergyKinetic.v
theories/Proofs/EnergyWitness.v
theories/Props/P128_Energy.v
theories/Spec/TimeTerms.v
theories/Proofs/TimeTerms.v
theories/Proofs/TimeTermsAsl.v
theories/Props/P131_TimeTerms.v
theories/Spec/Rescale.v
theories/Proofs/Rescale.v
theories/Proofs/RescaleRun.v
theories/Props/P132_Units.v
theories/Spec/Agree.v
theories/Proofs/Agree.v
theories/Props/P134_Agree.v
theories/Spec/Combos.v
theories/Proofs/Combos.v
theories/Props/P135_Combos.v
theories/Spec/Light.v
theories/Proofs/Light.v
theories/Props/P136_Light.v
theories/Spec/MaxwellLimit.v
theories/Proofs/MaxwellLimit.v
theories/Props/P138_MaxwellLimit.v
theories/Spec/Swss.v
theories/Proofs/SwssFields.v
theories/Spec/Modes.v
theories/Proofs/LinearRel.v
theories/Proofs/Modes.v
theories/Proofs/ModesMove.v
theories/Proofs/ModesReal.v
theories/Props/P139_Modes.v
theories/Spec/LinLight.v
theories/Proofs/LinLight.v
theories/Props/P142_LinLight.v
theories/Spec/Collisions.v
theories/Proofs/Collisions.v
theories/Props/P144_Collisions.v
theories/Spec/Instant.v
theories/Proofs/Instant.v
theories/Props/P145_Instant.v
theories/Spec/LinDriven.v
theories/Proofs/LinDriven.v
theories/Props/P146_LinDriven.v
theories/Spec/SlSym.v
theories/Proofs/SlSym.v
theories/Props/P147_SlSym.v
theories/Spec/SlAccuracy.v
theories/Proofs/SlAccuracy.v
theories/Props/P148_SlAccuracy.v
theories/Proofs/SlPositive.v
theories/Props/P150_SlPositive.v
theories/Proofs/SlMix.v
theories/Props/P151_SlMix.v
theories/Spec/SlRelax.v
theories/Proofs/SlRelax.v
theories/Props/P152_SlRelax.v
