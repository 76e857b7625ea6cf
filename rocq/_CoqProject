-Q theories Verif
theories/Outcome.v
theories/Num.v
theories/NumR.v
theories/NumF64.v
theories/Geometry.v
theories/Expr.v
theories/Constraints.v
theories/Util.v
theories/Builder.v
theories/Guess.v
theories/Generator.v
theories/Trajectory.v
theories/Runtime.v
theories/RustFFI.v
theories/UtilFacts.v
theories/GeometryFacts.v
theories/Spec.v
theories/SpecBuilder.v
theories/BuilderFacts.v
theories/GeometryProofs.v
theories/PropertiesGeometry.v
theories/BuilderEffects.v
theories/BuilderProofs.v
theories/BuilderHistory.v
theories/BuilderCases.v
theories/PropertiesBuilder.v
theories/SpecPhysics.v
theories/Semantics.v
theories/ConstraintFacts.v
theories/ConstraintProofs.v
theories/ConstraintCases.v
theories/PropertiesConstraints.v
theories/SpecGuess.v
theories/GuessFacts.v
theories/GuessProofs.v
theories/PropertiesGuess.v
theories/GeneratorFacts.v
theories/SeedFacts.v
theories/SpecTrajectory.v
theories/FeasibleFacts.v
theories/GeneratorProofs.v
theories/SpecGenerator.v
theories/HistoryFacts.v
theories/SolutionProofs.v
theories/TrajectoryProofs.v
theories/GeneratorCases.v
theories/GeneratorMore.v
theories/SpecTolerance.v
theories/ToleranceProofs.v
theories/LimitProofs.v
theories/OrderProofs.v
theories/SeedProofs.v
theories/OrderCases.v
theories/TrajectoryCases.v
theories/PropertiesGenerator.v
theories/PropertiesTrajectory.v
theories/Session.v
theories/SpecSession.v
theories/SessionProofs.v
theories/PropertiesSession.v
theories/SpecRuntime.v
theories/RuntimeProofs.v
theories/RaceProofs.v
theories/HbProofs.v
theories/RuntimeCases.v
theories/PropertiesRuntime.v
theories/SpecRust.v
theories/RustProofs.v
theories/RustCases.v
theories/PropertiesRust.v
theories/SegmentFacts.v
theories/SpecObstacle.v
theories/ObstacleProofs.v
theories/ObstacleCases.v
theories/PropertiesObstacle.v
theories/SpecStep.v
theories/StepProofs.v
theories/DurationProofs.v
theories/Programs.v
theories/ProgramProofs.v
theories/SpecLegs.v
theories/LegProofs.v
theories/ExampleProofs.v
theories/SpecPrograms.v
theories/StoryProofs.v
theories/StepCases.v
theories/PropertiesStep.v
theories/PropertiesPrograms.v
theories/SpecDouble.v
theories/DoubleFacts.v
theories/DoubleProofs.v
theories/AngleProofs.v
theories/WidthProofs.v
theories/DoubleGuess.v
theories/UnitTests.v
theories/UnitTestProofs.v
theories/DoubleCases.v
theories/PropertiesDouble.v
theories/Lifetime.v
theories/SpecLifetime.v
theories/LifetimeProofs.v
theories/SpecOwners.v
theories/OwnerProofs.v
theories/PropertiesLifetime.v
theories/CompactFacts.v
theories/OptimumProofs.v
theories/PropertiesOptimum.v
theories/SpecSymmetry.v
theories/SymmetryBuild.v
theories/SymmetryProofs.v
theories/PropertiesSymmetry.v
theories/Edits.v
theories/SpecEdits.v
theories/EditProofs.v
theories/PropertiesEdits.v
theories/SpecChange.v
theories/ConstraintOrder.v
theories/HardwareProofs.v
theories/PropertiesChange.v
theories/Memory.v
theories/SpecMemory.v
theories/MemoryProofs.v
theories/PropertiesMemory.v
theories/SpecParts.v
theories/PartsProofs.v
theories/PartsCases.v
theories/PropertiesParts.v
theories/Sizes.v
theories/SpecSizes.v
theories/SizesProofs.v
theories/WeightProofs.v
theories/PropertiesSizes.v
theories/SpecEnergy.v
theories/EnergyProofs.v
theories/EnergyCases.v
theories/PropertiesEnergy.v
theories/Expected.v
theories/ExpectedCalls.v
theories/SpecExpected.v
theories/SpecExpectedCalls.v
theories/ExpectedFacts.v
theories/ExpectedProofs.v
theories/ExpectedMore.v
theories/ExpectedEnds.v
theories/PropertiesExpected.v
theories/SpecRounding.v
theories/RoundingFacts.v
theories/RoundingProofs.v
theories/RoundingClaims.v
theories/RoundingCases.v
theories/PropertiesRounding.v
theories/SpecDrive.v
theories/DriveFacts.v
theories/DriveProofs.v
theories/DashProofs.v
theories/DriveClaims.v
theories/PropertiesDrive.v
theories/SpecBetween.v
theories/BetweenProofs.v
theories/PropertiesBetween.v
theories/SpecFront.v
theories/FrontBuild.v
theories/FrontProofs.v
theories/FrontPointProofs.v
theories/PropertiesFront.v
theories/SpecReach.v
theories/ReachProofs.v
theories/PropertiesReach.v
theories/SpecMore.v
theories/MoreProofs.v
theories/PropertiesMore.v
theories/SpecDoubleGeo.v
theories/DoubleGeoProofs.v
theories/PropertiesDoubleGeo.v
theories/SpecFollow.v
theories/FollowProofs.v
theories/PropertiesFollow.v
theories/SpecBackward.v
theories/BackwardProofs.v
theories/PropertiesBackward.v
theories/SpecMirror.v
theories/MirrorProofs.v
theories/PropertiesMirror.v
theories/SpecLoad.v
theories/LoadProofs.v
theories/PropertiesLoad.v
theories/SpecFlip.v
theories/FlipProofs.v
theories/PropertiesFlip.v
theories/SpecBalance.v
theories/BalanceProofs.v
theories/JumpProofs.v
theories/BehindProofs.v
theories/SpecHaste.v
theories/HasteProofs.v
theories/SpreadProofs.v
theories/PropertiesHaste.v
theories/SpecRedesign.v
theories/RedesignProofs.v
theories/PropertiesRedesign.v
theories/SpecFurther.v
theories/FurtherProofs.v
theories/FewerProofs.v
theories/PropertiesFurther.v
theories/SpecLine.v
theories/LineProofs.v
theories/PropertiesLine.v
