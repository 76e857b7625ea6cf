# Formal model of TrajoptLib in Rocq (Coq 8.16.1)

## What is modelled and how

The model is executable Gallina under `rocq/theories/`, one file per part of the C++/Rust source. Every
definition in it cites the file and lines of /repo it models.

| File | Models |
|---|---|
| `Outcome.v` | result of running C++: normal return, thrown exception, failed `assert`, undefined behaviour, exhausted fuel; `vector::at`, `operator[]`, `front`, `back` |
| `Num.v` | operations on `double` / `sleipnir::Variable`: records of operations without laws |
| `NumR.v`, `NumF64.v` | the instances: real numbers; IEEE binary64 on the stdlib's `SpecFloat` |
| `Expr.v` | `sleipnir::Variable` expressions, constraints, `OptimizationProblem` (variables, constraints, objective, seed values), `operator==` on geometry |
| `Geometry.v` | `Rotation2`, `Translation2`, `Pose2` |
| `Util.v` | `GetIndex`, `Linspace`, `AngleLinspace` |
| `Constraints.v` | the ten constraint classes, their assertions, `LinePointDistance` |
| `Builder.v` | `SwervePathBuilder` and `Path` as a state machine whose steps return (state, outcome) |
| `Edits.v` | builder calls mixed with edits through the reference `GetPath()` returns |
| `Memory.v` | the builder when memory runs out: each call is told how many of its container growths succeed |
| `Guess.v` | `GenerateLinearInitialGuess` |
| `Generator.v` | `SwerveTrajectoryGenerator`: constructor, `ApplyInitialGuess`, `ConstructSwerveSolution` |
| `Sizes.v` | `GetIndex`, the initial guess and the constructor with 64-bit sums and vectors that may fail to grow |
| `Trajectory.v` | `HolonomicTrajectory` |
| `Runtime.v` | `Generate`, cancellation flag, progress callbacks: a transition system over any interleaving of any number of threads, with C++ happens-before and data races |
| `Lifetime.v` | generators that are copied, moved, assigned, destroyed and run, in any order |
| `Session.v` | one builder, the generators made from it and runs of them, in any order |
| `RustFFI.v` | `RustFFI.cpp` and the wrappers of `lib.rs` |
| `Expected.v`, `ExpectedCalls.v` | the vendored `expected`: objects whose members are constructed, assigned and destroyed one by one and may throw; callbacks, comparisons |
| `Programs.v` | the programs of `examples/` and `test/src/ObstacleTest.cpp` as call sequences |
| `UnitTests.v` | the other unit tests of `test/src` as boolean checks |

The specification is separate and is plain mathematics over API data types:

| File | Vocabulary |
|---|---|
| `Spec.v` | geometry, angles, interpolation |
| `SpecBuilder.v` | what a history of builder calls asks for |
| `SpecEdits.v` | edits that leave a vector that can exist |
| `SpecMemory.v` | waypoints without a guess; calls that add a single element |
| `SpecSizes.v` | allocators that cannot give more than the address space holds; builders that exist in memory |
| `SpecEnergy.v` | kinetic energy, power of the modules, slowed trajectories, limits that are reached |
| `SpecExpected.v`, `SpecExpectedCalls.v` | objects that hold a value or an error; statements that may go wrong |
| `SpecParts.v` | stretches of trajectories, trajectories joined, paths that ask less |
| `SpecGuess.v` | polyline through guess points |
| `SpecPhysics.v` | robot state; what each constraint demands of it |
| `SpecTrajectory.v` | kinematics, Newton, wheel and force limits, requests along a whole trajectory |
| `SpecGenerator.v` | the generator of a history; solutions of its problem |
| `Semantics.v` | meaning of expressions and constraints: evaluation over R, division by zero unsatisfied |
| `SpecTolerance.v` | constraints satisfied within a tolerance |
| `SpecObstacle.v` | outlines as point sets |
| `SpecOwners.v` | the ledger of generator objects |
| `SpecPrograms.v` | the examples' stories, sample by sample |
| `SpecStep.v`, `SpecLegs.v` | elapsed time, reach, plans that stop and go |
| `SpecDrive.v` | motion in continuous time with the planned accelerations; a dash from rest |
| `SpecBetween.v` | states between two samples |
| `SpecFollow.v` | the robot at any moment of a motion; plans that halt |
| `SpecRuntime.v`, `SpecSession.v`, `SpecLifetime.v`, `SpecRust.v` | runs, happens-before, sessions, proper progress, the C++ call behind a Rust call |
| `SpecDouble.v` | doubles as real numbers, rounding error, distances between modules, sizes of arguments |
| `SpecRounding.v` | the problem of doubles as equations over the reals; limits as documented, as rounded, a little looser, a little stricter |
| `SpecChange.v` | constraint calls on existing waypoints; better motors and lighter robots |
| `SpecSymmetry.v` | changes of field coordinates and of units |
| `SpecFront.v` | the same robot with another front |
| `SpecReach.v` | ways that are free if taken slowly, tours of poses |
| `SpecMore.v` | counts with more intervals, rest, a request to stop |
| `SpecBackward.v` | a path with its waypoints and segments in the other order |
| `SpecMirror.v` | a robot that looks the same in a mirror |
| `SpecLoad.v`, `SpecBalance.v` | a robot with less mass or inertia; balanced modules |
| `SpecFlip.v` | solutions facing backwards at some samples |
| `SpecHaste.v` | changes of the modules that keep every path |
| `SpecRedesign.v` | robots rebuilt on another scale |
| `SpecDoubleGeo.v` | rotations and translations of doubles as vectors of reals |

`*Facts.v` and `*Proofs.v` hold proofs, `*Cases.v` concrete cases, and `Properties*.v` only the property
theorems, each closed by `exact`, followed by `Print Assumptions` and an `Example` that meets its hypotheses.

`double` is an abstract type `K` with operations, so everything structural (lengths, indices, which
constraint is attached to which sample, exceptions, histories) is proved for every `K`, IEEE doubles
included. Statements about values are over `K := R`: rounding is not modelled, except where a theorem
names the binary64 instance.

## How each property is proved

C01-C03 pure functions over lists/reals: direct induction. C04-C06 induction over segments of the guess
generator. C07 characterise the seed-value map. C08-C12, C41, C42 induction over operation lists, refinement
to a history specification. C13-C15 the constraint list built by the constructor is computed as an explicit
list, and each constraint shown equivalent to a mathematical statement (`Spec.v`). C16-C22, C57, C58
consequences of C15 by induction over samples. C17, C18, C23, C28, C33, C34, C37-C40, C44, C46, C49, C56, C86, C90, C93, C96, C99, C101, C107-C109, C112-C118, C120-C123 are
expected to be false as stated of the code as read: each gets a `_refuted` witness and a `_partial` theorem.
C24, C25 allocation loop invariant. C26, C27 induction over samples. C36 real analysis on a clamped
projection. C40 convexity argument for segment pairs. C43-C47 invariants over event traces. C48-C50
the FFI functions as functions to builder calls. C51-C53 real algebra and an `atan2` built on stdlib `atan`.
C54, C55 evaluation of the constructor. C56, C66 what the constructor reads from unset inputs. C57 induction over samples with a
tolerance per constraint. C59 every builder call in every state. C60 the constraint list is equivalent to the
physics with a relaxed turning rule. C61, C62, C65 consequences of C60. C63 permutations of rectangle corners.
C64 real algebra on the seed values. C67-C69 happens-before against vector clocks. C70, C71 evaluation of the Rust
wrappers. C72-C75 consequences of C60: wheel limits and the time step bound, summed over samples. C76-C79, C81, C110
evaluation of the example programs, then C15/C60/C75/C80. C80 construction of a solution from a plan. C82 algebra.
C83, C84 induction over samples with Flocq's correctness theorems for the stdlib's `SpecFloat` operations. C97 the same plus
Machin's series for pi; two truncations analysed over the reals. C98 induction over consecutive modules. C102 sizes of rounded
results, carried through the guess and the seeds. C113 the constraint list of C60 with each constant's real value, then error
bounds and monotonicity in the limits; C114 algebra, and Taylor bounds for the two angles. C85 evaluation. C86, C87, C111
invariants over sequences of steps on generator objects. C88 the solutions of bounded total time form a closed and bounded set
(`CompactFacts.v`). C89, C90 simulation of the builder calls, then invariance of each demand of C60.
C91 a weaker invariant that edits keep, then C60 for the part of the path the constructor reads.
C92 builders equal up to recorded constraints stay so; then C60. C93 monotonicity of each limit of C60. C94 induction over histories.
C95 invariant over event traces. C96 happens-before. C99 the invariant of C91, kept by every growth that succeeds or fails.
C100, C101 index arithmetic on C60 in both directions. C103 the wrapped and the exact guess agree up to the first refused allocation.
C112 sums over segments with weights modulo 2^32. C104 the dynamics of a step times the new velocity, and the wheel limits. C105 every equation scales with the clock; if no limit is
reached, a slightly faster trajectory is one too. C106, C107, C109 symbolic execution of every operation in every case, then
induction over programs. C108 case analysis. C115 the mean value theorem on each step, then sums over samples; C116 sums of
speed bounds, and a solution that attains them. C117 convexity, chords no longer than arcs, and a step to the side past a target behind the robot (wide tolerances). C118 as C89. C119 a plan as in C80, slow enough, with forces balanced about the modules' mean.
C120 standing still may last any number of intervals; the counterexample from the limit forces put on accelerations (C58). C121 rounding errors of
one complex product, and induction over the summands. C122 C115 and C117 together: a robot moves at the velocity halfway between two moments.
C133 exactness of nearby subtractions (Sterbenz) and rounding errors of one interpolation.
C123 a solution read from its end, each position one step on, so that velocities again belong to the ends of steps;
C124 combines C89 with the rearranging of modules of C23. C125 the forces across, negated, keep the torque: mixtures with them scale force and torque apart; a jump with all the force, or all the torque, there is shows that balance is needed. C126 gives them, not negated, to a robot facing the other way. C127 a way that takes the longest time step there is at the speed allowed. C128 slowing the clock as in C105; the jump with all the force there is. C129 puts C125 and C128 together, C130 a change of units of force as well; the conditions it needs come from a way at top speed, a jump with all the force and a turn with all the torque there is. C131 the further module does not push; the way at top speed of C127 does not turn, so a slower wheel cannot follow; where a further wheel of the same speed would be too fast, a mixture of that motion with a straight one, slow enough in turning to leave no choice of the turn, is lost. C132 a module without torque does not push; the jump with all the force there is of C128.

A property that is false of the code as read keeps its statement; the counterexample is proved as `_refuted`, what
holds instead as `_partial`. The manifest notes say for each what is missing.

## Trusted base

1. Coq 8.16.1's kernel (with its `vm_compute`), and the reading of the theorem statements and of the `Spec*.v` files.
2. Axioms, all from the standard library, as `Print Assumptions` lists them under each theorem:
   - about a third of the theorems: none ("Closed under the global context"): those for every number type, about
     concurrent runs, sessions and the Rust API;
   - the others, which talk about real numbers: `ClassicalDedekindReals.sig_forall_dec`,
     `ClassicalDedekindReals.sig_not_dec`, `FunctionalExtensionality.functional_extensionality_dep` (all three from
     the construction of R) and, through the trigonometric functions, `Classical_Prop.classic`.
   No axiom, parameter or section-less hypothesis is added; no other library's axioms are used (Flocq's lemmas in
   `DoubleFacts.v` rest on the axioms above).
3. That the model says what the C++ and Rust sources say. It was written by reading /repo; nothing was built or run.
4. What is assumed of code outside /repo, each where it is modelled:
   - Sleipnir (`Expr.v`, `Runtime.v`, `Lifetime.v`): arithmetic on `Variable` builds expressions; a copied `Variable`
     is the same decision variable; `SubjectTo` records constraints;
     `Solve` calls the callback once per iteration in the calling thread and stops with `kCallbackRequestedStop` exactly
     when it returns true; it lets an exception of a user callback through; its other exit conditions, iteration count and final values are arbitrary. Theorems about
     solutions speak of every assignment that satisfies the constraints (C57: satisfies them within a tolerance), whether
     or not the solver finds it.
   - the C++ standard library (`Outcome.v`): bounds checks of `at`, no check in `operator[]`, `front`, `back`; growth of
     vectors succeeds, except in C99 and C103, where it may throw and then changes nothing (the elements move without throwing); atomics are sequentially consistent; initialisation of a function-local static is
     synchronised, its later accesses are not.
   - cxx (`RustFFI.v`): `rust::Vec` conversions copy; a C++ exception leaving a function not returning `Result` ends the
     process, otherwise it becomes `Err`.
   - `double` is IEEE binary64 where `NumF64.v` is used, and each operation rounds once (no fused multiply-add); cos, sin, atan2, hypot are arbitrary functions there; C102 assumes
     that cos, sin and atan2 are finite for finite arguments and no further than 1/2 from the true values.

### Not modelled

- Rounding, infinities and NaN, except in theorems for every number type or naming the binary64 instance (C83-C85, C97, C98, C102, C113, C114, C121, C133 among them).
- Running out of memory outside the builder (C99), the initial guess (C103) and `expected` (C107).
- User callbacks that change the generator that called them, or call `Generate` on it, from inside.
- Generators destroyed, copied or moved while another thread uses them; `Generate` on a moved-from generator.
- `DifferentialDrivetrain.hpp`, `DifferentialSolution.hpp` (data without code), `SymbolExports.hpp`, `build.rs`, the
  configurations of the vendored `expected` without exceptions or for reference types, printing and diagnostics of the examples.

## Where the code and its documentation disagree

Each is a theorem.

- A pose waypoint also admits the opposite heading (C28, C65), and one step may turn half a revolution too far (C15, C18);
  velocity direction constraints admit the opposite direction (C33).
- `LinePoint` and `PointLine` constraints compare a squared distance that is squared once more: distance d is enforced as
  sqrt d (C37), so obstacles are kept too close above one metre (C40) and the unit of length matters (C90).
- An obstacle and a bumper with different corner counts lose an edge or throw (C38, C71); after a single-point bumper the
  remaining bumpers are skipped for a single-point obstacle (C39), so leaving a bumper out can rule a trajectory out (C101); outlines that already cross satisfy the constraints (C40).
- Seeds do not satisfy the kinematics the constraints demand (C07, C64); an empty segment seeds an infinite step (C07).
- Module order changes the time step bound (C23) unless the modules form a rectangle (C63).
- Faster wheels shrink the bound on the time step and can make a path impossible (C93).
- Positions move by the velocity at the end of a step: a robot that accelerates as planned lags behind the plan (C115), and a plan
  from rest may be faster than the motors, the more so the fewer intervals (C116). Stopping over a distance
  takes longer than starting over it, and cannot be done in one interval (C123).
- Constraints on a segment are only looked at at samples: a plan may jump over an obstacle, by at most half the distance between
  neighbouring modules plus the radius of the robot (C117). A robot that drives a plan may hit what the plan avoids (C122).
- A finer discretisation may make a solvable path unsolvable, as a constraint binds at samples only (C120).
- A robot whose modules are not balanced may need its mass or inertia: with less, a path may have no solution (C125).
- A robot whose modules are in pairs can face backwards at any set of samples of a solution, unless a constraint tells its two sides apart (C126).
- Making all wheels faster loses a path, for every robot whose modules are not all at one place; making them slower, or moving modules in pairs farther out, loses none (C127-C129). C130 says for all changes of scale at once which lose a path.
  A further module may lose a path as well, as the time step depends on the distances between modules listed one after the other (C131); one without torque can always be left out (C132).
- A robot with all modules at its centre is accepted, but no path that asks it to turn has a solution (C119).
- The same robot described with its axes turned by an eighth of a turn may have a longer or shorter longest time step (C118).
- Headings need not be unit vectors if no waypoint gives one (C17, C61); wheel speed and angular bounds then fail too
  (C20, C58).
- A segment of 2^31 intervals or more gets a wrong, possibly negative, weight in the objective: the longer trajectory is then
  preferred (C112; memory permitting).
- `PointAtConstraint` with a tolerance above half a turn does not enforce that tolerance (C34).
- A builder call that runs out of memory between storing a waypoint and its guess cannot be repeated: that waypoint and every
  new one refuse a pose for ever, and the constructor may drop the last waypoint without a word (C99).
- A rounding error between module coordinates meant to be equal becomes the bound on the time step (C98); angles beyond 1e18 make
  `AngleLinspace` leave the short way (C97). Coordinates near the largest double give the solver infinite starting values (C102).
- Sums of rotations drift away from unit length, and a rotation minus itself need not be the identity (C121).
- The distance from a segment, computed with doubles, is not 0 for every point on it, and beyond the end is not taken to the end itself (C133).
- Limits are kept only up to a few roundings (C113). A velocity direction constraint squares both sides, so the rounding of its cosine
  and sine leaves no motion, or motion about 1e-8 rad off, as its only exact solutions for many angles (C114).
- A path without waypoints or drivetrain is undefined behaviour in `construct` (C56, C66).
- A generation that starts on another thread, or inside a progress callback, undoes a cancellation (C44, C69, C96); two concurrent generations race on the frame
  clock (C67, C68) and exceed the frame rate (C47).
- Solver iterations within 1/60 s of the last frame call no progress callback (C46).
- A copy of a generator uses the original in its progress callbacks, undefined behaviour once that is destroyed; a moved
  generator reports no progress (C86), or that of a generator assigned to where it was (C111).
- `expected`: assignments that throw end the process or use a destroyed member instead of leaving the target alone (C107); `!=` of two
  errors of `expected<void, E>` compares with `==`, `or_else` may return a moved-from error (C108); converting constructors leak (C109).
- `set_bumpers` adds instead of replacing (C49).
- Example 5 ignores its obstacle (C77); `swerve.rs` and `ObstacleTest.cpp` ask for trajectories that do not exist, and the
  latter never sets its drivetrain (C79).

## Mutation tests

`seeded/LOG.jsonl` has one line per wrong program tried in a scratch copy: the definition edited, the edit, the claim it
breaks, the proofs that failed, the property theorems that depend on them, and the theorems tightened or added because a
mutant survived. A failing proof shows that the edit was noticed, not by itself that each dependent theorem became false.
