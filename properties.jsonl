{"id": "C01", "title": "Sample indexing is a bijection", "statement": "GetIndex(N, 1+s, k) for segment s and k < N[s] enumerates 1..sum(N) exactly once, in order, with GetIndex(N,0,0)=0; GetIndex(N, N.size()+1, 0) is the total sample count 1+sum(N); a waypoint index needing a segment that does not exist throws std::out_of_range instead of returning a number.", "quantifier": "every list of control interval counts, every waypoint and sample index", "why_tests_cant": "unbounded lists of counts; the unit test checks four literals", "anchors": ["include/trajopt/util/TrajoptUtil.hpp: GetIndex"]}
{"id": "C02", "title": "Linspace is evenly spaced and ends at the end value", "statement": "Linspace(a,b,n) returns exactly n values; value k (1-based) is a + k(b-a)/n, so the start is excluded, the last value is b, consecutive values differ by (b-a)/n, and every value lies between a and b.", "quantifier": "every start, end and sample count (over the reals; array length over any number type)", "why_tests_cant": "infinitely many inputs; one unit test literal", "anchors": ["include/trajopt/util/TrajoptUtil.hpp: Linspace"]}
{"id": "C03", "title": "AngleLinspace turns the short way", "statement": "AngleLinspace(a,b,n) returns n angles starting after a whose total turn is the unique angle congruent to b-a modulo 2*pi in (-pi, pi]; the last one points in the same direction as b and no turn exceeds half a revolution.", "quantifier": "every pair of angles, any size, any sample count", "why_tests_cant": "range reduction has boundary cases at odd multiples of pi for arbitrarily large angles", "anchors": ["include/trajopt/util/TrajoptUtil.hpp: AngleLinspace"]}
{"id": "C04", "title": "Initial guess arrays all have the sample count", "statement": "Whenever CalculateInitialGuess() returns, its x, y, thetacos, thetasin and dt arrays each have exactly 1+sum(counts) elements, whatever guess points were inserted (more guess points than control intervals included), so seeding the solver never reads out of bounds.", "quantifier": "every history of builder calls, every count list, every number of inserted guess points", "why_tests_cant": "depends on integer division remainders for all counts and guess lists", "anchors": ["include/trajopt/util/GenerateLinearInitialGuess.hpp: GenerateLinearInitialGuess", "src/SwerveTrajectoryGenerator.cpp: ApplyInitialGuess"]}
{"id": "C05", "title": "Initial guess interpolates linearly through the guess points", "statement": "In CalculateInitialGuess(), sample 0 is the first waypoint's guess; in a segment with N intervals and g guess points (inserted points then the waypoint guess) the j-th guess point (j<g) is hit at sample j*floor(N/g) of the segment and the last at sample N, when the legs are non-empty; between them x and y are the linear interpolation of the neighbouring guess points and the heading is the short-way interpolation.", "quantifier": "every guess-point list, count list and sample index", "why_tests_cant": "unbounded combinations of counts and guess points", "anchors": ["include/trajopt/util/GenerateLinearInitialGuess.hpp: GenerateLinearInitialGuess", "src/path/SwervePathBuilder.cpp: CalculateInitialGuess"]}
{"id": "C06", "title": "Initial guess headings are unit vectors", "statement": "Every (thetacos, thetasin) pair in the initial guess lies on the unit circle when the waypoint guesses were given as angles.", "quantifier": "every builder history and sample", "why_tests_cant": "all angles, all samples", "anchors": ["include/trajopt/util/GenerateLinearInitialGuess.hpp: GenerateLinearInitialGuess"]}
{"id": "C07", "title": "The solver is seeded with a kinematically consistent guess", "statement": "After construction every decision variable has the documented seed: positions and headings from the guess, zero velocity/acceleration at sample 0, and at every later sample velocities and accelerations that are exactly the finite differences of the guess over the guess time step; module forces are zero; each segment time step is 5/N[s], which must be finite. Together the seeds satisfy the position and velocity integration constraints.", "quantifier": "every path the generator accepts", "why_tests_cant": "every path, every sample; division by counts", "anchors": ["src/SwerveTrajectoryGenerator.cpp: ApplyInitialGuess", "src/SwerveTrajectoryGenerator.cpp: SwerveTrajectoryGenerator"]}
{"id": "C08", "title": "Builder bookkeeping stays consistent under any call history", "statement": "After any sequence of SwervePathBuilder calls, in any order, including calls that throw, there is exactly one guess list per waypoint, no guess list is empty and waypoint 0 has exactly one guess point (unless SgmtInitialGuessPoints was called with fromIndex 2^64-1, whose fromIndex+1 wraps to 0); if ControlIntervalCounts was never called there is exactly one count, 40, per segment.", "quantifier": "every finite sequence of builder calls with every argument", "why_tests_cant": "unbounded histories and index orders, exception points", "anchors": ["src/path/SwervePathBuilder.cpp: NewWpts, WptInitialGuessPoint, SgmtInitialGuessPoints", "include/trajopt/path/SwervePathBuilder.hpp: WptConstraint, SgmtConstraint"]}
{"id": "C09", "title": "Waypoints are created on demand and never disturbed", "statement": "Any call naming waypoint index i that returns normally leaves max(old count, i+1) waypoints; existing waypoints keep their constraints and guesses (constraint lists only ever grow by appending) and new intermediate waypoints are unconstrained with guess (0,0,0).", "quantifier": "every builder state and every index below 2^63", "why_tests_cant": "all histories and gaps", "anchors": ["src/path/SwervePathBuilder.cpp: NewWpts"]}
{"id": "C10", "title": "Control interval counts follow the last ControlIntervalCounts call", "statement": "GetControlIntervalCounts() equals the last list passed to ControlIntervalCounts followed by one 40 for each segment created after that call (all 40s if never called); nothing else changes it.", "quantifier": "every call history", "why_tests_cant": "ordering of calls is unbounded", "anchors": ["src/path/SwervePathBuilder.cpp: ControlIntervalCounts, GetControlIntervalCounts, NewWpts"]}
{"id": "C11", "title": "The constraint lists record exactly what was requested", "statement": "After any history of successful calls, the waypoint constraint list of waypoint i is exactly the in-order list of constraints requested for i (by WptConstraint, PoseWpt, TranslationWpt, SgmtConstraint ranges containing i and obstacle calls), and the segment constraint list of waypoint i is exactly those requested for the segment ending at i; none lost, duplicated, reordered or applied elsewhere.", "quantifier": "every history of calls and every waypoint", "why_tests_cant": "unbounded histories", "anchors": ["include/trajopt/path/SwervePathBuilder.hpp: WptConstraint, SgmtConstraint", "src/path/SwervePathBuilder.cpp: PoseWpt, TranslationWpt, WptObstacle, SgmtObstacle"]}
{"id": "C12", "title": "Guess points record exactly what was requested", "statement": "The guess list of waypoint i is the segment guess lists given for the segment ending at i (the most recent call's points first) followed by the last guess given at waypoint i by PoseWpt, TranslationWpt or WptInitialGuessPoint (or the zero pose). With fromIndex 2^64-1 the sum fromIndex+1 wraps to 0 and the points go in front of the guess at waypoint 0.", "quantifier": "every history of calls and every waypoint", "why_tests_cant": "unbounded histories", "anchors": ["src/path/SwervePathBuilder.cpp: WptInitialGuessPoint, SgmtInitialGuessPoints"]}
{"id": "C13", "title": "A waypoint constraint is enforced at exactly that waypoint's sample", "statement": "The optimisation problem imposes a constraint given by WptConstraint(i, c) on the robot state at sample N[0]+...+N[i-1] and, because of this call, on no other sample.", "quantifier": "every accepted path, waypoint and constraint", "why_tests_cant": "index arithmetic over arbitrary count lists", "anchors": ["src/SwerveTrajectoryGenerator.cpp: SwerveTrajectoryGenerator (waypoint constraint loop)"]}
{"id": "C14", "title": "A segment constraint is enforced on the whole closed range of samples", "statement": "The optimisation problem imposes a constraint given by SgmtConstraint(from, to, c) on the robot state at every sample from waypoint from to waypoint to, both inclusive, and at no sample outside that range.", "quantifier": "every accepted path and every from < to", "why_tests_cant": "index arithmetic over arbitrary count lists and ranges", "anchors": ["include/trajopt/path/SwervePathBuilder.hpp: SgmtConstraint", "src/SwerveTrajectoryGenerator.cpp: SwerveTrajectoryGenerator (segment constraint loop)"]}
{"id": "C15", "title": "The optimisation problem is exactly the documented physics plus the requested constraints", "statement": "For every path the generator accepts, an assignment of the decision variables satisfies the generated optimisation problem if and only if the SwerveSolution read from it obeys the drivetrain's kinematics, dynamics, wheel speed, wheel force and time step rules at every sample and every requested constraint at its samples; nothing is missing and nothing else is imposed.", "quantifier": "every accepted path (with at least one interval per segment) and every assignment of real values", "why_tests_cant": "quantifies over all real assignments of all problems", "anchors": ["src/SwerveTrajectoryGenerator.cpp: SwerveTrajectoryGenerator"]}
{"id": "C16", "title": "Positions and velocities integrate", "statement": "In every solution satisfying the problem, for each consecutive pair of samples the position change is velocity times dt and the velocity change is acceleration times dt, across segment borders too; hence the position at any sample is the initial position plus the sum of velocity*dt, likewise velocity and angular velocity.", "quantifier": "every accepted path, feasible assignment and sample", "why_tests_cant": "induction over unbounded sample counts", "anchors": ["src/SwerveTrajectoryGenerator.cpp: SwerveTrajectoryGenerator (kinematics loop)"]}
{"id": "C17", "title": "Headings in a solution are unit vectors", "statement": "In every solution satisfying the problem, thetacos^2+thetasin^2=1 at every sample.", "quantifier": "every accepted path, feasible assignment and sample", "why_tests_cant": "all real assignments; the code only constrains products of neighbouring norms", "anchors": ["src/SwerveTrajectoryGenerator.cpp: SwerveTrajectoryGenerator (kinematics loop)", "include/trajopt/geometry/Rotation2.hpp: operator=="]}
{"id": "C18", "title": "Heading integrates angular velocity", "statement": "In every solution satisfying the problem, the heading at each sample is the previous heading rotated by omega*dt.", "quantifier": "every accepted path, feasible assignment and sample", "why_tests_cant": "all real assignments; the cross product test also accepts a half-turn", "anchors": ["include/trajopt/geometry/Rotation2.hpp: operator==", "src/SwerveTrajectoryGenerator.cpp: SwerveTrajectoryGenerator (kinematics loop)"]}
{"id": "C19", "title": "Net force and torque obey Newton's laws", "statement": "In every solution satisfying the problem, at every sample the module forces sum to mass times acceleration and the torques of the module forces about the robot origin, with module positions rotated by the heading, sum to moment of inertia times angular acceleration.", "quantifier": "every drivetrain (any number of modules), accepted path, feasible assignment and sample", "why_tests_cant": "any number of modules and samples", "anchors": ["src/SwerveTrajectoryGenerator.cpp: SwerveTrajectoryGenerator (dynamics loop)"]}
{"id": "C20", "title": "Wheel speed and force limits hold at every sample", "statement": "In every solution satisfying the problem, at every sample each wheel's ground velocity (robot velocity plus the rotation's contribution at the module) has magnitude at most wheelRadius*wheelMaxAngularVelocity and each module force has magnitude at most wheelMaxTorque/wheelRadius.", "quantifier": "every drivetrain, accepted path, feasible assignment, sample and module", "why_tests_cant": "all real assignments, any number of modules", "anchors": ["src/SwerveTrajectoryGenerator.cpp: SwerveTrajectoryGenerator (module power constraints)"]}
{"id": "C21", "title": "Time steps are nonnegative and bounded by the wheel base", "statement": "In every solution satisfying the problem every time step is nonnegative and in one step no wheel at top speed travels farther than the smallest nonzero x or y offset between consecutive listed modules.", "quantifier": "every drivetrain, accepted path and feasible assignment", "why_tests_cant": "all module layouts", "anchors": ["src/SwerveTrajectoryGenerator.cpp: SwerveTrajectoryGenerator (minWidth, dt constraints)"]}
{"id": "C22", "title": "The minimised objective is the duration of the returned trajectory", "statement": "The objective given to the solver equals the sum of the returned dt array, which equals the timestamp of the last sample of the HolonomicTrajectory built from the solution.", "quantifier": "every accepted path with counts below 2^31 and every assignment", "why_tests_cant": "unbounded sums; int cast of counts", "anchors": ["src/SwerveTrajectoryGenerator.cpp: SwerveTrajectoryGenerator (T_tot)", "include/trajopt/trajectory/HolonomicTrajectory.hpp"]}
{"id": "C23", "title": "Module order does not matter", "statement": "Listing the swerve modules in a different order yields an equivalent optimisation problem (same feasible trajectories with module forces permuted accordingly).", "quantifier": "every drivetrain and permutation of its modules", "why_tests_cant": "all permutations of arbitrary lists", "anchors": ["include/trajopt/drivetrain/SwerveDrivetrain.hpp", "src/SwerveTrajectoryGenerator.cpp: SwerveTrajectoryGenerator (minWidth)"]}
{"id": "C24", "title": "Every sample has its own decision variables", "statement": "The generator allocates one distinct decision variable for each of the ten state quantities per sample, each force component per module and sample and each segment time step; no two quantities share a variable and there are no others.", "quantifier": "every accepted path and drivetrain", "why_tests_cant": "unbounded allocation; aliasing between arrays", "anchors": ["src/SwerveTrajectoryGenerator.cpp: SwerveTrajectoryGenerator (allocation loops)"]}
{"id": "C25", "title": "Solutions have consistent dimensions", "statement": "Every SwerveSolution the generator returns or passes to a callback has 1+sum(N) samples in each state array, sum(N) time steps, equal within a segment, and one force per module in each of the 1+sum(N) rows.", "quantifier": "every accepted path and every assignment", "why_tests_cant": "unbounded sizes", "anchors": ["src/SwerveTrajectoryGenerator.cpp: ConstructSwerveSolution, RowSolutionValue, MatrixSolutionValue"]}
{"id": "C26", "title": "Trajectory timestamps are cumulative and ordered", "statement": "HolonomicTrajectory(solution) has one sample per solution sample, starts at time 0, sample k is at the sum of the first k time steps, and timestamps never decrease when time steps are nonnegative.", "quantifier": "every solution with consistent dimensions", "why_tests_cant": "unbounded length", "anchors": ["include/trajopt/trajectory/HolonomicTrajectory.hpp: HolonomicTrajectory"]}
{"id": "C27", "title": "Trajectory samples carry the solution's data without out-of-bounds reads", "statement": "HolonomicTrajectory(solution) copies position, velocity, angular velocity and module forces of each sample unchanged and reports as heading the angle in (-pi, pi] whose cosine and sine are the solution's heading; for every solution Generate() can return no element is read out of bounds.", "quantifier": "every solution produced by the generator", "why_tests_cant": "operator[] is unchecked; all sizes", "anchors": ["include/trajopt/trajectory/HolonomicTrajectory.hpp: HolonomicTrajectory"]}
{"id": "C28", "title": "PoseWpt pins the pose at the waypoint", "statement": "In every solution satisfying the problem, PoseWpt(i,x,y,heading) fixes the position at waypoint i's sample to (x,y) and its heading to heading.", "quantifier": "every path, waypoint, pose and feasible assignment", "why_tests_cant": "all real assignments; the cross product test also accepts the opposite heading", "anchors": ["src/path/SwervePathBuilder.cpp: PoseWpt", "include/trajopt/constraint/PoseEqualityConstraint.hpp: Apply"]}
{"id": "C29", "title": "TranslationWpt pins the position only", "statement": "In every solution satisfying the problem, TranslationWpt(i,x,y) fixes the position at waypoint i's sample to (x,y); the constraint itself puts no condition on heading, velocity or acceleration.", "quantifier": "every path, waypoint, position and assignment", "why_tests_cant": "all real assignments", "anchors": ["src/path/SwervePathBuilder.cpp: TranslationWpt", "include/trajopt/constraint/TranslationEqualityConstraint.hpp: Apply"]}
{"id": "C30", "title": "Linear velocity max magnitude bounds the speed", "statement": "LinearVelocityMaxMagnitudeConstraint(m), m>=0, is satisfied exactly when the speed is at most m (including m = 0).", "quantifier": "every m>=0 and robot state", "why_tests_cant": "all reals; separate branch at zero", "anchors": ["include/trajopt/constraint/LinearVelocityMaxMagnitudeConstraint.hpp"]}
{"id": "C31", "title": "Angular velocity max magnitude bounds the angular speed", "statement": "AngularVelocityMaxMagnitudeConstraint(m), m>=0, is satisfied exactly when |omega| <= m.", "quantifier": "every m>=0 and robot state", "why_tests_cant": "all reals; separate branch at zero", "anchors": ["include/trajopt/constraint/AngularVelocityMaxMagnitudeConstraint.hpp"]}
{"id": "C32", "title": "Linear acceleration max magnitude bounds the acceleration", "statement": "LinearAccelerationMaxMagnitudeConstraint(m), m>=0, is satisfied exactly when the linear acceleration magnitude is at most m.", "quantifier": "every m>=0 and robot state", "why_tests_cant": "all reals; separate branch at zero", "anchors": ["include/trajopt/constraint/LinearAccelerationMaxMagnitudeConstraint.hpp"]}
{"id": "C33", "title": "Linear velocity direction points the velocity along the angle", "statement": "LinearVelocityDirectionConstraint(angle) is satisfied exactly when the velocity points in direction angle (or is zero).", "quantifier": "every angle and velocity", "why_tests_cant": "all reals; squaring loses the sign", "anchors": ["include/trajopt/constraint/LinearVelocityDirectionConstraint.hpp"]}
{"id": "C34", "title": "PointAt keeps the heading within the tolerance of the target", "statement": "PointAtConstraint(p, tol) with tol>=0 is satisfied exactly when the heading deviates from the direction to p by at most tol.", "quantifier": "every field point, tolerance and pose away from the point", "why_tests_cant": "all reals; cos is not monotone beyond pi", "anchors": ["include/trajopt/constraint/PointAtConstraint.hpp"]}
{"id": "C35", "title": "PointPoint keeps the minimum distance", "statement": "PointPointConstraint(r, f, d), d>=0, is satisfied exactly when the robot point r, placed by the pose, is at least d from field point f.", "quantifier": "every points, distance and pose", "why_tests_cant": "all reals", "anchors": ["include/trajopt/constraint/PointPointConstraint.hpp"]}
{"id": "C36", "title": "The point-to-segment measure is exact", "statement": "The point-to-line-segment measure used by obstacle constraints equals the squared Euclidean distance from the point to the closest point of the segment, for every non-degenerate segment, and is undefined (division by zero) for a degenerate one.", "quantifier": "every segment and point", "why_tests_cant": "all reals; clamping branches", "anchors": ["include/trajopt/constraint/detail/LinePointDistance.hpp: LinePointDistance"]}
{"id": "C37", "title": "LinePoint and PointLine keep the minimum distance", "statement": "LinePointConstraint and PointLineConstraint with minimum distance d>=0 are satisfied exactly when every point of the line segment is at least d from the point.", "quantifier": "every segment, point, d>=0 and pose", "why_tests_cant": "all reals; the code squares an already squared distance", "anchors": ["include/trajopt/constraint/LinePointConstraint.hpp: Apply", "include/trajopt/constraint/PointLineConstraint.hpp: Apply"]}
{"id": "C38", "title": "Obstacle calls constrain every edge and corner pair", "statement": "WptObstacle/SgmtObstacle add, for each bumper polygon, a constraint between every bumper edge (closing edge included) and every obstacle corner, and between every obstacle edge (closing edge included) and every bumper corner (corner-to-corner if the obstacle is a single point), with minimum distance equal to the sum of the safety distances, and return normally for all non-empty polygons.", "quantifier": "every bumper and obstacle polygon of any size", "why_tests_cant": "all polygon sizes; closing-edge index arithmetic", "anchors": ["src/path/SwervePathBuilder.cpp: WptObstacle, SgmtObstacle"]}
{"id": "C39", "title": "Obstacle calls consider every bumper", "statement": "WptObstacle/SgmtObstacle add constraints for every bumper added so far, not just some of them.", "quantifier": "every list of bumpers and every obstacle", "why_tests_cant": "all lists of bumpers of mixed shapes", "anchors": ["src/path/SwervePathBuilder.cpp: WptObstacle, SgmtObstacle (return inside the loop)"]}
{"id": "C40", "title": "Obstacles are kept at the safety distance", "statement": "In every solution satisfying the problem, at every sample covered by an obstacle call the robot's bumper outline and the obstacle's outline are at least the sum of the safety distances apart.", "quantifier": "every path, bumpers, obstacle, feasible assignment and covered sample", "why_tests_cant": "all reals and polygons; geometric argument over continuum of outline points", "anchors": ["src/path/SwervePathBuilder.cpp: WptObstacle, SgmtObstacle", "include/trajopt/constraint/detail/LinePointDistance.hpp"]}
{"id": "C41", "title": "Obstacles only see bumpers added before the call", "statement": "An obstacle call affects the path only through bumpers added earlier; with no bumpers added it changes nothing at all, and adding bumpers later never changes existing constraints.", "quantifier": "every builder state and obstacle", "why_tests_cant": "all histories", "anchors": ["src/path/SwervePathBuilder.cpp: WptObstacle, SgmtObstacle, AddBumpers"]}
{"id": "C42", "title": "Failing builder calls leave the builder usable", "statement": "PoseWpt, TranslationWpt, WptInitialGuessPoint, WptConstraint (index) and SgmtInitialGuessPoints (index+1) with an index of 2^63 or more throw std::out_of_range and leave the builder unchanged; SgmtConstraint with such a toIndex throws std::out_of_range; whichever call throws, the builder invariants hold afterwards and no constraint recorded before the call is lost.", "quantifier": "every builder state, call and index", "why_tests_cant": "all failure points inside loops", "anchors": ["src/path/SwervePathBuilder.cpp: NewWpts", "include/trajopt/path/SwervePathBuilder.hpp: WptConstraint, SgmtConstraint"]}
{"id": "C43", "title": "Generate returns a solution exactly on solver success", "statement": "Generate() returns a solution if and only if the solver's exit code is nonnegative and is not callback-requested-stop; otherwise it returns the solver's message. A returned solution holds the solver's final variable values.", "quantifier": "every solver outcome", "why_tests_cant": "all solver behaviours", "anchors": ["src/SwerveTrajectoryGenerator.cpp: Generate"]}
{"id": "C44", "title": "Cancellation stops every running generation", "statement": "After cancel_all(), every generation in progress stops at its next solver iteration and reports failure.", "quantifier": "every interleaving of any number of concurrent generations and cancellations", "why_tests_cant": "all thread schedules; the flag is global and reset by every Generate()", "anchors": ["src/util/Cancellation.cpp", "src/RustFFI.cpp: cancel_all", "src/SwerveTrajectoryGenerator.cpp: Generate"]}
{"id": "C45", "title": "Stale cancellations do not affect later generations", "statement": "A generation stops by cancellation only if cancel_all() was called after it started.", "quantifier": "every interleaving", "why_tests_cant": "all schedules", "anchors": ["src/SwerveTrajectoryGenerator.cpp: Generate", "src/RustFFI.cpp: cancel_all"]}
{"id": "C46", "title": "Progress callbacks run on every iteration", "statement": "Every registered callback is invoked on every solver iteration, in registration order, with the current solution and the handle given for this generation.", "quantifier": "every solver run and clock behaviour", "why_tests_cant": "clock values and iteration counts are unbounded; static throttle state is shared", "anchors": ["include/trajopt/path/SwervePathBuilder.hpp: AddIntermediateCallback", "src/SwerveTrajectoryGenerator.cpp: SwerveTrajectoryGenerator (callbacks)"]}
{"id": "C47", "title": "Progress callbacks are rate limited and well formed", "statement": "Between two progress deliveries anywhere in the process at least 1/60 s passes; each delivery runs all callbacks registered on the path in registration order with the generation's handle, the first callback receiving the solver's current values; no callback can change the solver's variables or the final solution.", "quantifier": "every schedule of iterations over any number of generations and every clock", "why_tests_cant": "all schedules", "anchors": ["src/SwerveTrajectoryGenerator.cpp: SwerveTrajectoryGenerator (callbacks)"]}
{"id": "C48", "title": "The Rust API forwards faithfully", "statement": "Each Rust builder method has exactly the effect of the corresponding C++ call with the same arguments in the same order, and generate() returns Ok with the same samples, fields and forces as the C++ trajectory, or Err with the C++ error message.", "quantifier": "every call history and argument", "why_tests_cant": "unbounded histories", "anchors": ["src/RustFFI.cpp", "src/lib.rs"]}
{"id": "C49", "title": "set_bumpers replaces the bumpers by the given rectangle", "statement": "set_bumpers(length,width) makes the robot's bumpers the rectangle with those dimensions centred on the robot (corners in order around the outline, safety distance 0.01); calling it again replaces the previous bumpers.", "quantifier": "every call history and dimensions", "why_tests_cant": "histories with repeated calls", "anchors": ["src/RustFFI.cpp: set_bumpers", "src/path/SwervePathBuilder.cpp: AddBumpers"]}
{"id": "C50", "title": "Malformed polygon obstacles are ignored", "statement": "sgmt_polygon_obstacle with coordinate arrays of different lengths changes nothing; with equal lengths it is the obstacle whose i-th corner is (x[i], y[i]).", "quantifier": "every coordinate lists", "why_tests_cant": "all lengths", "anchors": ["src/RustFFI.cpp: sgmt_polygon_obstacle"]}
{"id": "C51", "title": "Rotations form a group acting by angle addition", "statement": "Rotation2 composition is associative and commutative with identity Rotation2() and inverse unary minus (for unit rotations), Rotation2(a)+Rotation2(b)=Rotation2(a+b), Rotation2(a)-Rotation2(b)=Rotation2(a-b), and unit length is preserved.", "quantifier": "every rotation", "why_tests_cant": "all reals", "anchors": ["include/trajopt/geometry/Rotation2.hpp"]}
{"id": "C52", "title": "Translations form a vector space on which rotations act as isometries", "statement": "Translation2 addition, subtraction, negation, scaling and division obey the vector space laws; RotateBy a unit rotation preserves norms, distances, dot and cross products, composes like rotation addition, and is undone by the inverse rotation; Norm and Distance are the Euclidean ones; pose rotation acts on both parts.", "quantifier": "every translation and rotation", "why_tests_cant": "all reals", "anchors": ["include/trajopt/geometry/Translation2.hpp", "include/trajopt/geometry/Pose2.hpp"]}
{"id": "C53", "title": "Angles round-trip", "statement": "Radians() of any non-zero rotation lies in (-pi, pi]; Rotation2(a).Radians() is the angle in (-pi, pi] congruent to a; Rotation2(r.Radians()) = r for unit r; Degrees is Radians*180/pi; a translation is its Norm in direction Angle().Radians().", "quantifier": "every angle and rotation", "why_tests_cant": "all reals; quadrant boundaries", "anchors": ["include/trajopt/geometry/Rotation2.hpp: Radians, Degrees", "include/trajopt/geometry/Translation2.hpp: Angle"]}
{"id": "C54", "title": "Generators are independent of later builder changes", "statement": "Constructing a generator or calling generate does not change the builder, and builder calls made afterwards do not change an already constructed generator; constructing twice from the same builder gives the same problem.", "quantifier": "every builder state and later history", "why_tests_cant": "all histories", "anchors": ["src/SwerveTrajectoryGenerator.cpp: SwerveTrajectoryGenerator", "src/RustFFI.cpp: generate"]}
{"id": "C55", "title": "Which paths the generator accepts", "statement": "For a builder with a drivetrain set and at least one waypoint, constructing the generator succeeds if and only if there are at most (number of waypoints - 1) counts, and otherwise throws std::out_of_range; the waypoints beyond the number of counts + 1 are not part of the trajectory.", "quantifier": "every builder history", "why_tests_cant": "all histories and count lists", "anchors": ["src/SwerveTrajectoryGenerator.cpp: SwerveTrajectoryGenerator", "include/trajopt/util/GenerateLinearInitialGuess.hpp"]}
{"id": "C56", "title": "Generating without waypoints or drivetrain is rejected", "statement": "Constructing a generator from a builder with no waypoints, or without having set a drivetrain, is reported as an error.", "quantifier": "every such builder", "why_tests_cant": "undefined behaviour cannot be observed reliably by a test", "anchors": ["include/trajopt/util/GenerateLinearInitialGuess.hpp: front().front()", "include/trajopt/drivetrain/SwerveDrivetrain.hpp", "src/SwerveTrajectoryGenerator.cpp: SwerveTrajectoryGenerator"]}
{"id": "C57", "title": "Solver tolerance errors accumulate at most linearly", "statement": "If each constraint is satisfied only within a tolerance eps, positions and velocities drift from exact integration by at most eps per sample, waypoint positions are met within eps, speeds limits within the corresponding slack.", "quantifier": "every eps>=0, accepted path and approximately feasible assignment", "why_tests_cant": "all reals and sample counts", "anchors": ["src/SwerveTrajectoryGenerator.cpp: Generate (tolerance 1e-4)"]}
{"id": "C58", "title": "Accelerations and speeds are physically bounded", "statement": "In every solution satisfying the problem the linear acceleration never exceeds the sum of the module force limits divided by the mass, angular acceleration never exceeds the sum of lever arm times force limit divided by the moment of inertia.", "quantifier": "every drivetrain, accepted path, feasible assignment and sample", "why_tests_cant": "triangle inequality over any number of modules", "anchors": ["src/SwerveTrajectoryGenerator.cpp: SwerveTrajectoryGenerator (dynamics loop)"]}
{"id": "C59", "title": "Builder calls never have undefined behaviour", "statement": "After any sequence of SwervePathBuilder calls, any further call with any arguments either returns, throws std::out_of_range, or (only in builds with assertions enabled) fails an assertion; it never reads or writes outside a vector and its loops terminate, even for empty polygons, where a corner count minus one wraps around.", "quantifier": "all call histories, all arguments, assertions on or off", "why_tests_cant": "the claim is about every history and argument combination; undefined behaviour need not show in a test", "anchors": ["src/path/SwervePathBuilder.cpp: WptObstacle, SgmtObstacle, NewWpts, WptInitialGuessPoint, SgmtInitialGuessPoints", "include/trajopt/path/SwervePathBuilder.hpp: WptConstraint, SgmtConstraint"]}
{"id": "C60", "title": "Exactly which assignments satisfy the generated problem", "statement": "For every accepted path with at least one interval per segment and wheels of positive radius, an assignment satisfies the generated problem if and only if the solution read from it obeys the time step bound, position and velocity integration, Newton's laws, wheel speed and force limits, and from each sample to the next the product of the new heading with the conjugate of the old one is the rotation by omega*dt or its opposite, and every requested constraint holds at its samples. Every solution of the right dimensions is the reading of some assignment.", "quantifier": "all call histories, drivetrains, interval counts and real assignments", "why_tests_cant": "both directions of an equivalence over an uncountable set of assignments and all paths", "anchors": ["src/SwerveTrajectoryGenerator.cpp: SwerveTrajectoryGenerator::SwerveTrajectoryGenerator", "include/trajopt/geometry/Rotation2.hpp: operator=="]}
{"id": "C61", "title": "Heading lengths of a solution", "statement": "In every solution satisfying the problem the squared heading lengths of neighbouring samples are reciprocal, so they repeat every other sample, and one unit heading anywhere makes all headings unit vectors.", "quantifier": "all call histories, solutions and samples", "why_tests_cant": "an invariant along trajectories of any length", "anchors": ["src/SwerveTrajectoryGenerator.cpp:166-169"]}
{"id": "C62", "title": "The robot is no faster than its wheels on average", "statement": "For modules placed around the robot's origin, at every sample with a unit heading of a solution satisfying the problem, the robot's speed is at most the mean of the wheels' maximum speeds.", "quantifier": "all centred drivetrains, histories, solutions and samples", "why_tests_cant": "a bound over all feasible trajectories", "anchors": ["src/SwerveTrajectoryGenerator.cpp:199-217"]}
{"id": "C63", "title": "Module order does not matter for rectangular drivetrains", "statement": "For four modules on the corners of a rectangle, listed in any two orders, every solution of one problem with its module forces rearranged accordingly is a solution of the other.", "quantifier": "all rectangles, orders, histories and solutions", "why_tests_cant": "an equivalence of feasible sets for all rectangles and paths", "anchors": ["src/SwerveTrajectoryGenerator.cpp:108-130"]}
{"id": "C64", "title": "At which time step the seeds integrate", "statement": "The seeded positions, headings, velocities and accelerations satisfy the documented integration rules at the guess time step 5*(segments+1)/(samples), each seeded turn at most half a revolution; at the seeded time step 5/N[s] of a segment they do so exactly when the two time steps are equal or the guess does not move there.", "quantifier": "all histories whose first guess has a unit heading, all samples", "why_tests_cant": "for all paths and counts", "anchors": ["src/SwerveTrajectoryGenerator.cpp: ApplyInitialGuess", "src/SwervePathBuilder.cpp: CalculateInitialGuess"]}
{"id": "C65", "title": "PoseWpt pins the pose up to half a turn", "statement": "In every solution satisfying the problem, PoseWpt(i,x,y,heading) fixes the position at waypoint i's sample to (x,y) and its heading to heading or heading plus half a turn; both occur.", "quantifier": "all histories, waypoints, poses and solutions", "why_tests_cant": "for all feasible trajectories of all paths", "anchors": ["include/trajopt/constraint/PoseEqualityConstraint.hpp", "include/trajopt/geometry/Pose2.hpp: operator=="]}
{"id": "C66", "title": "What unset inputs do", "statement": "Constructing a generator from a builder without waypoints reads the front of an empty vector (undefined behaviour), and from one with waypoints but no drivetrain reads the uninitialised mass (undefined behaviour), whatever other calls were made; through the Rust API the drivetrain is zero-initialised, so a builder without drivetrain is accepted and describes a robot without mass, inertia or modules.", "quantifier": "every call history that sets no waypoint, or no drivetrain", "why_tests_cant": "Undefined behaviour may pass any test, and the claim covers every history.", "anchors": ["include/trajopt/util/GenerateLinearInitialGuess.hpp", "include/trajopt/drivetrain/SwerveDrivetrain.hpp", "src/RustFFI.cpp: swerve_path_builder_new"]}
{"id": "C67", "title": "Concurrent generations are free of data races", "statement": "Running any number of Generate() calls and cancellations concurrently from different threads never makes two threads access the same plain (non-atomic) variable of the library without one access happening before the other.", "quantifier": "every interleaving of any number of threads, generators, solver iterations, clock readings and client synchronisation", "why_tests_cant": "a data race is undefined behaviour that a test run need not exhibit, and there are unboundedly many schedules", "anchors": ["src/SwerveTrajectoryGenerator.cpp: lastFrameTime", "src/util/Cancellation.cpp"]}
{"id": "C68", "title": "Which concurrent generations race", "statement": "If one generation draws a progress frame and another thread's generation afterwards passes the frame-rate check, the two race on the frame clock, unless in between the drawing thread has called Generate() or cancel_all() or has synchronised with another thread.", "quantifier": "every schedule", "why_tests_cant": "undefined behaviour; all schedules", "anchors": ["src/SwerveTrajectoryGenerator.cpp: lastFrameTime"]}
{"id": "C69", "title": "The latest call decides whether a generation goes on", "statement": "At each solver iteration a generation stops if and only if the most recent of all Generate() and cancel_all() calls made anywhere in the process is a cancel_all(); otherwise it goes on.", "quantifier": "every interleaving of any number of concurrent generations and cancellations", "why_tests_cant": "all schedules", "anchors": ["src/util/Cancellation.cpp", "src/RustFFI.cpp: cancel_all", "src/SwerveTrajectoryGenerator.cpp: Generate"]}
{"id": "C70", "title": "Rust generate always returns for a path with a waypoint", "statement": "For every Rust call history that returned and has at least one waypoint, generate() returns to the caller whatever the solver does: Ok with 1+sum(counts) samples if the solver ends with a nonnegative code other than the stop code, Err with the solver's message otherwise, Err if there are at least as many control interval counts as waypoints; without waypoints generate() is undefined behaviour.", "quantifier": "every Rust call history, solver exit code and final variable values", "why_tests_cant": "unbounded histories, sizes and solver outcomes", "anchors": ["src/RustFFI.cpp: generate", "src/lib.rs: generate", "src/SwerveTrajectoryGenerator.cpp"]}
{"id": "C71", "title": "Polygon obstacles of any shape are accepted from Rust", "statement": "sgmt_polygon_obstacle with equally long coordinate lists of at least three corners, a valid segment range and a nonnegative radius returns.", "quantifier": "every call history and polygon", "why_tests_cant": "all sizes and histories", "anchors": ["src/RustFFI.cpp: sgmt_polygon_obstacle, set_bumpers", "src/path/SwervePathBuilder.cpp: SgmtObstacle"]}
{"id": "C72", "title": "One step moves the robot at most one module spacing", "statement": "In any trajectory the solver may return for a robot whose modules are placed around its centre, two consecutive samples are at most s apart, for every nonzero x or y offset s between two modules listed one after the other, if the later heading (cosine, sine) has length one.", "quantifier": "every builder history, drivetrain with centred modules, solution and pair of consecutive samples", "why_tests_cant": "real-valued solutions, all drivetrains and sizes", "anchors": ["src/SwerveTrajectoryGenerator.cpp: constructor, time step bound, kinematics and wheel speed constraints"]}
{"id": "C73", "title": "Waypoints too far apart for their control intervals have no trajectory", "statement": "Samples i and j are at most (j-i)*s apart (s as in C72); hence if two waypoints with given positions are farther apart than s times the number of control intervals between them, and some waypoint gives a heading, no assignment satisfies the problem built by the generator.", "quantifier": "every builder history, drivetrain with centred modules and pair of waypoints", "why_tests_cant": "infeasibility over all real-valued assignments", "anchors": ["src/SwerveTrajectoryGenerator.cpp: constructor", "src/path/SwervePathBuilder.cpp: PoseWpt, TranslationWpt, ControlIntervalCounts"]}
{"id": "C74", "title": "One step turns the robot by less than half a turn", "statement": "In any trajectory the solver may return, angular velocity times time step is at most 2 radians in absolute value unless all modules are in one place, and at most sqrt 2 (less than a quarter turn) for modules on the corners of a rectangle; there the angle between consecutive headings tells whether the heading turned by angular velocity times time or by half a turn more.", "quantifier": "every builder history, drivetrain, solution and step", "why_tests_cant": "real-valued solutions, all drivetrains", "anchors": ["src/SwerveTrajectoryGenerator.cpp: constructor, time step bound, heading kinematics and wheel speed constraints"]}
{"id": "C75", "title": "Lower bounds on the duration of a trajectory", "statement": "In any trajectory the solver may return, the time between two samples is at least (a) their distance divided by the mean wheel speed limit, for modules placed around the centre and headings of length one, (b) mass times change of velocity divided by the sum of the modules' force limits, and (c) between consecutive waypoints at which the robot stands still at distance D, at least sqrt(4 m D / F), m the mass and F the sum of the force limits.", "quantifier": "every builder history, drivetrain, solution and pair of samples", "why_tests_cant": "a bound over all real-valued solutions and all sizes of problem", "anchors": ["src/SwerveTrajectoryGenerator.cpp: constructor, kinematics, force and wheel speed constraints"]}
{"id": "C76", "title": "The C++ examples are accepted", "statement": "All builder calls of the seven example programs return, whether or not assertions are compiled in, and constructing a generator from each of the paths returns; no call is undefined behaviour.", "quantifier": "every number type, handle and setting of NDEBUG", "why_tests_cant": "examples are not run by the tests and undefined behaviour may go unnoticed when run", "anchors": ["examples/Swerve/src/Main.cpp", "src/path/SwervePathBuilder.cpp", "src/SwerveTrajectoryGenerator.cpp: constructor"]}
{"id": "C77", "title": "Example 5 does not avoid its obstacle", "statement": "The path built by the fifth example (point obstacle) equals the path built by the first example: it adds no bumpers, so SgmtObstacle adds no constraint.", "quantifier": "every number type and setting of NDEBUG", "why_tests_cant": "equality of the whole path, for every number type", "anchors": ["examples/Swerve/src/Main.cpp: Example 5", "src/path/SwervePathBuilder.cpp: SgmtObstacle"]}
{"id": "C78", "title": "The optimum of the first example", "statement": "Every trajectory satisfying the problem built for the first example takes at least sqrt(9/10) seconds, and one takes exactly that long.", "quantifier": "every solution of the generated problem", "why_tests_cant": "optimality over all real-valued assignments", "anchors": ["examples/Swerve/src/Main.cpp: Example 1", "src/SwerveTrajectoryGenerator.cpp: constructor"]}
{"id": "C79", "title": "The Rust example and the obstacle test have no solution", "statement": "No assignment satisfies the problem built by the Rust example, nor the one built by the obstacle test once a drivetrain is set; as written the obstacle test sets none, and constructing the generator reads uninitialised numbers.", "quantifier": "every drivetrain, handle and assignment", "why_tests_cant": "infeasibility over all real-valued assignments; undefined behaviour", "anchors": ["examples/swerve.rs", "test/src/ObstacleTest.cpp", "src/SwerveTrajectoryGenerator.cpp: constructor"]}
{"id": "C80", "title": "Plans that stop and go are solutions", "statement": "If a list of stops and straight legs between them subdivides the segments of the path, each leg keeps wheel speeds, forces and time steps within the drivetrain's limits with n*n/4 units in n intervals (half speeding up, half slowing down), standing at a waypoint's stop meets the waypoint's requests and every state under way meets the segment's, then the problem built by the generator has a solution, of exactly the plan's duration.", "quantifier": "every builder history, drivetrain with centred modules, plan", "why_tests_cant": "existence of a real-valued solution for every path, drivetrain and problem size", "anchors": ["src/SwerveTrajectoryGenerator.cpp: constructor", "src/path/SwervePathBuilder.cpp", "src/path/SwervePathBuilder.cpp"]}
{"id": "C81", "title": "The C++ examples have solutions", "statement": "For each of the seven example programs there is an assignment of the decision variables that satisfies the problem built by the generator.", "quantifier": "every example, handle and setting of NDEBUG", "why_tests_cant": "the solver's tolerance hides infeasibility; exact existence over the reals", "anchors": ["examples/Swerve/src/Main.cpp", "src/SwerveTrajectoryGenerator.cpp: constructor"]}
{"id": "C82", "title": "Equality of poses and rotations over decision variables", "statement": "operator== on Rotation2 yields constraints satisfied exactly when the operands are parallel vectors and each operand of type Variable has length one, i.e. equal or opposite headings; on Pose2 additionally equal positions. The number of constraints is one plus one per Variable operand.", "quantifier": "every pair of operands, operand types and assignment", "why_tests_cant": "all real values of decision variables", "anchors": ["include/trajopt/geometry/Rotation2.hpp: operator==", "include/trajopt/geometry/Pose2.hpp: operator==", "include/trajopt/geometry/Translation2.hpp: operator=="]}
{"id": "C83", "title": "Timestamps in double precision", "statement": "Computed in IEEE binary64, the timestamps of a HolonomicTrajectory start at 0, never decrease and are never below a preceding step, if no step is negative or NaN. If sample k's timestamp is finite it differs from the exact sum of the first k steps by at most ((1+2^-53)^(k-1) - 1) times that sum. A positive step may leave the timestamp unchanged.", "quantifier": "every shape, every list of non-negative double steps, any libm", "why_tests_cant": "all lists of doubles", "anchors": ["include/trajopt/trajectory/HolonomicTrajectory.hpp: constructor"]}
{"id": "C84", "title": "Linspace in double precision", "statement": "Computed in IEEE binary64, the values of Linspace(a, b, n) go from a towards b without turning back if a, b and b - a are finite; each finite value differs from the exact one by at most 2^-53 (|a| + 5 |b - a|) + (n + 2) 2^-1074. The last value can fall short of b or overshoot it.", "quantifier": "every pair of finite doubles, n up to 2^53, every index", "why_tests_cant": "all doubles and counts", "anchors": ["include/trajopt/util/TrajoptUtil.hpp: Linspace"]}
{"id": "C85", "title": "The unit tests of the repository pass", "statement": "Every CHECK of test/src that calls no library function holds in IEEE binary64 whatever libm is, with and without assertions; every CHECK with a library function holds over the reals without tolerance.", "quantifier": "any cos, sin, atan2, hypot; NDEBUG set or not; all positions in the rotation test", "why_tests_cant": "one libm and one build type per run", "anchors": ["test/src/util/TrajoptUtilTest.cpp", "test/src/util/GenerateLinearInitialGuessTest.cpp", "test/src/geometry/Translation2dTest.cpp", "test/src/geometry/Rotation2dTest.cpp", "test/src/geometry/Pose2dTest.cpp", "test/src/SwervePathBuilderTest.cpp"]}
{"id": "C86", "title": "Copies and moves of a generator", "statement": "Generate on a generator, or on a copy or move of one, calls every progress callback of the path, in order, with the handle, at each due frame, and returns the solution or the failure.", "quantifier": "every sequence of constructions, copies, moves, assignments, destructions and runs", "why_tests_cant": "all sequences; use of a destroyed object is undefined behaviour", "anchors": ["src/SwerveTrajectoryGenerator.cpp: constructor (lambda capturing this), Generate", "include/trajopt/SwerveTrajectoryGenerator.hpp"]}
{"id": "C87", "title": "Whose decision variables a run moves", "statement": "Until the solver runs on it, a generator that was not copied keeps the starting values its constructor gave the decision variables, whatever is run on other generators. A run on a copy leaves the original at the values that run ended with.", "quantifier": "every sequence of constructions, copies, moves, assignments, destructions and runs", "why_tests_cant": "all sequences", "anchors": ["include/trajopt/SwerveTrajectoryGenerator.hpp", "src/SwerveTrajectoryGenerator.cpp: Generate, ApplyInitialGuess"]}
{"id": "C88", "title": "A shortest trajectory exists", "statement": "If the problem the constructor built for a path with a pose waypoint, a robot of positive mass and inertia and two modules at different places has any solution, then some solution has the smallest total time, and the objective handed to the solver attains its minimum.", "quantifier": "every builder program, every swerve drivetrain, every solvable problem, over the reals", "why_tests_cant": "existence of a minimum over an uncountable set", "anchors": ["src/SwerveTrajectoryGenerator.cpp: SwerveTrajectoryGenerator, problem.Minimize", "include/trajopt/constraint/*.hpp"]}
{"id": "C89", "title": "Field coordinates do not matter", "statement": "Mirroring, turning and shifting the field coordinates of everything passed to the builder (waypoints, guesses, constraints, obstacles, and mirroring the robot) changes the solutions of the problem in exactly the same way and leaves their time steps alone; a program that constructs still constructs.", "quantifier": "every builder program, every swerve drivetrain, every mirroring, angle and shift, every solution", "why_tests_cant": "relates the solution sets of two problems for a continuum of transformations", "anchors": ["src/SwerveTrajectoryGenerator.cpp", "src/path/SwervePathBuilder.cpp", "include/trajopt/geometry/*.hpp", "include/trajopt/constraint/*.hpp"]}
{"id": "C90", "title": "Units do not matter", "statement": "Measuring lengths, times and masses in other units (consistently, in everything passed to the builder and the drivetrain) changes the solutions only by the units.", "quantifier": "every builder program, every swerve drivetrain, every choice of units, every solution", "why_tests_cant": "relates the solution sets of two problems for a continuum of units", "anchors": ["include/trajopt/constraint/PointLineConstraint.hpp", "include/trajopt/constraint/LinePointConstraint.hpp", "src/SwerveTrajectoryGenerator.cpp"]}
{"id": "C91", "title": "Paths edited through GetPath", "statement": "After any mixture of builder calls and edits through the reference GetPath() returns, builder calls still have no undefined behaviour; whether the constructor returns, throws or is undefined depends only on how many waypoints, guess lists and interval counts there are and on whether a drivetrain was set; edits change neither the initial guess nor the interval counts nor the bumpers; and the problem is exactly the physics of the drivetrain and the constraints found in the path at that moment.", "quantifier": "every sequence of builder calls and edits, every number type (the last part: over the reals)", "why_tests_cant": "unbounded sequences of calls and arbitrary edits", "anchors": ["src/path/SwervePathBuilder.cpp: GetPath", "include/trajopt/path/Path.hpp", "src/SwerveTrajectoryGenerator.cpp: SwerveTrajectoryGenerator"]}
{"id": "C92", "title": "The order of constraint calls does not matter", "statement": "Constraint calls that name waypoints which already exist can be made in any order, and moved behind any other builder calls, without changing which trajectories solve the problem.", "quantifier": "every builder program, every reordering, every solution, over the reals", "why_tests_cant": "relates the solution sets of two problems for every program and reordering", "anchors": ["include/trajopt/path/SwervePathBuilder.hpp: WptConstraint, SgmtConstraint", "src/SwerveTrajectoryGenerator.cpp: SwerveTrajectoryGenerator"]}
{"id": "C93", "title": "Better hardware never hurts", "statement": "If a path has a trajectory for one robot, it has one for the same robot with faster wheels, with more torque, or with less mass and inertia.", "quantifier": "every builder program, every swerve drivetrain, every solution, over the reals", "why_tests_cant": "relates the solution sets of two problems for a continuum of robots", "anchors": ["src/SwerveTrajectoryGenerator.cpp: minWidth, dt constraint", "include/trajopt/drivetrain/SwerveDrivetrain.hpp"]}
{"id": "C94", "title": "The last drivetrain and all callbacks count", "statement": "A generator uses the drivetrain of the last SetDrivetrain call, all callbacks registered, in order of registration, and its handle, whatever other calls were made and whether or not they failed.", "quantifier": "every builder program, failing calls included, every number type", "why_tests_cant": "unbounded histories of calls", "anchors": ["src/path/SwervePathBuilder.cpp: SetDrivetrain, AddIntermediateCallback", "src/SwerveTrajectoryGenerator.cpp"]}
{"id": "C95", "title": "An exception from a progress callback", "statement": "If a user callback throws, the exception leaves Generate(); for that frame exactly the callbacks up to and including the throwing one were called, in order, the first with the solver's current values; the thread can call Generate() again, the aborted frame still counts for the 60 Hz limit, and no other generation is cancelled or revived by it.", "quantifier": "every schedule of any number of threads, every generator, iteration, set of callbacks and throwing callback", "why_tests_cant": "which callback throws, at which iteration, and what other threads do meanwhile are unbounded", "anchors": ["src/SwerveTrajectoryGenerator.cpp: the progress callback loop", "src/SwerveTrajectoryGenerator.cpp: Generate()"]}
{"id": "C96", "title": "Generate inside a progress callback", "statement": "A progress callback may itself call Generate() on another generator: no data race arises, the outer frame is completed, and a cancellation requested before still stops the outer generation.", "quantifier": "every schedule, generators, nesting of generations in callbacks", "why_tests_cant": "reentrancy combined with cancellation at an arbitrary moment; a data race need not show in a run", "anchors": ["src/SwerveTrajectoryGenerator.cpp: Generate()", "src/util/Cancellation.cpp"]}
{"id": "C97", "title": "Angle interpolation in double arithmetic takes the short way", "statement": "Computed in IEEE double arithmetic with any math library, AngleLinspace(a, b, n) with |a| + |b| + 4 <= 2^40 and n <= 2^53 returns only finite doubles, and there is a whole number of turns j such that d = b - a - 2 pi j is at most pi + 320 u (|a| + |b| + 4) in size, u = 2^-53, and the k-th value is within 80 u (|a| + |b| + 4) of a + k d / n. The bound on the angles cannot be dropped: AngleLinspace(0, 1e18, 1) returns a value above 8.", "quantifier": "for all finite doubles a, b of bounded size, all sample counts up to 2^53, all samples and all implementations of cos, sin, atan2, hypot", "why_tests_cant": "the claim is about every pair of doubles near the many half-turn boundaries, where a rounding error in the quotient changes the truncated integer; tests sample a few pairs", "anchors": ["include/trajopt/util/TrajoptUtil.hpp:44-60", "include/trajopt/util/TrajoptUtil.hpp:34-42"]}
{"id": "C98", "title": "The time step limit is a positive finite distance in double arithmetic", "statement": "In IEEE double arithmetic and for module coordinates that are arbitrary doubles, NaN and infinities included, the constructor limits each time step times each wheel's top speed by the least positive finite |x difference| or |y difference| of consecutive modules, or by infinity if there is none; never by NaN, zero or a negative number. A rounding error between two coordinates meant to be equal counts as such a distance: 0.1 + 0.2 against 0.3 limits the step below 1e-16.", "quantifier": "for all histories of builder calls, all drivetrains with any number of modules at any doubles, all time steps and modules", "why_tests_cant": "the order of std::min's arguments decides what NaN does, and the limit only shows through the optimiser; coordinates range over all doubles", "anchors": ["src/SwerveTrajectoryGenerator.cpp:108-131"]}
{"id": "C99", "title": "A builder survives running out of memory", "statement": "If a call of SwervePathBuilder throws std::bad_alloc (or length_error), the builder stays usable: neither that call nor any later one is undefined behaviour, nothing stored before is lost, and repeating the call with enough memory has the effect it would have had.", "quantifier": "for all histories of builder calls, in each of which memory may run out at any container growth, and all further calls", "why_tests_cant": "every allocation inside every call of every history is a possible point of failure; tests rarely inject one", "anchors": ["src/path/SwervePathBuilder.cpp:201-213", "src/path/SwervePathBuilder.cpp:23-199", "include/trajopt/path/SwervePathBuilder.hpp:124-147"]}
{"id": "C100", "title": "A trajectory is made of trajectories of its parts", "statement": "The stretch of a solution between two waypoints solves any path that has that stretch's interval counts and asks no more there, durations add up, no solution of a path is shorter than its legs planned one by one, and solutions of two legs that meet in one state join to a solution of the whole path.", "quantifier": "for all drivetrains with real wheels, all good histories with positive interval counts, all ways to cut the path at waypoints, all solutions", "why_tests_cant": "relates the solution sets of three different optimisation problems of any size; a test compares single solver outputs", "anchors": ["src/SwerveTrajectoryGenerator.cpp:96-271", "src/path/SwervePathBuilder.cpp:23-199"]}
{"id": "C101", "title": "Asking less or adding a free waypoint never hurts", "statement": "Leaving out a constraint call, an obstacle call or a bumper, or adding a waypoint at which nothing new is asked, keeps every solution of the path.", "quantifier": "for all histories of builder calls, all calls left out, all waypoints added between two samples, all solutions", "why_tests_cant": "an inclusion between the solution sets of two problems of any size; the solver returns one point of each", "anchors": ["src/path/SwervePathBuilder.cpp:58-181", "src/SwerveTrajectoryGenerator.cpp:134-174", "src/SwerveTrajectoryGenerator.cpp:225-268"]}
{"id": "C102", "title": "The solver starts from finite numbers", "statement": "If every coordinate and rotation given to the builder is a finite double of size at most 2^400, every angle is finite, no segment is empty, there are at most 2^53 samples and cos, sin and atan2 are accurate to 1/2, then all positions, headings, velocities, accelerations, forces and time steps the constructor gives the solver are finite doubles. Without a bound on the coordinates some are infinite.", "quantifier": "for all histories of builder calls within the bounds, all library functions accurate to 1/2, all drivetrains", "why_tests_cant": "overflow and division by a vanishing time step depend on the combination of coordinates, number of samples and library results", "anchors": ["include/trajopt/util/GenerateLinearInitialGuess.hpp", "include/trajopt/util/TrajoptUtil.hpp", "src/SwerveTrajectoryGenerator.cpp:295-343", "src/SwerveTrajectoryGenerator.cpp:140-143"]}
{"id": "C103", "title": "Sample counts never wrap around", "statement": "With 64-bit size_t sums and vectors that may fail to grow, the constructor either throws bad_alloc or length_error, having been refused at most one double per sample, or behaves exactly as with unbounded sums. No generator is ever made for 2^60 samples or more, even if the wrapped number of samples is small.", "quantifier": "for all histories of builder calls, all interval counts of 64 bits, all allocators that cannot provide 2^60 doubles, all patterns of failed allocations", "why_tests_cant": "needs segments of 2^63 intervals, and an allocation failure at every point of the initial guess", "anchors": ["include/trajopt/util/TrajoptUtil.hpp:21-60", "include/trajopt/util/GenerateLinearInitialGuess.hpp:18-117", "src/SwerveTrajectoryGenerator.cpp:40-90", "src/SwerveTrajectoryGenerator.cpp:148-268"]}
{"id": "C104", "title": "The robot gains no more energy than its motors deliver", "statement": "In every solution of the generated problem the work of the modules over a time step equals the gain in kinetic energy plus the energy of the velocity step itself; the power of the modules is at most that of all motors at full torque and full speed; so between any two samples kinetic energy grows by at most that power times the elapsed time.", "quantifier": "for all histories of builder calls, all drivetrains with positive wheel radii, all solutions of the problem handed to the solver, all pairs of samples whose headings have unit length", "why_tests_cant": "a test inspects the one trajectory a solver happens to return", "anchors": ["src/SwerveTrajectoryGenerator.cpp:146-224"]}
{"id": "C105", "title": "Trajectories can be driven slower; the shortest reaches a limit", "statement": "Driving a solution k times as slowly (k >= 1) gives another solution of the same problem, as long as its time steps stay within their bound; so all durations in between are possible. A shortest solution that takes any time has some wheel at top speed, some module at its largest force, or some requested bound on a speed or acceleration reached.", "quantifier": "for all accepted histories of builder calls without empty segments, all drivetrains with positive wheel radii, all solutions, all factors of at least 1", "why_tests_cant": "quantifies over all solutions of a nonlinear problem; a solver returns one", "anchors": ["src/SwerveTrajectoryGenerator.cpp:108-269", "include/trajopt/constraint/LinearVelocityMaxMagnitudeConstraint.hpp:20-50", "include/trajopt/constraint/LinearAccelerationMaxMagnitudeConstraint.hpp:20-50", "include/trajopt/constraint/AngularVelocityMaxMagnitudeConstraint.hpp:20-50"]}
{"id": "C106", "title": "A result holds what was put in it", "statement": "Constructing, copying, moving, assigning, emplacing, swapping, reading and destroying expected objects (include/trajopt/util/expected, the type Generate returns) does to each object what the operation is documented to do, in any sequence; reading a value that is not there is undefined, or an assertion failure where the header asserts; what Generate returns is what its caller reads, even if no memory can be allocated any more.", "quantifier": "for all value and error types and their noexcept traits, all sequences of operations on any number of objects", "why_tests_cant": "quantifies over all programs and all member types; the undefined accesses show no reliable symptom", "anchors": ["include/trajopt/util/expected:473-514", "include/trajopt/util/expected:729-910", "include/trajopt/util/expected:1595-2108", "src/SwerveTrajectoryGenerator.cpp:287-293", "src/RustFFI.cpp:184-205"]}
{"id": "C107", "title": "When a member of a result throws", "statement": "If copying, moving or assigning a value or an error throws, every expected object involved still holds a value or an error, and only the target may have changed; an assignment that throws leaves its target alone.", "quantifier": "for all value and error types, all operations, all choices of which member operations throw", "why_tests_cant": "needs every allocation to be made to fail in turn, for every type", "anchors": ["include/trajopt/util/expected:729-846", "include/trajopt/util/expected:1734-1985"]}
{"id": "C108", "title": "Functions applied to results, and comparisons", "statement": "map, and_then, map_error and or_else call the function exactly on the value or the error they are for, pass the other on, let exceptions through and compose; or_else with a function that returns nothing returns the error; two results are equal if both hold equal values or both hold equal errors, and != is the contrary of ==.", "quantifier": "for all types, all functions including those that throw or change their argument, all objects", "why_tests_cant": "quantifies over all functions and types", "anchors": ["include/trajopt/util/expected:2120-2414", "include/trajopt/util/expected:2440-2501"]}
{"id": "C109", "title": "Every member of a result is destroyed once", "statement": "In every program each value and each error that an expected object constructs is destroyed exactly once when the object is done with it.", "quantifier": "for all types, all sequences of operations on expected objects", "why_tests_cant": "a leak shows no symptom, and all programs are quantified over", "anchors": ["include/trajopt/util/expected:473-508", "include/trajopt/util/expected:1665-1720", "include/trajopt/util/expected:729-846"]}
{"id": "C110", "title": "What the examples' trajectories do", "statement": "The trajectories of each C++ example are exactly those that obey the physics and have, at the samples of the waypoints, the positions, headings (up to the opposite), rest, straight motion and absence of rotation that the example's comments announce; the third example rests at its middle waypoint and not at its last, and the circular path keeps 1 m from its centre at every sample; the Rust example builds the path of the corresponding C++ calls with the same drivetrain.", "quantifier": "for all seven examples, with and without assertions, all solutions of the optimisation problem", "why_tests_cant": "the examples run the solver once; all solutions of the problem are quantified over, in both directions", "anchors": ["examples/Swerve/src/Main.cpp:28-172", "src/SwerveTrajectoryGenerator.cpp: constructor", "include/trajopt/constraint", "examples/swerve.rs"]}
{"id": "C111", "title": "A ledger of generator objects", "statement": "After any sequence of constructions, copies, moves, assignments, destructions and runs of generators, a ledger that only records which constructor call made what each object holds tells what the next step does: which steps are possible, what a run returns (the result of the generator the object holds), and whose callbacks it calls with which solution and handle: those of whatever the object of the original construction holds now; none if it was moved from; undefined behaviour if it was destroyed.", "quantifier": "for all sequences of steps on any number of generators, all builders, all solver iterations", "why_tests_cant": "all sequences of steps are quantified over, and the wrong cases are undefined behaviour or silent", "anchors": ["include/trajopt/SwerveTrajectoryGenerator.hpp:24-79", "src/SwerveTrajectoryGenerator.cpp:40-62", "src/SwerveTrajectoryGenerator.cpp:274-294"]}
{"id": "C112", "title": "The objective prefers shorter trajectories for any number of intervals", "statement": "Of two trajectories that satisfy the problem the shorter one has the lower objective, however many control intervals the segments have.", "quantifier": "for all paths whose segments have at least one interval, all pairs of assignments that satisfy the problem", "why_tests_cant": "it takes 2^31 intervals to see the narrowing to int, more than fit into a test's memory", "anchors": ["src/SwerveTrajectoryGenerator.cpp:133-143"]}
{"id": "C113", "title": "Rounding does not change what is demanded", "statement": "The problem the generator builds from doubles, taken as equations over the reals, is satisfied by exactly the trajectories that keep the documented physics and constraints: rounding the products, quotients and squares of the given numbers changes no limit.", "quantifier": "for all paths of ordinary finite numbers, all generators constructed from them, all trajectories, whatever the library's cos, sin, atan2 and hypot", "why_tests_cant": "a limit off by one rounding is far below any solver tolerance, and whether every limit is off by at most a few roundings is a statement about all inputs", "anchors": ["src/SwerveTrajectoryGenerator.cpp:145-271", "include/trajopt/constraint/LinearVelocityMaxMagnitudeConstraint.hpp:28-54", "include/trajopt/constraint/PointPointConstraint.hpp:37-60"]}
{"id": "C114", "title": "A velocity direction given as an angle is the direction of motion", "statement": "A velocity direction constraint built from an angle lets the robot move, at any speed, along that angle, and makes it move along it, either way, whichever double the angle is.", "quantifier": "for all angles, all paths of ordinary finite numbers with such a constraint, all trajectories that satisfy the problem; cos and sin correctly rounded", "why_tests_cant": "tests run a solver with a tolerance, which hides that for many angles no motion satisfies the constraint exactly", "anchors": ["include/trajopt/constraint/LinearVelocityDirectionConstraint.hpp:24-49", "include/trajopt/geometry/Rotation2.hpp:33-34"]}
{"id": "C115", "title": "A robot that executes the planned accelerations passes through the planned samples", "statement": "A robot that starts at the first sample and accelerates, between samples, as the trajectory says has the planned velocity, position and heading at each planned time.", "quantifier": "for all paths, all generators constructed from them, all trajectories that satisfy the problem, all motions in continuous time that follow the planned accelerations", "why_tests_cant": "tests compare samples with each other; none integrates the accelerations in continuous time, and the claim is about every solution of every problem", "anchors": ["src/SwerveTrajectoryGenerator.cpp:145-173", "include/trajopt/trajectory/HolonomicTrajectorySample.hpp:16-81"]}
{"id": "C116", "title": "No trajectory is planned to be faster than the drivetrain allows", "statement": "A segment that starts from rest and covers a distance D takes at least sqrt(2 m D / F), the time full thrust F needs to move the mass m that far, however many control intervals it has.", "quantifier": "for all paths, all drivetrains, all trajectories that satisfy the problem, all segments that start from rest", "why_tests_cant": "the shortfall is a property of the optimum over all trajectories and depends on the number of intervals; tests only check that solving succeeds", "anchors": ["src/SwerveTrajectoryGenerator.cpp:133-173", "src/SwerveTrajectoryGenerator.cpp:176-224"]}
{"id": "C117", "title": "A constraint on a segment holds all along the segment", "statement": "When SgmtConstraint asks for a constraint from one waypoint to another, the robot meets it at every moment in between, also between two samples of the trajectory (everything interpolated, the heading turning at the planned angular velocity).", "quantifier": "for all paths and constraints, all drivetrains, all trajectories that satisfy the problem, all consecutive samples of the segment and all moments between them", "why_tests_cant": "constraints are only evaluated at samples, so a sampled check cannot see the moments in between; how far the distance to an obstacle can drop there depends on the longest step any solution may take", "anchors": ["src/SwerveTrajectoryGenerator.cpp:133-173", "src/SwerveTrajectoryGenerator.cpp:226-268"]}
{"id": "C118", "title": "It does not matter which side of the robot is called its front", "statement": "Describing the same robot with another side as its front - modules, bumpers and points of constraints in the new frame, headings of waypoints and guesses turned by the angle between the fronts - gives the same motions: the same positions, velocities, forces and time steps, with the headings turned by that angle; a program that constructs still constructs.", "quantifier": "every builder program without lapses, every swerve drivetrain, every angle between the fronts, every solution", "why_tests_cant": "relates the solution sets of two problems for a continuum of angles; the dependence on the robot's axes shows only for angles that are no quarter turns and solutions near the longest time step", "anchors": ["src/SwerveTrajectoryGenerator.cpp:104-131", "src/SwerveTrajectoryGenerator.cpp:175-224", "src/path/SwervePathBuilder.cpp", "include/trajopt/constraint/PointAtConstraint.hpp"]}
{"id": "C119", "title": "With enough control intervals every path with a free way can be driven", "statement": "Let the wheels turn and push and the modules not all be at one place. If there is a chain of stops through the waypoints, with straight legs between them, such that standing at the waypoints and creeping along the legs meets all that was asked for, then for all sufficiently large control interval counts the problem has a solution; in particular any sequence of poses can be visited, stopping at each, under any positive limits on speed and angular velocity. A robot with all modules at its centre cannot turn, however many intervals there are.", "quantifier": "every builder program without lapses, every drivetrain with driven wheels in at least two places (balanced or not, of any mass), every free way, all interval counts from some number on", "why_tests_cant": "existence of solutions for infinitely many counts and all drivetrains; a solver run that fails does not show that there is no solution, one that succeeds says nothing about other counts", "anchors": ["src/SwerveTrajectoryGenerator.cpp:104-131", "src/SwerveTrajectoryGenerator.cpp:133-224", "src/path/SwervePathBuilder.cpp", "README.md"]}
{"id": "C120", "title": "More control intervals never make a solvable path unsolvable", "statement": "If the generated problem has a solution with some control interval counts, it has one with more intervals on any segment. This fails: segment constraints bind at the samples only, so with one interval a robot may leap over a point it has to keep away from and with two it cannot. It holds wherever a solution rests at some sample of the segment (the robot waits there and all its other states are unchanged), hence for every segment at one of whose ends the program asks the robot to stop at a pose, and for every tour of poses.", "quantifier": "every builder program without lapses, every drivetrain with real wheels, all interval counts and every larger choice of counts, every solution", "why_tests_cant": "infinitely many counts, and unsolvability for one of them cannot be observed by running the solver", "anchors": ["src/SwerveTrajectoryGenerator.cpp:104-131", "src/SwerveTrajectoryGenerator.cpp:133-224", "include/trajopt/path/SwervePathBuilder.hpp", "README.md"]}
{"id": "C121", "title": "The laws of rotations and translations hold in double arithmetic", "statement": "Rotation2d and Translation2d obey the laws of rotations and vectors. Not all hold: sums of rotations are not associative, r - r need not be the rotation by zero, and rotating a vector can change its length. What holds: sums and dot products commute and negation is its own inverse bit by bit; adding zero, t - t, the sine of r - r, t x t, and rotating by nothing or by a quarter turn are exact; a vector rotated by an angle whose cosine and sine are known up to delta is off by at most (delta + 4 roundings) times its length; the sum of n rotations is off by at most 2 n (delta + 4 roundings).", "quantifier": "all doubles (bitwise laws), all doubles of size below 2^500 or 2^1022 (exact laws and error bounds), sums of any number of rotations, every cos, sin, atan2 and hypot of the library", "why_tests_cant": "2^128 pairs of doubles per operation, and error bounds for sums of any length; a test can only show single sums to be off", "anchors": ["include/trajopt/geometry/Rotation2.hpp:58-112", "include/trajopt/geometry/Translation2.hpp:80-205"]}
{"id": "C122", "title": "A robot that drives the plan keeps clear of what the plan keeps clear of", "statement": "A robot that starts as planned and accelerates as planned keeps the distances the plan keeps at its samples. This fails: a plan that stays a quarter of a metre away from a point at all samples, as asked, leads the robot into the point. What holds at every moment of a step, for every point of the robot: of the distance planned at either end of the step at most the lag (half of each change of velocity times the step, added up; likewise for the heading) and the way driven and turned from that sample at the greater of the two speeds is lost. With neighbouring modules s apart and a robot no larger than rho, that is at most (w + 3/2)(s + 2 rho) in segment w, and s + 2 rho if the plan stops at every waypoint so far, for points and for whole outlines.", "quantifier": "every path, solution and motion in continuous time, every moment, every point of the robot and of the field, all outlines", "why_tests_cant": "continuous time, all motions and unbounded numbers of segments and samples", "anchors": ["src/SwerveTrajectoryGenerator.cpp:133-224", "include/trajopt/constraint/PointPointConstraint.hpp", "README.md"]}
{"id": "C123", "title": "A path driven the other way takes as long", "statement": "If one path asks of its waypoints and segments, in the other order, what another asks of its own, with the control interval counts in the other order and the same drivetrain, then to a solution of one there is a solution of the other that takes as long. This fails: a robot may have a plan to start over a distance and none to stop over it, and where there is one, it takes longer by a factor of at least the square root of (n + 1) / (n - 1) with n control intervals, and by exactly this factor if there are at least two control intervals, the modules are equally strong and balanced around the centre, and the problem allows the speeds and time steps it takes. What holds: a solution that stands at every waypoint and never turns the robot has a counterpart with its time steps in the other order, if every limit on acceleration asked of a waypoint is asked of the segment after it as well. Turning in between does no harm if all poses face one way, only positions, speeds and accelerations are constrained and the modules are alike and balanced around the centre. So every tour of poses that face one way, with stops at each, takes as long the other way.", "quantifier": "every pair of paths, drivetrain, number of segments and control intervals, and solution", "why_tests_cant": "existence and non-existence of solutions over all paths, drivetrains and counts", "anchors": ["src/SwerveTrajectoryGenerator.cpp:133-224", "src/SwerveTrajectoryGenerator.cpp:60-131"]}
{"id": "C124", "title": "A mirrored path has the mirrored trajectory on the same symmetric robot", "statement": "If everything passed to the builder but the drivetrain is mirrored, turned and shifted, and each module of the robot has its like on the other side of the robot, wherever in the list of modules, then the path still builds and constructs, and its solutions move exactly as the mirrored, turned and shifted solutions of the original path do, with the same time steps; each module pushes as its counterpart does. Without mirroring, no symmetry of the robot is needed.", "quantifier": "every builder program, every swerve drivetrain symmetric about its x axis, every mirroring, angle and shift, every solution", "why_tests_cant": "relates the solution sets of two problems for a continuum of transformations and all orders of modules", "anchors": ["src/SwerveTrajectoryGenerator.cpp:60-224", "src/path/SwervePathBuilder.cpp"]}
{"id": "C125", "title": "Which robots can do with less to carry whatever they could", "statement": "If a path has a trajectory for a robot, it has one for the same robot with any part of its mass and any part of its moment of inertia, exactly if the modules are balanced: pushing all the same way as hard as they can they do not turn the robot, and turning it as hard as they can they do not push it more than modules at its centre can make up for. So modules in pairs across the centre, or three alike on the corners of a triangle with equal sides, keep all their paths, with the same motion; but with one module beside the centre, or two of unequal strength, there is a mass, an inertia and a path that halving the inertia, or the mass, leaves without a solution.", "quantifier": "every list of modules whose wheels can turn, all masses and inertias, all factors between 0 and 1, every builder program and every solution", "why_tests_cant": "existence and non-existence of solutions over all paths and drivetrains", "anchors": ["src/SwerveTrajectoryGenerator.cpp:133-224"]}
{"id": "C126", "title": "A solution can face backwards at any of its samples", "statement": "For a robot each of whose modules has its like across the centre, and constraints that ask of each robot point what they ask of the point across and contain no PointAt constraint: given a solution and any set of its samples, there is a solution with the same times, positions, velocities and accelerations whose heading is the opposite at exactly the samples of that set. So the problem never decides which way such a robot faces, at any sample, whatever headings the poses name and however slowly it turns.", "quantifier": "every builder program of even-handed constraints, every drivetrain with modules in pairs, every solution and every set of samples", "why_tests_cant": "existence of solutions over all paths, drivetrains and sets of samples", "anchors": ["include/trajopt/geometry/Rotation2.hpp: operator==", "include/trajopt/geometry/Pose2.hpp: operator==", "src/SwerveTrajectoryGenerator.cpp:133-224"]}
{"id": "C127", "title": "Which orders of the modules, and which better motors, keep every path", "statement": "Whatever modules a robot gets instead of its own: if every path that had a trajectory still has one, then every time step the old modules allow is allowed by the new ones. For the same modules listed in another order, and for motors that are faster or stronger, this is also enough. So of three modules in a row, listing the middle one second loses a path that listing it last has, and twice the wheel speed loses a path.", "quantifier": "every two lists of modules whose wheels can turn, all masses and inertias, every builder program", "why_tests_cant": "existence and non-existence of solutions over all paths and drivetrains", "anchors": ["src/SwerveTrajectoryGenerator.cpp:108-224"]}
{"id": "C128", "title": "Slower or smaller wheels keep every path, faster or larger ones do not", "statement": "If all wheels of a robot become f times as fast and all its motors t times as strong, every path that had a trajectory still has one exactly if f <= 1 and f*f <= t (some motor has torque and the modules are not all at one place): the slower robot drives the same poses 1/f times as slowly. In particular gears that slow the wheels down, and smaller wheels, keep every path, while gears that speed them up, and larger wheels, do not; making all wheels faster always leaves some path without a trajectory, whatever torque is added.", "quantifier": "every list of modules whose wheels can turn, all factors, masses and inertias, every builder program and every solution", "why_tests_cant": "existence and non-existence of solutions over all paths and drivetrains", "anchors": ["src/SwerveTrajectoryGenerator.cpp:108-224"]}
{"id": "C129", "title": "Modules farther out keep every path", "statement": "For a robot each of whose modules has its like across the centre and whose modules are not all at one place, with all modules moved to s times their distance from the centre (same mass, inertia, motors and bumpers), every path that had a trajectory still has one exactly if s >= 1: the wider robot drives the same poses s times as slowly. A narrower robot always loses some path, as its longest time step is shorter.", "quantifier": "every list of modules in pairs whose wheels can turn, all factors, masses and inertias, every builder program and every solution", "why_tests_cant": "existence and non-existence of solutions over all paths and drivetrains", "anchors": ["src/SwerveTrajectoryGenerator.cpp:108-224"]}
{"id": "C130", "title": "Which robots on another scale keep every path", "statement": "Take a robot each of whose modules has its like across the centre, whose modules are not all at one place, and which has a module with torque off the centre. Change its mass by a factor k, its inertia by j, the radius of all wheels by r, their top speed by f, their torque by t, and the distance of all modules from the centre by s (bumpers unchanged). Then every path that had a trajectory still has one exactly if s >= 1, f r <= s, k (f r)^2 r <= t s^2 and j (f r)^2 r <= t s^3; the trajectory drives the same poses s / (f r) times as slowly. For any robot whose modules stay where they are and whose mass and inertia change by the same factor, in pairs or not, the conditions are f r <= 1 and k (f r)^2 r <= t. A robot of the same material and l times the size in every direction keeps every path exactly if l >= 1, its wheels turn no faster, and they have l^5 f^2 times the torque.", "quantifier": "every list of modules whose wheels can turn (in pairs where said), all positive factors, masses and inertias, every builder program and every solution", "why_tests_cant": "existence and non-existence of solutions over all paths, drivetrains and factors", "anchors": ["src/SwerveTrajectoryGenerator.cpp:108-224"]}
{"id": "C131", "title": "Which further modules keep every path", "statement": "If a robot gets a further module, listed last (same mass and inertia), every path that had a trajectory still has one if every time step that was allowed still is and the new wheel is never too fast while the others are not; the same motion will do, and the new module need not push. If the modules are not all at one place, a further module that takes away a time step, or whose wheel is slower than all others, loses a path. For equally fast modules some of which have torque, the two conditions are exact. A further module on the line between two others, or where one is, that is as fast meets the second one: so doubling the last module keeps every path. A module in the centre of two loses one, as it halves the longest time step; a third module on a free corner of the square loses one although it allows all time steps, as its wheel may be the fastest.", "quantifier": "every list of modules whose wheels can turn, every further module, all masses and inertias, every builder program and every solution", "why_tests_cant": "existence and non-existence of solutions over all paths and drivetrains", "anchors": ["src/SwerveTrajectoryGenerator.cpp:108-224"]}
{"id": "C132", "title": "Which modules can be left out", "statement": "If the last module of a robot is left out (same mass and inertia), every path that had a trajectory still has one if the module had no torque, with the same motion. It does not if the module adds more to the total force than leaving it out adds to the square of the longest time step; so where leaving it out allows no longer time steps, a module can be left out exactly if it has no torque.", "quantifier": "every list of modules whose wheels can turn, all masses and inertias, every builder program and every solution", "why_tests_cant": "existence and non-existence of solutions over all paths and drivetrains", "anchors": ["src/SwerveTrajectoryGenerator.cpp:108-224"]}
{"id": "C133", "title": "The segment measure in doubles is taken to a point of the segment", "statement": "Evaluated with doubles, the point-to-line-segment measure is the computed squared distance to a point of the segment: the foot of the point as computed, moved onto the segment with an error of at most 2^-54 of the segment's length, and of none past its middle, up to a few roundings of the coordinates; to the segment's start itself if the foot is before it, and to its end itself if the foot is beyond it.", "quantifier": "every segment with coordinates of size at most 2^1000 and every point whose computed foot is finite and of size at most 2^1000", "why_tests_cant": "all doubles; cancellation in the branch-free minimum and maximum", "anchors": ["include/trajopt/constraint/detail/LinePointDistance.hpp: LinePointDistance"]}
