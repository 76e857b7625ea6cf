{"claims": [
{"property": "C01", "status": "proved", "theorems": ["C01_sample_indexing_bijection"], "note": ""},
{"property": "C02", "status": "proved", "theorems": ["C02_linspace", "C02_linspace_length"], "note": ""},
{"property": "C03", "status": "proved", "theorems": ["C03_anglelinspace_short_way"], "note": ""},
{"property": "C04", "status": "proved", "theorems": ["C04_guess_dimensions", "C04_guess_outcomes"], "note": ""},
{"property": "C05", "status": "proved", "theorems": ["C05_guess_starts_at_first_waypoint", "C05_guess_interpolates", "C05_guess_hits_points"], "note": ""},
{"property": "C06", "status": "proved", "theorems": ["C06_guess_headings_unit"], "note": ""},
{"property": "C07", "status": "partial", "theorems": ["C07_seed_values", "C07_integration_refuted", "C07_finite_refuted"], "note": "Seeds proved as documented for every number type; refuted: the integration constraints do not hold at the seeds (segment time step 5/N differs from the guess step) and a zero-interval segment seeds an infinite step."},
{"property": "C08", "status": "proved", "theorems": ["C08_builder_bookkeeping"], "note": ""},
{"property": "C09", "status": "proved", "theorems": ["C09_waypoints_on_demand", "C09_constraint_lists_only_grow"], "note": ""},
{"property": "C10", "status": "proved", "theorems": ["C10_control_interval_counts"], "note": ""},
{"property": "C11", "status": "proved", "theorems": ["C11_constraints_recorded_exactly"], "note": ""},
{"property": "C12", "status": "proved", "theorems": ["C12_guesses_recorded_exactly", "C12_wrapped_index"], "note": ""},
{"property": "C13", "status": "proved", "theorems": ["C13_waypoint_constraint_at_its_sample"], "note": ""},
{"property": "C14", "status": "proved", "theorems": ["C14_segment_constraint_on_closed_range"], "note": ""},
{"property": "C15", "status": "partial", "theorems": ["C15_problem_is_physics_refuted", "C15_physics_is_admitted_partial"], "note": "Refuted as stated (half-turn overshoot is admitted). Proved: every physical trajectory meeting the requests is admitted. The exact characterisation of what is admitted is C60."},
{"property": "C16", "status": "proved", "theorems": ["C16_integration_steps", "C16_integration_sums"], "note": ""},
{"property": "C17", "status": "partial", "theorems": ["C17_unit_headings_refuted", "C17_unit_headings_partial"], "note": "Refuted without a pose waypoint; proved with one anywhere on the path. The general case is characterised by C61."},
{"property": "C18", "status": "partial", "theorems": ["C18_heading_integrates_refuted", "C18_heading_integrates_partial", "C18_small_turns_partial"], "note": "Refuted (half a turn too far is admitted). Proved: the rotation or its opposite, and the rotation itself for turns below a quarter revolution; C74 shows the alternative is decided by the headings for rectangular module layouts."},
{"property": "C19", "status": "proved", "theorems": ["C19_newton"], "note": ""},
{"property": "C20", "status": "partial", "theorems": ["C20_wheel_limits_refuted", "C20_wheel_limits_partial"], "note": "Refuted where the heading is not a unit vector; proved for forces always, for speeds at unit headings."},
{"property": "C21", "status": "proved", "theorems": ["C21_time_steps"], "note": ""},
{"property": "C22", "status": "proved", "theorems": ["C22_objective_is_duration"], "note": ""},
{"property": "C23", "status": "partial", "theorems": ["C23_module_order_refuted", "C23_module_order_partial"], "note": "Refuted (the time step bound uses consecutive modules); proved when the time step bounds agree. C127 shows that this is needed for all paths to survive."},
{"property": "C24", "status": "proved", "theorems": ["C24_distinct_variables"], "note": ""},
{"property": "C25", "status": "proved", "theorems": ["C25_solution_dimensions", "C25_equal_steps_in_segment"], "note": ""},
{"property": "C26", "status": "proved", "theorems": ["C26_timestamps"], "note": ""},
{"property": "C27", "status": "proved", "theorems": ["C27_samples_carry_data", "C27_no_out_of_bounds"], "note": ""},
{"property": "C28", "status": "partial", "theorems": ["C28_pose_constraint_partial", "C28_pose_waypoint_refuted"], "note": "Refuted (the opposite heading is accepted); proved: position pinned, heading up to half a turn. C65 gives the run-level form."},
{"property": "C29", "status": "proved", "theorems": ["C29_translation_constraint", "C29_translation_waypoint"], "note": ""},
{"property": "C30", "status": "proved", "theorems": ["C30_linear_velocity_max_magnitude"], "note": ""},
{"property": "C31", "status": "proved", "theorems": ["C31_angular_velocity_max_magnitude"], "note": ""},
{"property": "C32", "status": "proved", "theorems": ["C32_linear_acceleration_max_magnitude"], "note": ""},
{"property": "C33", "status": "partial", "theorems": ["C33_velocity_direction_refuted", "C33_velocity_direction_partial"], "note": "Refuted (opposite direction accepted); proved: velocity on the line in the given direction, either sign."},
{"property": "C34", "status": "partial", "theorems": ["C34_point_at_refuted", "C34_point_at_partial"], "note": "Refuted for tolerances above half a turn (sign of the cosine is lost); proved exact up to half a turn."},
{"property": "C35", "status": "proved", "theorems": ["C35_point_point_distance"], "note": ""},
{"property": "C36", "status": "proved", "theorems": ["C36_line_measure_exact", "C36_point_measure_exact"], "note": ""},
{"property": "C37", "status": "partial", "theorems": ["C37_line_point_refuted", "C37_point_line_refuted", "C37_line_point_partial", "C37_point_line_partial", "C37_safe_up_to_one_partial"], "note": "Refuted (a squared distance is squared again, enforcing sqrt d); proved: exactly what is enforced, and that it is safe for d up to 1."},
{"property": "C38", "status": "partial", "theorems": ["C38_obstacle_throws_refuted", "C38_obstacle_closing_edge_refuted", "C38_obstacle_constraints_partial", "C38_obstacle_returns_iff"], "note": "Refuted (throws, or omits the closing edge, for unequal corner counts); proved for equal corner counts or obstacles under three corners, and exactly when the call returns."},
{"property": "C39", "status": "partial", "theorems": ["C39_every_bumper_refuted", "C39_every_bumper_partial"], "note": "Refuted (bumpers after a single-point bumper are skipped for a single-point obstacle); proved otherwise."},
{"property": "C40", "status": "partial", "theorems": ["C40_crossing_refuted", "C40_above_one_refuted", "C40_closing_side_refuted", "C40_outlines_apart_partial", "C40_up_to_one_partial", "C40_short_sides_partial"], "note": "Refuted for crossing outlines, distances above one and unequal corner counts; proved: outlines touch or are sqrt of the safety distance apart, hence the documented distance up to one metre, and they cannot touch when one polygon's sides are short."},
{"property": "C41", "status": "proved", "theorems": ["C41_only_earlier_bumpers", "C41_bumpers_are_those_added"], "note": ""},
{"property": "C42", "status": "proved", "theorems": ["C42_failing_calls"], "note": ""},
{"property": "C43", "status": "proved", "theorems": ["C43_generate_result"], "note": ""},
{"property": "C44", "status": "partial", "theorems": ["C44_cancel_stops_refuted", "C44_cancel_stops_partial"], "note": "Refuted (a Generate starting elsewhere clears the flag); proved when no Generate starts between cancellation and iteration."},
{"property": "C45", "status": "proved", "theorems": ["C45_no_stale_cancel"], "note": ""},
{"property": "C46", "status": "partial", "theorems": ["C46_every_iteration_refuted"], "note": "Refuted: iterations within 1/60 s of the last frame call nobody. What is delivered is C47."},
{"property": "C47", "status": "partial", "theorems": ["C47_iteration_partial", "C47_rate_partial", "C47_rate_refuted"], "note": "Per-iteration behaviour proved; the rate limit proved for race-free runs and refuted for two concurrent generations."},
{"property": "C48", "status": "proved", "theorems": ["C48_call", "C48_history", "C48_path", "C48_generate", "C48_progress"], "note": ""},
{"property": "C49", "status": "partial", "theorems": ["C49_replaces_refuted", "C49_bumpers_partial", "C49_rectangle_partial"], "note": "Refuted (a second call keeps the first rectangle); proved: rectangle shape and that the bumpers are all rectangles passed."},
{"property": "C50", "status": "proved", "theorems": ["C50_polygon_obstacle"], "note": ""},
{"property": "C51", "status": "proved", "theorems": ["C51_rotation_group"], "note": ""},
{"property": "C52", "status": "proved", "theorems": ["C52_translation_space", "C52_rotation_isometry"], "note": ""},
{"property": "C53", "status": "proved", "theorems": ["C53_angles_round_trip"], "note": ""},
{"property": "C54", "status": "proved", "theorems": ["C54_builder_unchanged", "C54_generator_unchanged", "C54_construct_twice"], "note": ""},
{"property": "C55", "status": "proved", "theorems": ["C55_accepted_paths", "C55_trailing_waypoints_ignored"], "note": ""},
{"property": "C56", "status": "partial", "theorems": ["C56_rejected_refuted"], "note": "Refuted: without waypoints the constructor reads the front of an empty vector, without a drivetrain it reads uninitialised numbers; both are undefined behaviour. C66 states exactly what happens."},
{"property": "C57", "status": "proved", "theorems": ["C57_zero_tolerance_is_exact", "C57_drift_linear", "C57_waypoint_positions", "C57_speed_limits", "C57_wheel_limits", "C57_newton"], "note": ""},
{"property": "C58", "status": "partial", "theorems": ["C58_angular_acceleration_refuted", "C58_accelerations_bounded_partial"], "note": "Linear bound proved; angular bound proved at unit headings and refuted at others."},
{"property": "C59", "status": "proved", "theorems": ["C59_builder_no_undefined_behaviour"], "note": ""},
{"property": "C60", "status": "proved", "theorems": ["C60_problem_exact", "C60_problem_exact_recorded", "C60_assignments_cover_trajectories", "C60_turning_exact"], "note": ""},
{"property": "C61", "status": "proved", "theorems": ["C61_one_unit_heading_suffices", "C61_heading_lengths_reciprocal", "C61_heading_lengths_alternate"], "note": ""},
{"property": "C62", "status": "proved", "theorems": ["C62_robot_speed_bounded"], "note": ""},
{"property": "C63", "status": "proved", "theorems": ["C63_rectangular_module_order"], "note": ""},
{"property": "C64", "status": "proved", "theorems": ["C64_seeds_consistent_at_guess_step", "C64_seeds_consistent_at_segment_step"], "note": ""},
{"property": "C65", "status": "proved", "theorems": ["C65_pose_waypoint_exact"], "note": ""},
{"property": "C66", "status": "proved", "theorems": ["C66_unset_inputs", "C66_unset_drivetrain_rust"], "note": ""},
{"property": "C67", "status": "partial", "theorems": ["C67_race_free_refuted", "C67_race_free_partial"], "note": "Refuted (two generations race on the frame clock); proved when generations are ordered by synchronisation."},
{"property": "C68", "status": "proved", "theorems": ["C68_frame_race"], "note": ""},
{"property": "C69", "status": "proved", "theorems": ["C69_latest_call_decides"], "note": ""},
{"property": "C70", "status": "proved", "theorems": ["C70_rust_generate_returns", "C70_no_waypoints"], "note": ""},
{"property": "C71", "status": "partial", "theorems": ["C71_polygons_accepted_refuted", "C71_polygons_accepted_partial"], "note": "Refuted (a triangle ends the process once bumpers are set); proved: exactly which polygons are accepted."},
{"property": "C72", "status": "proved", "theorems": ["C72_step_length"], "note": ""},
{"property": "C73", "status": "proved", "theorems": ["C73_reach", "C73_unreachable_waypoints"], "note": ""},
{"property": "C74", "status": "proved", "theorems": ["C74_turn_per_step", "C74_turn_side"], "note": ""},
{"property": "C75", "status": "proved", "theorems": ["C75_distance_takes_time", "C75_momentum_takes_time", "C75_rest_to_rest"], "note": ""},
{"property": "C76", "status": "proved", "theorems": ["C76_examples_accepted"], "note": ""},
{"property": "C77", "status": "proved", "theorems": ["C77_obstacle_example_has_no_obstacle"], "note": ""},
{"property": "C78", "status": "proved", "theorems": ["C78_first_example_optimum"], "note": ""},
{"property": "C79", "status": "proved", "theorems": ["C79_rust_example_infeasible", "C79_obstacle_test_infeasible", "C79_obstacle_test_undefined"], "note": ""},
{"property": "C80", "status": "proved", "theorems": ["C80_stop_and_go_plans_are_solutions"], "note": ""},
{"property": "C81", "status": "proved", "theorems": ["C81_examples_feasible"], "note": ""},
{"property": "C82", "status": "proved", "theorems": ["C82_rotation_equality", "C82_equal_or_opposite", "C82_pose_equality", "C82_no_redundant_constraint"], "note": ""},
{"property": "C83", "status": "proved", "theorems": ["C83_timestamps_in_order", "C83_timestamps_error", "C83_positive_step_can_vanish"], "note": ""},
{"property": "C84", "status": "proved", "theorems": ["C84_linspace_monotone", "C84_linspace_error", "C84_last_value_can_fall_short", "C84_last_value_can_overshoot"], "note": ""},
{"property": "C85", "status": "proved", "theorems": ["C85_unit_tests", "C85_unit_tests_trigonometry"], "note": ""},
{"property": "C86", "status": "partial", "theorems": ["C86_untouched_partial", "C86_copy_partial", "C86_copy_refuted", "C86_copy_dangles", "C86_move_refuted", "C86_move_is_silent"], "note": "False for a copy that outlives the object it was copied from (undefined behaviour at the first due frame, C86_copy_dangles) and for a moved generator (no callback is called while the moved-from object exists, C86_move_is_silent): the lambda in callbacks keeps the address of the object it was constructed in. Proved for a generator that is not destroyed, moved from or assigned to, and for its copies while it is left alone."},
{"property": "C87", "status": "proved", "theorems": ["C87_separate_variables", "C87_copy_shares_variables"], "note": ""},
{"property": "C88", "status": "proved", "theorems": ["C88_shortest_exists", "C88_objective_attained"], "note": ""},
{"property": "C89", "status": "proved", "theorems": ["C89_coordinates"], "note": ""},
{"property": "C90", "status": "partial", "theorems": ["C90_units_refuted", "C90_units_partial"], "note": "Refuted: PointLine and LinePoint constraints enforce the square root of the distance, so the unit of length matters. Proved: units of time and mass never matter; the unit of length does not matter without such a constraint."},
{"property": "C91", "status": "proved", "theorems": ["C91_outcomes", "C91_calls_defined", "C91_guess_kept", "C91_bumpers_kept", "C91_problem"], "note": ""},
{"property": "C92", "status": "proved", "theorems": ["C92_any_order", "C92_any_time"], "note": ""},
{"property": "C93", "status": "partial", "theorems": ["C93_faster_refuted", "C93_faster_partial", "C93_stronger_partial", "C93_lighter_partial"], "note": "Refuted for faster wheels (the bound on the time step shrinks with the wheel speed, so a path can become unsolvable). Proved: more torque, mass and inertia reduced in proportion, and faster wheels for trajectories whose time steps the new bound allows. C127 shows exactly which faster wheels keep all paths."},
{"property": "C94", "status": "proved", "theorems": ["C94_last_drivetrain_all_callbacks"], "note": ""},
{"property": "C95", "status": "proved", "theorems": ["C95_throwing_callback", "C95_generate_again"], "note": ""},
{"property": "C96", "status": "partial", "theorems": ["C96_nested_refuted", "C96_nested_partial"], "note": "Refuted: the nested Generate() clears the cancellation flag, so the outer generation goes on. Proved: no data race in any run whose iterations are handed from thread to thread by synchronisation, nested calls included; completion of the outer frame is C47."},
{"property": "C97", "status": "proved", "theorems": ["C97_angle_linspace", "C97_huge_angles_can_miss"], "note": ""},
{"property": "C98", "status": "proved", "theorems": ["C98_step_limit", "C98_rounding_error_becomes_limit"], "note": ""},
{"property": "C99", "status": "partial", "theorems": ["C99_retry_refuted", "C99_dropped_refuted", "C99_calls_defined_partial", "C99_unlimited", "C99_enough", "C99_kept_partial", "C99_all_or_nothing_partial", "C99_lost_once", "C99_never_repaired", "C99_others_work", "C99_outcomes", "C99_problem"], "note": "Refuted: a call interrupted between storing a waypoint and its guess point cannot be repeated (C99_retry_refuted), and later calls that return normally can be without effect on the generator (C99_dropped_refuted). Proved: calls are never undefined, nothing stored is lost, single additions are all or nothing, how many guesses are lost and what the constructor then does."},
{"property": "C100", "status": "proved", "theorems": ["C100_stretch", "C100_durations", "C100_legs", "C100_joining"], "note": ""},
{"property": "C101", "status": "partial", "theorems": ["C101_fewer", "C101_bumper_refuted", "C101_waypoint", "C101_waypoint_refuted"], "note": "Refuted for bumpers (C101_bumper_refuted): without a one-corner bumper, later bumpers come into view of a one-corner obstacle. Proved for constraint and obstacle calls and for added waypoints; C101_waypoint_refuted shows that an added waypoint does change something, even if nothing is asked."},
{"property": "C102", "status": "proved", "theorems": ["C102_finite_start", "C102_bound_needed", "C102_rounded_library"], "note": ""},
{"property": "C103", "status": "proved", "theorems": ["C103_constructor", "C103_limit", "C103_wrapped", "C103_index"], "note": ""},
{"property": "C104", "status": "proved", "theorems": ["C104_balance", "C104_power", "C104_total"], "note": ""},
{"property": "C105", "status": "proved", "theorems": ["C105_slower", "C105_durations", "C105_shortest_reaches_limit"], "note": ""},
{"property": "C106", "status": "proved", "theorems": ["C106_meaning", "C106_programs", "C106_misuse", "C106_returned"], "note": ""},
{"property": "C107", "status": "partial", "theorems": ["C107_moves", "C107_strong_guarantee_refuted", "C107_copies_terminate", "C107_failures_refuted", "C107_failures_partial", "C107_fragile", "C107_throws", "C107_refused"], "note": "Refuted: assign is noexcept, so copying a container when memory is out ends the process (C107_strong_guarantee_refuted, C107_copies_terminate); assigning, emplacing or swapping over a destroyed member leaves undefined behaviour or an object without a member (C107_failures_refuted, C107_fragile: every such statement can go wrong). Proved: all other statements end as they should whatever throws, and programs that only move containers are not affected at all. C107_throws and C107_refused say exactly which statements an exception can leave, which can end the process and which do not compile."},
{"property": "C108", "status": "partial", "theorems": ["C108_calls", "C108_throws", "C108_laws", "C108_or_else_refuted", "C108_or_else_partial", "C108_equal", "C108_unequal", "C108_unequal_void_refuted", "C108_unequal_void_partial"], "note": "Refuted: or_else on an rvalue with a function that returns nothing returns what the function left of the error; != of two errors of expected<void, E> compares with ==. Proved: everything else, and what these two do return."},
{"property": "C109", "status": "partial", "theorems": ["C109_leak_refuted", "C109_leak_partial", "C109_twice"], "note": "Refuted: the converting constructors construct over a default-constructed value that nobody destroys. Proved: one leak for each such call and none otherwise; destroying an object twice is undefined."},
{"property": "C110", "status": "proved", "theorems": ["C110_example_stories", "C110_all_told", "C110_rust_example"], "note": "An equivalence, from C60; the requests are computed from each example's calls."},
{"property": "C111", "status": "proved", "theorems": ["C111_ledger"], "note": "Simulation of the ledger by the object model. Steps on moved-from objects other than copying, moving, assigning and destroying them are outside the model and reported as such."},
{"property": "C112", "status": "partial", "theorems": ["C112_shorter_is_better_refuted", "C112_weights_partial", "C112_exactly_partial", "C112_one_segment_partial", "C112_longer_preferred_partial"], "note": "Refuted: the number of intervals is narrowed to int, so a segment of 2^31 to 2^32-1 intervals weighs negatively. Proved instead: the exact weights, and that the objective is the duration exactly if every segment has fewer than 2^31 intervals (then the claim holds)."},
{"property": "C113", "status": "partial", "theorems": ["C113_computed_partial", "C113_within_partial", "C113_enough_partial", "C113_same_physics", "C113_same_demands", "C113_exact_limits_refuted", "C113_tiny_limit_stops"], "note": "Refuted by one rounding of a squared maximum velocity. Proved instead: the trajectories that satisfy the problem are exactly those that keep the limits rounded as the code rounds them; these lie within a relative error of 4 roundings, plus 2^-530, of the documented ones, in both directions. Missing: numbers that are not ordinary (limits above 2^500, NaN, infinities; field lines whose end points do not differ by doubles), and whether the solver finds a trajectory."},
{"property": "C114", "status": "partial", "theorems": ["C114_direction_partial", "C114_robot_must_stop_refuted", "C114_other_direction_refuted"], "note": "Refuted for angles whose correctly rounded cosine and sine make a vector shorter than 1 (the robot must stand still) and longer than 1 (it must move in another direction). Proved instead: exactly which velocities the constraint admits for every rounded cosine and sine."},
{"property": "C115", "status": "partial", "theorems": ["C115_can_be_driven_partial", "C115_velocities_partial", "C115_speed_between_samples_partial", "C115_places_refuted", "C115_offset_partial", "C115_stop_and_go_partial", "C115_how_far_off_partial"], "note": "Refuted for positions: the problem moves by the velocity at the end of each step, so a robot that is accelerating lags behind (C115_places_refuted: it is at 3/4 instead of 1). Proved: such a motion exists for every solution; velocities are exact at samples and not exceeded between them; the exact offset of position and heading; none at the waypoints of plans that stop at each; at most F T^2/(2 m n) per segment and one module spacing per segment otherwise. Not modelled: the motion when accelerations are not followed exactly."},
{"property": "C116", "status": "partial", "theorems": ["C116_from_rest_refuted", "C116_bounds_partial", "C116_dash_partial"], "note": "Refuted from rest (one metre in 1/2 s where full thrust needs 0.707 s). Proved: the exact bounds with n intervals, starting from or coming to rest; the first is the optimum of a straight dash, strictly increasing with n. From rest to rest the claim holds, C75."},
{"property": "C117", "status": "partial", "theorems": ["C117_all_along_refuted", "C117_smooth_partial", "C117_pose_partial", "C117_facing_partial", "C117_tolerance_partial", "C117_turning_partial", "C117_clear_partial", "C117_step_partial"], "note": "Refuted: a robot jumps over the point it has to keep half a metre away from. Proved: constraints on velocity, acceleration and position, poses (with modules apart and documented turning) and facing a target in steps without turn (up to a quarter turn, and up to no wider tolerance but half a turn) persist between samples; distances to points and outlines drop by at most half the module spacing plus the radius, exactly by half the step for a jump straight over. While turning a target is faced up to the tolerance plus the part of the turn to the sample farther away in time, up to a quarter turn. Beyond a quarter turn this fails, even without a turn (C117_tolerance_partial)."},
{"property": "C118", "status": "partial", "theorems": ["C118_front_refuted", "C118_pointing_refuted", "C118_quarter_partial", "C118_angle_partial", "C118_exact_partial"], "note": "Refuted: turning the frame by an eighth of a turn changes the longest time step, and PointAt is about the front whichever side is called so. Proved: quarter turns without PointAt keep all solutions, and for any angle and any program exactly those solutions are kept whose steps the turned modules allow and whose new front points where PointAt asks, in both directions."},
{"property": "C119", "status": "proved", "theorems": ["C119_enough_intervals", "C119_tours", "C119_centre_stuck"], "note": "Existence of feasible points of the exact problem over the reals; whether the solver finds them is outside the model. The number of intervals that is enough is not computed."},
{"property": "C120", "status": "partial", "theorems": ["C120_refuted", "C120_rest_partial", "C120_stops_partial", "C120_tours"], "note": "Refuted as stated by a concrete robot and path. Proved instead: any number of intervals can be added where a solution rests, where the program asks for a stop, and on tours. Missing: a full description of which other paths stay solvable."},
{"property": "C121", "status": "partial", "theorems": ["C121_refuted", "C121_commute_partial", "C121_exact_partial", "C121_cross_partial", "C121_turn_partial", "C121_drift_partial"], "note": "Refuted as stated by concrete rotations; the exact laws and the error bounds are proved instead. Each C++ operation is taken to round once (no contraction to fused multiply-add). Norm and Distance are not included, as hypot is an arbitrary function."},
{"property": "C122", "status": "partial", "theorems": ["C122_driven_refuted", "C122_moment_partial", "C122_spacing_partial", "C122_stops_partial"], "note": "Refuted as stated by a concrete ride; the exact loss and its bounds by the geometry of the drivetrain are proved instead. The robot is taken to follow the planned accelerations exactly, its heading to start as planned and the plan to turn at its angular velocities."},
{"property": "C123", "status": "partial", "theorems": ["C123_refuted", "C123_dash_partial", "C123_brake_partial", "C123_unturned_partial", "C123_straight_partial", "C123_tours_partial"], "note": "Refuted as stated by a dash that one control interval can start and none can stop. The exact loss for straight dashes is proved, and the claim itself for plans that stand at every waypoint and keep their heading or can be made to. Plans that have to turn, or drive through waypoints, are not covered."},
{"property": "C124", "status": "proved", "theorems": ["C124_same_robot"], "note": "The drivetrain is set last, as in C23; bumpers are mirrored like everything else that is passed in."},
{"property": "C125", "status": "proved", "theorems": ["C125_not_all", "C125_exact", "C125_same_motion", "C125_forces", "C125_paired"], "note": "Factors are positive in keeps_paths; C125_same_motion also allows zero. Reducing mass and inertia by the same factor is C93."},
{"property": "C126", "status": "proved", "theorems": ["C126_any_samples"], "note": "Both the equality of poses and the step from one heading to the next hold up to half a turn; the module forces change hands across the centre at the samples picked."},
{"property": "C127", "status": "proved", "theorems": ["C127_steps", "C127_order", "C127_better"], "note": "good_as quantifies over all masses, inertias and paths. A single path may still survive a change that loses another."},
{"property": "C128", "status": "proved", "theorems": ["C128_slower", "C128_exact", "C128_gears", "C128_wheels"], "note": "With modules all at one place, or no torque, C128_slower still holds; the converse is for the other robots."},
{"property": "C129", "status": "proved", "theorems": ["C129_wider", "C129_exact"], "note": "Modules not in pairs are not covered: turning may then need more wheel speed than slowing down gains."},
{"property": "C130", "status": "proved", "theorems": ["C130_keeps", "C130_exact", "C130_larger", "C130_heavier", "C130_any"], "note": "C130_keeps gives the trajectory, C130_exact the equivalence, C130_larger the case of one scale for all lengths; C130_heavier and C130_any are for modules in pairs or not that stay where they are. Modules not in pairs that move are not covered."},
{"property": "C131", "status": "proved", "theorems": ["C131_keeps", "C131_lost", "C131_follows", "C131_exact", "C131_double"], "note": "The module is appended; C127_order says which places in the list are as good. For modules of different top speeds C131_keeps and C131_lost leave a gap, as a turn is only determined up to half a turn."},
{"property": "C132", "status": "proved", "theorems": ["C132_keeps", "C132_lost", "C132_exact"], "note": "The last module; C127_order says which places in the list are as good. Modules with torque whose absence allows longer time steps are covered only by the bound of C132_lost."},
{"property": "C133", "status": "partial", "theorems": ["C133_measured", "C133_end_refuted"], "note": "Refuted for the end: from 8 to 0.1, start plus difference rounds to a number other than 0.1 (C133_end_refuted). All else is proved (C133_measured). Sleipnir's evaluation of the expression is taken to perform the written operations in double arithmetic, with sign(0) = 0. Feet that overflow, and NaN, are not covered. How far the computed foot is from the true one is not bounded."}
]}
