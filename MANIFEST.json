{
 "claims": [
  {
   "property": "C01",
   "status": "proved",
   "theorems": [
    "C01_pointAt_is_the_helix",
    "C01_straight_track_refuted"
   ],
   "note": "For omega<>0 pointAt is the unique curve with the given start and velocity. For omega=0 the result is never finite (finding)."
  },
  {
   "property": "C02",
   "status": "proved",
   "theorems": [
    "C02_coordinates_from_path_length",
    "C02_straight_y_refuted"
   ],
   "note": "Straight tracks: y uses cos(phi0) instead of sin(phi0) (finding)."
  },
  {
   "property": "C03",
   "status": "proved",
   "theorems": [
    "C03_circle_and_pca"
   ],
   "note": "d0 is the closest distance exactly when omega*d0 <= 1."
  },
  {
   "property": "C04",
   "status": "proved",
   "theorems": [
    "C04_tangent_is_unit_derivative"
   ],
   "note": ""
  },
  {
   "property": "C05",
   "status": "proved",
   "theorems": [
    "C05_path_length_inverts_pointAt"
   ],
   "note": ""
  },
  {
   "property": "C06",
   "status": "proved",
   "theorems": [
    "C06_path_length_validity"
   ],
   "note": "Wrong by whole turns for |phi0| >= 4 pi; always 0 for straight tracks (findings)."
  },
  {
   "property": "C07",
   "status": "proved",
   "theorems": [
    "C07_move_keeps_the_curve"
   ],
   "note": ""
  },
  {
   "property": "C08",
   "status": "proved",
   "theorems": [
    "C08_moved_d0_is_closest_distance",
    "C08_sign"
   ],
   "note": ""
  },
  {
   "property": "C09",
   "status": "proved",
   "theorems": [
    "C09_round_trip",
    "C09_many_steps"
   ],
   "note": ""
  },
  {
   "property": "C10",
   "status": "proved",
   "theorems": [
    "C10_covariance_transport",
    "C10_covariance_at_centre",
    "C10_covariance_sign_refuted"
   ],
   "note": "F differs from the true Jacobian by the sign of the d0 couplings (finding)."
  },
  {
   "property": "C100",
   "status": "proved",
   "theorems": [
    "C100_momentum",
    "C100_start",
    "C100_charge",
    "C100_agree",
    "C100_no_field"
   ],
   "note": "C100_track: a track of 10 m radius in 4 T."
  },
  {
   "property": "C101",
   "status": "proved",
   "theorems": [
    "C101_to_l3",
    "C101_to_perigee",
    "C101_slopes",
    "C101_simplified"
   ],
   "note": "C101_step: slope one, a step of 1024 in a field of 4."
  },
  {
   "property": "C102",
   "status": "proved",
   "theorems": [
    "C102_crossing",
    "C102_decision",
    "C102_order"
   ],
   "note": "C102_perpendicular: two perpendicular lines."
  },
  {
   "property": "C103",
   "status": "proved",
   "theorems": [
    "C103_negative",
    "C103_concentric",
    "C103_returns",
    "C103_one_order"
   ],
   "note": "C103_order: circles that cross throw in one order and not in the other."
  },
  {
   "property": "C11",
   "status": "proved",
   "theorems": [
    "C11_real_loops_terminate",
    "C11_double_loops_hang"
   ],
   "note": "Double precision: the loops end exactly when |phi0| <= 2^56 (finding)."
  },
  {
   "property": "C12",
   "status": "proved",
   "theorems": [
    "C12_circle_line",
    "C12_constructors",
    "C12_no_common_point_refuted"
   ],
   "note": "A non-finite point is stored when the discriminant is in [-1e-9,0) (finding)."
  },
  {
   "property": "C13",
   "status": "proved",
   "theorems": [
    "C13_circle_circle",
    "C13_order_of_arguments"
   ],
   "note": "Exactly one order of arguments throws unless the radical axis offset is 0 (finding)."
  },
  {
   "property": "C14",
   "status": "proved",
   "theorems": [
    "C14_line_line",
    "C14_order_of_arguments"
   ],
   "note": "Only one order of arguments reports the intersection (finding)."
  },
  {
   "property": "C15",
   "status": "proved",
   "theorems": [
    "C15_zplane_point",
    "C15_zplane_complete",
    "C15_nonfinite_success_iff",
    "C15_straight_track",
    "C15_throws",
    "C15_outcomes",
    "C15_mirrored_plane_refuted",
    "C15_success_without_point_refuted",
    "C15_straight_track_refuted"
   ],
   "note": "origin.normal < 0 gives a point on the mirror plane; near tangency success without a finite point; straight tracks always miss (findings)."
  },
  {
   "property": "C16",
   "status": "proved",
   "theorems": [
    "C16_zcylinder_point",
    "C16_throws_iff",
    "C16_straight_track",
    "C16_straight_track_refuted"
   ],
   "note": "Straight tracks report path length 0 (finding)."
  },
  {
   "property": "C17",
   "status": "proved",
   "theorems": [
    "C17_zcylinder_complete",
    "C17_first_crossing",
    "C17_beyond_half_turn_refuted"
   ],
   "note": "Crossings beyond half a turn are missed (finding)."
  },
  {
   "property": "C18",
   "status": "proved",
   "theorems": [
    "C18_mode_and_bounds",
    "C18_nearest_cylinder",
    "C18_nearest_plane"
   ],
   "note": ""
  },
  {
   "property": "C19",
   "status": "proved",
   "theorems": [
    "C19_zdisk",
    "C19_straight_track_refuted"
   ],
   "note": ""
  },
  {
   "property": "C20",
   "status": "proved",
   "theorems": [
    "C20_newton_result",
    "C20_terminates",
    "C20_one_pass"
   ],
   "note": "The give-up point is the best visited one if the first distance is below 1e10."
  },
  {
   "property": "C21",
   "status": "proved",
   "theorems": [
    "C21_dispatch_order",
    "C21_true_result",
    "C21_success_without_point",
    "C21_cone"
   ],
   "note": ""
  },
  {
   "property": "C22",
   "status": "proved",
   "theorems": [
    "C22_start_helix",
    "C22_collinear",
    "C22_through_all_points_refuted"
   ],
   "note": "Refuted: the helix need not meet points 2 and 3 in space, only their transverse projections."
  },
  {
   "property": "C23",
   "status": "proved",
   "theorems": [
    "C23_local_frame"
   ],
   "note": ""
  },
  {
   "property": "C24",
   "status": "proved",
   "theorems": [
    "C24_projection",
    "C24_one_dimension_refuted"
   ],
   "note": "Refuted: a measurable single direction can be rejected."
  },
  {
   "property": "C25",
   "status": "proved",
   "theorems": [
    "C25_matrix_algebra",
    "C25_entries",
    "C25_rowwise",
    "C25_unit_refuted"
   ],
   "note": "Unit() is a no-op."
  },
  {
   "property": "C26",
   "status": "proved",
   "theorems": [
    "C26_perigee_to_l3_is_the_derivative",
    "C26_l3_to_perigee_inverse_refuted",
    "C26_l3_to_perigee_transposed"
   ],
   "note": ""
  },
  {
   "property": "C27",
   "status": "proved",
   "theorems": [
    "C27_azimuth_ignored"
   ],
   "note": ""
  },
  {
   "property": "C28",
   "status": "proved",
   "theorems": [
    "C28_identity",
    "C28_energy_loss",
    "C28_composition",
    "C28_straight_line_singular",
    "C28_straight_line_identity_refuted",
    "C28_simplified_singular",
    "C28_straight_line_derivative",
    "C28_uncharged_in_field_refuted",
    "C28_simplified_entries",
    "C28_simplified_without_field"
   ],
   "note": ""
  },
  {
   "property": "C29",
   "status": "proved",
   "theorems": [
    "C29_jacobian_is_the_derivative",
    "C29_transport_is_differentiable"
   ],
   "note": "Any field direction."
  },
  {
   "property": "C30",
   "status": "proved",
   "theorems": [
    "C30_momentum",
    "C30_momentum_at_pca",
    "C30_direction_refuted"
   ],
   "note": ""
  },
  {
   "property": "C31",
   "status": "proved",
   "theorems": [
    "C31_ordered",
    "C31_front",
    "C31_one_call"
   ],
   "note": "Elements of equal path length may precede the initial one after an unstable sort."
  },
  {
   "property": "C32",
   "status": "proved",
   "theorems": [
    "C32_lookup",
    "C32_low",
    "C32_empty"
   ],
   "note": ""
  },
  {
   "property": "C33",
   "status": "proved",
   "theorems": [
    "C33_addition",
    "C33_recorded_points",
    "C33_barrel",
    "C33_half_turn_refuted"
   ],
   "note": "Refuted without the half-turn condition: beyond it z0 is a multiple of the pitch and the recorded point is displaced (finding)."
  },
  {
   "property": "C34",
   "status": "proved",
   "theorems": [
    "C34_first_segment",
    "C34_first_length",
    "C34_origin"
   ],
   "note": ""
  },
  {
   "property": "C35",
   "status": "proved",
   "theorems": [
    "C35_prepare",
    "C35_complete",
    "C35_repeat",
    "C35_empty",
    "C35_no_propagator"
   ],
   "note": ""
  },
  {
   "property": "C36",
   "status": "proved",
   "theorems": [
    "C36_undefined",
    "C36_disk",
    "C36_reachable"
   ],
   "note": ""
  },
  {
   "property": "C37",
   "status": "proved",
   "theorems": [
    "C37_rejected",
    "C37_frame",
    "C37_false_iff"
   ],
   "note": ""
  },
  {
   "property": "C38",
   "status": "proved",
   "theorems": [
    "C38_intersections",
    "C38_accumulates",
    "C38_straight",
    "C38_plane",
    "C38_first_crossing",
    "C38_second_crossing_refuted"
   ],
   "note": "Refuted: a surface whose only in-bounds crossing is not the first one is missed (finding)."
  },
  {
   "property": "C39",
   "status": "proved",
   "theorems": [
    "C39_energy_loss",
    "C39_curvature"
   ],
   "note": ""
  },
  {
   "property": "C40",
   "status": "proved",
   "theorems": [
    "C40_scattering_angle",
    "C40_angle_sign",
    "C40_energy_loss",
    "C40_scattering_of_track",
    "C40_no_crossing",
    "C40_energy_loss_of_track"
   ],
   "note": ""
  },
  {
   "property": "C41",
   "status": "proved",
   "theorems": [
    "C41_precisions",
    "C41_one_dimensional_scatterer"
   ],
   "note": "Which precisions the fit uses is part of C45."
  },
  {
   "property": "C42",
   "status": "proved",
   "theorems": [
    "C42_destroy",
    "C42_no_leak",
    "C42_lost_defined",
    "C42_alive",
    "C42_same_trajectory",
    "C42_delete_strict"
   ],
   "note": "Memory model: a heap of typed cells threaded through the functions that allocate; C42_same_trajectory says this model computes the same trajectories as the value model. A preparation that throws ends the value history (the elements are left sorted with some Jacobians replaced), hence the side condition in that theorem only."
  },
  {
   "property": "C43",
   "status": "proved",
   "theorems": [
    "C43_result",
    "C43_same_object",
    "C43_discarded",
    "C43_live",
    "C43_defined"
   ],
   "note": "The fitter GBL is an arbitrary pair of functions. The trajectories may change in any way between the calls; a result is computed from the trajectory as it is at the first query, not at the fit."
  },
  {
   "property": "C44",
   "status": "proved",
   "theorems": [
    "C44_result",
    "C44_azimuth_correction_lost"
   ],
   "note": ""
  },
  {
   "property": "C45",
   "status": "proved",
   "theorems": [
    "C45_scatterer",
    "C45_matrix",
    "C45_element"
   ],
   "note": ""
  },
  {
   "property": "C46",
   "status": "proved",
   "theorems": [
    "C46_history",
    "C46_same_object",
    "C46_replaced",
    "C46_field"
   ],
   "note": ""
  },
  {
   "property": "C47",
   "status": "proved",
   "theorems": [
    "C47_sorted",
    "C47_exact_order_refuted"
   ],
   "note": "Ordered by the sorting value rounded to float, because getSortingPolicy returns float; two surfaces can be out of order only if their values round to the same float."
  },
  {
   "property": "C48",
   "status": "proved",
   "theorems": [
    "C48_read",
    "C48_covariance",
    "C48_state_round_trip",
    "C48_parameter_round_trip"
   ],
   "note": ""
  },
  {
   "property": "C49",
   "status": "proved",
   "theorems": [
    "C49_float_round_trip"
   ],
   "note": "All finite floats, subnormal ones included; the unit constant mm is any double in [1/16,16]."
  },
  {
   "property": "C50",
   "status": "proved",
   "theorems": [
    "C50_similar",
    "C50_similar_order",
    "C50_set",
    "C50_construct",
    "C50_queries",
    "C50_checks",
    "C50_half_sharp",
    "C50_independent"
   ],
   "note": ""
  },
  {
   "property": "C51",
   "status": "proved",
   "theorems": [
    "C51_newton_overshoots",
    "C51_steep_tracks_move_away"
   ],
   "note": ""
  },
  {
   "property": "C52",
   "status": "proved",
   "theorems": [
    "C52_true_derivative",
    "C52_computed_matrix",
    "C52_computed_matrix_d0",
    "C52_curvature_correction_refuted",
    "C52_impact_refuted"
   ],
   "note": ""
  },
  {
   "property": "C53",
   "status": "proved",
   "theorems": [
    "C53_helix_is_the_motion"
   ],
   "note": ""
  },
  {
   "property": "C54",
   "status": "proved",
   "theorems": [
    "C54_stopping_power",
    "C54_loss_is_positive_refuted"
   ],
   "note": "Refuted: loss becomes negative at high momentum because the full density effect is subtracted."
  },
  {
   "property": "C55",
   "status": "proved",
   "theorems": [
    "C55_azimuth_is_the_direction"
   ],
   "note": ""
  },
  {
   "property": "C56",
   "status": "proved",
   "theorems": [
    "C56_off_track",
    "C56_agreement"
   ],
   "note": ""
  },
  {
   "property": "C57",
   "status": "proved",
   "theorems": [
    "C57_labels"
   ],
   "note": "GBL numbering its points from one is a hypothesis (labels_from_one), not part of this repository."
  },
  {
   "property": "C58",
   "status": "proved",
   "theorems": [
    "C58_fit",
    "C58_after_preparation",
    "C58_after_addition",
    "C58_without_precision",
    "C58_fitter"
   ],
   "note": ""
  },
  {
   "property": "C59",
   "status": "proved",
   "theorems": [
    "C59_intersection",
    "C59_measurement",
    "C59_scatterer",
    "C59_preparation"
   ],
   "note": ""
  },
  {
   "property": "C60",
   "status": "proved",
   "theorems": [
    "C60_smooth",
    "C60_no_material"
   ],
   "note": ""
  },
  {
   "property": "C61",
   "status": "proved",
   "theorems": [
    "C61_jacobians",
    "C61_prepares"
   ],
   "note": "For surfaces without material. With energy loss the code passes the q/p after the loss for a step taken before it, so the statement is restricted on purpose."
  },
  {
   "property": "C62",
   "status": "proved",
   "theorems": [
    "C62_prediction",
    "C62_vertical_plane",
    "C62_disk",
    "C62_measurement",
    "C62_projection_refuted"
   ],
   "note": "Finding: the projection handed to the fitter is the transpose of the derivative of the measurement with respect to the displacement; C62_projection_refuted has a witness."
  },
  {
   "property": "C63",
   "status": "proved",
   "theorems": [
    "C63_residuals",
    "C63_exact_hits",
    "C63_no_material"
   ],
   "note": "GBL enters through the contract `unbiased` (a least-squares fitter with zero residuals makes no correction), which is a hypothesis; sum_gbl is an instance."
  },
  {
   "property": "C64",
   "status": "proved",
   "theorems": [
    "C64_coordinates",
    "C64_constructors",
    "C64_unit",
    "C64_brackets"
   ],
   "note": ""
  },
  {
   "property": "C65",
   "status": "proved",
   "theorems": [
    "C65_measurement",
    "C65_scatterer",
    "C65_unique",
    "C65_contents"
   ],
   "note": ""
  },
  {
   "property": "C66",
   "status": "proved",
   "theorems": [
    "C66_displacement_found",
    "C66_fit",
    "C66_exact_hits",
    "C66_regular",
    "C66_hits"
   ],
   "note": "GBL enters through the contract least_squares_at (SpecLsq.v): it returns the local parameters and the chi2 of the unique minimum for the given points. C66_regular shows that points of trajectories satisfy the regularity hypothesis; C66_instance is a trajectory of three stations with a displaced track and such a fitter."
  },
  {
   "property": "C67",
   "status": "proved",
   "theorems": [
    "C67_refinement",
    "C67_defined",
    "C67_live",
    "C67_all_freed",
    "C67_isolation",
    "C67_discarded",
    "C67_delete_strict"
   ],
   "note": "Memory allocated inside GBL, ROOT and std containers is not modelled. C67_instance: two interfaces."
  },
  {
   "property": "C68",
   "status": "proved",
   "theorems": [
    "C68_converges",
    "C68_runs_out",
    "C68_damped_converges",
    "C68_damped_runs_out",
    "C68_near_crossing",
    "C68_plane",
    "C68_plane_reached",
    "C68_disk",
    "C68_cone_missed_refuted"
   ],
   "note": "The claim that a crossed cone is found is refuted (C68_cone_missed_refuted). Exact real arithmetic; the damping constants are those of the code. C68_instance: an inclined plane."
  },
  {
   "property": "C69",
   "status": "proved",
   "theorems": [
    "C69_curve",
    "C69_helix",
    "C69_path",
    "C69_surfaces",
    "C69_newton",
    "C69_move",
    "C69_start",
    "C69_carried",
    "C69_shifted_plane_refuted",
    "C69_mirrored_plane_refuted",
    "C69_straight_refuted"
   ],
   "note": "C69_carried: every surface can be carried along, so the hypothesis of C69_surfaces can be met. The three refuted statements are the exceptions named in the property."
  },
  {
   "property": "C70",
   "status": "proved",
   "theorems": [
    "C70_run",
    "C70_shift",
    "C70_run_is_history",
    "C70_queries",
    "C70_propagators",
    "C70_fit",
    "C70_results",
    "C70_turned_fit",
    "C70_carried",
    "C70_shifted_jacobian_refuted"
   ],
   "note": "The claim about Jacobians after a transverse shift is refuted (C70_shifted_jacobian_refuted). C70_instance: a hit on a disk, turned by any angle. The fitter is an argument; it is asked about the same points."
  },
  {
   "property": "C71",
   "status": "proved",
   "theorems": [
    "C71_step",
    "C71_rate",
    "C71_product",
    "C71_slows_down",
    "C71_momentum_drops",
    "C71_energy_refuted"
   ],
   "note": "The claim that the stored state has the energy E - dE is refuted; C71_energy_refuted is also the concrete case for the other theorems (a braking history with a positive loss)."
  },
  {
   "property": "C72",
   "status": "proved",
   "theorems": [
    "C72_mutual",
    "C72_points",
    "C72_path",
    "C72_surfaces",
    "C72_disk_and_newton",
    "C72_move",
    "C72_backward_flag",
    "C72_tie",
    "C72_on_surface_refuted",
    "C72_tie_refuted"
   ],
   "note": "The claim without the conditions is refuted (C72_on_surface_refuted, C72_tie_refuted). C72_instance: a cylinder crossed a third of a turn away."
  },
  {
   "property": "C73",
   "status": "proved",
   "theorems": [
    "C73_program",
    "C73_short_track",
    "C73_no_state"
   ],
   "note": "program_instance: two events written, one with a refitted and a short track, then an event without collection; short_instance."
  },
  {
   "property": "C74",
   "status": "proved",
   "theorems": [
    "C74_start_helix",
    "C74_three_hits",
    "C74_positions"
   ],
   "note": "The claim that three hits are enough is refuted for every such track (C74_three_hits; three_instance: three points that are not in line). shipped_instance: a track with a start helix."
  },
  {
   "property": "C75",
   "status": "proved",
   "theorems": [
    "C75_refit",
    "C75_complete",
    "C75_null_hit",
    "C75_nothing_crossed",
    "C75_failed_fit_refuted"
   ],
   "note": "The claim about failed fits is refuted (C75_failed_fit_refuted). shipped_instance: a track with a hit on a disk, as shipped; complete_instance; nothing_instance: a detector without surfaces."
  },
  {
   "property": "C76",
   "status": "proved",
   "theorems": [
    "C76_reference",
    "C76_reference_refuted"
   ],
   "note": "The claim for any seed is refuted (C76_reference_refuted). shipped_instance meets the hypotheses of C76_reference."
  },
  {
   "property": "C77",
   "status": "proved",
   "theorems": [
    "C77_run",
    "C77_fit",
    "C77_stored",
    "C77_program",
    "C77_stall"
   ],
   "note": "run_instance: a hit on a disk with any covariance; program_instance: a track of four hits with unit covariance; stall_instance: a fitter that only turns the track."
  },
  {
   "property": "C78",
   "status": "proved",
   "theorems": [
    "C78_fromS",
    "C78_straight",
    "C78_pointAt",
    "C78_stuck",
    "C78_pointAt_refuted",
    "C78_tangent_norm",
    "C78_tangent"
   ],
   "note": "The claim that pointAt is as good as calculateXfromS is refuted (C78_pointAt_refuted). curved_instance: a correctly rounding library and a track of radius 1024; curved_points: what follows for it."
  },
  {
   "property": "C79",
   "status": "proved",
   "theorems": [
    "C79_search",
    "C79_next",
    "C79_in_order",
    "C79_any_order_refuted",
    "C79_same_height_refuted"
   ],
   "note": "The claims for other orders and for disks at one height are refuted. C79_instance: two disks, both added."
  },
  {
   "property": "C80",
   "status": "proved",
   "theorems": [
    "C80_table",
    "C80_direction",
    "C80_points",
    "C80_defined",
    "C80_ntuples",
    "C80_arguments",
    "C80_thin_refuted",
    "C80_listed_point_refuted"
   ],
   "note": "The two claims named as false are refuted. C80_instance: two silicon sheets at 45 degrees; C80_nothing_crossed."
  },
  {
   "property": "C81",
   "status": "proved",
   "theorems": [
    "C81_program",
    "C81_arguments",
    "C81_track",
    "C81_complete",
    "C81_undefined",
    "C81_strip"
   ],
   "note": "C81_instance: a run over five events with two output tracks; C81_strip_instance: a strip hit and the element made for it."
  },
  {
   "property": "C82",
   "status": "proved",
   "theorems": [
    "C82_program",
    "C82_track",
    "C82_key",
    "C82_points",
    "C82_no_state",
    "C82_same_bits_refuted"
   ],
   "note": "The claim on equal 32 bits is refuted. C82_instance: a track of three hits and a run over three events. LCIO bit fields and the encoding string are modelled from LCIO, not from /repo."
  },
  {
   "property": "C83",
   "status": "proved",
   "theorems": [
    "C83_run_ends",
    "C83_run",
    "C83_report",
    "C83_verdict",
    "C83_addTest",
    "C83_addSuite",
    "C83_addSuite_self",
    "C83_free",
    "C83_null",
    "C83_program",
    "C83_exit_refuted",
    "C83_survive_refuted"
   ],
   "note": "exit status and surviving results: refuted with witnesses"
  },
  {
   "property": "C84",
   "status": "proved",
   "theorems": [
    "C84_large",
    "C84_tolerance",
    "C84_equal",
    "C84_absolute_refuted"
   ],
   "note": "the tolerance as written: refuted with witnesses"
  },
  {
   "property": "C85",
   "status": "proved",
   "theorems": [
    "C85_usage",
    "C85_calculator",
    "C85_file_refuted",
    "C85_read",
    "C85_read_files",
    "C85_word_refuted",
    "C85_ids"
   ],
   "note": "file given to the calculator, unsigned ids: refuted with witnesses; the loading of a file and LCIO reading are arbitrary functions"
  },
  {
   "property": "C86",
   "status": "proved",
   "theorems": [
    "C86_usage",
    "C86_program",
    "C86_refused",
    "C86_named_output",
    "C86_default_output",
    "C86_again"
   ],
   "note": "LCIO opening, getCollection and addCollection behave as their interface says (trusted)"
  },
  {
   "property": "C87",
   "status": "proved",
   "theorems": [
    "C87_entry",
    "C87_update",
    "C87_derivatives",
    "C87_thin",
    "C87_massless",
    "C87_unmarked_refuted"
   ],
   "note": "entry of hits not marked as scattering: refuted with a witness; the derivatives are those of the changes of q/p for a loss that is any differentiable function of q/p"
  },
  {
   "property": "C88",
   "status": "proved",
   "theorems": [
    "C88_accuracy",
    "C88_straight",
    "C88_roundtrip",
    "C88_lost_refuted"
   ],
   "note": "that the answer is determined by the inputs: refuted with a witness. C88_ex, C88_ex2: a circle of radius 4096 at path length 1024."
  },
  {
   "property": "C89",
   "status": "proved",
   "theorems": [
    "C89_accuracy",
    "C89_clear",
    "C89_straight",
    "C89_digits_refuted"
   ],
   "note": "that all digits are kept in y: refuted with a witness. C89_ex: a circle of radius 4096."
  },
  {
   "property": "C90",
   "status": "proved",
   "theorems": [
    "C90_accuracy",
    "C90_side",
    "C90_straight",
    "C90_level",
    "C90_missed_refuted"
   ],
   "note": "that every crossing ahead is found: refuted with a witness. C90_ex, C90_straight_ex: a disk 1024 ahead of a track with slope one."
  },
  {
   "property": "C91",
   "status": "proved",
   "theorems": [
    "C91_outcome",
    "C91_finite",
    "C91_throws",
    "C91_touch_refuted",
    "C91_ghost_refuted"
   ],
   "note": "that every point of contact is found, and that nothing is reported otherwise: refuted with witnesses. C91_ex: a track of radius 4096 through a cylinder of radius 100."
  },
  {
   "property": "C92",
   "status": "proved",
   "theorems": [
    "C92_outcome",
    "C92_path_finite",
    "C92_finite",
    "C92_found",
    "C92_straight",
    "C92_throws",
    "C92_blurred_refuted",
    "C92_nan_refuted"
   ],
   "note": "that the point is right to the size of the coordinates, and that nothing is reported if the track does not meet the plane: refuted with witnesses. C92_ex: a track of radius 4096 and a plane at 100; C92_straight_ex: a straight track through a plane that is not found."
  },
  {
   "property": "C93",
   "status": "proved",
   "theorems": [
    "C93_curvature",
    "C93_close",
    "C93_finite",
    "C93_lost_refuted"
   ],
   "note": "that hits that are not on a line give finite parameters: refuted with a witness. C93_ex: three hits of a track of radius about 2100"
  },
  {
   "property": "C94",
   "status": "proved",
   "theorems": [
    "C94_result",
    "C94_tolerance",
    "C94_start",
    "C94_level",
    "C94_straight",
    "C94_close",
    "C94_converges",
    "C94_cone",
    "C94_flat_refuted"
   ],
   "note": "that a crossing at an angle is found: refuted with a witness. C94_ex: a track of radius 1024 and slope one is found at the plane x = 5 (all hypotheses of C94_converges are met)."
  },
  {
   "property": "C95",
   "status": "proved",
   "theorems": [
    "C95_angle",
    "C95_close",
    "C95_weight",
    "C95_nothing",
    "C95_grazing_refuted"
   ],
   "note": "finiteness of the angle for grazing tracks: refuted with a witness. C95_ex: a pion of 5 GeV through 0.3 mm of silicon, inclined."
  },
  {
   "property": "C96",
   "status": "proved",
   "theorems": [
    "C96_stopping",
    "C96_loss",
    "C96_nothing",
    "C96_massless"
   ],
   "note": "C96_ex: a pion of 5 GeV through 0.3 mm of silicon, inclined, with correctly rounded library functions."
  },
  {
   "property": "C97",
   "status": "proved",
   "theorems": [
    "C97_yes",
    "C97_no",
    "C97_any",
    "C97_other",
    "C97_kept",
    "C97_answer",
    "C97_throws"
   ],
   "note": "C97_disk_ex, C97_cylinder_ex: a disk and a cylinder that are found, a cone that satisfies the hypotheses, a surface of no kind."
  },
  {
   "property": "C98",
   "status": "proved",
   "theorems": [
    "C98_two",
    "C98_unique",
    "C98_throw",
    "C98_parallel",
    "C98_one",
    "C98_number",
    "C98_along_refuted"
   ],
   "note": "C98_across: directions and a frame that meet the hypotheses. C98_along_refuted: directions and a frame with c = 0 for which a matrix is returned."
  },
  {
   "property": "C99",
   "status": "proved",
   "theorems": [
    "C99_triad",
    "C99_frame",
    "C99_orthonormal",
    "C99_project",
    "C99_project_one"
   ],
   "note": "C99_silicon: a track at 45 degrees through a plane, right to 10^-11."
  }
 ]
}