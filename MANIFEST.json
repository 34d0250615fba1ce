{
 "claims": [
  {
   "property": "C01",
   "status": "proved",
   "theorems": [
    "C01_roll_fill_unroll",
    "C01_fill_roll_unroll_identity",
    "C01_consumption",
    "C01_unroll_length",
    "C01_uniform_lists"
   ],
   "note": "Trees of leaves, point-less manifolds and compounds of any depth; roll_tan of a compound does not exist."
  },
  {
   "property": "C02",
   "status": "proved",
   "theorems": [
    "C02_fill_sets_part",
    "C02_frame",
    "C02_stacked"
   ],
   "note": "Frame theorem covers histories in which calls raise half-way."
  },
  {
   "property": "C03",
   "status": "proved",
   "theorems": [
    "C03_add_add",
    "C03_negate_involution",
    "C03_negate_add",
    "C03_add_zeros",
    "C03_shapes",
    "C03_sums",
    "C03_devices_refused"
   ],
   "note": "Laws on the stored tensors; same shapes assumed; tensors of another device are refused."
  },
  {
   "property": "C04",
   "status": "proved",
   "theorems": [
    "C04_truthful_refuted",
    "C04_truthful_on_matching_histories"
   ],
   "note": "Finding: refuted (fill_* never updates the reported dtype/device; CompoundManifold.to_ leaves its dtype stale); what holds is proved for histories with matching tensors."
  },
  {
   "property": "C05",
   "status": "proved",
   "theorems": [
    "C05_select_one_refuted",
    "C05_select_one_partial"
   ],
   "note": "Finding: refuted (TypeError: storage is a tuple after construction and after every fill); success case proved."
  },
  {
   "property": "C06",
   "status": "proved",
   "theorems": [
    "C06_atomic_fill_refuted",
    "C06_atomic_fill_partial"
   ],
   "note": "Finding: refuted (container device changed before the dtype check; compounds partially filled); what survives a failing fill is proved."
  },
  {
   "property": "C07",
   "status": "proved",
   "theorems": [
    "C07_sizes_refuted",
    "C07_sizes",
    "C07_total_size",
    "C07_points"
   ],
   "note": "Finding: refuted for point-less manifolds and for fills with tensors of other shapes; consistency proved otherwise."
  },
  {
   "property": "C08",
   "status": "proved",
   "theorems": [
    "C08_kernel_matrix_basic",
    "C08_cross_kernel_transpose",
    "C08_kernel_matrix_psd",
    "C08_kernel_matrix_pd",
    "C08_kernel_system_unique_solution",
    "C08_pairwise_distances"
   ],
   "note": "Over the reals (no rounding). Positive definiteness for pairwise distinct points proved via the exponential series; existence and uniqueness of the solution of the linear system included."
  },
  {
   "property": "C09",
   "status": "proved",
   "theorems": [
    "C09_gauss_kernel_derivatives",
    "C09_order3_refused",
    "C09_higher_orders_refused_refuted"
   ],
   "note": "Orders 0, 1, 2 proved for all points, dimensions, sigma <> 0. Finding: order 3 raises NotImplementedError but every order >= 4 silently returns None (C09_higher_orders_refused_refuted)."
  },
  {
   "property": "C10",
   "status": "proved",
   "theorems": [
    "C10_order1_is_jacobian",
    "C10_order2_is_hessian",
    "C10_order1_or_not_implemented"
   ],
   "note": "Every field of the library incl. nested sums; SF_0_u (and the KeOps SF_1) have no order 1 and raise NotImplementedError."
  },
  {
   "property": "C11",
   "status": "proved",
   "theorems": [
    "C11_varifold_backends",
    "C11_curves_keops_not_offered",
    "C11_fields_backend_independent",
    "C11_module_backend_independent",
    "C11_geodesic_controls_backend_independent",
    "C11_sks_backend_independent"
   ],
   "note": "Fields of order 0 and 1, module costs, the SKS matrix and the 3D varifold terms: both back ends give the same value (rounding idealised). KeOps varifolds of curves are accepted by the factory and raise NotImplementedError at each evaluation."
  },
  {
   "property": "C12",
   "status": "proved",
   "theorems": [
    "C12_sum_is_pointwise",
    "C12_sum_raises_first_error",
    "C12_linear_in_moments",
    "C12_additive_in_support"
   ],
   "note": "Pointwise sums at every order, linearity in moments and additivity in the support for all kernel fields at orders 0 and 1."
  },
  {
   "property": "C13",
   "status": "proved",
   "theorems": [
    "C13_eta_orthonormal",
    "C13_round_trips",
    "C13_dimensions"
   ],
   "note": "eta modelled literally; dims 2 and 3 by complete case analysis on indices (finite), round trips for all matrices."
  },
  {
   "property": "C14",
   "status": "proved",
   "theorems": [
    "C14_sks_symmetric_psd",
    "C14_sks_computes_strain",
    "C14_order0_is_kernel",
    "C14_other_orders_refused"
   ],
   "note": "Also positive definite for distinct points (via Hermite-type argument in GaussHermite.v)."
  },
  {
   "property": "C15",
   "status": "proved",
   "theorems": [
    "C15_cot_to_vs_is_dual",
    "C15_jacobian_of_dual_field"
   ],
   "note": "All manifold trees except CompoundLandmarks (see C16 refutation); the field returned has no Jacobian when landmarks with directions are involved."
  },
  {
   "property": "C16",
   "status": "proved",
   "theorems": [
    "C16_inner_is_cotan_dot_action",
    "C16_inner_formula",
    "C16_inner_linear",
    "C16_inner_null_field",
    "C16_inner_compound",
    "C16_directions",
    "C16_normals_follow_tangents",
    "C16_compound_landmarks_refuted"
   ],
   "note": "True for every tree of landmarks, directions, frames, empties and compounds; refuted for CompoundLandmarks (inner product always 0, action raises AttributeError)."
  },
  {
   "property": "C17",
   "status": "proved",
   "theorems": [
    "C17_frame_velocity_skew",
    "C17_gram_derivative_zero",
    "C17_frames_stay_orthonormal",
    "C17_rigid_motion_rotates_frames"
   ],
   "note": "First-order statement plus invariance for all times along any flow, rigid motions."
  },
  {
   "property": "C18",
   "status": "proved",
   "theorems": [
    "C18_cost_is_quadratic",
    "C18_fill_zero_costs_nothing",
    "C18_compound_cost_is_sum",
    "C18_controls_accepted",
    "C18_cost_definite"
   ],
   "note": "Every class (GlobalTranslation, Translations, ImplicitModule0, OrientedTranslations, LocalConstrainedTranslations, LinearDeformation, SilentLandmark, ImplicitModule1, ImplicitDivFree, ImplicitARAP) and every nesting of compounds: non-negative, zero at zero, quadratic, sum over members; definite when the points are distinct or nu>0."
  },
  {
   "property": "C19",
   "status": "proved",
   "theorems": [
    "C19_geodesic_controls_maximise",
    "C19_maximiser_unique",
    "C19_computable_definite",
    "C19_only_maximiser",
    "C19_geodesic_controls_computable",
    "C19_directions_refused"
   ],
   "note": "For every module tree and manifold the computed controls maximise inner_prod_field(field) - cost jointly; unique when the cost is definite; computable when points are distinct or nu>0. Finding: order-1 implicit modules cannot compute geodesic controls against manifolds with directions (C19_directions_refused)."
  },
  {
   "property": "C20",
   "status": "proved",
   "theorems": [
    "C20_hamiltonian_is_cost",
    "C20_single_module_refused"
   ],
   "note": "Hamiltonian after geodesic_controls equals the cost for every module tree. Finding: Hamiltonian(module) raises AssertionError for a non-compound module."
  },
  {
   "property": "C21",
   "status": "proved",
   "theorems": [
    "C21_strain_is_prescribed"
   ],
   "note": "Both back ends; the Jacobian is the one returned by the field."
  },
  {
   "property": "C22",
   "status": "proved",
   "theorems": [
    "C22_divfree",
    "C22_arap"
   ],
   "note": "ImplicitDivFree and ImplicitARAP."
  },
  {
   "property": "C23",
   "status": "proved",
   "theorems": [
    "C23_depends_on_fill_order_refuted",
    "C23_fresh_module_raises_refuted",
    "C23_explicit_modules",
    "C23_explicit_never_raise",
    "C23_after_controls"
   ],
   "note": "The property is false of the code (finding): implicit order-1 modules keep a stale solve when the descriptor is modified after the controls, and raise when freshly built. Refuted with witnesses; proved for the explicit classes over all histories, and for all classes when the last operation gives or computes controls."
  },
  {
   "property": "C24",
   "status": "proved",
   "theorems": [
    "C24_loop_visits_all",
    "C24_nested_loops_refuted",
    "C24_interrupted_inner_loop_refuted"
   ],
   "note": "Single and sequential loops proved; nested loops visit only the pairs of the first member and an interrupted inner loop never terminates (finding)."
  },
  {
   "property": "C25",
   "status": "proved",
   "theorems": [
    "C25_torch_euler_steps",
    "C25_euler_step_entries",
    "C25_fixed_step_schemes"
   ],
   "note": "torch_euler for any module, any clock; torchdiffeq fixed-step schemes with exact times; gradients are those of the Hamiltonian with the controls of the old state. torch_euler ignores the final time and records no cost (finding)."
  },
  {
   "property": "C26",
   "status": "proved",
   "theorems": [
    "C26_pack_unpack",
    "C26_unpack_pack",
    "C26_nested_refused",
    "C26_manifolds_shaped",
    "C26_modules_shootable",
    "C26_two_point_sets_refuted"
   ],
   "note": "Round trips both ways, for any compound of simple (possibly empty) manifolds; every well-formed manifold announces the shapes it holds, so every compound of modules on simple manifolds can be shot; nested compounds with descriptors raise AttributeError at the first evaluation. Finding: CompoundLandmarks announces the size of its first point set for both (C26_two_point_sets_refuted), so slicing the state is wrong for sets of different sizes."
  },
  {
   "property": "C27",
   "status": "proved",
   "theorems": [
    "C27_once_per_step_moments",
    "C27_once_per_step_controls",
    "C27_recorded_evaluation",
    "C27_any_solver",
    "C27_monotone_schedule",
    "C27_float32_refuted"
   ],
   "note": "Holds in exact arithmetic; any_solver characterises the recorded costs for every solver and clock. Finding: false with the float32 times actually used (C27_float32_refuted: 3 euler steps record 2 costs)."
  },
  {
   "property": "C28",
   "status": "proved",
   "theorems": [
    "C28_registration_control_sets",
    "C28_registration_other_solvers",
    "C28_evaluation_control",
    "C28_own_control",
    "C28_one_set_per_step",
    "C28_rk4_last_stage_refuted",
    "C28_never_out_of_range",
    "C28_too_few_sets"
   ],
   "note": "Characterised for every number of control sets; findings: the last stage of rk4 uses the set of the next step (C28_rk4_last_stage_refuted); lengths strictly between it and it*evaluations raise. The registration model creates exactly it*evaluations sets and refuses other solvers (C28_registration_*)."
  },
  {
   "property": "C29",
   "status": "proved",
   "theorems": [
    "C29_evaluations_are_repeatable",
    "C29_solvers_evaluate"
   ],
   "note": "For every history of evaluations, deformations and interrupted calls (inductive 'used'), the initial manifold and controls are unchanged and both operations return the same result as on the fresh model. C29_solvers_evaluate: the side condition (the solver evaluates the vector field at least once) holds for the fixed-step solvers and torch_euler."
  },
  {
   "property": "C30",
   "status": "proved",
   "theorems": [
    "C30_filled_initial_manifold",
    "C30_filled_moments_record_refuted",
    "C30_parameters_are_the_models_tensors",
    "C30_updates_are_seen",
    "C30_evaluations_read_the_tensors",
    "C30_initial_values",
    "C30_selected_one_by_one_refuted"
   ],
   "note": "Findings: descriptors selected one by one (list of booleans) are handed to the optimizer but never record gradients (C30_selected_one_by_one_refuted); moments assigned with init_manifold record gradients only if they already did (C30_filled_moments_record_refuted). The rest holds for every history of writes, evaluations and device moves: parameters are the model's own tensors, each with its own storage, all others record gradients, updates are seen; assigning the initial manifold recomputes them (C30_filled_initial_manifold)."
  },
  {
   "property": "C31",
   "status": "proved",
   "theorems": [
    "C31_backward_refuted",
    "C31_backward_raises",
    "C31_forward_objects"
   ],
   "note": "Finding (property false): any model with an object transported backward cannot be deformed or evaluated (C31_backward_refuted), because shoot is called without its argument costs: TypeError (C31_backward_raises). Objects transported forward are deformed as expected (C31_forward_objects)."
  },
  {
   "property": "C32",
   "status": "proved",
   "theorems": [
    "C32_costs_of_the_deformed",
    "C32_solvers_evaluate",
    "C32_fixed_step_costs",
    "C32_torch_euler_refuted",
    "C32_unknown_solver"
   ],
   "note": "Finding (property false): torch_euler raises KeyError with the default reduction (C32_torch_euler_refuted). Every other solver evaluates, with the stated costs (C32_solvers_evaluate, C32_fixed_step_costs); unknown names are refused."
  },
  {
   "property": "C33",
   "status": "proved",
   "theorems": [
    "C33_other_subjects_refuted",
    "C33_parameters"
   ],
   "note": "Finding (property false): the descriptors handed to optimizers are those of the first subject only; writing in them leaves all other subjects unchanged (C33_other_subjects_refuted). C33_parameters says what the parameters are."
  },
  {
   "property": "C34",
   "status": "proved",
   "theorems": [
    "C34_cost_is_the_sum",
    "C34_wrong_length_refuted",
    "C34_missing_targets_refuted",
    "C34_errors"
   ],
   "note": "The cost is the sum over all subjects for lists of the right length (C34_cost_is_the_sum). Finding: lists of the wrong length are accepted (C34_wrong_length_refuted, C34_missing_targets_refuted)."
  },
  {
   "property": "C35",
   "status": "proved",
   "theorems": [
    "C35_first_steps",
    "C35_step",
    "C35_monotone"
   ],
   "note": "Exact outcome of one step for every cost function including NaN and infinities (fl), and monotonicity over any number of steps."
  },
  {
   "property": "C36",
   "status": "proved",
   "theorems": [
    "C36_terminates",
    "C36_nan_diverges"
   ],
   "note": "Termination for differentiable costs, positive step lengths and gamma1 in (0,1); C36_nan_diverges shows that a NaN cost at the current parameters makes step() loop for ever (finding)."
  },
  {
   "property": "C37",
   "status": "proved",
   "theorems": [
    "C37_success_refuted",
    "C37_result",
    "C37_success"
   ],
   "note": "Finding: success is reported when the cost increases, max_iter=0 raises UnboundLocalError, the evaluation count is lost on NaN (C37_success_refuted). C37_result and C37_success give the exact behaviour for max_iter > 0."
  },
  {
   "property": "C38",
   "status": "proved",
   "theorems": [
    "C38_pack_unpack",
    "C38_unpack_pack",
    "C38_wrong_length",
    "C38_not_contiguous",
    "C38_naninf_refuted",
    "C38_costs"
   ],
   "note": "Lossless packing both ways, wrong lengths rejected. Finding: the naninf option raises AttributeError (C38_naninf_refuted)."
  },
  {
   "property": "C39",
   "status": "proved",
   "theorems": [
    "C39_fitter_refuted",
    "C39_fitter"
   ],
   "note": "Finding: Fitter.fit raises TypeError with every scipy optimizer, including the default one (unexpected keyword miniter); exact characterisation in C39_fitter."
  },
  {
   "property": "C40",
   "status": "proved",
   "theorems": [
    "C40_options_refuted",
    "C40_options_effect",
    "C40_options_kept",
    "C40_settings",
    "C40_default_options",
    "C40_scipy_maxiter"
   ],
   "note": "Finding: fit deletes its settings from the caller's dictionary (C40_options_refuted); exact effect, settings used and independence of calls relying on the default dictionary proved."
  },
  {
   "property": "C41",
   "status": "proved",
   "theorems": [
    "C41_valid_backends",
    "C41_backend",
    "C41_backend_unknown",
    "C41_default_refuted",
    "C41_default_never_changes",
    "C41_unknown_rejected",
    "C41_registered"
   ],
   "note": "Finding: set_default_optimizer never has an effect (C41_default_refuted, C41_default_never_changes). Back end and optimizer registry proved for all histories."
  },
  {
   "property": "C42",
   "status": "proved",
   "theorems": [
    "C42_curves",
    "C42_curves_errors",
    "C42_meshes_any",
    "C42_meshes",
    "C42_degenerate_faces_refuted",
    "C42_meshes_errors"
   ],
   "note": "Curves: the loss is the sum of squared varifold distances; non-negative, symmetric, zero iff the length tensors agree at every point. Meshes: never negative, symmetric; the formula holds for non-degenerate meshes that do not have three faces (with the scale multiplied by 2/3, see C51). Finding: a degenerate face makes the loss NaN, even the loss of a mesh and itself."
  },
  {
   "property": "C43",
   "status": "proved",
   "theorems": [
    "C43_curves",
    "C43_curves_motion",
    "C43_meshes",
    "C43_meshes_motion",
    "C43_three_faces_refuted"
   ],
   "note": "Start vertex, direction, order/flip/rotation of faces, renumbering of vertices, joint rigid motions (reflections included); NaN outcomes included. Finding: false of meshes of exactly three faces, whose normals are computed along the wrong axis."
  },
  {
   "property": "C44",
   "status": "proved",
   "theorems": [
    "C44_call",
    "C44_varifold_factory",
    "C44_compound",
    "C44_compound_value",
    "C44_compound_unit_weights",
    "C44_compound_refuted"
   ],
   "note": "Call = weight * loss. Finding: CompoundAttachment ignores the weights of its members (refuted; the value is characterised, at any depth)."
  },
  {
   "property": "C45",
   "status": "proved",
   "theorems": [
    "C45_constructed_box_valid",
    "C45_bounds_in_order_or_value_error",
    "C45_named_bounds",
    "C45_named_bounds_out_of_order",
    "C45_wrong_arguments",
    "C45_representations",
    "C45_dict_keeps_three_axes",
    "C45_couples_are_misread",
    "C45_couples_refuted",
    "C45_nan_bounds_refuted",
    "C45_fl_bounds",
    "C45_box_of_points",
    "C45_box_of_no_points",
    "C45_indexing",
    "C45_names",
    "C45_dictionary_names"
   ],
   "note": "Every constructor, every dimension; errors of each branch; reading bounds and sides by position and by name, with the errors. Findings: AABB(*b.tocouple()) reads the couples as (mins, maxs) and gives another box or raises (C45_couples_refuted); NaN bounds are accepted (C45_nan_bounds_refuted); todict() forgets axes after the third."
  },
  {
   "property": "C46",
   "status": "proved",
   "theorems": [
    "C46_is_inside",
    "C46_is_inside_without_axes",
    "C46_random_points_in_box",
    "C46_random_density",
    "C46_count_grid",
    "C46_count_corners",
    "C46_count_number",
    "C46_count_errors",
    "C46_corners_refuted",
    "C46_spacing_grid",
    "C46_spacing_errors",
    "C46_area_uniform",
    "C46_area_random",
    "C46_area_random_order",
    "C46_area_random_returns",
    "C46_area",
    "C46_area_uniform_density",
    "C46_area_random_never_returns",
    "C46_extent",
    "C46_extent_monotone",
    "C46_area_random_density",
    "C46_uniform_density",
    "C46_area_box"
   ],
   "note": "is_inside, length/area/volume, fill_random(_density), fill_count, fill_uniform_spacing and the fill_area functions, every dimension, with errors. Finding: an axis with one point holds only its lower bound, so corners are missing (C46_corners_refuted; with at least two points per axis all corners are there); fill_area_random does not return when the area never accepts."
  },
  {
   "property": "C47",
   "status": "proved",
   "theorems": [
    "C47_scale",
    "C47_scale_wrong_number_of_factors",
    "C47_scale_valid",
    "C47_scale_negative",
    "C47_scale_valid_refuted",
    "C47_squared",
    "C47_squared_other_cases",
    "C47_squared_refuted",
    "C47_copies",
    "C47_in_place",
    "C47_scale_extent"
   ],
   "note": "Findings: negative factors give boxes with min > max (C47_scale_valid_refuted); squared() raises ZeroDivisionError on a flat side (C47_squared_refuted). Otherwise proved for every box and factor."
  },
  {
   "property": "C48",
   "status": "proved",
   "theorems": [
    "C48_winding_number",
    "C48_angles_exist",
    "C48_side",
    "C48_start_vertex",
    "C48_backward",
    "C48_concatenation",
    "C48_zero_outside",
    "C48_area_shape",
    "C48_area_shape_same",
    "C48_errors"
   ],
   "note": "Winding order = total angle / 2 pi for every closed polygon and point off the outline (angles characterised by cosine and sine, existence proved); side, direction, start vertex, concatenation, separation and the consequences for area_shape. Restated: changing the side negates the order."
  },
  {
   "property": "C49",
   "status": "proved",
   "theorems": [
    "C49_marks",
    "C49_convex",
    "C49_contains",
    "C49_agrees_with_area_shape",
    "C49_repeated_vertex",
    "C49_errors",
    "C49_hull"
   ],
   "note": "Exact marking, convexity, convex combinations, agreement with area_shape, errors. Finding: two equal consecutive vertices (an already closed shape) make intersect=False mark nothing. The 3D branch calls scipy (oracle)."
  },
  {
   "property": "C50",
   "status": "proved",
   "theorems": [
    "C50_distance",
    "C50_area_segment",
    "C50_area_segment_direction",
    "C50_outline",
    "C50_outline_defaults",
    "C50_disc",
    "C50_errors"
   ],
   "note": "Minimum reached, degenerate segments included; exact marking for segments, polylines (closed or not) and discs."
  },
  {
   "property": "C51",
   "status": "proved",
   "theorems": [
    "C51_normals_and_areas",
    "C51_area_normal",
    "C51_translations",
    "C51_flip",
    "C51_centres_refuted",
    "C51_three_faces_refuted",
    "C51_invalid_faces"
   ],
   "note": "Normals and areas are right for meshes that do not have three faces; translations, flips, invalid faces. Findings: centres are 3/2 of the barycentres; with exactly three faces torch.cross works along the faces."
  },
  {
   "property": "C52",
   "status": "proved",
   "theorems": [
    "C52_convex_combination",
    "C52_box",
    "C52_gaussian"
   ],
   "note": "Positive kernels; for Gaussian kernels also translations. sigma = 0 and kernels with zero row sums are left out."
  },
  {
   "property": "C53",
   "status": "proved",
   "theorems": [
    "C53_rotations",
    "C53_angles_add",
    "C53_vectorised",
    "C53_vectorised_agree_iff",
    "C53_vectorised_refuted",
    "C53_vectorised_rank"
   ],
   "note": "Scalar functions are rotations with additive angles; rot3d_x_vec and rot3d_z_vec agree with them. Finding: rot2d_vec and rot3d_y_vec return the matrix of the opposite angle (C53_vectorised_refuted, exact condition in C53_vectorised_agree_iff)."
  },
  {
   "property": "C54",
   "status": "proved",
   "theorems": [
    "C54_translation_scale",
    "C54_short_lists",
    "C54_rigid",
    "C54_extent",
    "C54_extent_refuted",
    "C54_extent_errors"
   ],
   "note": "Translation, scale and rigid helpers proved. Finding: extent_transformation4d translates before scaling and so maps extents correctly only if sides are equal or the target minimum is 0 (C54_extent_refuted, exact condition in C54_extent)."
  },
  {
   "property": "C55",
   "status": "proved",
   "theorems": [
    "C55_round_trips",
    "C55_corners",
    "C55_indices",
    "C55_errors",
    "C55_round_trips_any_dimension"
   ],
   "note": "Both directions, corners, indices, degenerate frames, and the versions for any dimension."
  },
  {
   "property": "C56",
   "status": "proved",
   "theorems": [
    "C56_bilinear",
    "C56_wrong_number_of_points",
    "C56_extrapolation",
    "C56_range_refuted",
    "C56_trilinear"
   ],
   "note": "Finding: sampling is only clamped beyond the last row/column; before the first one the image is extrapolated and leaves its range (C56_extrapolation, C56_range_refuted). Inside of the image, at integer coordinates, for constant images and beyond the last row the property holds (C56_bilinear, C56_trilinear)."
  },
  {
   "property": "C57",
   "status": "proved",
   "theorems": [
    "C57_construction",
    "C57_backward_identity",
    "C57_square_images",
    "C57_square_images_as_points",
    "C57_rectangles_refuted",
    "C57_single_row_refuted",
    "C57_forward_identity",
    "C57_geometry",
    "C57_forward_affine",
    "C57_forward_spacing_refuted",
    "C57_initial_points",
    "C57_forward_default_refuted"
   ],
   "note": "Finding: true of square images (backward: any extent; forward: when the deformed points are the pixel grid), false for every rectangular size, images of one row or column cannot be built, and forward images with the default extent are not reproduced because the initial points are not the pixel grid (C57_initial_points). Forward images moved by an affine map are read at the exact preimages away from the border when the spacing of the pixel grid is the same along both axes (C57_forward_affine); with another spacing they are not (C57_forward_spacing_refuted)."
  },
  {
   "property": "C58",
   "status": "proved",
   "theorems": [
    "C58_sampling_refuted",
    "C58_single_pixel",
    "C58_centred_and_normalised"
   ],
   "note": "Finding: the property is false of every image of more than one pixel (C58_sampling_refuted); images of one pixel work. Centring and normalisation are right whenever there is a result (C58_centred_and_normalised)."
  },
  {
   "property": "C59",
   "status": "proved",
   "theorems": [
    "C59_grids_to_points_and_back",
    "C59_points_to_grids_and_back",
    "C59_errors",
    "C59_extra_coordinates_dropped",
    "C59_other_number_of_grids_refuted"
   ],
   "note": "Every dimension and grid shape when there are as many grids as axes (as torch.meshgrid gives). Finding: with more grids than axes the extra coordinates are dropped silently (C59_other_number_of_grids_refuted)."
  },
  {
   "property": "C60",
   "status": "proved",
   "theorems": [
    "C60_history",
    "C60_fit_costs",
    "C60_fit_costs_none"
   ],
   "note": "All sequences of appends; also the costs dictionary of Fitter.fit."
  },
  {
   "property": "C61",
   "status": "proved",
   "theorems": [
    "C61_device",
    "C61_dtype",
    "C61_nested_refuted",
    "C61_flattened"
   ],
   "note": "Finding: nested lists raise AttributeError (C61_nested_refuted); flat lists and flattened nested lists proved."
  },
  {
   "property": "C62",
   "status": "proved",
   "theorems": [
    "C62_unit_square",
    "C62_unit_square_negative",
    "C62_rectangle",
    "C62_rectangle_errors",
    "C62_unit_circle",
    "C62_mesh_grid",
    "C62_disc",
    "C62_disc_repeats_refuted",
    "C62_sparse_disc_refuted",
    "C62_disc_errors"
   ],
   "note": "True of squares, rectangles (density >= 0), circles and grids. Finding: generate_disc_density repeats the first point of each ring, and makes at most the inner circle when density*(outer-inner) <= 1."
  },
  {
   "property": "C63",
   "status": "proved",
   "theorems": [
    "C63_file_name",
    "C63_dispatch_refuted",
    "C63_accepted_paths",
    "C63_meshes_refuted"
   ],
   "note": "Finding: the dispatch uses os.path.split instead of splitext, so only files whose whole name is '.csv', '.pkl', ... are accepted (C63_dispatch_refuted); C63_accepted_paths says exactly which. Meshes are returned as arrays and DeformableMesh.load_from_file always raises."
  },
  {
   "property": "C64",
   "status": "proved",
   "theorems": [
    "C64_backend"
   ],
   "note": "All histories of set_compute_backend."
  },
  {
   "property": "C65",
   "status": "proved",
   "theorems": [
    "C65_pointwise",
    "C65_pointwise_triangle",
    "C65_images",
    "C65_transforms",
    "C65_smooth_refuted"
   ],
   "note": "Both attachments, with the triangle inequality for the pointwise one. Finding: transform='smooth' does not separate images (an image and its negative are at distance 0); 'radon' raises TypeError. 'fft' and scale=True are not modelled."
  },
  {
   "property": "C66",
   "status": "proved",
   "theorems": [
    "C66_two_vertices",
    "C66_first_point",
    "C66_points_on_curve_refuted"
   ],
   "note": "Refuted: the first returned point is the opposite of the first vertex and two-vertex curves raise IndexError; proved for every curve."
  },
  {
   "property": "C67",
   "status": "proved",
   "theorems": [
    "C67_mask_indices",
    "C67_greyscale",
    "C67_other_images"
   ],
   "note": "mask_to_indices and load_greyscale_image."
  },
  {
   "property": "C68",
   "status": "proved",
   "theorems": [
    "C68_pickle",
    "C68_csv",
    "C68_single_csv_refuted",
    "C68_no_points_refuted",
    "C68_wrong_container_refuted",
    "C68_mesh",
    "C68_points_as_mesh",
    "C68_load_errors"
   ],
   "note": "Round trips hold for pickles with at least one point and for text with at least two points of at least two coordinates; saving a mesh writes its points and triangles. Finding: false otherwise, and a wrong container name empties the file before raising."
  },
  {
   "property": "C69",
   "status": "proved",
   "theorems": [
    "C69_append",
    "C69_keys"
   ],
   "note": "By induction over the keys."
  },
  {
   "property": "C70",
   "status": "proved",
   "theorems": [
    "C70_fields",
    "C70_action",
    "C70_given_controls",
    "C70_geodesic_controls",
    "C70_local_modules",
    "C70_anchored_closures_refuted"
   ],
   "note": "Equality of tensors, results and exceptions (functional extensionality). CompoundLandmarks are excluded where the code raises for them anyway (C16). C70_anchored_closures_refuted shows that the hypothesis on user closures is needed."
  },
  {
   "property": "C71",
   "status": "proved",
   "theorems": [
    "C71_shooting_commutes_with_translations"
   ],
   "note": "For torch_euler. The hypothesis on autograd is satisfied by an exact one (MotionExample.v, used in the Example only). The torchdiffeq solvers are not covered here; C72 covers them for the conservation of momentum."
  },
  {
   "property": "C72",
   "status": "proved",
   "theorems": [
    "C72_exact_motion",
    "C72_torch_euler",
    "C72_fixed_step_schemes",
    "C72_modules_torch_euler",
    "C72_modules_fixed_step"
   ],
   "note": "Noether: the Hamiltonian is unchanged when the points are translated, so the sum of its derivatives with respect to the positions vanishes at every stage. Numerics over R. The differentiability of the Hamiltonian assumed in the first theorems is proved for the modules of the library in C72_modules_*. C72_exact_motion: the same law for exact solutions."
  },
  {
   "property": "C73",
   "status": "proved",
   "theorems": [
    "C73_grid_is_reproduced",
    "C73_grid_follows_its_points",
    "C73_unexported_class_refuted",
    "C73_deformed_geometry_refuted",
    "C73_short_resolution_refuted"
   ],
   "note": "Holds for the exported class and any dimension. Findings: the unexported class of DeformationModules/DeformationGrid.py can never be built; the deformed geometry of a DeformableGrid is a list of points, not grids; a resolution shorter than the dimension of the box is accepted and gives points with too few coordinates."
  },
  {
   "property": "C74",
   "status": "proved",
   "theorems": [
    "C74_spawn",
    "C74_unknown_keys",
    "C74_call_refuted"
   ],
   "note": "spawn proved for all histories. Finding: calling the factory raises NameError (C74_call_refuted)."
  },
  {
   "property": "C75",
   "status": "proved",
   "theorems": [
    "C75_growth_round_trip",
    "C75_growth_errors",
    "C75_basis_refuted",
    "C75_basis_exported"
   ],
   "note": "Growth round trip proved. Finding: import_point_basis always raises (TypeError on the unknown keyword dype), even on files written by export_point_basis."
  },
  {
   "property": "C76",
   "status": "proved",
   "theorems": [
    "C76_affine",
    "C76_inverse_matrix",
    "C76_same_matrix_refuted",
    "C76_refused"
   ],
   "note": "Finding: both functions apply the matrix itself, so they are inverse of each other only with the inverse matrix (C76_inverse_matrix) and not with the same one (C76_same_matrix_refuted)."
  },
  {
   "property": "C77",
   "status": "proved",
   "theorems": [
    "C77_torch_euler",
    "C77_fixed_step_schemes",
    "C77_points"
   ],
   "note": "Exact derivatives (real numbers). The derivative of the Hamiltonian with respect to the moments goes through the geodesic controls; the envelope argument uses their optimality (C19). With given controls and the fixed step solvers the statement is C28_evaluation_control."
  },
  {
   "property": "C78",
   "status": "proved",
   "theorems": [
    "C78_distances",
    "C78_given_controls",
    "C78_unbounded_refuted"
   ],
   "note": "C78_distances gives the two-sided bound for every pair of points with the fields' strength as hypothesis; C78_given_controls reads the strength from the controls and concludes that distinct points never meet; C78_unbounded_refuted is a finding: with a strong control one step merges two points, so shooting is not one-to-one without a step-size condition. Distances over the reals; torch_euler only."
  },
  {
   "property": "C79",
   "status": "proved",
   "theorems": [
    "C79_given_controls",
    "C79_geodesic_controls",
    "C79_computable",
    "C79_local_scaling_refuted"
   ],
   "note": "given controls, geodesic controls, definedness; finding: LocalScaling is not equivariant (C79_local_scaling_refuted)"
  },
  {
   "property": "C80",
   "status": "proved",
   "theorems": [
    "C80_torch_euler",
    "C80_fixed_step_schemes",
    "C80_same_scene",
    "C80_modules_torch_euler",
    "C80_modules_fixed_step"
   ],
   "note": "under smoothness of the first Hamiltonian; torch_euler with given or geodesic controls, fixed-step torchdiffeq schemes with geodesic controls; corollary for the identity motion"
  },
  {
   "property": "C81",
   "status": "proved",
   "theorems": [
    "C81_geodesic",
    "C81_given",
    "C81_steps",
    "C81_along_curves",
    "C81_local_modules"
   ],
   "note": "C81_geodesic, C81_given and C81_steps need no regularity hypothesis: computability of the controls implies definiteness of the linear systems (ModulePosed.v). C81_local_modules covers LocalScaling and LocalRotation."
  },
  {
   "property": "C82",
   "status": "proved",
   "theorems": [
    "C82_step",
    "C82_torch_euler",
    "C82_fixed_step_schemes"
   ],
   "note": "C82_step is an equivalence for one step; the two run theorems ask regularity wherever the descriptors go, which positive nu gives."
  },
  {
   "property": "C83",
   "status": "proved",
   "theorems": [
    "C83_deformed_templates",
    "C83_costs_of_the_deformed_templates",
    "C83_calls_are_repeatable",
    "C83_modes_refuted",
    "C83_settings",
    "C83_hypertemplate_parameter",
    "C83_hypertemplate_refuted",
    "C83_attachments"
   ],
   "note": "The deformed templates, their recorded intermediates, the attach cost, repeatability under any history, refused modes and settings, and the hypertemplate parameter are proved. Findings: C83_modes_refuted (only 'sequential' and 'parallel' are accepted, and 'parallel' cannot deform), C83_hypertemplate_refuted (optimise_template atlases are never evaluated: shoot is called without its costs argument)."
  },
  {
   "property": "C84",
   "status": "proved",
   "theorems": [
    "C84_without_callback",
    "C84_callback_cost",
    "C84_callback_errors",
    "C84_repeatable",
    "C84_atlas_costs",
    "C84_own_callback_refuted",
    "C84_deformed_refuted"
   ],
   "note": "Proved for callbacks that are arbitrary functions of the heap and of the model. Findings: C84_deformed_refuted (compute_deformed ignores the callback), C84_own_callback_refuted (the atlas's own callback has no effect)."
  },
  {
   "property": "C85",
   "status": "proved",
   "theorems": [
    "C85_previous_evaluates",
    "C85_torch_euler_previous",
    "C85_choices",
    "C85_previous_is_energy",
    "C85_attachments_same",
    "C85_unknown_refuted",
    "C85_total_needs_controls",
    "C85_total",
    "C85_total_is_sum",
    "C85_total_refuted"
   ],
   "note": "Findings: C85_total_refuted (midpoint: the controls paid for are not those used), C85_unknown_refuted (unknown reduce accepted, no deformation cost). C85_choices covers every clock and solver; C85_previous_is_energy and C85_total are for exact times and the fixed step schemes; C85_previous_evaluates and C85_torch_euler_previous: 'previous' evaluates, torch_euler included."
  },
  {
   "property": "C86",
   "status": "proved",
   "theorems": [
    "C86_geodesic_energy",
    "C86_given_energy",
    "C86_torch_euler_step"
   ],
   "note": "Chain rule along the solution with the differentiability of C81: the derivative is the symplectic product of the gradient with itself. Numerics over R, linear solves exact. That exact solutions exist is not proved in general; the example has an explicit one."
  },
  {
   "property": "C87",
   "status": "proved",
   "theorems": [
    "C87_exact_motion",
    "C87_torch_euler",
    "C87_shooting_keeps_angular_momentum_refuted"
   ],
   "note": "Noether for rotations: the Hamiltonian is unchanged by rotations of isotropic modules (C79), so its derivative along them vanishes. The refuted theorem is the finding that discrete shooting does not keep the angular momentum, with an explicit one-step witness."
  },
  {
   "property": "C88",
   "status": "proved",
   "theorems": [
    "C88_given_controls",
    "C88_geodesic_controls",
    "C88_torch_euler",
    "C88_fixed_step_schemes"
   ],
   "note": "Trees of modules compared through their leaves and a permutation. The schemes of torchdiffeq are covered for flat compounds (the only ones they accept in the code, see C25/C26), torch_euler for any nesting; both runs are assumed to end without error (C82 gives it)."
  },
  {
   "property": "C89",
   "status": "proved",
   "theorems": [
    "C89_plain",
    "C89_fft",
    "C89_fft_refused",
    "C89_fft_volumes_refuted",
    "C89_enlarged",
    "C89_sizes",
    "C89_resizing_refused"
   ],
   "note": "Findings: volumes (refuted with a family of witnesses), signals and recent torch (error branches). Only the mode 'nearest' and natural scale factors are modelled; other modes are left abstract and nothing is claimed about them."
  },
  {
   "property": "C90",
   "status": "proved",
   "theorems": [
    "C90_torch_euler",
    "C90_fixed_step_schemes"
   ],
   "note": "First order of convergence for all the fixed-step integrators with geodesic controls. The Lipschitz bound near the exact solution is a hypothesis (tame in SpecConverge.v), met with L = 384 by the example; the order 2 and 4 of midpoint and rk4 are not proved."
  },
  {
   "property": "C91",
   "status": "proved",
   "theorems": [
    "C91_built",
    "C91_nothing_given",
    "C91_refused",
    "C91_compound"
   ],
   "note": "Covers every combination of given and missing parts, devices and dtypes; shapes of the given tensors are not checked by the code (C07)."
  },
  {
   "property": "C92",
   "status": "proved",
   "theorems": [
    "C92_clone",
    "C92_container",
    "C92_fill"
   ],
   "note": "requires_grad is a boolean: Manifold.clone() with its default None is not modelled."
  },
  {
   "property": "C93",
   "status": "proved",
   "theorems": [
    "C93_to_device",
    "C93_to_dtype",
    "C93_to_refused",
    "C93_zeros",
    "C93_zeros_compound",
    "C93_randn",
    "C93_requires_grad",
    "C93_requires_grad_others"
   ],
   "note": "A compound refuses fill_*_zeros and *_requires_grad_ (NotImplementedError, C93_zeros_compound and C93_requires_grad_others): it inherits the versions of BaseManifold. A compound keeps reporting its old dtype after to_(dtype) (C04)."
  },
  {
   "property": "C94",
   "status": "proved",
   "theorems": [
    "C94_calls",
    "C94_fill",
    "C94_fill_from",
    "C94_clone"
   ],
   "note": "HeapModel.v repeats the methods of imodal/Manifolds with references into a heap of storages; the theorems relate it to ManifoldModel.v, for every call. Writes through views are writes of the whole storage."
  },
  {
   "property": "C95",
   "status": "proved",
   "theorems": [
    "C95_independent",
    "C95_clone",
    "C95_copied",
    "C95_shared",
    "C95_default_fill_refuted",
    "C95_built",
    "C95_kept",
    "C95_renewed",
    "C95_getter",
    "C95_filled_from"
   ],
   "note": "Independence by induction over histories. The independence does not hold after fill() with its default copy=False: C95_default_fill_refuted (a finding, by design of the default), with C95_shared, C95_built, C95_kept and C95_renewed saying exactly what is shared."
  },
  {
   "property": "C96",
   "status": "proved",
   "theorems": [
    "C96_controls",
    "C96_motion",
    "C96_there_and_back_torch_euler",
    "C96_there_and_back_fixed_step",
    "C96_way_back_torch_euler",
    "C96_way_back_fixed_step",
    "C96_exactly_back_refuted"
   ],
   "note": "Finding: C96_exactly_back_refuted (one Euler step there and back does not return). Positive: opposite controls, same cost (C96_controls); reversed exact motion (C96_motion); return up to C / it (C96_there_and_back_*), success of the way back (C96_way_back_*). Without given controls (geodesic ones)."
  },
  {
   "property": "C97",
   "status": "proved",
   "theorems": [
    "C97_superposition",
    "C97_cost_bounds_speed",
    "C97_zero_controls_move_nothing",
    "C97_controls_linear_in_moments"
   ],
   "note": "For regular modules (distinct points or nu > 0, as in C18), where geodesic controls exist for any single landmark; reals, exact solver."
  },
  {
   "property": "C98",
   "status": "proved",
   "theorems": [
    "C98_controls",
    "C98_motion",
    "C98_fixed_step",
    "C98_can_be_shot",
    "C98_torch_euler_end_refuted"
   ],
   "note": "Positions, moments, controls and costs, exact motions and the three fixed-step schemes; C98_can_be_shot gives the second shooting. C98_torch_euler_end_refuted is a finding: torch_euler ignores t1, so the end time cannot stand for larger moments."
  },
  {
   "property": "C99",
   "status": "proved",
   "theorems": [
    "C99_reported",
    "C99_gd",
    "C99_sgd",
    "C99_sgd_refuted",
    "C99_scipy",
    "C99_scipy_errors",
    "C99_scipy_refuted"
   ],
   "note": "Finding: false with torch_sgd (the cost reported is the one before the last update: C99_sgd, C99_sgd_refuted) and with the scipy minimizers (the model is left at the vector evaluated last, not at the answer: C99_scipy, C99_scipy_refuted). True with gd (C99_gd); what is reported in general is C99_reported. torch.optim and scipy are strategies quantified in the theorems."
  },
  {
   "property": "C100",
   "status": "proved",
   "theorems": [
    "C100_options_of_the_first_call",
    "C100_options_refuted"
   ],
   "note": "Finding: refuted; the torch optimizer is built at the first call and kept until reset(), later options and parameter groups are ignored (C100_options_refuted); exact rule in C100_options_of_the_first_call."
  },
  {
   "property": "C101",
   "status": "proved",
   "theorems": [
    "C101_iterations",
    "C101_user_callback_refuted",
    "C101_display_refuted",
    "C101_display_harmless",
    "C101_gd_attributes_refuted"
   ],
   "note": "Iteration numbers and histories hold (C101_iterations). Findings: the callback given to Fitter is never called; with the default display fit raises AttributeError after the first step for atlases (IndexError for models without deformation modules); minimum_found never becomes True and total_evaluation_count counts steps."
  },
  {
   "property": "C102",
   "status": "proved",
   "theorems": [
    "C102_attachments",
    "C102_attachments_in_models",
    "C102_fixed_step",
    "C102_torch_euler"
   ],
   "note": "Fixed step schemes (exact times) and torch_euler, moments-driven (geodesic controls); deformation cost 'sum', 'previous' or unknown. Not covered: lastcompound and learned controls, deformable images, KeOps 2D varifolds, meshes of exactly three faces (C43). Both evaluations are assumed to succeed; gradients and solvers are exact (oracles, possibly different in the two evaluations)."
  },
  {
   "property": "C103",
   "status": "proved",
   "theorems": [
    "C103_given_controls",
    "C103_geodesic_controls",
    "C103_computable",
    "C103_local_modules",
    "C103_motion",
    "C103_torch_euler",
    "C103_fixed_step",
    "C103_same_coefficient_refuted"
   ],
   "note": "All modules of the library and their compounds; torch_euler with geodesic or given controls, the torchdiffeq schemes with geodesic controls; exact solutions of the motion. C103_same_coefficient_refuted is a finding: coefficients of a linear module carry a unit, so rescaling data, moments and scales alone is not a change of unit. Fixed-step theorems are over exact reals and exact solvers/gradients."
  },
  {
   "property": "C104",
   "status": "proved",
   "theorems": [
    "C104_gd_fit_multiplied",
    "C104_sgd_fit_multiplied",
    "C104_points",
    "C104_gradients",
    "C104_gd_steps",
    "C104_gd_fit",
    "C104_sgd_fit",
    "C104_gd_fit_where_smooth",
    "C104_sgd_fit_where_smooth",
    "C104_tolerance_refuted",
    "C104_same_steps_refuted"
   ],
   "note": "C104_points shows that the motions of point sets and moments are such similarities; C104_gradients that exact gradients correspond; C104_gd_steps steps of gd with costs in another unit; C104_gd_fit and C104_sgd_fit whole runs of OptimizerTorch.optimize, exceptions of the callback included. C104_gd_fit_multiplied and C104_sgd_fit_multiplied: with costs multiplied by k, the same runs as long as the costs reported stay at least 1 before and after the multiplication. Findings: C104_tolerance_refuted (the test of convergence (last - total)/max(total, last, 1) depends on the unit of the costs: same iterates, one run reports success and the other not) and C104_same_steps_refuted (step lengths have a unit). The cost is any function differentiable everywhere whose gradient is the one given (autograd is exact); the steps of torch.optim.SGD are those without momentum."
  },
  {
   "property": "C105",
   "status": "proved",
   "theorems": [
    "C105_attachments",
    "C105_attachments_in_models",
    "C105_fixed_step",
    "C105_torch_euler",
    "C105_same_lam_refuted",
    "C105_mixed_refuted"
   ],
   "note": "Attachments: every attachment on points, closed curves and meshes (not of three faces, see C43), by induction over compounds. Evaluation: fixed step schemes with geodesic controls and torch_euler; deformation cost by 'sum', 'previous' or an unknown reduction. Findings: lam has a unit that depends on the attachment (C105_same_lam_refuted); compounds may add losses of different units (C105_mixed_refuted). Images (L2) and learned controls are not covered."
  },
  {
   "property": "C106",
   "status": "proved",
   "theorems": [
    "C106_marks",
    "C106_one_point",
    "C106_partition",
    "C106_same_line",
    "C106_no_line",
    "C106_errors",
    "C106_point_side",
    "C106_documented_side_refuted",
    "C106_closed",
    "C106_empty_shape"
   ],
   "note": "Sides are specified by coordinates along and across the line (seen, on_left, on_right, on_line in PropSide.v), not by the determinant the code computes. Finding: point_side returns +1 on the left although documented -1 (C106_documented_side_refuted)."
  },
  {
   "property": "C107",
   "status": "proved",
   "theorems": [
    "C107_turned_moments",
    "C107_initial_moments",
    "C107_same_costs",
    "C107_evaluates",
    "C107_gd_fit",
    "C107_sgd_fit"
   ],
   "note": "Whole registration fits are equivariant: C102 (same costs) and C104 (placed fits, costs differentiable only where a gradient is asked) put together on the heap of the model.  turn_moments is the turning of each tensor of moments, row by row or frame by frame; C107_turned_moments says it is a similarity, C107_initial_moments that the model built elsewhere starts from the turned moments, C107_same_costs that the costs agree at turned moments whenever both models can be evaluated there, C107_evaluates that with regular modules, ordinary objects and attachments that answer they can be, at any moments.  C107_gd_fit and C107_sgd_fit: same outcome with the moments turned.  Fixed step schemes euler, midpoint, rk4; the gradients given to the optimizer are assumed to be those of the total cost at the points where they are asked.  Models with learned controls, precompute callbacks and other parameters are left out.  The example runs one step of SGD on two explicit models on the line whose cost is not differentiable everywhere."
  },
  {
   "property": "C108",
   "status": "proved",
   "theorems": [
    "C108_given_controls",
    "C108_geodesic_controls",
    "C108_same_velocities",
    "C108_torch_euler",
    "C108_fixed_step_schemes"
   ],
   "note": "Silent modules appended at the end of the list (C88: any other place in the list or nesting). Passengers are any silent modules with zero moments, manifolds with points, directions, frames or compounds of them. C108_given_controls and C108_geodesic_controls: controls, cost, Hamiltonian and (given the same controls) the vector field and its derivative; C108_same_velocities: the velocity of every point under the two geodesic controls, modules away from degenerate positions; C108_torch_euler (geodesic or given controls), C108_fixed_step_schemes (euler, midpoint, rk4 of torchdiffeq, geodesic controls): the trajectories of the modules and the costs are the same and the moments of the passengers stay zero. That the passengers themselves are carried by the field is C77. Both shootings are assumed to return; exact linear solver and exact gradients; local modules with differentiable closures. C108_hypotheses: the five-module compound of C82 with a grid and frames."
  },
  {
   "property": "C109",
   "status": "proved",
   "theorems": [
    "C109_scaling",
    "C109_rotation",
    "C109_third_turn",
    "C109_vectors",
    "C109_inwards_refuted",
    "C109_rotation_space",
    "C109_alone"
   ],
   "note": "First-order behaviour at the centre, third-of-a-turn symmetry, directions of the vectors and immobility of the centre when shot alone (torch_euler). C109_inwards_refuted is a finding: the docstring of LocalScaling announces vectors pointing inwards, the code makes them point outwards (C109_vectors)."
  },
  {
   "property": "C110",
   "status": "proved",
   "theorems": [
    "C110_initial_moments",
    "C110_costs",
    "C110_gd_steps",
    "C110_gradients",
    "C110_gd_fit",
    "C110_stopping_refuted"
   ],
   "note": "C110_initial_moments: the moments at the start correspond. C110_costs: with lam' * k = u * u * lam, for all moments the costs seen by the fitter are multiplied by u * u. C110_gradients: for all manifolds, the gradient for a tensor of moments multiplied by c is multiplied by u * u / c. C110_gd_steps: when the manifolds hold only points, any number of gradient-descent steps with the same step lengths follow the corresponding moments. C110_gd_fit: a whole fit by gd stops at the same iteration with the same success as long as the costs reported stay at least 1 in both units; C110_stopping_refuted: a registration whose fit is a success in one unit and not in the other, with the same options. Finding: the moments of directions and frames are multiplied by u * u and their gradients are not changed, so they would need a step length multiplied by u * u, while the optimizer has one step length for all the moments: with directions or frames the path of a fit depends on the unit. Conditions of C110_costs: reductions sum, previous or unknown."
  },
  {
   "property": "C111",
   "status": "proved",
   "theorems": [
    "C111_elsewhere",
    "C111_units",
    "C111_built_elsewhere",
    "C111_built_units"
   ],
   "note": "C111_elsewhere and C111_units for any states of the subjects (induction over the subjects, each by C102 or C105), C111_built_elsewhere and C111_built_units for atlases just built by AtlasModel. Without hypertemplate (evaluating with one always fails, C83_hypertemplate_refuted), without precompute callback, exact gradients and solvers, geodesic controls."
  },
  {
   "property": "C112",
   "status": "proved",
   "theorems": [
    "C112_any_order",
    "C112_one_subject"
   ],
   "note": "C112_any_order and C112_one_subject, for any solver, clock, autograd and linear solver; example with two subjects exchanged and with a tensor of the second one changed."
  },
  {
   "property": "C113",
   "status": "proved",
   "theorems": [
    "C113_gradient",
    "C113_sgd",
    "C113_atlas_costs",
    "C113_atlas_fit",
    "C113_gd_refuted"
   ],
   "note": "The positive part: C113_atlas_costs, C113_gradient, C113_sgd and their combination C113_atlas_fit. C113_gd_refuted is a finding: with the common line search of gd a joint fit and separate fits differ (two quadratic costs of different stiffness, shown for abstract costs, not inside an atlas). Miniter is the number of iterations, so that the stopping criterion is not in force."
  },
  {
   "property": "C114",
   "status": "proved",
   "theorems": [
    "C114_attachments",
    "C114_any_order",
    "C114_built"
   ],
   "note": "For registrations driven by their moments (no learned controls), reduce 'sum', fixed-step schemes, exact times. Stated for any registration whose starting objects and modules are a permutation (C114_any_order) and for two registrations just built by the constructor (C114_built). C114_attachments discharges the hypothesis on the attachments for those of the library."
  },
  {
   "property": "C115",
   "status": "proved",
   "theorems": [
    "C115_gradients",
    "C115_gd_fit",
    "C115_sgd_fit",
    "C115_initial_moments",
    "C115_same_costs",
    "C115_registration_gd",
    "C115_registration_sgd"
   ],
   "note": "Fits with objects, modules and parameter tensors listed in another order: gradients, line search, fixed step, initial moments, costs and whole fits correspond. Real-number arithmetic (sums in floating point do depend on the order); fit of the moments only (no controls or extra parameters), cost reduction sum; gradients are those of the cost, needed only where the run asks for them."
  },
  {
   "property": "C116",
   "status": "proved",
   "theorems": [
    "C116_controls",
    "C116_given_controls",
    "C116_same_controls",
    "C116_motion",
    "C116_fixed_step",
    "C116_torch_euler",
    "C116_can_be_shot",
    "C116_translations_refuted",
    "C116_atlas",
    "C116_registration",
    "C116_registration_torch_euler"
   ],
   "note": "controls, given controls, exact motions, fixed-step schemes and torch_euler, registrations (sum and previous reductions), atlases without hypertemplate; Translations has no coefficient: refuted there"
  },
  {
   "property": "C117",
   "status": "proved",
   "theorems": [
    "C117_initial_moments",
    "C117_costs",
    "C117_gradients",
    "C117_gd_steps",
    "C117_same_steps_refuted",
    "C117_gd_fit",
    "C117_sgd_fit"
   ],
   "note": "initial moments, costs, gradients, gd steps with step lengths multiplied by k, whole fits with gd and SGD while the costs are above 1; with equal steps refuted"
  },
  {
   "property": "C118",
   "status": "proved",
   "theorems": [
    "C118_fixed_step",
    "C118_torch_euler",
    "C118_controls",
    "C118_registration",
    "C118_atlas_on_target",
    "C118_on_target",
    "C118_points_on_themselves",
    "C118_registration_torch_euler",
    "C118_motion"
   ],
   "note": "fixed-step schemes with exact times, torch_euler with any clock; registrations with the reductions sum and previous (previous only for torch_euler, which fails with sum); exact motions: zero velocity where the moments are zero (uniqueness of the motion is not used)"
  }
 ]
}