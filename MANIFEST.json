{
 "claims": [
  {
   "property": "C01",
   "status": "proved",
   "theorems": [
    "C01_vec2_translations",
    "C01_translate2d",
    "C01_identity"
   ],
   "note": "Exact arithmetic; all laws for Vec2, Translate2d, IdentityTransform."
  },
  {
   "property": "C02",
   "status": "proved",
   "theorems": [
    "C02_inverse_law_f32",
    "C02_inverse_law_refuted",
    "C02_inverse_error"
   ],
   "note": "About binary32 itself: holds on a common grid of at most 23 bits (C02_inverse_law_f32), fails in general (C02_inverse_law_refuted), with the error bounded by the two roundings (C02_inverse_error)."
  },
  {
   "property": "C03",
   "status": "proved",
   "theorems": [
    "C03_axis_unapply_compose",
    "C03_axis_inverse_iff",
    "C03_axis_inverse_refuted"
   ],
   "note": "apply/unapply/compose proved; the documented inverse law is refuted (exact iff-characterisation proved)."
  },
  {
   "property": "C04",
   "status": "proved",
   "theorems": [
    "C04_transform2d_apply_unapply"
   ],
   "note": "Exact arithmetic, unit rotor, non-zero scale."
  },
  {
   "property": "C05",
   "status": "proved",
   "theorems": [
    "C05_transform2d_compose_iff"
   ],
   "note": "Exact characterisation (iff): the general law is false."
  },
  {
   "property": "C06",
   "status": "proved",
   "theorems": [
    "C06_transform2d_inverse_iff",
    "C06_transform2d_inverse_refuted"
   ],
   "note": "Exact characterisation (iff); general law refuted."
  },
  {
   "property": "C07",
   "status": "proved",
   "theorems": [
    "C07_delta_transform_is_relative_pose"
   ],
   "note": "Uniform scale on self; exact arithmetic."
  },
  {
   "property": "C08",
   "status": "proved",
   "theorems": [
    "C08_rotor_angles",
    "C08_rotor_isometries",
    "C08_rotor_angle_roundtrip"
   ],
   "note": "Angles through real sin/cos/atan2 (Angle.v)."
  },
  {
   "property": "C09",
   "status": "proved",
   "theorems": [
    "C09_from_quaternion_planar",
    "C09_from_quaternion_sandwich",
    "C09_from_quaternion_unit_iff"
   ],
   "note": "Planar quaternions proved; the claim for tilted quaternions is refuted by the iff."
  },
  {
   "property": "C10",
   "status": "proved",
   "theorems": [
    "C10_normals_are_rotated"
   ],
   "note": ""
  },
  {
   "property": "C11",
   "status": "proved",
   "theorems": [
    "C11_extreme_point_point",
    "C11_extreme_point_ball",
    "C11_extreme_point_box",
    "C11_extreme_point_rounded_box",
    "C11_extreme_point_poly",
    "C11_extreme_point_poly_low",
    "C11_extreme_point_shape",
    "C11_constructors"
   ],
   "note": "Directions of length bounded by a stated bound for polygons (the code starts its search at f32::MIN; C11_extreme_point_poly_low says what happens below it)."
  },
  {
   "property": "C12",
   "status": "proved",
   "theorems": [
    "C12_transformed_box_poly_shape",
    "C12_transformed_ball",
    "C12_transformed_point",
    "C12_collider_uses_extreme_point_t",
    "C12_transformed_box_any_scale",
    "C12_acts_as_instances",
    "C12_nonuniform_poly_refuted",
    "C12_nonuniform_ball_refuted"
   ],
   "note": "Uniform scale proved; non-uniform scale refuted for Poly2d and Ball, proved for boxes."
  },
  {
   "property": "C13",
   "status": "proved",
   "theorems": [
    "C13_minkowski_support"
   ],
   "note": ""
  },
  {
   "property": "C14",
   "status": "proved",
   "theorems": [
    "C14_bounding_boxes_tight",
    "C14_cover_minimal"
   ],
   "note": ""
  },
  {
   "property": "C15",
   "status": "proved",
   "theorems": [
    "C15_box_point_exact",
    "C15_box_point_strictly_inside"
   ],
   "note": ""
  },
  {
   "property": "C16",
   "status": "proved",
   "theorems": [
    "C16_ball_point_exact",
    "C16_ball_ball_exact",
    "C16_concentric_along_x",
    "C16_zero_radius_refuted"
   ],
   "note": "Zero total radius at distance 0 is the exception (refuted there)."
  },
  {
   "property": "C17",
   "status": "proved",
   "theorems": [
    "C17_rounded_point_exact",
    "C17_box_ball_exact",
    "C17_flag_on_the_line",
    "C17_exact_line_refuted"
   ],
   "note": "Exact except on the line |x| = hx, |y| < hy, where the vector is refuted and the flag still proved for positive radius."
  },
  {
   "property": "C18",
   "status": "proved",
   "theorems": [
    "C18_point_box_exact",
    "C18_point_ball_exact",
    "C18_rigid_instances",
    "C18_scaled_refuted"
   ],
   "note": "Rigid relative transforms; refuted with scale."
  },
  {
   "property": "C19",
   "status": "proved",
   "theorems": [
    "C19_box_point_sdf",
    "C19_rounded_point_sdf",
    "C19_ball_point_sdf",
    "C19_ball_ball_sdf",
    "C19_point_point",
    "C19_sdf_matches_sdfv"
   ],
   "note": ""
  },
  {
   "property": "C20",
   "status": "proved",
   "theorems": [
    "C20_box_ball_sdf_outside_refuted",
    "C20_box_ball_sdf_inside_refuted",
    "C20_box_ball_sdf_axis",
    "C20_box_ball_sdf_outside",
    "C20_box_ball_sdf_inside_sign",
    "C20_box_ball_sdf_sign_refuted"
   ],
   "note": "The natural claim (signed distance) is refuted three ways; what does hold is characterised exactly outside (iff) and by sign inside."
  },
  {
   "property": "C21",
   "status": "proved",
   "theorems": [
    "C21_queries_agree"
   ],
   "note": "For every arithmetic, f32 included."
  },
  {
   "property": "C22",
   "status": "proved",
   "theorems": [
    "C22_common_motion",
    "C22_common_motion_sdf",
    "C22_common_translation",
    "C22_nonuniform_refuted"
   ],
   "note": "Rigid and uniform-scale motions; refuted for non-uniform scale."
  },
  {
   "property": "C23",
   "status": "proved",
   "theorems": [
    "C23_box_point_world",
    "C23_ball_point_world",
    "C23_ball_ball_world",
    "C23_box_ball_world",
    "C23_point_box_world",
    "C23_point_ball_world",
    "C23_vectors_agree_iff",
    "C23_penetrates_world_refuted"
   ],
   "note": "Refuted for rotated self, exact iff proved; the world-space meaning of each query is proved pair by pair."
  },
  {
   "property": "C24",
   "status": "proved",
   "theorems": [
    "C24_scaled_other_refuted",
    "C24_scaled_self_refuted",
    "C24_common_scale"
   ],
   "note": "Refuted for analytic pairs (scale of self and of other ignored); common scale proved."
  },
  {
   "property": "C25",
   "status": "proved",
   "theorems": [
    "C25_symmetric_ball_ball",
    "C25_symmetric_box_point",
    "C25_symmetric_ball_point",
    "C25_concentric_refuted"
   ],
   "note": "Refuted only for concentric balls (both vectors along +x)."
  },
  {
   "property": "C26",
   "status": "proved",
   "theorems": [
    "C26_no_unreachable",
    "C26_queries_total",
    "C26_epa_index_in_range",
    "C26_epa_starts_from_triangle"
   ],
   "note": "For every arithmetic and every support function."
  },
  {
   "property": "C27",
   "status": "proved",
   "theorems": [
    "C27_false_means_shallow",
    "C27_pairs_share_search",
    "C27_collides_false_sound",
    "C27_penetrates_none_sound",
    "C27_distance_some_sound",
    "C27_sdfv_false_sound"
   ],
   "note": "Exact arithmetic; covers the four const-generic variants. 'Before exhausting the limit' is part of the first statement; C27_false_means_shallow has no such clause."
  },
  {
   "property": "C28",
   "status": "proved",
   "theorems": [
    "C28_distance_none_sound",
    "C28_sdfv_true_sound",
    "C28_collides_true_sound",
    "C28_penetrates_some_sound"
   ],
   "note": "Exact arithmetic; the tolerance f32::EPSILON is accounted for, exact when it does not interfere (hypothesis `resolved`, met on the 1/128 grid by C29_grid_resolved; it never holds for a scene with a ball of positive radius, for those see C54 and C55)."
  },
  {
   "property": "C29",
   "status": "proved",
   "theorems": [
    "C29_collides_complete",
    "C29_all_queries_complete",
    "C29_corner_bound",
    "C29_grid_resolved",
    "C29_collides_decides"
   ],
   "note": "Exact arithmetic; bound 20 on the number of support values = the code's iteration limit."
  },
  {
   "property": "C30",
   "status": "proved",
   "theorems": [
    "C30_distance_contact",
    "C30_sdfv_contact",
    "C30_distance_finite",
    "C30_sdfv_finite",
    "C30_distance_min_or_corner",
    "C30_sdfv_min_or_corner",
    "C30_minimal_refuted"
   ],
   "note": "Achievability proved; minimality refuted in general, proved up to the corner-to-corner case."
  },
  {
   "property": "C31",
   "status": "proved",
   "theorems": [
    "C31_penetration_sound",
    "C31_sdfv_inside_sound",
    "C31_vector_separates",
    "C31_penetration_complete"
   ],
   "note": "Exact arithmetic. C31_vector_separates holds for every scene; the 1% bound needs `resolved`, or the depth hypothesis of C55, or two balls (C54)."
  },
  {
   "property": "C32",
   "status": "proved",
   "theorems": [
    "C32_boxes_overlap_iff",
    "C32_box_box",
    "C32_box_box_grid"
   ],
   "note": "Exact arithmetic; all four queries, separate, touching and overlapping boxes."
  },
  {
   "property": "C33",
   "status": "proved",
   "theorems": [
    "C33_tiny_boxes_panic_refuted",
    "C33_tiny_boxes_collide_refuted",
    "C33_distance_to_refuted"
   ],
   "note": "The claim is false of the code: three binary32 witnesses checked by vm_compute, stated against real geometry."
  },
  {
   "property": "C34",
   "status": "proved",
   "theorems": [
    "C34_box_point_exact"
   ],
   "note": "About binary32 itself, all finite inputs."
  },
  {
   "property": "C35",
   "status": "proved",
   "theorems": [
    "C35_best_score",
    "C35_f32",
    "C35_f32_support"
   ],
   "note": "For every arithmetic with ordered comparison, and binary32."
  },
  {
   "property": "C36",
   "status": "proved",
   "theorems": [
    "C36_poly_of_box",
    "C36_regular",
    "C36_regular_upright",
    "C36_strict_check_meaning",
    "C36_strict_check_iff",
    "C36_strict_check_accepts_refuted",
    "C36_strict_check_rejects_refuted"
   ],
   "note": "Box conversion and regular polygons proved; the documented meaning of strict_check refuted both ways, its actual meaning proved (iff)."
  },
  {
   "property": "C37",
   "status": "proved",
   "theorems": [
    "C37_f32_reflexive",
    "C37_vec2_reflexive",
    "C37_vec3_reflexive",
    "C37_vec2_symmetric",
    "C37_vec3_symmetric",
    "C37_f32_specials",
    "C37_f32_symmetric_refuted",
    "C37_infinity_refuted",
    "C37_nan_vec_refuted",
    "C37_exact_scalar",
    "C37_exact_vec2",
    "C37_exact_vec3",
    "C37_default_tolerance",
    "C37_f32_vec2_accuracy",
    "C37_f32_vec3_accuracy",
    "C37_f32_vec_extremes_refuted",
    "C37_f32_accuracy"
   ],
   "note": "About binary32; asymmetry, infinities and NaN vectors refuted."
  },
  {
   "property": "C38",
   "status": "proved",
   "theorems": [
    "C38_zero_f32",
    "C38_constant_f32",
    "C38_one_f32",
    "C38_one_f32_refuted",
    "C38_overflow_refuted",
    "C38_exact",
    "C38_exact_vec2",
    "C38_f32_accuracy",
    "C38_f32_monotone",
    "C38_square"
   ],
   "note": "About binary32 and exact arithmetic; lerp(a,b,1)=b refuted in general."
  },
  {
   "property": "C39",
   "status": "proved",
   "theorems": [
    "C39_ledger",
    "C39_hashset",
    "C39_callback_each_subscriber",
    "C39_callback_order"
   ],
   "note": ""
  },
  {
   "property": "C40",
   "status": "proved",
   "theorems": [
    "C40_iterators",
    "C40_iterate_boxed",
    "C40_min_max",
    "C40_iterate_with_direction",
    "C40_empty",
    "C40_count"
   ],
   "note": "Coordinates in Z; i32 overflow outside."
  },
  {
   "property": "C41",
   "status": "proved",
   "theorems": [
    "C41_pad_shifts",
    "C41_pad_enlarges_refuted"
   ],
   "note": "The claim is false of the code; what pad does is proved."
  },
  {
   "property": "C42",
   "status": "proved",
   "theorems": [
    "C42_tilemap_is_a_map"
   ],
   "note": "By induction over histories, for every chunk decomposition satisfying good_decompose."
  },
  {
   "property": "C43",
   "status": "proved",
   "theorems": [
    "C43_replay",
    "C43_set_tile_announced",
    "C43_set_tile_idempotent",
    "C43_only_own_chunk",
    "C43_remove_tile_event",
    "C43_removal_unannounced_refuted",
    "C43_removed_never_created_refuted",
    "C43_zero_chunk_exists_refuted"
   ],
   "note": "Replay, announcement and locality proved; three expectations refuted."
  },
  {
   "property": "C44",
   "status": "proved",
   "theorems": [
    "C44_tile_world_tile_f32",
    "C44_far_tiles_refuted",
    "C44_tile_world_tile",
    "C44_position_in_tile",
    "C44_quantize_covers",
    "C44_quantize_touches",
    "C44_point_query"
   ],
   "note": "Exact arithmetic plus binary32 for tile_to_world_pos up to 2^24 (beyond: refuted)."
  },
  {
   "property": "C45",
   "status": "proved",
   "theorems": [
    "C45_between_tiles_refuted",
    "C45_flat_floor_refuted",
    "C45_visit_order",
    "C45_clear_box_unmoved",
    "C45_clear_ball_unmoved",
    "C45_single_tile_resolved",
    "C45_resolve_returns"
   ],
   "note": "The single-tile case is for boxes on the 1/128 grid."
  },
  {
   "property": "C46",
   "status": "proved",
   "theorems": [
    "C46_save_load",
    "C46_tiles_survive"
   ],
   "note": "JSON text and the file system are assumed: the serializer is any bijection on the association list up to order."
  },
  {
   "property": "C47",
   "status": "proved",
   "theorems": [
    "C47_translations",
    "C47_axis",
    "C47_quaternion_rotation",
    "C47_isotropic",
    "C47_transform3d",
    "C47_transform3d_nonuniform_refuted",
    "C47_bevy_transform3d"
   ],
   "note": "The 3d feature does not compile at this commit; its source text is modelled."
  },
  {
   "property": "C48",
   "status": "proved",
   "theorems": [
    "C48_box3_point_exact",
    "C48_box3_point_sdf",
    "C48_box3_point_sdf_refuted",
    "C48_ball3_point_exact",
    "C48_ball3_penetrates_tiny_refuted",
    "C48_extreme_points",
    "C48_world"
   ],
   "note": "As C47."
  },
  {
   "property": "C49",
   "status": "proved",
   "theorems": [
    "C49_cover_iff",
    "C49_cover_refuted",
    "C49_point_v_translated_box_exact",
    "C49_point_v_rotated_box_refuted",
    "C49_box3_minkowski_sum",
    "C49_cylinder_minkowski_sum_refuted",
    "C49_cylinder_collides_iff",
    "C49_cylinder_sdfv_outside",
    "C49_cylinder_refuted",
    "C49_collides_spellings",
    "C49_point_v_ball_world",
    "C49_point_v_translated_box_sdf",
    "C49_point_v_scaled_ball_refuted"
   ],
   "note": "As C47; several claims refuted, with what holds instead."
  },
  {
   "property": "C50",
   "status": "proved",
   "theorems": [
    "C50_constructors",
    "C50_builders",
    "C50_builders_from_identity"
   ],
   "note": ""
  },
  {
   "property": "C51",
   "status": "proved",
   "theorems": [
    "C51_sdfv_no_panic",
    "C51_queries_return"
   ],
   "note": "For every arithmetic; the one explicit panic of sdfv is excluded under `resolved`, and reachable in binary32 (C33)."
  },
  {
   "property": "C52",
   "status": "proved",
   "theorems": [
    "C52_ball_point_f32",
    "C52_ball_ball_f32",
    "C52_ball_point_sdf_f32",
    "C52_underflow_refuted"
   ],
   "note": "About binary32 itself."
  },
  {
   "property": "C53",
   "status": "proved",
   "theorems": [
    "C53_bevy_delta",
    "C53_bevy_placement",
    "C53_bevy_queries",
    "C53_bevy_flat_scale_refuted"
   ],
   "note": "Exact arithmetic; refuted for scale.z = 0."
  },
  {
   "property": "C54",
   "status": "proved",
   "theorems": [
    "C54_ball_ball",
    "C54_penetration_converges",
    "C54_concentric_zero_vector",
    "C54_agrees_with_closed_form",
    "C54_zero_vector_refuted"
   ],
   "note": "Exact arithmetic; centres strictly between 0 and sqrt(eps) = 0.00035 apart are outside. Between 0 and D/5 apart (D = sum of radii) and for penetration below D/5000 the vector may be zero or a true separation; the theorem says which two outcomes are possible, not which one happens. The zero vector is a defect: C54_concentric_zero_vector (all radii, exact arithmetic) and C54_zero_vector_refuted (binary32)."
  },
  {
   "property": "C55",
   "status": "proved",
   "theorems": [
    "C55_collides_complete",
    "C55_all_queries",
    "C55_polygons",
    "C55_collides_decides"
   ],
   "note": "Exact arithmetic. For scenes with a ball the vector may be zero (the polytope search gave up after 20 steps): C54_concentric_zero_vector shows it happens."
  },
  {
   "property": "C56",
   "status": "proved",
   "theorems": [
    "C56_boxes_hit",
    "C56_boxes_miss",
    "C56_boxes_hit_world",
    "C56_boxes_miss_world"
   ],
   "note": "binary32, all rounding included. Not covered: rotated boxes, boxes whose gap or overlap is below the margin (there the verdict can be wrong, C33)."
  },
  {
   "property": "C57",
   "status": "proved",
   "theorems": [
    "C57_scaling_factor",
    "C57_mirrored_refuted"
   ],
   "note": "Exact arithmetic. Isotropic2d is todo!() in the source and not modelled."
  },
  {
   "property": "C58",
   "status": "proved",
   "theorems": [
    "C58_polygons_hit",
    "C58_polygons_miss",
    "C58_no_panic",
    "C58_turned_hit",
    "C58_turned_miss",
    "C58_world_hit",
    "C58_world_miss",
    "C58_moved_world",
    "C58_shapes_hit",
    "C58_shapes_miss",
    "C58_shapes_no_panic",
    "C58_shapes_turned",
    "C58_shapes_moved_world",
    "C58_shapes_world"
   ],
   "note": "binary32, rounding included. Step 2^e with -7<=e<=14; sizes plus distance at most 32 steps; overlaps need product of corner counts <= 20 (the iteration limit). Verdicts only; C58_shapes_* cover boxes, polygons and mixed pairs (C56 treats boxes of any size in f32); C33 shows how it fails beyond such bounds."
  },
  {
   "property": "C59",
   "status": "proved",
   "theorems": [
    "C59_shapes_penetration",
    "C59_shapes_distance",
    "C59_shapes_turned",
    "C59_shapes_moved_world",
    "C59_shapes_turned_world",
    "C59_penetration_vector",
    "C59_distance_vector",
    "C59_turned_penetration",
    "C59_turned_distance",
    "C59_moved_world",
    "C59_turned_world"
   ],
   "note": "binary32, rounding included; same range as C58; C59_shapes_* cover boxes, polygons and mixed pairs. The returned vector itself may fall short of separation by the rounding error (2^(e-16) per coordinate). distance_to need not be the shortest (C30_minimal_refuted)."
  },
  {
   "property": "C60",
   "status": "proved",
   "theorems": [
    "C60_apply",
    "C60_unapply",
    "C60_directions",
    "C60_plain",
    "C60_translations"
   ],
   "note": "binary32, rounding included; scale one only. The accuracy of sin and cos is a parameter. An inversion repeats the rotor error in the position, so nested inversions count again (weight)."
  },
  {
   "property": "C61",
   "status": "proved",
   "theorems": [
    "C61_box_point",
    "C61_rounded_point",
    "C61_box_ball",
    "C61_corners_are_clear",
    "C61_tiny_corner_refuted",
    "C61_ball_point",
    "C61_ball_ball",
    "C61_point_ball",
    "C61_point_box",
    "C61_box_point_colliders",
    "C61_box_ball_colliders",
    "C61_ball_ball_colliders"
   ],
   "note": "binary32, rounding included. Excluded and shown to fail: the line of the left or right side (C17_exact_line_refuted), corners nearer than 2^-59 (C61_tiny_corner_refuted; never met when a half size is at least 2^-34). Point v Box and Point v Ball for relative translations only."
  },
  {
   "property": "C62",
   "status": "proved",
   "theorems": [
    "C62_transform",
    "C62_axis",
    "C62_translation",
    "C62_pairs",
    "C62_colliders"
   ],
   "note": "binary32, rounding included; the verdict only (the length of the vector is C59 on grids). Uniform scale only. The other direction is C63."
  },
  {
   "property": "C63",
   "status": "proved",
   "theorems": [
    "C63_transform",
    "C63_axis",
    "C63_translation",
    "C63_pairs",
    "C63_colliders",
    "C63_distance_refuted"
   ],
   "note": "binary32, rounding included; collides and penetrates only: distance_to refuted (C63_distance_refuted), sdfv not covered. Uniform scale only."
  },
  {
   "property": "C64",
   "status": "proved",
   "theorems": [
    "C64_box_point",
    "C64_rounded_point",
    "C64_ball_point",
    "C64_ball_ball",
    "C64_point_point",
    "C64_colliders"
   ],
   "note": "binary32, rounding included. Box2d v Ball excluded (C20: wrong)."
  },
  {
   "property": "C65",
   "status": "proved",
   "theorems": [
    "C65_position_in_tile",
    "C65_point_query",
    "C65_quantize",
    "C65_quantize_half_tiles",
    "C65_quantize_covers_refuted",
    "C65_clear_box_unmoved",
    "C65_clear_ball_unmoved",
    "C65_single_tile_resolved"
   ],
   "note": "binary32, rounding included. round_to_i32 (external crate) is any nearest rounding. The broad phase is refuted as exact cover (C65_quantize_covers_refuted). Several overlapping tiles: nothing is promised (C45 refutations)."
  },
  {
   "property": "C66",
   "status": "proved",
   "theorems": [
    "C66_box",
    "C66_shape",
    "C66_ball",
    "C66_rounded_box",
    "C66_collider",
    "C66_minkowski",
    "C66_ball_collider",
    "C66_ball_direction_refuted",
    "C66_cover",
    "C66_bounding_boxes",
    "C66_rounded_bounds",
    "C66_rounded_bounds_refuted",
    "C66_poly_of_box"
   ],
   "note": "binary32, rounding included. Directions outside 2^-24..2^59: boxes still exact, balls refuted (C66_ball_direction_refuted), polygons by C35. Two different scale factors are not covered (C12 refutations)."
  },
  {
   "property": "C67",
   "status": "proved",
   "theorems": [
    "C67_box_point",
    "C67_box_flag",
    "C67_box_sdf",
    "C67_ball_point",
    "C67_ball_sdf",
    "C67_box_world",
    "C67_ball_world"
   ],
   "note": "binary32, rounding included. Box sdf above and below the box excluded: wrong there already in exact arithmetic (C48_box3_point_sdf_refuted). Rotated placements: about the computed relative position only."
  },
  {
   "property": "C68",
   "status": "proved",
   "theorems": [
    "C68_every_quaternion",
    "C68_rotation",
    "C68_seen_from",
    "C68_box_world",
    "C68_ball_world",
    "C68_seen_somewhere"
   ],
   "note": "binary32, rounding included. Uniform scale only (two different factors: C12 refutations). Vectors are compared at a point within the stated blur of the real one."
  },
  {
   "property": "C69",
   "status": "proved",
   "theorems": [
    "C69_box",
    "C69_point",
    "C69_ball",
    "C69_ball_zero",
    "C69_ball_tiny",
    "C69_cylinder",
    "C69_cylinder_flag",
    "C69_minkowski_sum",
    "C69_cover"
   ],
   "note": "binary32, rounding included. Ball directions outside 2^-24..2^59 not covered (2D: refuted in C66)."
  },
  {
   "property": "C70",
   "status": "proved",
   "theorems": [
    "C70_apply",
    "C70_unapply",
    "C70_length",
    "C70_given",
    "C70_plain",
    "C70_queries",
    "C70_translations"
   ],
   "note": "binary32, rounding included. Placements given with scale 1 (nonuniform scale breaks composition exactly already); exact rotations by Rodrigues formula."
  },
  {
   "property": "C71",
   "status": "proved",
   "theorems": [
    "C71_extreme_point",
    "C71_intercept_ray",
    "C71_collides",
    "C71_bounding_box",
    "C71_circle",
    "C71_extreme_f32",
    "C71_flag_f32"
   ],
   "note": "Source under cfg(any()): modelled as text. Exact arithmetic, and two theorems (\u2026_f32) about binary32 with rounding."
  },
  {
   "property": "C72",
   "status": "proved",
   "theorems": [
    "C72_extreme_point",
    "C72_right_at_origin",
    "C72_queries",
    "C72_contact",
    "C72_penetration"
   ],
   "note": "Module commented out in the source: modelled as text. The claim a user would make (the difference in world space) is refuted; the exact translation error is proved."
  },
  {
   "property": "C73",
   "status": "proved",
   "theorems": [
    "C73_uniform",
    "C73_only_uniform"
   ],
   "note": "Any scalars for the uniform case; exact arithmetic for the converse."
  },
  {
   "property": "C74",
   "status": "proved",
   "theorems": [
    "C74_box_box_exact",
    "C74_rotated_refuted",
    "C74_scaled_refuted",
    "C74_box_box_sdf",
    "C74_flag_f32"
   ],
   "note": "Source under cfg(minkowski), never set: modelled as text, MinkowskiDifference taken as the MinkowskiSum of the negated box. Exact arithmetic, and one theorem about binary32. Rotations and scales: refuted."
  },
  {
   "property": "C75",
   "status": "proved",
   "theorems": [
    "C75_iterators_machine",
    "C75_pad_checked",
    "C75_pad_wrapping",
    "C75_pad_wrapping_refuted"
   ],
   "note": "Machine i32; the core library iterators are transcribed (trusted) as state machines."
  },
  {
   "property": "C76",
   "status": "proved",
   "theorems": [
    "C76_apply",
    "C76_unapply",
    "C76_scale",
    "C76_similarity",
    "C76_directions",
    "C76_plain",
    "C76_point_colliders",
    "C76_directions_back"
   ],
   "note": "binary32, rounding included. Uniform scales only: with different scales per axis composition is not the composition of the maps even exactly (C05)."
  },
  {
   "property": "C77",
   "status": "proved",
   "theorems": [
    "C77_apply",
    "C77_unapply",
    "C77_scale",
    "C77_similarity",
    "C77_queries",
    "C77_plain"
   ],
   "note": "binary32, rounding included. Uniform scales only: with different scales per axis composition is not the composition of the maps even exactly."
  },
  {
   "property": "C78",
   "status": "proved",
   "theorems": [
    "C78_sdf_f32",
    "C78_penetrates_f32",
    "C78_sdfv_f32_shortest",
    "C78_sdfv_iff",
    "C78_penetrates_iff",
    "C78_sdf_iff",
    "C78_sdfv_f32",
    "C78_sdfv_f32_inside"
   ],
   "note": "Equivalences: each says when the answer is right and when it is wrong; C49 has concrete wrong answers. sdfv of a cylinder is modelled with the vector part of the current 2D sdfv_rel (Col3.v), as cylinder3d.rs calls a trait that was renamed."
  }
 ]
}