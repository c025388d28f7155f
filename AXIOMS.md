# What `Print Assumptions` lists for each theorem

Generated by tools/mkaxioms.py. Only axioms of the Coq standard library occur:

* A1 = `ClassicalDedekindReals.sig_forall_dec`
* A2 = `ClassicalDedekindReals.sig_not_dec`
* A3 = `Classical_Prop.classic`
* A4 = `FunctionalExtensionality.functional_extensionality_dep`

| theorem | file | axioms |
|---|---|---|
| C01_identity | Props_Transform | A1, A2, A4 |
| C01_translate2d | Props_Transform | A1, A2, A4 |
| C01_vec2_translations | Props_Transform | A1, A2, A4 |
| C02_inverse_error | Props_F32b | A1, A2, A3, A4 |
| C02_inverse_law_f32 | Props_F32b | A1, A2, A3, A4 |
| C02_inverse_law_refuted | Props_F32b | A1, A2, A3, A4 |
| C03_axis_inverse_iff | Props_Transform | A1, A2, A4 |
| C03_axis_inverse_refuted | Props_Transform | A1, A2, A4 |
| C03_axis_unapply_compose | Props_Transform | A1, A2, A4 |
| C04_transform2d_apply_unapply | Props_Transform | A1, A2, A4 |
| C05_transform2d_compose_iff | Props_Transform | A1, A2, A4 |
| C06_transform2d_inverse_iff | Props_Transform | A1, A2, A4 |
| C06_transform2d_inverse_refuted | Props_Transform | A1, A2, A4 |
| C07_delta_transform_is_relative_pose | Props_Transform | A1, A2, A4 |
| C08_rotor_angle_roundtrip | Props_Transform | A1, A2, A3, A4 |
| C08_rotor_angles | Props_Transform | A1, A2, A4 |
| C08_rotor_isometries | Props_Transform | A1, A2, A4 |
| C09_from_quaternion_planar | Props_Transform | A1, A2, A4 |
| C09_from_quaternion_sandwich | Props_Transform | A1, A2, A4 |
| C09_from_quaternion_unit_iff | Props_Transform | A1, A2, A4 |
| C10_normals_are_rotated | Props_Transform | A1, A2, A4 |
| C11_constructors | Props_Shapes | A1, A2, A4 |
| C11_extreme_point_ball | Props_Shapes | A1, A2, A4 |
| C11_extreme_point_box | Props_Shapes | A1, A2, A4 |
| C11_extreme_point_point | Props_Shapes | A1, A2, A4 |
| C11_extreme_point_poly | Props_Shapes | A1, A2, A4 |
| C11_extreme_point_poly_low | Props_Shapes | A1, A2, A4 |
| C11_extreme_point_rounded_box | Props_Shapes | A1, A2, A4 |
| C11_extreme_point_shape | Props_Shapes | A1, A2, A4 |
| C12_acts_as_instances | Props_Shapes | A1, A2, A4 |
| C12_collider_uses_extreme_point_t | Props_Shapes | none (closed) |
| C12_nonuniform_ball_refuted | Props_Shapes | A1, A2, A4 |
| C12_nonuniform_poly_refuted | Props_Shapes | A1, A2, A4 |
| C12_transformed_ball | Props_Shapes | A1, A2, A4 |
| C12_transformed_box_any_scale | Props_Shapes | A1, A2, A4 |
| C12_transformed_box_poly_shape | Props_Shapes | A1, A2, A4 |
| C12_transformed_point | Props_Shapes | A1, A4 |
| C13_minkowski_support | Props_Shapes | A1, A2, A4 |
| C14_bounding_boxes_tight | Props_Shapes | A1, A2, A4 |
| C14_cover_minimal | Props_Shapes | A1, A2, A4 |
| C15_box_point_exact | Props_Analytic | A1, A2, A4 |
| C15_box_point_strictly_inside | Props_Analytic | A1, A2, A4 |
| C16_ball_ball_exact | Props_Analytic | A1, A2, A4 |
| C16_ball_point_exact | Props_Analytic | A1, A2, A4 |
| C16_concentric_along_x | Props_Analytic | A1, A2, A4 |
| C16_zero_radius_refuted | Props_Analytic | A1, A2, A4 |
| C17_box_ball_exact | Props_Analytic | A1, A2, A4 |
| C17_exact_line_refuted | Props_Analytic | A1, A2, A4 |
| C17_flag_on_the_line | Props_Analytic | A1, A2, A4 |
| C17_rounded_point_exact | Props_Analytic | A1, A2, A4 |
| C18_point_ball_exact | Props_Analytic | A1, A2, A4 |
| C18_point_box_exact | Props_Analytic | A1, A2, A4 |
| C18_rigid_instances | Props_Analytic | A1, A2, A4 |
| C18_scaled_refuted | Props_Analytic | A1, A2, A4 |
| C19_ball_ball_sdf | Props_Analytic | A1, A2, A4 |
| C19_ball_point_sdf | Props_Analytic | A1, A2, A4 |
| C19_box_point_sdf | Props_Analytic | A1, A2, A4 |
| C19_point_point | Props_Analytic | A1, A2, A4 |
| C19_rounded_point_sdf | Props_Analytic | A1, A2, A4 |
| C19_sdf_matches_sdfv | Props_Analytic | A1, A2, A4 |
| C20_box_ball_sdf_axis | Props_Analytic | A1, A2, A4 |
| C20_box_ball_sdf_inside_refuted | Props_Analytic | A1, A2, A4 |
| C20_box_ball_sdf_inside_sign | Props_BoxBall | A1, A2, A4 |
| C20_box_ball_sdf_outside | Props_BoxBall | A1, A2, A4 |
| C20_box_ball_sdf_outside_refuted | Props_Analytic | A1, A2, A4 |
| C20_box_ball_sdf_sign_refuted | Props_BoxBall | A1, A2, A4 |
| C21_queries_agree | Props_Collider | none (closed) |
| C22_common_motion | Props_Collider | A1, A2, A4 |
| C22_common_motion_sdf | Props_Collider | A1, A2, A4 |
| C22_common_translation | Props_Collider | A1, A2, A4 |
| C22_nonuniform_refuted | Props_Collider | A1, A2, A4 |
| C23_ball_ball_world | Props_Collider | A1, A2, A4 |
| C23_ball_point_world | Props_Collider | A1, A2, A4 |
| C23_box_ball_world | Props_Collider | A1, A2, A4 |
| C23_box_point_world | Props_Collider | A1, A2, A4 |
| C23_penetrates_world_refuted | Props_Collider | A1, A2, A4 |
| C23_point_ball_world | Props_Collider | A1, A2, A4 |
| C23_point_box_world | Props_Collider | A1, A2, A4 |
| C23_vectors_agree_iff | Props_Collider | A1, A2, A4 |
| C24_common_scale | Props_Collider | A1, A2, A4 |
| C24_scaled_other_refuted | Props_Collider | A1, A2, A4 |
| C24_scaled_self_refuted | Props_Collider | A1, A2, A4 |
| C25_concentric_refuted | Props_Collider | A1, A2, A4 |
| C25_symmetric_ball_ball | Props_Collider | A1, A2, A4 |
| C25_symmetric_ball_point | Props_Collider | A1, A2, A4 |
| C25_symmetric_box_point | Props_Collider | A1, A2, A4 |
| C26_epa_index_in_range | Props_GjkShape | none (closed) |
| C26_epa_starts_from_triangle | Props_GjkShape | none (closed) |
| C26_no_unreachable | Props_GjkShape | none (closed) |
| C26_queries_total | Props_GjkShape | none (closed) |
| C27_collides_false_sound | Props_Gjk | A1, A2, A4 |
| C27_distance_some_sound | Props_Gjk | A1, A2, A4 |
| C27_false_means_shallow | Props_Deep | A1, A2, A3, A4 |
| C27_pairs_share_search | Props_Gjk | none (closed) |
| C27_penetrates_none_sound | Props_Gjk | A1, A2, A4 |
| C27_sdfv_false_sound | Props_Gjk | A1, A2, A4 |
| C28_collides_true_sound | Props_Gjk | A1, A2, A4 |
| C28_distance_none_sound | Props_Dist | A1, A2, A4 |
| C28_penetrates_some_sound | Props_Gjk | A1, A2, A4 |
| C28_sdfv_true_sound | Props_Dist | A1, A2, A4 |
| C29_all_queries_complete | Props_Gjk | A1, A2, A3, A4 |
| C29_collides_complete | Props_Gjk | A1, A2, A3, A4 |
| C29_collides_decides | Props_Gjk | A1, A2, A3, A4 |
| C29_corner_bound | Props_Gjk | A1, A2, A4 |
| C29_grid_resolved | Props_Gjk | A1, A2, A4 |
| C30_distance_contact | Props_Dist | A1, A2, A4 |
| C30_distance_finite | Props_Dist | A1, A2, A4 |
| C30_distance_min_or_corner | Props_Dist | A1, A2, A4 |
| C30_minimal_refuted | Props_F32Gjk | A1, A2, A3, A4 |
| C30_sdfv_contact | Props_Dist | A1, A2, A4 |
| C30_sdfv_finite | Props_Dist | A1, A2, A4 |
| C30_sdfv_min_or_corner | Props_Dist | A1, A2, A4 |
| C31_penetration_complete | Props_Epa | A1, A2, A3, A4 |
| C31_penetration_sound | Props_Epa | A1, A2, A4 |
| C31_sdfv_inside_sound | Props_Epa | A1, A2, A4 |
| C31_vector_separates | Props_Epa | A1, A2, A4 |
| C32_box_box | Props_Box | A1, A2, A3, A4 |
| C32_box_box_grid | Props_Box | A1, A2, A3, A4 |
| C32_boxes_overlap_iff | Props_Box | A1, A2, A4 |
| C33_distance_to_refuted | Props_F32Gjk | A1, A2, A3, A4 |
| C33_tiny_boxes_collide_refuted | Props_F32Gjk | A1, A2, A3, A4 |
| C33_tiny_boxes_panic_refuted | Props_F32Gjk | A1, A2, A3, A4 |
| C34_box_point_exact | Props_F32 | A1, A2, A3, A4 |
| C35_best_score | Props_F32 | none (closed) |
| C35_f32 | Props_F32 | A1, A2, A3, A4 |
| C35_f32_support | Props_F32 | A1, A2, A3, A4 |
| C36_poly_of_box | Props_Shapes | A1, A2, A4 |
| C36_regular | Props_Shapes | A1, A2, A4 |
| C36_regular_upright | Props_Shapes | A1, A2, A4 |
| C36_strict_check_accepts_refuted | Props_Shapes | A1, A2, A4 |
| C36_strict_check_iff | Props_Shapes | A1, A2, A4 |
| C36_strict_check_meaning | Props_Shapes | A1, A2, A4 |
| C36_strict_check_rejects_refuted | Props_Shapes | A1, A2, A4 |
| C37_default_tolerance | Props_Approx | A1, A2, A3, A4 |
| C37_exact_scalar | Props_Approx | A1, A2, A4 |
| C37_exact_vec2 | Props_Approx | A1, A2, A4 |
| C37_exact_vec3 | Props_Approx | A1, A2, A4 |
| C37_f32_accuracy | Props_Lerp | A1, A2, A3, A4 |
| C37_f32_reflexive | Props_Approx | A1, A2, A3, A4 |
| C37_f32_specials | Props_Approx | A1, A2, A3, A4 |
| C37_f32_symmetric_refuted | Props_Approx | A1, A2, A3, A4 |
| C37_f32_vec2_accuracy | Props_ApproxVec | A1, A2, A3, A4 |
| C37_f32_vec3_accuracy | Props_ApproxVec | A1, A2, A3, A4 |
| C37_f32_vec_extremes_refuted | Props_ApproxVec | A1, A2, A3, A4 |
| C37_infinity_refuted | Props_Approx | A1, A2, A3, A4 |
| C37_nan_vec_refuted | Props_Approx | A1, A2, A3, A4 |
| C37_vec2_reflexive | Props_Approx | A1, A2, A3, A4 |
| C37_vec2_symmetric | Props_Approx | A1, A2, A3, A4 |
| C37_vec3_reflexive | Props_Approx | A1, A2, A3, A4 |
| C37_vec3_symmetric | Props_Approx | A1, A2, A3, A4 |
| C38_constant_f32 | Props_Lerp | A1, A2, A3, A4 |
| C38_exact | Props_Lerp | A1, A2, A4 |
| C38_exact_vec2 | Props_Lerp | A1, A2, A4 |
| C38_f32_accuracy | Props_Lerp | A1, A2, A3, A4 |
| C38_f32_monotone | Props_Lerp | A1, A2, A3, A4 |
| C38_one_f32 | Props_Lerp | A1, A2, A3, A4 |
| C38_one_f32_refuted | Props_Lerp | A1, A2, A3, A4 |
| C38_overflow_refuted | Props_Lerp | A1, A2, A3, A4 |
| C38_square | Props_Lerp | A1, A2, A3, A4 |
| C38_zero_f32 | Props_Lerp | A1, A2, A3, A4 |
| C39_callback_each_subscriber | Props_Util | none (closed) |
| C39_callback_order | Props_Util | none (closed) |
| C39_hashset | Props_Util | none (closed) |
| C39_ledger | Props_Util | none (closed) |
| C40_count | Props_Util | none (closed) |
| C40_empty | Props_Util | none (closed) |
| C40_iterate_boxed | Props_Util | none (closed) |
| C40_iterate_with_direction | Props_Util | none (closed) |
| C40_iterators | Props_Util | none (closed) |
| C40_min_max | Props_Util | none (closed) |
| C41_pad_enlarges_refuted | Props_Util | none (closed) |
| C41_pad_shifts | Props_Util | none (closed) |
| C42_tilemap_is_a_map | Props_Tilemap | none (closed) |
| C43_only_own_chunk | Props_Tilemap | none (closed) |
| C43_removal_unannounced_refuted | Props_Tilemap | none (closed) |
| C43_remove_tile_event | Props_Tilemap | none (closed) |
| C43_removed_never_created_refuted | Props_Tilemap | none (closed) |
| C43_replay | Props_Tilemap | none (closed) |
| C43_set_tile_announced | Props_Tilemap | none (closed) |
| C43_set_tile_idempotent | Props_Tilemap | none (closed) |
| C43_zero_chunk_exists_refuted | Props_Tilemap | none (closed) |
| C44_far_tiles_refuted | Props_F32Ball | A1, A2, A3, A4 |
| C44_point_query | Props_TileGeo | A1, A2, A4 |
| C44_position_in_tile | Props_TileGeo | A1, A4 |
| C44_quantize_covers | Props_TileGeo | A1, A2, A4 |
| C44_quantize_touches | Props_TileGeo | A1, A2, A4 |
| C44_tile_world_tile | Props_TileGeo | A1, A2, A4 |
| C44_tile_world_tile_f32 | Props_F32Ball | A1, A2, A3, A4 |
| C45_between_tiles_refuted | Props_Resolve | A1, A2, A3, A4 |
| C45_clear_ball_unmoved | Props_TileGeo | A1, A2, A4 |
| C45_clear_box_unmoved | Props_TileGeo | A1, A2, A4 |
| C45_flat_floor_refuted | Props_Resolve | A1, A2, A3, A4 |
| C45_resolve_returns | Props_TileGeo | none (closed) |
| C45_single_tile_resolved | Props_TileGeo | A1, A2, A3, A4 |
| C45_visit_order | Props_TileGeo | none (closed) |
| C46_save_load | Props_Tilemap | none (closed) |
| C46_tiles_survive | Props_Tilemap | none (closed) |
| C47_axis | Props_3dTransform | A1, A2, A4 |
| C47_bevy_transform3d | Props_3dWorld | none (closed) |
| C47_isotropic | Props_3dTransform | A1, A2, A4 |
| C47_quaternion_rotation | Props_3dTransform | A1, A2, A4 |
| C47_transform3d | Props_3dTransform | A1, A2, A4 |
| C47_transform3d_nonuniform_refuted | Props_3dTransform | A1, A2, A4 |
| C47_translations | Props_3dTransform | A1, A2, A4 |
| C48_ball3_penetrates_tiny_refuted | Props_3d | A1, A2, A4 |
| C48_ball3_point_exact | Props_3d | A1, A2, A4 |
| C48_box3_point_exact | Props_3d | A1, A2, A4 |
| C48_box3_point_sdf | Props_3d | A1, A2, A4 |
| C48_box3_point_sdf_refuted | Props_3d | A1, A2, A4 |
| C48_extreme_points | Props_3d | A1, A2, A4 |
| C48_world | Props_3dWorld | A1, A2, A4 |
| C49_box3_minkowski_sum | Props_3dDefects | A1, A2, A4 |
| C49_collides_spellings | Props_3dDefects | none (closed) |
| C49_cover_iff | Props_3dDefects | A1, A2, A4 |
| C49_cover_refuted | Props_3dDefects | A1, A2, A4 |
| C49_cylinder_collides_iff | Props_3dDefects | A1, A2, A4 |
| C49_cylinder_minkowski_sum_refuted | Props_3dDefects | A1, A2, A4 |
| C49_cylinder_refuted | Props_3dDefects | A1, A2, A4 |
| C49_cylinder_sdfv_outside | Props_3dDefects | A1, A2, A4 |
| C49_point_v_ball_world | Props_3dPoint | A1, A2, A4 |
| C49_point_v_rotated_box_refuted | Props_3dDefects | A1, A2, A4 |
| C49_point_v_scaled_ball_refuted | Props_3dPoint | A1, A2, A4 |
| C49_point_v_translated_box_exact | Props_3dDefects | A1, A2, A4 |
| C49_point_v_translated_box_sdf | Props_3dPoint | A1, A2, A4 |
| C50_builders | Props_Build | A1, A2, A4 |
| C50_builders_from_identity | Props_Build | A1, A2, A4 |
| C50_constructors | Props_Build | A1, A2, A4 |
| C51_queries_return | Props_NoPanic | none (closed) |
| C51_sdfv_no_panic | Props_Dist | A1, A2, A4 |
| C52_ball_ball_f32 | Props_F32Ball | A1, A2, A3, A4 |
| C52_ball_point_f32 | Props_F32Ball | A1, A2, A3, A4 |
| C52_ball_point_sdf_f32 | Props_F32Ball | A1, A2, A3, A4 |
| C52_underflow_refuted | Props_F32Ball | A1, A2, A3, A4 |
| C53_bevy_delta | Props_Bevy | A1, A2, A4 |
| C53_bevy_flat_scale_refuted | Props_Bevy | A1, A2, A4 |
| C53_bevy_placement | Props_Bevy | A1, A2, A4 |
| C53_bevy_queries | Props_Bevy | A1, A2, A4 |
| C54_agrees_with_closed_form | Props_Ball | A1, A2, A4 |
| C54_ball_ball | Props_Ball | A1, A2, A4 |
| C54_concentric_zero_vector | Props_Ball | A1, A2, A3, A4 |
| C54_penetration_converges | Props_Ball | A1, A2, A3, A4 |
| C54_zero_vector_refuted | Props_BallF32 | A1, A2, A3, A4 |
| C55_all_queries | Props_Deep | A1, A2, A3, A4 |
| C55_collides_complete | Props_Deep | A1, A2, A4 |
| C55_collides_decides | Props_Deep | A1, A2, A4 |
| C55_polygons | Props_Deep | A1, A2, A3, A4 |
| C56_boxes_hit | Props_F32Box | A1, A2, A3, A4 |
| C56_boxes_hit_world | Props_F32Box | A1, A2, A3, A4 |
| C56_boxes_miss | Props_F32Box | A1, A2, A3, A4 |
| C56_boxes_miss_world | Props_F32Box | A1, A2, A3, A4 |
| C57_mirrored_refuted | Props_Scaling | A1, A2, A4 |
| C57_scaling_factor | Props_Scaling | A1, A2, A4 |
| C58_moved_world | Props_Grid32 | A1, A2, A3, A4 |
| C58_no_panic | Props_Grid32 | A1, A2, A3, A4 |
| C58_polygons_hit | Props_Grid32 | A1, A2, A3, A4 |
| C58_polygons_miss | Props_Grid32 | A1, A2, A3, A4 |
| C58_shapes_hit | Props_Grid32s | A1, A2, A3, A4 |
| C58_shapes_miss | Props_Grid32s | A1, A2, A3, A4 |
| C58_shapes_moved_world | Props_Grid32s | A1, A2, A3, A4 |
| C58_shapes_no_panic | Props_Grid32s | A1, A2, A3, A4 |
| C58_shapes_turned | Props_Grid32s | A1, A2, A3, A4 |
| C58_shapes_world | Props_Grid32s | A1, A2, A3, A4 |
| C58_turned_hit | Props_Grid32 | A1, A2, A3, A4 |
| C58_turned_miss | Props_Grid32 | A1, A2, A3, A4 |
| C58_world_hit | Props_Grid32 | A1, A2, A3, A4 |
| C58_world_miss | Props_Grid32 | A1, A2, A3, A4 |
| C59_distance_vector | Props_Grid32v | A1, A2, A3, A4 |
| C59_moved_world | Props_Grid32v | A1, A2, A3, A4 |
| C59_penetration_vector | Props_Grid32v | A1, A2, A3, A4 |
| C59_shapes_distance | Props_Grid32s | A1, A2, A3, A4 |
| C59_shapes_moved_world | Props_Grid32s | A1, A2, A3, A4 |
| C59_shapes_penetration | Props_Grid32s | A1, A2, A3, A4 |
| C59_shapes_turned | Props_Grid32s | A1, A2, A3, A4 |
| C59_shapes_turned_world | Props_Grid32s | A1, A2, A3, A4 |
| C59_turned_distance | Props_Grid32v | A1, A2, A3, A4 |
| C59_turned_penetration | Props_Grid32v | A1, A2, A3, A4 |
| C59_turned_world | Props_Grid32v | A1, A2, A3, A4 |
| C60_apply | Props_Drift | A1, A2, A3, A4 |
| C60_directions | Props_Drift | A1, A2, A3, A4 |
| C60_plain | Props_Drift | A1, A2, A3, A4 |
| C60_translations | Props_Drift | A1, A2, A3, A4 |
| C60_unapply | Props_Drift | A1, A2, A3, A4 |
| C61_ball_ball | Props_Closed32 | A1, A2, A3, A4 |
| C61_ball_ball_colliders | Props_Closed32 | A1, A2, A3, A4 |
| C61_ball_point | Props_Closed32 | A1, A2, A3, A4 |
| C61_box_ball | Props_Closed32 | A1, A2, A3, A4 |
| C61_box_ball_colliders | Props_Closed32 | A1, A2, A3, A4 |
| C61_box_point | Props_Closed32 | A1, A2, A3, A4 |
| C61_box_point_colliders | Props_Closed32 | A1, A2, A3, A4 |
| C61_corners_are_clear | Props_Closed32 | A1, A2, A3, A4 |
| C61_point_ball | Props_Closed32 | A1, A2, A3, A4 |
| C61_point_box | Props_Closed32 | A1, A2, A3, A4 |
| C61_rounded_point | Props_Closed32 | A1, A2, A3, A4 |
| C61_tiny_corner_refuted | Props_Closed32 | A1, A2, A3, A4 |
| C62_axis | Props_Deep32 | A1, A2, A3, A4 |
| C62_colliders | Props_Deep32 | A1, A2, A3, A4 |
| C62_pairs | Props_Deep32 | A1, A2, A3, A4 |
| C62_transform | Props_Deep32 | A1, A2, A3, A4 |
| C62_translation | Props_Deep32 | A1, A2, A3, A4 |
| C63_axis | Props_Gap32 | A1, A2, A3, A4 |
| C63_colliders | Props_Gap32 | A1, A2, A3, A4 |
| C63_distance_refuted | Props_Gap32 | A1, A2, A3, A4 |
| C63_pairs | Props_Gap32 | A1, A2, A3, A4 |
| C63_transform | Props_Gap32 | A1, A2, A3, A4 |
| C63_translation | Props_Gap32 | A1, A2, A3, A4 |
| C64_ball_ball | Props_Sdf32 | A1, A2, A3, A4 |
| C64_ball_point | Props_Sdf32 | A1, A2, A3, A4 |
| C64_box_point | Props_Sdf32 | A1, A2, A3, A4 |
| C64_colliders | Props_Sdf32 | A1, A2, A3, A4 |
| C64_point_point | Props_Sdf32 | A1, A2, A3, A4 |
| C64_rounded_point | Props_Sdf32 | A1, A2, A3, A4 |
| C65_clear_ball_unmoved | Props_Tile32 | A1, A2, A3, A4 |
| C65_clear_box_unmoved | Props_Tile32 | A1, A2, A3, A4 |
| C65_point_query | Props_Tile32 | A1, A2, A3, A4 |
| C65_position_in_tile | Props_Tile32 | A1, A4 |
| C65_quantize | Props_Tile32 | A1, A2, A3, A4 |
| C65_quantize_covers_refuted | Props_Tile32 | A1, A2, A3, A4 |
| C65_quantize_half_tiles | Props_Tile32 | A1, A2, A3, A4 |
| C65_single_tile_resolved | Props_Tile32 | A1, A2, A3, A4 |
| C66_ball | Props_Ext32 | A1, A2, A3, A4 |
| C66_ball_collider | Props_Ext32 | A1, A2, A3, A4 |
| C66_ball_direction_refuted | Props_Ext32 | A1, A2, A3, A4 |
| C66_bounding_boxes | Props_Ext32 | A1, A2, A3, A4 |
| C66_box | Props_Ext32 | A1, A2, A3, A4 |
| C66_collider | Props_Ext32 | A1, A2, A3, A4 |
| C66_cover | Props_Ext32 | A1, A2, A3, A4 |
| C66_minkowski | Props_Ext32 | A1, A2, A3, A4 |
| C66_poly_of_box | Props_Ext32 | A1, A2, A3, A4 |
| C66_rounded_bounds | Props_Ext32 | A1, A2, A3, A4 |
| C66_rounded_bounds_refuted | Props_Ext32 | A1, A2, A3, A4 |
| C66_rounded_box | Props_Ext32 | A1, A2, A3, A4 |
| C66_shape | Props_Ext32 | A1, A2, A3, A4 |
| C67_ball_point | Props_Space32 | A1, A2, A3, A4 |
| C67_ball_sdf | Props_Space32 | A1, A2, A3, A4 |
| C67_ball_world | Props_Space32 | A1, A2, A3, A4 |
| C67_box_flag | Props_Space32 | A1, A2, A3, A4 |
| C67_box_point | Props_Space32 | A1, A2, A3, A4 |
| C67_box_sdf | Props_Space32 | A1, A2, A3, A4 |
| C67_box_world | Props_Space32 | A1, A2, A3, A4 |
| C68_ball_world | Props_Quat32 | A1, A2, A3, A4 |
| C68_box_world | Props_Quat32 | A1, A2, A3, A4 |
| C68_every_quaternion | Props_Quat32 | A1, A2, A3, A4 |
| C68_rotation | Props_Quat32 | A1, A2, A3, A4 |
| C68_seen_from | Props_Quat32 | A1, A2, A3, A4 |
| C68_seen_somewhere | Props_Quat32 | A1, A2, A4 |
| C69_ball | Props_Ext3 | A1, A2, A3, A4 |
| C69_ball_tiny | Props_Ext3 | A1, A2, A3, A4 |
| C69_ball_zero | Props_Ext3 | A1, A2, A3, A4 |
| C69_box | Props_Ext3 | A1, A2, A3, A4 |
| C69_cover | Props_Ext3 | A1, A2, A3, A4 |
| C69_cylinder | Props_Ext3 | A1, A2, A3, A4 |
| C69_cylinder_flag | Props_Ext3 | A1, A2, A3, A4 |
| C69_minkowski_sum | Props_Ext3 | A1, A2, A3, A4 |
| C69_point | Props_Ext3 | A1, A2, A3, A4 |
| C70_apply | Props_Drift3 | A1, A2, A3, A4 |
| C70_given | Props_Drift3 | A1, A2, A3, A4 |
| C70_length | Props_Drift3 | A1, A2, A3, A4 |
| C70_plain | Props_Drift3 | A1, A2, A3, A4 |
| C70_queries | Props_Drift3 | A1, A2, A3, A4 |
| C70_translations | Props_Drift3 | A1, A2, A3, A4 |
| C70_unapply | Props_Drift3 | A1, A2, A3, A4 |
| C71_bounding_box | Props_Ellipse | A1, A2, A4 |
| C71_circle | Props_Ellipse | A1, A2, A4 |
| C71_collides | Props_Ellipse | A1, A2, A4 |
| C71_extreme_f32 | Props_Ellipse | A1, A2, A3, A4 |
| C71_extreme_point | Props_Ellipse | A1, A2, A4 |
| C71_flag_f32 | Props_Ellipse | A1, A2, A3, A4 |
| C71_intercept_ray | Props_Ellipse | A1, A2, A4 |
| C72_contact | Props_Minkowski | A1, A2, A4 |
| C72_extreme_point | Props_Minkowski | A1, A2, A4 |
| C72_penetration | Props_Minkowski | A1, A2, A4 |
| C72_queries | Props_Minkowski | A1, A2, A4 |
| C72_right_at_origin | Props_Minkowski | A1, A2, A4 |
| C73_only_uniform | Props_BevyIso | A1, A2, A4 |
| C73_uniform | Props_BevyIso | none (closed) |
| C74_box_box_exact | Props_Sum3 | A1, A2, A4 |
| C74_box_box_sdf | Props_Sum3 | A1, A2, A4 |
| C74_flag_f32 | Props_Sum3 | A1, A2, A3, A4 |
| C74_rotated_refuted | Props_Sum3 | A1, A2, A4 |
| C74_scaled_refuted | Props_Sum3 | A1, A2, A4 |
| C75_iterators_machine | Props_Machine | none (closed) |
| C75_pad_checked | Props_Machine | none (closed) |
| C75_pad_wrapping | Props_Machine | none (closed) |
| C75_pad_wrapping_refuted | Props_Machine | none (closed) |
| C76_apply | Props_DriftScaled | A1, A2, A3, A4 |
| C76_directions | Props_DriftScaled | A1, A2, A3, A4 |
| C76_directions_back | Props_DriftScaled2 | A1, A2, A3, A4 |
| C76_plain | Props_DriftScaled | A1, A2, A3, A4 |
| C76_point_colliders | Props_DriftScaled2 | A1, A2, A3, A4 |
| C76_scale | Props_DriftScaled | A1, A2, A3, A4 |
| C76_similarity | Props_DriftScaled | A1, A2, A4 |
| C76_unapply | Props_DriftScaled | A1, A2, A3, A4 |
| C77_apply | Props_DriftScaled4 | A1, A2, A3, A4 |
| C77_plain | Props_DriftScaled4 | A1, A2, A3, A4 |
| C77_queries | Props_DriftScaled4 | A1, A2, A3, A4 |
| C77_scale | Props_DriftScaled4 | A1, A2, A3, A4 |
| C77_similarity | Props_DriftScaled4 | A1, A2, A4 |
| C77_unapply | Props_DriftScaled4 | A1, A2, A3, A4 |
| C78_penetrates_f32 | Props_CylSdf32 | A1, A2, A3, A4 |
| C78_penetrates_iff | Props_Cylinder | A1, A2, A4 |
| C78_sdf_f32 | Props_CylSdf32 | A1, A2, A3, A4 |
| C78_sdf_iff | Props_Cylinder | A1, A2, A4 |
| C78_sdfv_f32 | Props_Cylinder32 | A1, A2, A3, A4 |
| C78_sdfv_f32_inside | Props_Cylinder32 | A1, A2, A3, A4 |
| C78_sdfv_f32_shortest | Props_CylSdf32 | A1, A2, A3, A4 |
| C78_sdfv_iff | Props_Cylinder | A1, A2, A4 |
