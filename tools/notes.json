{
 "C01": {
  "note": "Exact arithmetic; all laws for Vec2, Translate2d, IdentityTransform."
 },
 "C02": {
  "note": "About binary32 itself: holds on a common grid of at most 23 bits (C02_inverse_law_f32), fails in general (C02_inverse_law_refuted), with the error bounded by the two roundings (C02_inverse_error)."
 },
 "C03": {
  "note": "apply/unapply/compose proved; the documented inverse law is refuted (exact iff-characterisation proved)."
 },
 "C04": {
  "note": "Exact arithmetic, unit rotor, non-zero scale."
 },
 "C05": {
  "note": "Exact characterisation (iff): the general law is false."
 },
 "C06": {
  "note": "Exact characterisation (iff); general law refuted."
 },
 "C07": {
  "note": "Uniform scale on self; exact arithmetic."
 },
 "C08": {
  "note": "Angles through real sin/cos/atan2 (Angle.v)."
 },
 "C09": {
  "note": "Planar quaternions proved; the claim for tilted quaternions is refuted by the iff."
 },
 "C11": {
  "note": "Directions of length bounded by a stated bound for polygons (the code starts its search at f32::MIN; C11_extreme_point_poly_low says what happens below it)."
 },
 "C12": {
  "note": "Uniform scale proved; non-uniform scale refuted for Poly2d and Ball, proved for boxes."
 },
 "C16": {
  "note": "Zero total radius at distance 0 is the exception (refuted there)."
 },
 "C17": {
  "note": "Exact except on the line |x| = hx, |y| < hy, where the vector is refuted and the flag still proved for positive radius."
 },
 "C18": {
  "note": "Rigid relative transforms; refuted with scale."
 },
 "C20": {
  "note": "The natural claim (signed distance) is refuted three ways; what does hold is characterised exactly outside (iff) and by sign inside."
 },
 "C21": {
  "note": "For every arithmetic, f32 included."
 },
 "C22": {
  "note": "Rigid and uniform-scale motions; refuted for non-uniform scale."
 },
 "C23": {
  "note": "Refuted for rotated self, exact iff proved; the world-space meaning of each query is proved pair by pair."
 },
 "C24": {
  "note": "Refuted for analytic pairs (scale of self and of other ignored); common scale proved."
 },
 "C25": {
  "note": "Refuted only for concentric balls (both vectors along +x)."
 },
 "C26": {
  "note": "For every arithmetic and every support function."
 },
 "C27": {
  "note": "Exact arithmetic; covers the four const-generic variants. 'Before exhausting the limit' is part of the first statement; C27_false_means_shallow has no such clause."
 },
 "C28": {
  "note": "Exact arithmetic; the tolerance f32::EPSILON is accounted for, exact when it does not interfere (hypothesis `resolved`, met on the 1/128 grid by C29_grid_resolved; it never holds for a scene with a ball of positive radius, for those see C54 and C55)."
 },
 "C29": {
  "note": "Exact arithmetic; bound 20 on the number of support values = the code's iteration limit."
 },
 "C30": {
  "note": "Achievability proved; minimality refuted in general, proved up to the corner-to-corner case."
 },
 "C31": {
  "note": "Exact arithmetic. C31_vector_separates holds for every scene; the 1% bound needs `resolved`, or the depth hypothesis of C55, or two balls (C54)."
 },
 "C60": {
  "note": "binary32, rounding included; scale one only. The accuracy of sin and cos is a parameter. An inversion repeats the rotor error in the position, so nested inversions count again (weight)."
 },
 "C62": {
  "note": "binary32, rounding included; the verdict only (the length of the vector is C59 on grids). Uniform scale only. The other direction is C63."
 },
 "C65": {
  "note": "binary32, rounding included. round_to_i32 (external crate) is any nearest rounding. The broad phase is refuted as exact cover (C65_quantize_covers_refuted). Several overlapping tiles: nothing is promised (C45 refutations)."
 },
 "C71": {
  "note": "Source under cfg(any()): modelled as text. Exact arithmetic, and two theorems (\u2026_f32) about binary32 with rounding."
 },
 "C72": {
  "note": "Module commented out in the source: modelled as text. The claim a user would make (the difference in world space) is refuted; the exact translation error is proved."
 },
 "C73": {
  "note": "Any scalars for the uniform case; exact arithmetic for the converse."
 },
 "C74": {
  "note": "Source under cfg(minkowski), never set: modelled as text, MinkowskiDifference taken as the MinkowskiSum of the negated box. Exact arithmetic, and one theorem about binary32. Rotations and scales: refuted."
 },
 "C75": {
  "note": "Machine i32; the core library iterators are transcribed (trusted) as state machines."
 },
 "C78": {
  "note": "Equivalences: each says when the answer is right and when it is wrong; C49 has concrete wrong answers. sdfv of a cylinder is modelled with the vector part of the current 2D sdfv_rel (Col3.v), as cylinder3d.rs calls a trait that was renamed."
 },
 "C77": {
  "note": "binary32, rounding included. Uniform scales only: with different scales per axis composition is not the composition of the maps even exactly."
 },
 "C76": {
  "note": "binary32, rounding included. Uniform scales only: with different scales per axis composition is not the composition of the maps even exactly (C05)."
 },
 "C70": {
  "note": "binary32, rounding included. Placements given with scale 1 (nonuniform scale breaks composition exactly already); exact rotations by Rodrigues formula."
 },
 "C69": {
  "note": "binary32, rounding included. Ball directions outside 2^-24..2^59 not covered (2D: refuted in C66)."
 },
 "C68": {
  "note": "binary32, rounding included. Uniform scale only (two different factors: C12 refutations). Vectors are compared at a point within the stated blur of the real one."
 },
 "C67": {
  "note": "binary32, rounding included. Box sdf above and below the box excluded: wrong there already in exact arithmetic (C48_box3_point_sdf_refuted). Rotated placements: about the computed relative position only."
 },
 "C66": {
  "note": "binary32, rounding included. Directions outside 2^-24..2^59: boxes still exact, balls refuted (C66_ball_direction_refuted), polygons by C35. Two different scale factors are not covered (C12 refutations)."
 },
 "C64": {
  "note": "binary32, rounding included. Box2d v Ball excluded (C20: wrong)."
 },
 "C63": {
  "note": "binary32, rounding included; collides and penetrates only: distance_to refuted (C63_distance_refuted), sdfv not covered. Uniform scale only."
 },
 "C61": {
  "note": "binary32, rounding included. Excluded and shown to fail: the line of the left or right side (C17_exact_line_refuted), corners nearer than 2^-59 (C61_tiny_corner_refuted; never met when a half size is at least 2^-34). Point v Box and Point v Ball for relative translations only."
 },
 "C59": {
  "note": "binary32, rounding included; same range as C58; C59_shapes_* cover boxes, polygons and mixed pairs. The returned vector itself may fall short of separation by the rounding error (2^(e-16) per coordinate). distance_to need not be the shortest (C30_minimal_refuted)."
 },
 "C58": {
  "note": "binary32, rounding included. Step 2^e with -7<=e<=14; sizes plus distance at most 32 steps; overlaps need product of corner counts <= 20 (the iteration limit). Verdicts only; C58_shapes_* cover boxes, polygons and mixed pairs (C56 treats boxes of any size in f32); C33 shows how it fails beyond such bounds."
 },
 "C57": {
  "note": "Exact arithmetic. Isotropic2d is todo!() in the source and not modelled."
 },
 "C56": {
  "note": "binary32, all rounding included. Not covered: rotated boxes, boxes whose gap or overlap is below the margin (there the verdict can be wrong, C33)."
 },
 "C55": {
  "note": "Exact arithmetic. For scenes with a ball the vector may be zero (the polytope search gave up after 20 steps): C54_concentric_zero_vector shows it happens."
 },
 "C32": {
  "note": "Exact arithmetic; all four queries, separate, touching and overlapping boxes."
 },
 "C33": {
  "note": "The claim is false of the code: three binary32 witnesses checked by vm_compute, stated against real geometry."
 },
 "C34": {
  "note": "About binary32 itself, all finite inputs."
 },
 "C35": {
  "note": "For every arithmetic with ordered comparison, and binary32."
 },
 "C36": {
  "note": "Box conversion and regular polygons proved; the documented meaning of strict_check refuted both ways, its actual meaning proved (iff)."
 },
 "C37": {
  "note": "About binary32; asymmetry, infinities and NaN vectors refuted."
 },
 "C38": {
  "note": "About binary32 and exact arithmetic; lerp(a,b,1)=b refuted in general."
 },
 "C40": {
  "note": "Coordinates in Z; i32 overflow outside."
 },
 "C41": {
  "note": "The claim is false of the code; what pad does is proved."
 },
 "C42": {
  "note": "By induction over histories, for every chunk decomposition satisfying good_decompose."
 },
 "C43": {
  "note": "Replay, announcement and locality proved; three expectations refuted."
 },
 "C44": {
  "note": "Exact arithmetic plus binary32 for tile_to_world_pos up to 2^24 (beyond: refuted)."
 },
 "C45": {
  "note": "The single-tile case is for boxes on the 1/128 grid."
 },
 "C46": {
  "note": "JSON text and the file system are assumed: the serializer is any bijection on the association list up to order."
 },
 "C47": {
  "note": "The 3d feature does not compile at this commit; its source text is modelled."
 },
 "C48": {
  "note": "As C47."
 },
 "C49": {
  "note": "As C47; several claims refuted, with what holds instead."
 },
 "C51": {
  "note": "For every arithmetic; the one explicit panic of sdfv is excluded under `resolved`, and reachable in binary32 (C33)."
 },
 "C52": {
  "note": "About binary32 itself."
 },
 "C54": {
  "note": "Exact arithmetic; centres strictly between 0 and sqrt(eps) = 0.00035 apart are outside. Between 0 and D/5 apart (D = sum of radii) and for penetration below D/5000 the vector may be zero or a true separation; the theorem says which two outcomes are possible, not which one happens. The zero vector is a defect: C54_concentric_zero_vector (all radii, exact arithmetic) and C54_zero_vector_refuted (binary32)."
 },
 "C53": {
  "note": "Exact arithmetic; refuted for scale.z = 0."
 }
}