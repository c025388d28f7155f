{"id": "C01", "title": "Pure translations are a group acting on points", "statement": "For Vec2, Translate2d and IdentityTransform used as transformations: unapply undoes apply, inverse().apply(apply(p)) = p, compose(a,b).apply(p) = a.apply(b.apply(p)), and a.delta_transform(b) is the unique translation carrying a's frame to b's (a.apply(delta.apply(p)) = b.apply(p)). Scaling factor is 1 and normals are unchanged.", "quantifier": "all translations and all points (exact real arithmetic)", "why_tests_cant": "the documentation promises the laws for any point and transformation; tests check three literals", "anchors": ["src/col/transform.rs:Invertible,Composable,DeltaTransform", "src/col2d/transformation2d/translate2d.rs:Vec2,Translate2d", "src/col2d/transformation2d/mod.rs:IdentityTransform"]}
{"id": "C02", "title": "The documented inverse law in 32-bit floats", "statement": "p == a.inverse().apply(a.apply(p)) with f32 equality, as written in the documentation of Invertible::inverse, for Translate2d: holds whenever the coordinates of p and a are multiples of a common power of two with at most 23 bits (integers up to 2^23 in particular); fails in general because of rounding, by at most the rounding of the two additions.", "quantifier": "all f32 points and translations", "why_tests_cant": "the doc-test checks one literal; rounding failures need the IEEE semantics over all values", "anchors": ["src/col/transform.rs:Invertible::inverse", "src/col2d/transformation2d/translate2d.rs:Translate2d"]}
{"id": "C03", "title": "AxisTransform2d inverse law", "statement": "inverse().apply(apply(p)) = p for every point and every AxisTransform2d with non-zero scale. (The code violates it: the inverse position is -pos instead of -pos/scale; the law holds exactly when the position is zero or the scale is one.) unapply and compose do satisfy their laws.", "quantifier": "all positions, non-zero scales and points", "why_tests_cant": "no test covers AxisTransform2d; the law is a universal claim", "anchors": ["src/col2d/transformation2d/axis_transform2d.rs:AxisTransform2d::inverse,compose,unapply"]}
{"id": "C04", "title": "Transform2d: apply/unapply are mutually inverse", "statement": "For a rotation of unit length and non-zero scale components, unapply(apply(p)) = p and apply(unapply(p)) = p; apply performs scale, then rotation, then translation, and apply_origin = apply(0).", "quantifier": "all positions, unit rotors, non-zero scales, points", "why_tests_cant": "infinitely many transforms; tests sample a few angles", "anchors": ["src/col2d/transformation2d/transform2d.rs:apply,unapply,apply_origin"]}
{"id": "C05", "title": "Transform2d: composition law", "statement": "a.compose(b).apply(p) = a.apply(b.apply(p)) for all p whenever a's scale is uniform or b does not rotate out of the axes; and only then (exact characterisation), because the composition cannot represent shear.", "quantifier": "all pairs of transforms and all points", "why_tests_cant": "a universally quantified algebraic law with an exact side condition", "anchors": ["src/col2d/transformation2d/transform2d.rs:compose"]}
{"id": "C06", "title": "Transform2d: inverse law", "statement": "a.inverse().apply(a.apply(p)) = p for all p when the scale is uniform or the rotation is by 0 or 180 degrees; refuted for non-uniform scale with rotation.", "quantifier": "all transforms with non-zero scale and all points", "why_tests_cant": "a universally quantified algebraic law; tests use uniform scale only", "anchors": ["src/col2d/transformation2d/transform2d.rs:inverse"]}
{"id": "C07", "title": "delta_transform is the relative pose", "statement": "With uniform scale on a (rigid motions in particular), a.apply(a.delta_transform(b).apply(p)) = b.apply(p) for every p, so detection in a's local frame sees b exactly where the world does.", "quantifier": "all pairs of transforms with uniform scale, all points", "why_tests_cant": "every collider-level query depends on it for all poses", "anchors": ["src/col/transform.rs:DeltaTransform", "src/col2d/transformation2d/transform2d.rs"]}
{"id": "C08", "title": "Rotor2d rotations form a group of isometries", "statement": "Rotors built from angles have unit length; multiplying rotors adds angles; inverse negates the angle; (r*s)*v = r*(s*v); rotation preserves lengths, dot products and orientation; from_angle(angle(r)) = r for every unit rotor.", "quantifier": "all angles, unit rotors and vectors", "why_tests_cant": "tests check a handful of angles", "anchors": ["src/col2d/transformation2d/mod.rs:Rotor2d::from_angle,angle,inverse,mul"]}
{"id": "C09", "title": "Rotor2d::from_quaternion", "statement": "For every non-zero quaternion (0,0,z,w) the rotor equals the planar rotation the quaternion performs and has unit length. 'Ignore rotation outside of the XY plane' does not hold for general quaternions: a tilted rotation gives a rotor that is not of unit length (it scales).", "quantifier": "all quaternions", "why_tests_cant": "the test covers only rotations about z", "anchors": ["src/col2d/transformation2d/mod.rs:Rotor2d::from_quaternion", "src/col2d/transformation2d/bevy_transform.rs"]}
{"id": "C10", "title": "Direction transforms preserve lengths and angles", "statement": "apply_normal and unapply_normal are mutually inverse isometries for every transform with unit rotor, and unapply_normal is the adjoint of apply_normal (d . apply_normal(v) = unapply_normal(d) . v).", "quantifier": "all transforms and directions", "why_tests_cant": "needed for every direction used by support queries", "anchors": ["src/col2d/transformation2d/transform2d.rs:apply_normal,unapply_normal", "src/col2d/transformation2d/mod.rs:Transformation2d"]}
{"id": "C11", "title": "extreme_point is a farthest point of the shape", "statement": "For Point, Ball, Box2d, RoundedBox2d, Poly2d and Shape2d: extreme_point(d) belongs to the shape and no point of the shape has a larger dot product with d. (For a polygon this needs one vertex with dot product above -f32::MAX; otherwise the origin is returned.) The constructors of the Shape2d union (ball, rect, polygon) make the shape they name.", "quantifier": "all shapes with non-negative sizes, all non-empty vertex lists, all directions (including zero components and the zero direction)", "why_tests_cant": "every direction and every vertex list", "anchors": ["src/col2d/detection/extreme_point.rs", "src/col2d/shape/*/mod.rs:extreme_point", "src/col2d/shape/mod.rs:shape_union"]}
{"id": "C12", "title": "Extreme point of a transformed shape", "statement": "extreme_point_t(t,d) (and Collider2d::extreme_point) is a farthest point of the transformed shape along d, for every transform with uniform positive scale; boxes and points also for non-uniform positive scale. Refuted for Poly2d and Ball under non-uniform scale.", "quantifier": "all shapes, uniform-scale transforms and directions", "why_tests_cant": "every pose and direction", "anchors": ["src/col2d/detection/extreme_point.rs:extreme_point_t", "src/col2d/collider2d.rs", "src/col2d/shape/ball2d/mod.rs:extreme_point_t"]}
{"id": "C13", "title": "The Minkowski-difference support function is a support function", "statement": "LocalMinkowskiDiff2d::extreme_point(d) is a difference a-b of a point of A and a point of the transformed B, and maximises d over all such differences.", "quantifier": "all shape pairs, all relative uniform-scale transforms, all directions", "why_tests_cant": "GJK/EPA correctness for every input rests on it", "anchors": ["src/col2d/shape/local_minkowski_diff/mod.rs:extreme_point"]}
{"id": "C14", "title": "symmetric_bounding_box contains the shape and is the smallest centred box", "statement": "Every point of the shape lies in symmetric_bounding_box(), and every origin-centred box containing the shape contains it; for Point, Ball, Box2d, RoundedBox2d, Poly2d. Box2d::cover enlarges a box minimally to include a point.", "quantifier": "all shapes and points", "why_tests_cant": "all vertex lists; minimality quantifies over all boxes", "anchors": ["src/col2d/mod.rs:SymmetricBoundingBox2d", "src/col2d/shape/box2d/mod.rs:cover", "src/col2d/shape/poly2d/mod.rs:symmetric_bounding_box"]}
{"id": "C15", "title": "Box2d v Point detection is geometrically exact", "statement": "collides iff the point is strictly inside the box; penetrates/sdfv then give the shortest translation of the box that frees the point; otherwise distance_to/sdfv give the shortest translation of the box that makes it touch the point.", "quantifier": "all boxes, all relative transforms", "why_tests_cant": "minimality quantifies over all translations", "anchors": ["src/col2d/shape/box2d/v_point.rs", "src/col2d/detection/sdfv_common.rs"]}
{"id": "C16", "title": "Ball v Point and Ball v Ball detection is geometrically exact", "statement": "collides iff the ball(s) overlap with positive depth; the vector is the shortest separating translation when colliding and the shortest touching translation otherwise; concentric balls resolve along X. With zero total radius coincident centres are reported as colliding.", "quantifier": "all radii and relative positions", "why_tests_cant": "minimality quantifies over all translations", "anchors": ["src/col2d/shape/ball2d/v_point.rs", "src/col2d/shape/ball2d/v_ball2d.rs"]}
{"id": "C17", "title": "RoundedBox2d v Point and Box2d v Ball detection is geometrically exact", "statement": "collides iff the ball centre is strictly within the rounded box; the vector is the shortest separating / touching translation, except when the point is level with a vertical face (|x| = hx, |y| < hy), where the returned vector is wrong (refuted there).", "quantifier": "all boxes, radii, relative translations", "why_tests_cant": "minimality quantifies over all translations; corner and edge regions", "anchors": ["src/col2d/shape/rounded_box2d/v_point.rs", "src/col2d/shape/box2d/v_ball.rs"]}
{"id": "C18", "title": "Swapping the roles: Point v Box2d and Point v Ball", "statement": "Point.sdfv_rel(shape, rel) is the negated, rotated answer of shape.sdfv_rel(Point, rel^-1): for rigid rel the flag agrees and the vector is the shortest translation of the point. Refuted when rel scales.", "quantifier": "all boxes, balls and rigid relative transforms", "why_tests_cant": "all poses", "anchors": ["src/col2d/shape/point2d.rs:impl_reverse_sdfv_common_rel"]}
{"id": "C19", "title": "Scalar sdf is the signed distance", "statement": "sdf_rel is the distance to the shape when outside, and minus the penetration depth when inside, for Box2d v Point, Ball v Point, Ball v Ball, Point v Point and RoundedBox2d v Point; its absolute value is the length of sdfv.", "quantifier": "all shapes and relative positions", "why_tests_cant": "distance is an infimum over all points", "anchors": ["src/col2d/shape/box2d/v_point.rs:sdf_rel", "src/col2d/shape/ball2d/*.rs:sdf_rel", "src/col2d/shape/rounded_box2d/v_point.rs:sdf_rel"]}
{"id": "C20", "title": "Scalar sdf of Box2d v Ball", "statement": "The scalar sdf of Box2d v Ball is not the signed distance (refuted inside and outside). What holds: when box and ball do not overlap, the value is finite and never below the true gap, and equals it exactly when the ball's centre lies on one of the box's axes or diagonals; when they overlap and the ball does not cover the box's centre, the value is negative. If the ball covers the box's centre even the sign can be wrong (refuted: a unit box inside a ball of radius 15 gets +5).", "quantifier": "all boxes, all balls of positive radius, all rigid relative placements", "why_tests_cant": "tests only use axis-aligned offsets, where the value happens to be right", "anchors": ["src/col2d/shape/box2d/v_ball.rs:sdf_rel"]}
{"id": "C21", "title": "The four relative queries agree with each other", "statement": "For every analytic pair: collides_rel is true iff penetrates_rel is Some iff distance_to_rel is None iff sdfv_rel's flag is true; the vectors of penetrates_rel/distance_to_rel equal sdfv_rel's vector.", "quantifier": "all shapes, transforms and every arithmetic (f32 included)", "why_tests_cant": "holds for every input including NaN and infinities; tests sample", "anchors": ["src/col2d/detection/sdfv_common.rs", "src/col2d/shape/*/v_*.rs"]}
{"id": "C22", "title": "Collider queries are invariant under a common rigid motion", "statement": "Moving both colliders by the same rigid motion (or any uniform-scale Transform2d) changes neither the relative transform nor the answers of collides, penetrates, distance_to, sdf; sdfv's vector is rotated along.", "quantifier": "all shapes, poses and motions", "why_tests_cant": "all motions", "anchors": ["src/col2d/detection/collides.rs", "src/col2d/detection/sdfv.rs", "src/col/transform.rs"]}
{"id": "C23", "title": "Vectors of penetrates/distance_to versus sdfv at collider level", "statement": "A user expects penetrates and distance_to on colliders to return the same world-space vector as sdfv. (Refuted for rotated self: sdfv rotates its result to world space, penetrates and distance_to do not; they agree iff self is unrotated or the vector is zero.)", "quantifier": "all colliders", "why_tests_cant": "needs a rotated self; tests use unrotated ones", "anchors": ["src/col2d/detection/penetrates.rs", "src/col2d/detection/distance_to.rs", "src/col2d/detection/sdfv.rs"]}
{"id": "C24", "title": "Scaled colliders", "statement": "Detection between colliders accounts for the scale of their transforms. (Refuted for the analytic pairs: Ball v Ball, Ball v Point, Box v Ball ignore the scale, also at collider level; GJK pairs honour the relative scale.)", "quantifier": "all colliders with uniform scale", "why_tests_cant": "no test scales an analytic pair", "anchors": ["src/col2d/shape/ball2d/v_ball2d.rs", "src/col2d/shape/box2d/v_ball.rs"]}
{"id": "C25", "title": "Symmetry of detection", "statement": "a.collides(b) = b.collides(a) for analytic pairs under rigid transforms, and the sdfv vectors are opposite in world space (for distinct centres).", "quantifier": "all shapes and poses", "why_tests_cant": "all poses", "anchors": ["src/col2d/shape/ball2d/v_ball2d.rs", "src/col2d/shape/point2d.rs", "src/col2d/detection/sdfv.rs"]}
{"id": "C26", "title": "GJK/EPA internal unreachable! and assert_eq! are never hit", "statement": "For every pair of shapes, transform and arithmetic (including f32 with NaN and infinities): simplex sizes stay within 1..3, distance_to_origin is never called on 3 points, the winding assertions hold and no index is out of bounds; the only possible panic is the explicit 'Simplex collided after collision was no longer possible' of the full variant.", "quantifier": "every arithmetic, support function, iteration", "why_tests_cant": "a panic for any input crashes the user's game", "anchors": ["src/col2d/shape/local_minkowski_diff/mod.rs:Simplex2d", "src/col2d/shape/local_minkowski_diff/v.rs"]}
{"id": "C27", "title": "GJK 'false' is sound", "statement": "When collides_rel or penetrates_rel of a GJK pair report no collision (or distance_to and sdfv report a distance) before exhausting the iteration limit, there is a separating axis, so the shapes do not overlap. In any case such a report means the shapes do not overlap deeply (see C55).", "quantifier": "all convex shapes and relative transforms, exact arithmetic", "why_tests_cant": "all shapes", "anchors": ["src/col2d/shape/local_minkowski_diff/v.rs"]}
{"id": "C28", "title": "GJK 'true' is sound", "statement": "When collides_rel or penetrates_rel of a GJK pair report a collision, moving self by some w with |w|^3 < 2^-23 (f32::EPSILON) brings the shapes into contact; and they are in contact as they stand whenever no search direction built from the support points is non-zero but shorter than f32::EPSILON (for instance when all coordinates are multiples of 1/128). Under that last condition the same holds for distance_to_rel answering None and sdfv_rel answering true.", "quantifier": "all convex shapes and relative transforms, exact arithmetic", "why_tests_cant": "all shapes", "anchors": ["src/col2d/shape/local_minkowski_diff/v.rs", "src/col2d/shape/local_minkowski_diff/mod.rs:add_point"]}
{"id": "C29", "title": "GJK is complete for polygons", "statement": "If two shapes overlap and the support function of their difference has at most 20 values (for instance boxes/polygons with corners(a) x corners(b) <= 20), collides_rel returns true within the 20 iterations; and if the tolerance does not interfere, penetrates_rel returns Some, distance_to_rel None and sdfv_rel true without panicking.", "quantifier": "all convex polygon pairs with a bounded number of support values, exact arithmetic", "why_tests_cant": "termination within the hard-coded limit for every input", "anchors": ["src/col2d/shape/local_minkowski_diff/v.rs:iteration_limit"]}
{"id": "C30", "title": "GJK distance vectors are achievable; exactness", "statement": "A finite vector returned by distance_to_rel/sdfv_rel of a GJK pair when not colliding moves self into contact with the other shape (the distance is never underestimated). When the tolerance does not interfere the vector is finite, and unless the iteration limit is hit it is a shortest one (within 1% for sdfv) or brings an extreme point of self onto an extreme point of the other shape. That it is always shortest is false: two small integer polygons at distance 1 get a vector of length sqrt 5.", "quantifier": "all convex shapes", "why_tests_cant": "minimality is over all pairs of points; the failing pair was found by search", "anchors": ["src/col2d/shape/local_minkowski_diff/mod.rs:distance_to_origin", "src/col2d/shape/local_minkowski_diff/v.rs"]}
{"id": "C31", "title": "EPA penetration separates and is within 1% of minimal", "statement": "A vector reported for a colliding GJK pair is always a real vector (never NaN or infinite) and, unless it is zero, moves self out of overlap. When the tolerance f32::EPSILON does not interfere it is also at most 1.01 times as long as any translation doing so; with boundedly many support values the polytope search always converges, so it is not zero.", "quantifier": "all convex shapes, exact arithmetic", "why_tests_cant": "optimality over all translations", "anchors": ["src/col2d/shape/local_minkowski_diff/mod.rs:EpaPoly2d"]}
{"id": "C32", "title": "Box2d v Box2d end to end", "statement": "For axis-aligned boxes (translation-only relative transform) of exact numbers: they overlap iff the centre offset is smaller than the sum of the half sizes in both axes; collides is true, penetrates is Some, sdfv says inside and distance_to is None exactly when they overlap (touching boxes do not collide). When they overlap, penetrates and sdfv return a separating vector at most 1% longer than the shortest one; otherwise distance_to returns a shortest vector to contact and sdfv one within 1% of the shortest.", "quantifier": "all boxes with half sizes at least 1/1000 and all translations, up to a billion, where the algorithm's epsilon does not blur the corners (in particular: all sizes and offsets that are multiples of 1/128)", "why_tests_cant": "continuum of sizes and offsets, including exactly touching and exactly aligned boxes", "anchors": ["src/col2d/shape/box2d/mod.rs", "src/col2d/shape/local_minkowski_diff/v.rs"]}
{"id": "C33", "title": "GJK in f32 at small scales", "statement": "Queries never panic and never report collision for separated shapes, in f32. (Refuted: for boxes of size 1e-4 separated by 8e-5 all queries can report collision, or sdfv panics while distance_to disagrees with collides; for two integer triangles more than 50 apart distance_to reports a collision.)", "quantifier": "all f32 boxes", "why_tests_cant": "needs IEEE semantics of concrete tiny inputs", "anchors": ["src/col2d/shape/local_minkowski_diff/v.rs:direction_is_too_small,panic"]}
{"id": "C34", "title": "Box2d v Point containment is exact in f32", "statement": "In binary32 with all its rounding, for all finite coordinates and half sizes, collides_rel is true iff |x| < hx and |y| < hy exactly.", "quantifier": "all finite f32 inputs", "why_tests_cant": "2^128 input combinations", "anchors": ["src/col2d/shape/box2d/v_point.rs"]}
{"id": "C35", "title": "Poly2d extreme point in f32", "statement": "In any arithmetic whose comparison is a strict order on the scores, the returned point is one of the vertices and its computed score is not smaller than any other vertex's computed score; an empty polygon gives the zero vector.", "quantifier": "all vertex lists and directions, f32 included", "why_tests_cant": "all vertex lists", "anchors": ["src/col2d/shape/poly2d/mod.rs:extreme_point"]}
{"id": "C36", "title": "Poly2d from Box2d, regular polygons, strict_check", "statement": "Poly2d::from(Box2d) is the same point set as the box; regular(n,r) has n vertices at distance |r| from the origin; strict_check accepts iff every vertex is its own extreme point. The documented meaning (convex and containing the origin) is refuted in both directions.", "quantifier": "all boxes, side counts, radii, vertex lists", "why_tests_cant": "all vertex lists", "anchors": ["src/col2d/shape/poly2d/mod.rs:From<Box2d>,regular,regular_upright,strict_check"]}
{"id": "C37", "title": "approx_eq", "statement": "approx_eq_tolerance(x,x) for every finite f32/Vec2/Vec3; the Vec2/Vec3 comparison is symmetric on all f32 values (NaN and infinities included); in f32 the scalar comparison decides |a-b| <= tol*|a| up to a relative 2^-22, in exact arithmetic exactly; vectors: |a-b| <= tol*max(|a|,|b|), exactly in exact arithmetic and up to 9 units of relative error 2^-24 in f32 (longer length in [2^-30, 2^59], tolerance in [2^-24, 2^10]); outside that range refuted (vectors shorter than 2^-75 or longer than 2^64 are approx_eq to their opposites); without a tolerance it is 1e-6. The f32 scalar comparison accepts only finite operands with a finite difference: NaN, infinities and overflowing differences are rejected. Refuted: the f32 comparison is asymmetric, infinities are not equal to themselves, and a vector with a NaN component is approx_eq to zero.", "quantifier": "all f32 values", "why_tests_cant": "all bit patterns including NaN, infinities, subnormals", "anchors": ["src/utils/approx.rs"]}
{"id": "C38", "title": "lerp endpoints and range", "statement": "lerp(a,b,0) = a and lerp(a,a,t) = a in f32 for finite values without overflow; lerp(a,b,1) = b in f32 when b is within a factor 2 of a; in exact arithmetic lerp is (1-t)a+tb, between a and b for 0<=t<=1; refuted in f32: lerp(a,b,1) may differ from b, and may be infinite between finite ends. In f32, for ends below 2^125 and 0<=t<=1, lerp is finite, within 2^-21 of the larger end (plus 2^-149) of the exact interpolation, never on the wrong side of a, and never moves back when t grows; square is the correctly rounded square, never negative and monotone in the magnitude.", "quantifier": "all f32 / real values", "why_tests_cant": "all values", "anchors": ["src/lib.rs:Lerp", "src/lib.rs:Square"]}
{"id": "C39", "title": "Publishers deliver every event exactly once, in order", "statement": "A Ledger holds exactly the notified events in order; a HashsetLedger holds each distinct notified event exactly once and nothing else; CallbackPublisher calls every subscriber attached so far exactly once per event, in attach order, events in order.", "quantifier": "all interleavings of attach and notify", "why_tests_cant": "all histories", "anchors": ["src/utils/publisher.rs"]}
{"id": "C40", "title": "Rectangle iteration visits each cell exactly once", "statement": "iterate, the four directional iterators, iterate_boxed and iterate_with_direction_f32 visit every cell of the inclusive rectangle exactly once and no other cell, in row order with the requested x/y directions; a rectangle with max<min yields nothing. min_max(min,max) is the rectangle with these two corners, both included.", "quantifier": "all i32 rectangles", "why_tests_cant": "all rectangles", "anchors": ["src/utils/rect2.rs:iterate_*"]}
{"id": "C41", "title": "Rect2i32::pad enlarges the rectangle", "statement": "pad(k) with k>=0 grows the rectangle by k on every side. (Refuted: both corners are moved by -k; the result is a shifted rectangle of the same size.)", "quantifier": "all rectangles and paddings", "why_tests_cant": "no test exists; universal claim", "anchors": ["src/utils/rect2.rs:pad"]}
{"id": "C42", "title": "Tilemap behaves like a map from positions to tiles", "statement": "After any sequence of set_tile/remove_tile, get_tile(p) returns the value of the last set_tile at p not followed by remove_tile at p, and 0 otherwise; other positions are unaffected.", "quantifier": "all operation histories and positions (negative coordinates included)", "why_tests_cant": "all histories", "anchors": ["src/col2d/shape/tilemap.rs:set_tile,remove_tile,get_tile"]}
{"id": "C43", "title": "Tilemap events describe the chunk set", "statement": "Replaying ChunkCreated/ChunkRemoved from the event ledger yields exactly the set of chunks present; every set_tile that changes a tile is announced for its chunk; tilemap chunks touched by an event are the only ones that change. Refuted: remove_tile that changes a chunk without emptying it is not announced; ChunkRemoved can be emitted for a chunk never created; a chunk of zeros can exist.", "quantifier": "all operation histories", "why_tests_cant": "all histories", "anchors": ["src/col2d/shape/tilemap.rs:TilemapEvent,set_tile,remove_tile"]}
{"id": "C44", "title": "World/tile coordinates and broad phase", "statement": "tile_to_world_pos then world_to_tile_pos is the identity; every tile square overlapping a box at a world position is inside quantize(box,pos); Tilemap v Point collides iff the tile whose square contains the point (rounded half away from zero) is non-zero.", "quantifier": "all positions, boxes, tilemaps (exact arithmetic)", "why_tests_cant": "all positions", "anchors": ["src/col2d/shape/tilemap.rs:world_to_tile_pos,tile_to_world_pos,quantize,sdfv_common_rel"]}
{"id": "C45", "title": "simple_resolve: visiting order, clear bodies unmoved, a single tile resolved; not more", "statement": "simple_resolve_box/ball never panic; a body that overlaps no solid tile is returned unmoved; the visited tiles are exactly those of the quantized rectangle in the order given by dir; a box (coordinates on a 1/128 grid) overlapping exactly one solid tile in reach is moved out of it by a shortest-within-1% translation. With several tiles nothing more is promised: refuted in binary32 that the result is clear of tiles although a clear position is near (a box in a gap), and that a flat floor of two tiles only lifts a box (it can be pushed sideways at the seam, depending on dir).", "quantifier": "all tilemaps, bodies, positions, directions", "why_tests_cant": "all tilemaps", "anchors": ["src/col2d/shape/tilemap.rs:simple_resolve_ball,simple_resolve_box,for_tiles_in_rect"]}
{"id": "C46", "title": "Save/load preserves the tiles", "statement": "load(save(m)) has the same get_tile for every position, an empty event ledger, assuming the serializer round-trips the chunk association list.", "quantifier": "all tilemaps", "why_tests_cant": "all histories; file system and JSON are assumed", "anchors": ["src/col2d/shape/tilemap.rs:save,load"]}
{"id": "C47", "title": "3D transforms", "statement": "Vec3/Translate3d and Isotropic3d (unit quaternion, non-zero scale) satisfy the inverse, composition and relative-pose laws for every point, a unit quaternion rotates by twice its half angle about its axis without changing lengths; Transform3d satisfies them for uniform scale and AxisTransform3d's apply/unapply/compose hold. Refuted: the inverse law for non-uniform Transform3d scale. Converting a bevy Transform to Transform3d and back loses nothing, and both act, invert and compose alike.", "quantifier": "all transforms and points", "why_tests_cant": "all transforms", "anchors": ["src/col3d/transformation3d/*.rs"]}
{"id": "C48", "title": "3D Box v Point and Ball v Point", "statement": "Box3d v Point and Ball v Point in 3D: collides iff strictly inside; penetrates/sdfv is the shortest separating translation inside and the shortest contact translation outside; the scalar sdf is the signed distance. Refuted: Box3d's sdf above or below the box inside its footprint; Ball penetrates for 0 < distance < f32::EPSILON. Extreme points of boxes, balls and cylinders are farthest points. In the world: for Vec3, Translate3d, Isotropic3d, Transform3d and bevy placements (unit quaternion, uniform non-zero scale of the first) the answers are right about the point as seen from the first shape.", "quantifier": "all boxes, balls, points", "why_tests_cant": "minimality over all translations", "anchors": ["src/col3d/shape/box3d.rs", "src/col3d/shape/ball3d.rs"]}
{"id": "C49", "title": "3D cover, Point v A, cylinders", "statement": "Box3d::cover(p) contains the box and contains p iff |p.z| was already within the box (refuted: z is ignored); Point v Box in 3D is right for pure translations and refuted for rotated relative transforms; Point v Ball is right for every rigid placement of both (Vec3, Translate3d, Isotropic3d, Transform3d, bevy) and refuted for a scaled ball; the cylinder collides iff |z| <= h/2 and the radial distance is below r (or 0), and its sdfv is the shortest contact translation when outside the height range and (within the radius or above); penetrates, sdf and sdfv are refuted elsewhere; Cylinder3d::minkowski_sum halves the height (refuted); Box3d's Minkowski sum is exact.", "quantifier": "all boxes, points, cylinders, relative transforms", "why_tests_cant": "minimality over all translations; no finite set of tests covers all shapes", "anchors": ["src/col3d/shape/box3d.rs:cover", "src/col3d/default_impls.rs", "src/col3d/shape/cylinder3d.rs:minkowski_sum"]}
{"id": "C50", "title": "Transform2d constructors and builder methods do not disturb each other", "statement": "Transform2d::from_translation/from_angle/from_rotation/from_scale and the default perform exactly that one motion (translate, rotate, scale, nothing); after any chain of with_translation/with_angle/with_rotation/with_scale calls the transform scales, rotates and translates by the values set last, and keeps the starting motion in components never set.", "quantifier": "all values and all sequences of builder calls, exact arithmetic", "why_tests_cant": "all call histories", "anchors": ["src/col2d/transformation2d/transform2d.rs:from_translation,from_angle,from_rotation,from_scale,with_translation,with_angle,with_rotation,with_scale"]}
{"id": "C51", "title": "Queries return instead of panicking", "statement": "collides_rel, penetrates_rel and distance_to_rel return a value for every pair of Shape2d shapes and every relative transform, in any arithmetic (NaN, infinities and degenerate shapes included); the only panic sdfv_rel can raise is 'Simplex collided after collision was no longer possible', and it does not raise it in exact arithmetic when the f32::EPSILON tolerance does not interfere.", "quantifier": "all shapes, transforms, and all scalar arithmetics (f32 included)", "why_tests_cant": "every input including NaN/inf and degenerate polygons", "anchors": ["src/col2d/shape/local_minkowski_diff/mod.rs", "src/col2d/shape/local_minkowski_diff/v.rs", "src/col2d/shape/mod.rs"]}
{"id": "C52", "title": "Ball v Point and Ball v Ball in f32", "statement": "For coordinates up to 2^60 and centre distance at least 2^-60, the f32 answer of collides_rel is the geometric one unless the distance is within a relative 2^-21 of the (total) radius, and sdf_rel is the signed distance up to 6 rounding errors; refuted below that scale (squares underflow: a point 2^-76 away from a ball of radius 2^-100 is reported inside).", "quantifier": "all f32 radii and positions in that range, all transforms", "why_tests_cant": "all rounding combinations", "anchors": ["src/col2d/shape/ball2d/v_point.rs", "src/col2d/shape/ball2d/v_ball2d.rs"]}
{"id": "C53", "title": "bevy Transform in 2D queries", "statement": "For bevy transforms with a unit quaternion about z and non-zero scale components, the relative transform and every collider query give the same answer as the converted Transform2d. Refuted when scale.z = 0 (a flat sprite scale): the relative position becomes NaN and nothing collides. Each Transformation2d method of such a transform scales, turns and moves points, unapply undoes apply, and normals are only turned.", "quantifier": "all bevy transforms of that kind, all shapes and queries", "why_tests_cant": "all quaternions, scales and shapes", "anchors": ["src/col2d/transformation2d/bevy_transform.rs", "src/col/bevy_transform.rs"]}
{"id": "C54", "title": "Two balls of the Shape2d union", "statement": "For two Shape2d balls, collides, penetrates, distance_to and sdfv answer as the geometry of two discs says: the verdict is overlap of the open discs, distance_to and sdfv outside give the exact shortest vector between them, and the vector of penetrates and sdfv inside is zero (the polytope search gave up) or separates the balls and is at most 1% longer than necessary. With D the sum of the radii, it does separate whenever the centres are at least D/5 apart and the penetration is at least D/5000 (and, for penetrates, at least f32::EPSILON). The answers agree with the closed form used for Ball v Ball up to that 1%. Refuted as a guarantee for all overlaps: concentric balls of any size always get the zero vector (also shown in binary32, where balls that barely overlap get it too).", "quantifier": "all radii and uniform scales up to the world bound, all positions that are coincident or at least sqrt(eps) apart, every transform type", "why_tests_cant": "the supports of a disc never repeat, so GJK's and EPA's iterations differ for every position and radius", "anchors": ["src/col2d/detection/sdfv_minkowski.rs", "src/col2d/detection/sdfv_common.rs", "src/col2d/shape/ball2d/v_ball2d.rs"]}
{"id": "C55", "title": "Deep overlaps are found whatever the shapes", "statement": "For every pair of balls, boxes and polygons with at most D between any two of their points: if A still meets B after every move of A by at most d, and D <= 32768 d, then collides reports true; if moreover 4 * f32::EPSILON * D <= d^4, then distance_to reports no distance, and penetrates and sdfv report a penetration whose vector is zero or separates A from B and is at most 1% longer than necessary. For boxes and polygons with at most 20 corner pairs the ratio D/d is not limited and the vector is always a separating one, on or off any grid. Conversely collides reports false when no move of length below the cube root of f32::EPSILON brings the shapes into contact.", "quantifier": "all shapes, sizes up to a billion, every transform type with uniform scale, all depths d", "why_tests_cant": "the number of iterations depends on the shape of the difference set; a fixed limit of 20 must suffice for all of them, including round ones with infinitely many extreme points", "anchors": ["src/col2d/shape/local_minkowski_diff/v.rs", "src/col2d/shape/local_minkowski_diff/mod.rs", "src/col2d/detection/sdfv_minkowski.rs"]}
{"id": "C56", "title": "Boxes in f32: every query gives the right verdict unless the boxes are about touching", "statement": "For two boxes (Box2d, or boxes of the Shape2d union) placed without rotation (no transform, Vec2, Translate2d, AxisTransform2d), with all rounding of f32 included: if on both axes they overlap by at least 2^-20 (1 + size), then collides is true, penetrates returns a vector, distance_to returns none and sdfv says collided; if on one axis the gap is at least 2^-20 (4^j + distance) and the sizes are at least 2^-j (plus 2^-20 of the distance) for a j from 0 to 7, then collides is false, penetrates returns none, distance_to returns a vector and sdfv says apart. No query panics in either case. The same holds for colliders in the world in terms of their exact positions, with 2^-19 for 2^-20.", "quantifier": "all finite f32 half extents and positions up to 2^27, all scales, all four queries, all unrotated placements", "why_tests_cant": "the number of f32 inputs is about 2^192; the iteration branches on signs of rounded products, and known failures (C33) are a few inputs in many millions", "anchors": ["src/col2d/shape/local_minkowski_diff/v.rs", "src/col2d/shape/local_minkowski_diff/mod.rs", "src/col2d/detection/sdfv_minkowski.rs", "src/col2d/shape/box2d/mod.rs", "src/col2d/transformation2d/axis_transform2d.rs"]}
{"id": "C57", "title": "scaling_factor is the greatest stretch", "statement": "For the identity, Vec2, Translate2d, AxisTransform2d, Transform2d and bevy transforms with non-negative scales, scaling_factor is the least k such that no two points get farther apart than k times their distance; it is attained. Refuted for mirrored placements: with a negative scale AxisTransform2d reports a negative factor and Transform2d the greater signed scale, both less than the stretch.", "quantifier": "all transforms, all pairs of points", "why_tests_cant": "all pairs of points", "anchors": ["src/col2d/transformation2d/*.rs:scaling_factor"]}
{"id": "C58", "title": "Boxes and polygons on a small grid in f32: verdicts are exact", "statement": "In binary32, rounding included: when the corners (or half-sizes) of two shapes - boxes and polygons in any combination - and their relative position are whole multiples of a step 2^e (-7 <= e <= 14) and the sizes and the distance add up to at most 32 steps, every query (collides, penetrates, distance_to, sdf, sdfv) never reports a collision of shapes that are apart and never panics; and if the product of the corner counts (4 for a box) is at most 20, reports every overlap. The same holds with quarter-turn, whole-scale Transform2d placements, and for world colliders anywhere within 2^22 steps of the origin as long as they are within 32 steps of each other.", "quantifier": "all half-sizes and all convex or non-convex corner lists on the grid, all placements of the stated kind", "why_tests_cant": "all grids, corner lists and placements; behaviour depends on rounding of every operation in the iteration", "anchors": ["src/col2d/shape/local_minkowski_diff/v.rs", "src/col2d/shape/local_minkowski_diff/mod.rs:Simplex2d,EpaPoly2d", "src/col2d/shape/poly2d/mod.rs", "src/col2d/transformation2d/transform2d.rs", "src/col2d/shape/box2d/mod.rs", "src/col2d/shape/mod.rs"]}
{"id": "C59", "title": "Boxes and polygons on a small grid in f32: the vectors are nearly right", "statement": "For the boxes and polygons of C58, in binary32 with all rounding: when they overlap (and the product of the corner counts is at most 20), the vector of penetrates and of sdfv is finite and within 1/65536 of a grid step, in each coordinate, of a translation of self that resolves the overlap and is at most 2% longer than any other that does; when they have no common point, the vector of distance_to and of sdfv is as close to a translation of self that brings them into contact. For placed colliders sdfv gives the vector in world axes, penetrates and distance_to in the axes of the first collider.", "quantifier": "all half-sizes and corner lists on the grid, all placements of the stated kind (translations, quarter turns with whole-number scale, world colliders up to 2^22 steps out)", "why_tests_cant": "minimality over all translations; rounding of every operation of the search and of the expansion", "anchors": ["src/col2d/shape/local_minkowski_diff/v.rs", "src/col2d/shape/local_minkowski_diff/mod.rs:Simplex2d,EpaPoly2d", "src/col2d/shape/poly2d/mod.rs", "src/col2d/detection/sdfv.rs", "src/col2d/shape/box2d/mod.rs", "src/col2d/shape/mod.rs"]}
{"id": "C60", "title": "Long chains of transforms drift slowly in f32", "statement": "In binary32, with all rounding: take any number of Transform2d values of scale one whose rotors are within d of a true rotation (Rotor2d::from_angle, d = the accuracy of the platform's sin and cos), and compose and invert them in any order. Then the rotor of the result stays within (1+d)^n(1+2^-21)^n - 1 of a unit vector, n the number of steps, and apply, unapply and apply_normal of the result are within the same relative error (n counted once more for every inversion inside another) of the exact motion, relative to the sum of the lengths of all translations and of the point; with d = 2^-22 and up to 2^17 steps the error is at most n/2^20. Chains of Vec2 or Translate2d: (1+2^-24)^n - 1 times the sum of the lengths.", "quantifier": "all trees of compose and inverse calls, all given transforms of scale one, all points up to 2^100", "why_tests_cant": "all call histories of any length; rounding of every operation", "anchors": ["src/col2d/transformation2d/transform2d.rs:compose,inverse,apply,unapply,apply_normal", "src/col2d/transformation2d/mod.rs:Rotor2d", "src/col2d/transformation2d/translate2d.rs"]}
{"id": "C61", "title": "Closed-form pairs in f32: flag and vector are nearly right", "statement": "In binary32, with all rounding, for half sizes, radii and centres up to 2^59 in size: collides, penetrates, distance_to and sdfv agree with each other, never panic, give a finite vector, and for Box v Point and Point v Box the flag is exactly right and the vector is within 2^-24 of the length of the true separation vector (for penetration: a separating vector at most 1+2^-22 times as long as the shortest). For RoundedBox v Point, Box v Ball, Ball v Point, Point v Ball and Ball v Ball the vector is within 2^-20 (depth or gap + twice the radius) of the true one and the flag is right unless the depth or gap is smaller than that. Exceptions, shown to be real: the line of the left or right side (wrong even without rounding, C17) and a corner nearer than 2^-59 (the vector is infinite). Colliders placed by any chain of compose and inverse calls: the same for a body displaced by at most the drift of C60.", "quantifier": "all boxes, balls, rounded boxes and points with f32 data up to 2^59, all relative transforms of every kind, all pairs of chains of transform calls", "why_tests_cant": "all f32 inputs; rounding of every operation; true answer is a minimum over all translations of real sets", "anchors": ["src/col2d/shape/box2d/v_point.rs", "src/col2d/shape/box2d/v_ball.rs", "src/col2d/shape/rounded_box2d/mod.rs", "src/col2d/shape/ball2d/v_ball2d.rs", "src/col2d/shape/ball2d/v_point.rs"]}
{"id": "C62", "title": "Deep overlaps are found in f32", "statement": "In binary32, with all rounding, for any two Shape2d values (balls, boxes, polygons with finite numbers), the second one shifted, turned by a rotor of length between 1/2 and 3/2 and drawn between 1/16 and 16 times as large: if the bodies overlap so deeply that moving either by del in any direction leaves them in contact (1/7 <= del <= 512, sizes and distance at most 1024 del), and no two of their points are further apart than 7 del (or 63 del for boxes and polygons with at most 19 pairs of corners), then collides answers true, penetrates and sdfv report a collision with some vector, distance_to answers None, and nothing panics. The same for colliders whose transforms were built by any number of compose and inverse calls, when del is also 200 times the accumulated rounding error.", "quantifier": "all balls, boxes and polygons with f32 data, all placements by Vec2, Translate2d, AxisTransform2d and Transform2d of one scale factor in the stated range, all chains of transform calls", "why_tests_cant": "all shapes and placements; the search iterates and every operation of every iteration rounds", "anchors": ["src/col2d/shape/local_minkowski_diff/v.rs", "src/col2d/shape/local_minkowski_diff/mod.rs:Simplex2d,EpaPoly2d,LocalMinkowskiDifference2d", "src/col2d/shape/ball2d/mod.rs:extreme_point", "src/col2d/shape/box2d/mod.rs:extreme_point", "src/col2d/shape/poly2d/mod.rs:extreme_point", "src/col2d/transformation2d/transform2d.rs"]}
{"id": "C63", "title": "Clear gaps are reported as gaps by collides and penetrates in f32", "statement": "In binary32, with all rounding, for any two Shape2d values (balls, boxes, polygons with finite numbers), the second one shifted, turned by a rotor of length between 1/2 and 3/2 and drawn between 1/16 and 16 times as large: if any two points of the two bodies are at least g and at most 63 g apart (1/60 <= g <= 512, sizes and distance of the origins at most 1024 g), then collides answers false and penetrates answers None, and neither panics. So a collision reported by either means that the bodies are closer than that. The same for colliders whose transforms were built by any number of compose and inverse calls, when g is also 200 times the accumulated rounding error. distance_to does not have this property: for a 2 by 2 box and a 4 by 2 box turned by PI/2 with a gap of 0.99 it answers None (collision).", "quantifier": "all balls, boxes and polygons with f32 data, all placements by Vec2, Translate2d, AxisTransform2d and Transform2d of one scale factor in the stated range, all chains of transform calls", "why_tests_cant": "all shapes and placements; the search iterates and every operation of every iteration rounds", "anchors": ["src/col2d/shape/local_minkowski_diff/v.rs", "src/col2d/shape/local_minkowski_diff/mod.rs:Simplex2d,LocalMinkowskiDifference2d", "src/col2d/shape/ball2d/mod.rs:extreme_point", "src/col2d/shape/box2d/mod.rs:extreme_point", "src/col2d/shape/poly2d/mod.rs:extreme_point", "src/col2d/transformation2d/transform2d.rs"]}
{"id": "C64", "title": "Scalar sdf in f32 is nearly the signed distance", "statement": "In binary32, with all rounding, for coordinates, half sizes and radii up to 2^59: sdf of Box2d v Point, RoundedBox2d v Point, Ball v Point, Ball v Ball and Point v Point is a finite number that differs from the true signed distance d of the two bodies by at most 2^-21 (|d| + 2 r) + 2^-57, r the (total) radius, 0 for boxes and points. For Box2d v Point its sign is exact. It is negative exactly when collides answers true (Box2d v Point always; Ball v Point and Ball v Ball when the total radius is positive). For colliders placed by any chain of compose and inverse calls the same holds for a body displaced by at most the drift of C60.", "quantifier": "all finite f32 half sizes, radii and relative transforms in range, all chains of transform calls", "why_tests_cant": "a bound on the error over all f32 inputs, including tiny and huge ones", "anchors": ["src/col2d/shape/box2d/v_point.rs", "src/col2d/shape/rounded_box2d/v_point.rs", "src/col2d/shape/ball2d/v_point.rs", "src/col2d/shape/ball2d/v_ball2d.rs", "src/col2d/shape/point2d.rs", "src/col2d/detection/sdf.rs"]}
{"id": "C65", "title": "The tile map in f32: broad phase and simple_resolve", "statement": "In binary32, with all rounding, for any round_to_i32 that returns a nearest integer up to 2^30 (ties either way). A world position lies in the square of world_to_tile_pos of it, and Tilemap v Point answers exactly whether the tile whose open square holds the point is set. For a box with |position| + half size up to 2^23 tiles on each axis, the rectangle of quantize holds every tile whose square the box enters by more than 2^-24 (|position| + half size) and no tile that the box misses by more than that; it is exactly right when position and half sizes are multiples of 1/2; it is not exactly right in general (a tile entered by 2^-16 is left out at x = 1000 with rounding half away from zero). simple_resolve_box returns the position unchanged, bit for bit, when the box grown by (1 + hx + hy)/16384 touches no solid tile; simple_resolve_ball does when the ball (radius up to 1000, coordinates up to a million) is at least (r + 1)/25 away from every solid tile. A box with position and half sizes on a grid of 1/2 to 1/128 of a tile that overlaps exactly one solid tile of its rectangle is moved by a vector that resolves the overlap and is within 2% of the shortest such vector, up to 1/65536 of a grid step and the rounding of the new position.", "quantifier": "all tile maps, all directions, all f32 positions and bodies in range, every nearest rounding", "why_tests_cant": "ranges over all maps and all f32 positions, including far from the origin where rounding of the position matters", "anchors": ["src/col2d/shape/tilemap.rs: world_to_tile_pos, quantize, for_tiles_in_rect, simple_resolve_ball, simple_resolve_box, SdfvCommonRel2d for Tilemap"]}
{"id": "C66", "title": "Extreme points, Minkowski support points and bounding boxes in f32", "statement": "In binary32, with all rounding. The extreme point of a box is exactly a farthest point for every finite direction, of any size and with either sign of zero. For a direction of length 2^-24 to 2^59 the extreme point of any Shape2d within radius r <= 2^24 is finite, lies within 10*2^-24 r + 2^-100 of the shape, no point of the shape is farther in that direction by more than that, and for boxes and polygons it is one of the corners; the same with 12*2^-24 r + 2^-24 |half size| for rounded boxes. For a collider (Vec2, Translate2d, AxisTransform2d, Transform2d with one scale factor k <= 16 and a rotor of length 1/2 to 3/2) and for the support point of the Minkowski difference of two shapes the bound is 2^-18 times the sum of the sizes and the distance of the origins. For a ball and a direction outside the range (length 2^64 or 2^-75) the extreme point is the centre. The symmetric bounding boxes of points, balls, boxes and polygons, Box2d::cover and Poly2d::from(Box2d) are exact; the bounding box of a rounded box has one rounding and can be too small to contain the shape (half size 1, radius 2^-24).", "quantifier": "all f32 shapes, directions and transforms in the stated ranges", "why_tests_cant": "error bounds over all f32 inputs; 2^64 directions for every shape", "anchors": ["src/col2d/detection/extreme_point.rs", "src/col2d/shape/ball2d/mod.rs", "src/col2d/shape/box2d/mod.rs", "src/col2d/shape/poly2d/mod.rs", "src/col2d/shape/rounded_box2d/mod.rs", "src/col2d/shape/mod.rs", "src/col2d/shape/local_minkowski_diff/mod.rs:LocalMinkowskiDifference2d"]}
{"id": "C67", "title": "3D box and ball against a point in f32", "statement": "In binary32, with all rounding, for every 3D placement type, about the relative position it yields. Box3d v Point: collides is true exactly when the point is strictly inside, for all finite values; penetrates is Some exactly then and equals sdfv; for coordinates and half sizes up to 2^59 the sdfv vector differs by at most 2^-24 of its length from a vector that moves the box just out of contact (at most 1 + 2^-22 times the shortest) or just into contact (the shortest); sdf is negative exactly inside and within 6*2^-24 of the distance plus 2^-59, except above and below the box (wrong there, C48). Ball v Point: sdf is within 2^-21 (distance + 2 radii) + 2^-57; for a radius of 0 or at least 2^-60 and a point at the centre or at least 2^-60 from it the sdfv vector is within 2^-20 (distance + 2 radii) of the true answer, and collides is right unless the point is nearer than that to the surface; penetrates reports the same vector as sdfv if the point is at the centre or at least 2^-22 from it. For colliders placed by Vec3 or Translate3d a reported collision of a box and a point is real, without tolerance, and a point inside the box shrunk by 1 - 2^-24 is reported.", "quantifier": "all f32 half sizes, radii, positions and placements in the stated ranges", "why_tests_cant": "error bounds over all f32 inputs", "anchors": ["src/col3d/shape/box3d.rs", "src/col3d/shape/ball3d.rs", "src/col3d/transformation3d/translate3d.rs", "src/col3d/detection/collides.rs", "src/col3d/detection/penetrates.rs"]}
{"id": "C68", "title": "Rotated and uniformly scaled 3D placements in f32", "statement": "In binary32, with all rounding, for the placements Isotropic3d, Transform3d and Bevy's Transform with any position of length at most 2^30, any uniform scale between 2^-20 and 2^20 and any quaternion whose squared length is within 1% of 1 (e = that deviation): rotating a vector of length s by the quaternion or its conjugate gives finite components and a result within (72*2^-24 + e) s of the exact rotation; the relative placement puts the other collider within B = (80*2^-24 + e)(|a| + |b| + 2^-30)/scale of where it really is as seen from the first. Hence for Box3d v Point and Ball v Point the collides answer is right for a box larger or smaller by B on every side, and for a ball unless the point is within B plus 17*2^-24 (distance + 3 radii + B) of the surface; penetrates is Some exactly when collides, and then within rounding error of the true vector for a point within B of the real one.", "quantifier": "all f32 positions, quaternions, scales, half sizes and radii in the stated ranges", "why_tests_cant": "error bounds over all f32 rotations and positions", "anchors": ["src/col3d/transformation3d/isotropic3d.rs", "src/col3d/transformation3d/transform3d.rs", "src/col/bevy_transform.rs", "src/col3d/shape/box3d.rs", "src/col3d/shape/ball3d.rs"]}
{"id": "C69", "title": "3D extreme points, cylinder flag, sums and covers in f32", "statement": "In binary32, with all rounding: the extreme point of a Box3d and of a Point is exactly a farthest point, for all finite directions; that of a Ball with radius at most 2^59 is within 15*2^-24 (radius + 2^-60) of the true one for directions of length 2^-24 to 2^59, and the centre for the zero direction and for any with coordinates up to 2^-76 (too short to normalise); that of a Cylinder3d with radius at most 2^24 is on it and farthest up to 10*2^-24 radius + 2^-100, also for exactly vertical directions. collides of Cylinder3d and a point is exact in z, right in the plane unless the point is within 4*2^-24 of its distance from the curved surface, and true on the axis inside the height. The Minkowski sum of two boxes has the sums of half sizes, each within 2^-24 relatively; cover is exact: it contains the old box, is the smallest such box in x and y, and contains the point exactly when the point's |z| already fitted.", "quantifier": "all f32 sizes, directions and points in the stated ranges", "why_tests_cant": "error bounds over all f32 inputs", "anchors": ["src/col3d/shape/box3d.rs", "src/col3d/shape/ball3d.rs", "src/col3d/shape/cylinder3d.rs", "src/col3d/shape/point3d.rs", "src/col3d/detection/collides.rs"]}
{"id": "C70", "title": "Long chains of 3D placements in f32 drift slowly", "statement": "A program is given Isotropic3d, Transform3d or BevyTransform placements without scale, whose quaternions are within d of exact rotations, and composes and inverts them any number of times in any nesting. In f32, with every operation rounded, the result moves and unmoves every point within ((1+d)(1+40*2^-24))^(2n) - 1 times the added-up translations from where the exact composition of the exact rotations would, n being the number of operations times (1 + nested inversions); the quaternion's squared length stays within that relative bound of 1 and the scale stays exactly 1. All three kinds of placement compute the same. For quaternions good to 2^-22 and n up to 1024 the relative error is at most n/2^17. Every f32 quaternion of nearly unit length is within its length error of an exact rotation. Point queries against a box or ball between two bodies placed by such chains are right up to that drift: flags outside the drift, vectors true for a point within the drift. Chains of Vec3 or Translate3d translations stay within (1+2^-24)^additions - 1 of the exact sum of lengths, with any number of negations.", "quantifier": "all composition trees (any size and nesting with the growth at most 1.01), all f32 positions with reach up to 2^90 (2^50 for queries), all points, half sizes and radii in the stated ranges", "why_tests_cant": "an error bound over unboundedly long histories of operations and all f32 values", "anchors": ["src/col3d/transformation3d/isotropic3d.rs", "src/col3d/transformation3d/transform3d.rs", "src/col/bevy_transform.rs", "src/col3d/transformation3d/translate3d.rs", "src/col/transform.rs"]}
{"id": "C71", "title": "Ellipse2d", "statement": "For half axes a, b > 0 and every non-zero direction, the extreme point of the ellipse (both by the expanded formula and by composing extreme_point_direction with intercept_ray) is its unique farthest point in that direction; intercept_ray is its boundary point in the direction; the bounding box is the tight one; with equal radii it is the Ball. The point query says whether the point is in the closed ellipse, so a point on the boundary collides (unlike every other pair). The zero direction gives no point. In f32, for radii in [2^-16, 2^16] and directions of length in [2^-24, 2^30], the extreme point is finite and within 10*2^-24*|(a,b)| of the farthest one; for radii from 2^-20 and points up to 2^30 the flag is right except within 5*2^-24 (relative, of the quadratic form) of the boundary. (ellipse2d.rs is under cfg(any()) at this commit.)", "quantifier": "all half axes, directions, points and relative transforms; all f32 radii, directions and points in the stated ranges", "why_tests_cant": "a statement about every direction and every point, and an error bound for every f32 value", "anchors": ["src/col2d/shape/ellipse2d.rs"]}
{"id": "C72", "title": "MinkowskiDiff2d, the difference of two colliders in world space", "statement": "For two colliders with uniformly scaled Transform2d placements the extreme point of MinkowskiDiff2d is the farthest point of the difference of the two world bodies translated by the first collider's position: right when that collider sits at the origin, wrong for every direction not orthogonal to its position (refuted: two unit balls). Its queries return the flag of the local difference and the local vector turned and scaled into the world plus the first collider's position: a distance (penetration) vector of two balls, boxes or polygons brings the world bodies into contact (separates them) after that position is subtracted. (The module is commented out at this commit; its unit tests all put the first collider at the origin.)", "quantifier": "all shapes with a correct extreme point, all uniformly scaled placements, all directions", "why_tests_cant": "ranges over all placements and directions; the tests that exist use only a first collider at the origin", "anchors": ["src/col2d/shape/minkowski_diff/mod.rs", "src/col2d/shape/minkowski_diff/v.rs", "src/col2d/shape/local_minkowski_diff/mod.rs"]}
{"id": "C73", "title": "Conversion of Bevy's Transform into Isotropic3d", "statement": "For a uniform scale the conversion changes nothing, for any scalars including f32: every point is moved and unmoved to the same place and the conversion commutes with inverse, composition and relative pose. For a unit quaternion the two placements move every point alike only if the scale is uniform (refuted otherwise: the y and z scale are dropped silently).", "quantifier": "all positions, quaternions, scales and points", "why_tests_cant": "the equivalence must hold for all transforms and points", "anchors": ["src/col3d/transformation3d/isotropic3d.rs", "src/col/bevy_transform.rs"]}
{"id": "C74", "title": "Box3d v Box3d through their Minkowski sum", "statement": "For two boxes, the second placed by a pure translation v, the collision flag, the penetration vector and the distance vector are the true ones (the flag iff |v_i| < a_i + b_i on every axis), and so is the signed distance outside the columns |v_x|, |v_y| inside the summed box with |v_z| beyond it. A rotation or scale in the relative placement is ignored: boxes that overlap by more than 1/10 are reported apart (refuted). In f32, for half sizes up to 2^59 and any finite stored offset: a reported collision means the boxes grown by one part in 2^24 overlap, and boxes that overlap when shrunk by one part in 2^24 are reported. (These impls are under cfg(minkowski), which is never set at this commit.)", "quantifier": "all half sizes, all offsets, all transform types; all f32 half sizes and offsets in range", "why_tests_cant": "exactness over every pair of boxes and offset, and an error bound for every f32 value", "anchors": ["src/col3d/default_impls.rs", "src/col3d/shape/box3d.rs"]}
{"id": "C75", "title": "Integer rectangles in machine integers", "statement": "Rect2i32 with real i32 arithmetic. Every iterator, run as the state machine it is (RangeInclusive, Rev, FlatMap), never overflows, even for rectangles that reach i32::MIN or i32::MAX; it ends, and by then has yielded every cell exactly once in its order. pad with overflow checks panics exactly when some corner coordinate minus the padding is not an i32, and otherwise is the exact pad of C41. Without overflow checks it returns the exact rectangle when nothing overflows; refuted that it keeps any cell otherwise: when, in one direction, only the lower edge of a non-empty rectangle passes i32::MIN (or only the upper edge passes i32::MAX), the padded rectangle is empty.", "quantifier": "all i32 rectangles, all i32 paddings, all numbers of iterator steps", "why_tests_cant": "2^128 rectangles, and loops of up to 2^64 steps", "anchors": ["src/utils/rect2.rs"]}
{"id": "C76", "title": "Long chains of uniformly scaled transforms drift slowly in f32", "statement": "In binary32, with all rounding: take any number of Transform2d values with one scale factor each and rotors within d of a true rotation, and compose and invert them in any order; let every intermediate placement have a total scale between 2^-40 and 2^40 and an extent (translations added up as seen from outside) of at most 2^59. With G = (1+d)(1+2^-21), n the number of steps and w twice n times (1 + inversions inside each other): the scale of the result stays uniform and, like scaling_factor, within G^n - 1 of the product of the given scales; the rotor stays within that of a unit vector; apply is within (G^(w+1) - 1)(extent + scale * |p|) of the exact similarity, unapply within (G^(2n+w+1) - 1)(extent + |p|)/scale of its inverse, apply_normal and unapply_normal within G^(n+1) - 1 of the exact turn and turn back. For d = 2^-22 and 2n + w up to 2^17 that is one part in 2^20 per step. Queries between a box, rounded box or ball and a point, both placed by such chains (spread at most 2^58), give the almost exact answers (vector or signed distance, as in C61 and C64) for the other body's exact origin in self's frame, seen from a box, rounded box or ball and displaced by at most (G^w - 1) times the extent.", "quantifier": "all chains of compose and inverse, all f32 placements with a uniform scale, all points", "why_tests_cant": "unbounded chains with rounding at every step", "anchors": ["src/col2d/transformation2d/transform2d.rs:compose,inverse,apply,unapply,apply_normal,scaling_factor", "src/col2d/transformation2d/mod.rs:Rotor2d"]}
{"id": "C77", "title": "Long chains of uniformly scaled 3D placements drift slowly in f32", "statement": "In binary32, with all rounding: take any number of Isotropic3d, Transform3d or BevyTransform placements with one scale factor each and quaternions within d of an exact rotation, and compose and invert them in any order; let every intermediate placement have a total scale between 2^-20 and 2^20 and an extent (translations added up as seen from outside) between 2^-40 and 2^70. With G = ((1+d)(1+40*2^-24))^2, n the number of steps and w twice n times (1 + inversions inside each other), as long as G^w is at most 1.01: the three kinds of placement compute the same; the scale stays uniform and within G^n - 1 of the product of the given scales, the squared length of the quaternion within that of 1; apply is within (G^(w+1) - 1)(extent + scale * (|p| + 2^-40)) of the exact similarity, unapply within (G^(2n+w+1) - 1)(extent + |p| + 2^-40)/scale of its inverse. For d = 2^-22 and 2n + w up to 1024 that is one part in 2^17 per step. Point queries of a box or ball between two bodies placed by such chains are right up to the drift (G^w - 1) * extent of the relative placement: flags outside the drift, vectors true for a point within the drift, in self's frame.", "quantifier": "all chains of compose and inverse with growth at most 1.01, all f32 placements with a uniform scale, all points, half sizes and radii in the stated ranges", "why_tests_cant": "unbounded chains with rounding at every step", "anchors": ["src/col3d/transformation3d/isotropic3d.rs", "src/col3d/transformation3d/transform3d.rs", "src/col/bevy_transform.rs", "src/col3d/transformation3d/translate3d.rs", "src/col/transform.rs"]}
{"id": "C78", "title": "Cylinder3d against a point: exactly where each answer is right", "statement": "Exact arithmetic, a point q seen from an upright cylinder of height h and radius r (any placement type yielding that relative position); n is its distance from the axis, flat = |z| - h/2 how far it is beyond the planes of the two faces, side = n - r how far beyond the curved surface. Inside, sdfv always gives a way out; it is a shortest one exactly if the surface it picks (the face when n < -flat, else the curved one) is the nearer. Not inside, it is the shortest contact translation exactly if -flat <= n between the planes, and n <= r or z >= 0 beyond them. penetrates is Some exactly when collides is true; inside, its vector is a way out exactly if n <= |z| or z = 0, and a shortest one exactly if in addition the surface it picks is the nearer. sdf is the signed distance exactly if side <= flat and side <= 0 when n < |flat|, and flat <= side and flat <= 0 otherwise. In binary32, with all rounding, sizes and coordinates up to 2^59 and the point on the axis or at least 2^-60 from it: for a point level with or beyond the faces, above the cylinder or within its radius by a margin of 2^-22, sdfv is within 2^-19 (length + diameter) of the shortest contact translation; for a point inside it is that near to a way out through the nearer face or the curved surface. In the same ranges (n, or the compared height, at least 2^-60; the comparisons decided by a margin of 2^-21) sdf is finite and within 2^-21 (distance + 2 radius) + 2^-57 of the signed distance under the exact conditions above; for a point inside, sdfv is within 2^-19 (length + diameter) of a shortest way out when the surface it picks is the nearer; for a point inside, penetrates is within 2^-19 (length + diameter) of the way out through the curved surface when |z| > n, and when 0 < |z| < n it returns a vector that is not a way out.", "quantifier": "all heights, radii and points; in f32 all those in the stated ranges", "why_tests_cant": "minimality over all translations and error bounds over all f32 inputs", "anchors": ["src/col3d/shape/cylinder3d.rs"]}
