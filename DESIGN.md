# Formal model of lubomirkurcak/auburn in Coq 8.16

## 1. Architecture

The library is pure computation over `f32` (glam `Vec2`/`Vec3`), plus a small stateful part
(tilemap, publishers). The model is one **generic** Gallina program, parametric in a scalar type `F`
with a class `Float F` of the scalar operations the Rust code uses, and instantiated twice:

| instance | file | what it is | used for |
|---|---|---|---|
| `XR` | `NumXR.v` | exact reals extended with `+-inf` and `NaN`; no rounding, no overflow, unsigned zero (zero counts as positive), division by zero as IEEE with +0 | geometric theorems |
| `b32` | `NumB32.v` | IEEE-754 binary32 (Flocq `BinarySingleNaN`, prec 24, emax 128, round to nearest even) | theorems about the actual f32 results, and refutation witnesses by `vm_compute` |

Theorems stated for *every* `Float F` hold for both (and for any other arithmetic).
Rust traits (`Transformation2d`, `Invertible`, `Composable`, ...) become type classes; const-generic
booleans become `bool` arguments; panics become explicit error values; `&mut self` becomes a returned value.

Files (all under `rocq/theories`):

* `Num.v` class of scalars; `NumXR.v`, `NumB32.v` instances; `Glam.v` the glam functions used.
* `Transform2.v`, `Shapes2.v`, `Detect2.v`, `Gjk.v`, `Misc.v`, `Publisher.v`, `Rect.v`, `Tilemap.v`,
  `Col3.v`: the model, function by function, each definition citing `/repo` file:lines.
* `Spec.v`: the independent specification: plane geometry over `R` (sets of points, translation,
  overlap, minimal translation, support, hull), abstract maps, etc. No model name occurs in it.
* `P_*.v`: lemmas and proofs. `Props_*.v`: only the property theorems (each closed by `exact`), with `Print Assumptions`.

## 2. Geometric specification (Spec.v)

Shapes are sets `pt -> Prop` of real points. For the body A (self) and B (placed in A's frame):

* `meets A B`: a common point; `overlaps A B`: there is eps>0 such that A moved by any vector shorter
  than eps still meets B (so grazing contact is not overlap; for solids this is "interiors intersect").
* `separates v A B`: A moved by v does not overlap B. `is_min_separation v`: v separates and no shorter vector does.
* `is_min_contact v`: A moved by v meets B and no shorter vector does.

These definitions are uniform for points, balls, boxes, polygons.

## 3. Property by property

| id | plan |
|---|---|
| C01, C03-C07, C10 | algebra over XR for all finite reals (field); refutations by concrete reals |
| C02 | binary32: exactness of integer sums (Flocq `generic_format` / `round_generic`), refutation by vm_compute |
| C08, C09 | Reals trigonometry; quaternion algebra; refutation with concrete quaternion |
| C11-C13 | support property against point sets (hull of the vertex list for polygons) |
| C14 | containment + minimality among all centred boxes |
| C15-C19 | each analytic pair against `overlaps`/`is_min_*`; sdf against distance |
| C20 | refuted by exact rational examples (outside, inside, sign); positive part: the value outside is the distance of the ball's facing point k*v, compared with the gap by the triangle inequality and its equality case |
| C21 | for every `Float F` (case analysis of the code), no numeric assumption |
| C22-C25 | algebra on top of C07; refutations by concrete colliders |
| C26 | structural invariant of the simplex for every `Float F` and every support function |
| C27-C31 | GJK/EPA over an arbitrary convex set M with a valid support function; then instantiated with Minkowski differences of model shapes. C30's minimality is refuted in binary32 by vm_compute. C31_vector_separates needs no tolerance hypothesis: EPA's answer is the support distance along a normal of a non-degenerate edge (P_Vec) |
| C32 | overlapping boxes: corollary of C29, C31 (`few_corners`); touching or separate boxes: the run of GJK on a face (`P_Box.v`: first step reaches the face, second step stops), then exact distance by the face inequality |
| C33 | vm_compute in binary32 |
| C34 | sign of a rounded difference is exact (Flocq) |
| C35 | induction over vertex lists for every `Float F` with ordered comparison |
| C36 | hull equality, trigonometry, refutations |
| C37, C38 | binary32 via Flocq + vm_compute witnesses; XR for the exact meaning; the vector comparison in f32 by relative error bounds for squares, sums and the quotient (`Props_ApproxVec.v`) |
| C39, C40, C41 | lists, Z; i32 overflow is outside (noted) |
| C42, C43 | refinement to a function Z*Z -> byte by induction over histories; event replay |
| C44, C45 | exact reals rounding half away from zero |
| C46 | round trip over an abstract serializer that round-trips lists of pairs (section variable); partial: JSON and files not modelled |
| C47-C49 | as 2D; the 3d feature does not compile at this commit, the source text is modelled |
| C51 | for every `Float F`: the error monad's value is `Ok` (structural invariants of the simplex) |
| C52 | Flocq relative error analysis; refutation by vm_compute at tiny scales |
| C53 | algebra over XR for planar unit quaternions; refutation for scale.z = 0 |
| C54 | closed form of every GJK step on two discs in a rotated frame (P_Ball), then EPA's invariants; convergence by classifying the chords that touch the deepest point (P_BallEpa), giving up on concentric discs by a pigeonhole on the chord angles; refutation in binary32 by vm_compute |
| C55 | potential argument on GJK (P_Deep): after two steps the part of the difference set beyond the current edge lies in a triangle whose doubled area falls by a factor four per step, while depth d keeps it above sqrt(2) d^2; so 20 iterations suffice for D <= 32768 d. Directions stay above the tolerance by the same depth bound; the one short normal that can occur (first edge through the origin up to eps) is followed explicitly, including EPA's first repair step |
| C56 | binary32: the support of the difference is one of four computed corners, chosen by the sign bits of the direction (P_F32Box). Every coordinate, cross product and dot product of the search is followed with a sign and a power-of-two interval for its magnitude (a rounded sum of terms of one sign keeps its sign and lower bound), so each branch of `gjk` is decided; at most 4 steps. The corners' signs come from a forward error bound of 2^-22 on the computed coordinates |
| C57 | the map of each placement is `place`; its stretch is computed from c^2+s^2=1; refutation for negative scales |
| C58 | binary32 refinement of the exact-arithmetic run (P_Grid32*): every coordinate, cross and dot product of the search is a whole number of (squared) steps below 2^24 and so computed without rounding; a step-by-step simulation shows the binary32 search goes through the same simplices as the search over the rationals up to the tolerance tests, which are decided on both sides; then the exact theorems of the search (C26-C33) transfer. `polygon` is the convex hull of the corner values. Boxes and mixed pairs (`grid_shape`, Props_Grid32s.v) go through P_Grid32i-k: the corner a binary32 box picks for a direction with a zero coordinate depends on the sign of that zero, so the simulation runs against an exact search whose support point is any maximising corner, chosen afresh at each step |
| C59 | the same simulation carried into the polygon expansion (P_Grid32e-h): its points are exact, its segment distances and normals rounded with an error below 2^-16 of a step, so the edge it stops at is one whose exact distance is within 2% of the nearest one; the exact EPA theorems (C31) then give separation and near-minimality of the exact point, and the returned vector is within 2^(e-16) of it. Boxes and mixed pairs as for C58. `within`, `resolves` are in Props_Grid32v.v; `separates`, `meets` in Spec.v |
| C60 | induction over trees of `compose`/`inverse` calls (`chain`, Props_Drift.v). One rotation in binary32 errs by at most 3u of the product of the lengths (P_Drift.v, Flocq rounding lemmas); invariant: rotor and position are `near` those of the exact motion, with factor growth^steps and growth^weight. The exact motion is a relation `moves` between the chain and a function on the real plane: composition is composition of functions, inversion any right inverse |
| C61 | what `nearly right` means is a small separate file, Spec32.v (`true_answer`, `close_answer`, `reports`). Reduction by symmetry to the first quadrant, then Flocq rounding lemmas per branch of the code (P_Closed32.v); Box v Ball through the Minkowski difference with a rounded rectangle; the colliders through the drift of C60. Refuted: the vector near a corner closer than 2^-59 (`C61_tiny_corner_refuted`) |
| C62 | the search of C55 redone with rounding: an abstract lemma about `gjk` over any computed support function that is finite, bounded by D and reaches at least 0.99 del in every direction (P_Deep32–P_Deep32d: the progress of every iteration, a bound on their number from D/del, or from the number of distinct corners); the f32 support points of balls, boxes and polygons and the f32 transforms satisfy it (P_Deep32e–g). World colliders through the drift of C60. Only the direction `overlap is reported`; for the other one see C63. |
| C63 | the companion of C62: an abstract lemma about `gjk` without the distance request, over any computed support function whose points lie in a convex set at least 0.99 g from the origin and within 64 g of it (P_Gap32, P_Gap32b: no accepted simplex contains the origin, in spite of rounding, so every exit says `false`); the f32 support points lie there (P_Gap32c). Holds for collides and penetrates. distance_to is refuted by a concrete pair (the search revisits a corner and takes the degenerate triangle for a collision); sdfv, which asks for both, is not covered (no proof and no counterexample). Nearer or more slender pairs are false in f32 (C33). |
| C64 | `sdf` over binary32: the edge distances of C61, the length of any vector (relative error of C52, plus 2^-59 where the squares underflow), one more rounding for the radius; compared with `is_signed_distance` of the real bodies through C19's closed forms. Box2d v Ball is left out: its sdf is not the signed distance (C20). |
| C65 | `Tilemap.v` over binary32 with a rounding of which only nearestness is assumed (`nearest32`; f32::round plus saturating cast is shown to be one). Sums of the broad phase: one rounding each. Clear bodies: C56 (box) and C63 (ball) applied to the rounded offset of every tile of the rectangle, then induction over the visit order. One tile: C59 on the grid, offsets exact. The uncovered tile is a computed counterexample. |
| C66 | `Shapes2.v` and `lmd_extreme_point` over binary32. Box: the factor is ±1, so the product is exact. Ball: error of one normalisation (C37's length bound) and one product. Polygon: C35's bound. Placed shapes: the transform error bounds of C62 (`follows`). Bounding boxes use only abs and max: induction over the corners. The ball and rounded-box failures are computed. |
| C67 | `Col3.v` over binary32, vocabulary in `Spec32s.v`. Box: the comparisons are exact and subtraction has only relative error, so slack signs are exact and the chosen face is nearest up to 1 + 4u; at coordinate ±0 either sign of the face works. Ball: error of the 3D length (dot product, square root), of the factor (l − r)/l and of each component; the flag compares squares, so its margin is derived from (L − r)(L + r). penetrates computes r − l instead of l − r: equal by symmetry of rounding. |
| C68 | `Col3.v` over binary32. An error predicate (`app` in `P_Quat32.v`: finite, within e·u·s of X, |X| ≤ b·s) is composed through the products and sums of `qrot`: 72 u·s; a quaternion of squared length m scales by m, hence + abs(m − 1). Stated against Rodrigues' formula (`rotate3 u t`); every non-zero quaternion stands for one. Then C67 is applied at the computed relative position and moved to the real one. |
| C69 | `Col3.v` over binary32. Boxes: sign selection, exact. Balls: error of length, reciprocal and two products, then farthest up to that error by Cauchy–Schwarz. Cylinder: the 2D ball (C66) for the plane and the box argument for z; the flag reduces to C52's length test. |
| C70 | Trees of given placements, compositions and inversions over binary32. Invariant by induction on the tree: the quaternion is within (1+d)^k-1 of an exact unit 4-vector (Hamilton product error 15 roundings, norm multiplicative), the position within a growth factor of the exact one times the added-up translations (rotation error 72 roundings from C68); then f is compared with the exact composition of Rodrigues rotations. Queries go through C68's lemmas on the relative position. |
| C71 | `ellipse2d.rs` modelled as text (it is under `cfg(any())`). The ellipse as a set of points; scaling by (1/a, 1/b) makes it the unit disc, Cauchy-Schwarz gives the farthest point and its equality case uniqueness. f32: relative error of `length_recip` from the length lemma of C52, then the product rules of C68 with separate scales for the two axes; the flag from standard rounding-error bounds. |
| C72 | `minkowski_diff/` modelled as text (module commented out). Exact arithmetic: the similarity lemmas of P_Geo carry the local difference into the world; `apply` adds the position. Vectors through C30 and C31 for the local search. |
| C73 | Definitional for a uniform scale, over any scalars. Conversely the quaternion rotation is injective, so the scaled points must agree on the axes. |
| C74 | The `cfg(minkowski)` impls modelled as text (`Extra3.v`). Two bodies meet where their Minkowski difference contains the offset, so C48 (box against point) and the sum theorem of C49 give the answers; f32: C67's exact flag and C69's rounded sum. |
| C75 | `Machine.v`: i32 with checked and wrapping subtraction; `RangeInclusive::next`/`next_back` and `FlatMap`'s loop transcribed from Rust's core library as state machines. Invariant: a range state denotes the list of what is left; rows by induction on the rows left. |
| C76 | As C60, with a third tracked quantity: the scale factor, within a power of the growth factor of the exact product on both sides (so that reciprocals stay near). Exact side: the chain's similarity, whose stretch is `size` (`C76_similarity`). |
| C77 | As C70 with the tracked scale of C76: quaternion near a unit one, position near the exact one, scale factor within a power of the growth factor of the exact product on both sides. |
| C78 | The cylinder's two ways out (nearer face, curved surface) and its shortest way in, with lower bounds over all translations; each model answer is computed as one of these vectors and compared. In f32: error of the compared squares, of the height difference and of the ball's vector (C61); sdf and penetrates with a margin in the comparison of squares (`Props_CylSdf32.v`). |
| C50 | induction over the list of builder calls, against a fold giving the last value set per component |

## 4. Trusted base

### 4.1 Checker and axioms
* Coq 8.16.1's kernel (including its bytecode machine: refutation witnesses and some binary32 facts use `vm_compute`).
  No native_compute, no plugin, no `Admitted`, no own axiom, no functor or module type.
* Libraries: the Coq standard library and Flocq 4.1.0 (`Binary`/`BinarySingleNaN`, `Core`, `Prop`); Flocq adds no axioms.
* `Print Assumptions` for every theorem is in `AXIOMS.md` (made by `tools/mkaxioms.py`). Only these occur:
  `ClassicalDedekindReals.sig_forall_dec`, `ClassicalDedekindReals.sig_not_dec`,
  `FunctionalExtensionality.functional_extensionality_dep`, `Classical_Prop.classic` -- all from the standard library
  (the first three are what the real numbers rest on).

### 4.2 What must be believed about the modelling
* The transcription of Rust to Gallina (cited definition by definition). Reference passing, `Copy`/`Clone`, `Borrow`
  generics and trait dispatch are taken as plain values and type classes. `Collider2d` is a pair (shape, transform).
* `b32` is Rust's `f32` (IEEE binary32, nearest-even, no flush to zero, no fused multiply-add, one NaN). The sign of
  `max(+0,-0)` is left open by Rust; the model keeps the first argument.
* `XR` is *not* `f32`: theorems over `XR` are about the algorithm in exact arithmetic. Which theorems are
  about `f32` itself can be read off the statement (`b32`), and Section 5 lists them. Theorems for every `Float F`
  hold for `f32` too.
* `XR` has one zero, counted as positive (`signum 0 = 1`), so `-0.0` behaviour is only visible in `b32`.
* Loops (`loop`/`for`) in GJK and EPA: they are bounded in the code by `iteration_limit = 20`; the model recurses on the same
  bound. The polygon search and iterators are structural recursion.
* glam 0.29.2 functions used (`Glam.v`): their definitions are transcribed from the documented formulas
  (`Vec2`/`Vec3` scalar arithmetic, `length`, `normalize`, `dot`, `perp`, `clamp`, `min/max`, `Quat` product, `Quat` inverse as
  conjugate, `Quat * Vec3` as the quaternion sandwich in exact arithmetic).
* lk_math `modular_decompose`: only `good_decompose` is assumed (distinct positions get distinct (chunk, local) pairs and the
  local part indexes the chunk), an instance (Euclidean division) is shown to satisfy it. `Array2d` is a total byte array.
  `round-to`'s nearest rounding: stated as a hypothesis where used (any nearest integer, ties free).
* `std::collections::HashMap` is an association list with unspecified order; theorems about saved files
  quantify over every permutation. serde_json + serde_with round trip and the file system are assumed (C46).
* i32 arithmetic is over `Z`; overflow (panic in debug, wrap in release) is covered for `Rect2i32` by C75 (`pad` and the iterators
  in machine integers); tile coordinates come from `round_to_i32` and `modular_decompose`, where no arithmetic of this crate happens.
* A closure handed to a publisher is a state transformer; callbacks that panic are not modelled.

### 4.3 Modelled, by source file
| source | model | remarks |
|---|---|---|
| `src/lib.rs` Square, Lerp | `Misc.v` | logging macros expand to nothing that is observable |
| `src/utils/approx.rs` | `Misc.v` | the assert macro is the boolean |
| `src/utils/publisher.rs` | `Publisher.v` | |
| `src/utils/rect2.rs` | `Rect.v`, `Machine.v` | over `Z`, and in machine i32 |
| `src/col2d/shape/ellipse2d.rs` (under `cfg(any())`), `src/col2d/shape/minkowski_diff/*.rs` (module commented out), `From<bevy Transform> for Isotropic3d`, the `cfg(minkowski)` blocks of `src/col3d/default_impls.rs` | `Extra2.v`, `Extra3.v` | not compiled at this commit (or only with the feature); the text is modelled as if it were |
| `src/col/{transform,mod,point,ball,bevy_transform}.rs` | `Transform2.v`, `Shapes2.v`, `Col3.v` | |
| `src/col2d/transformation2d/*.rs` | `Transform2.v`, `Angle.v` (sin, cos, atan2 over R) | `isotropic2d.rs`: every method but one is `todo!()` (panics), not modelled |
| `src/col2d/shape/{box2d,ball2d,rounded_box2d,poly2d,point2d}` | `Shapes2.v`, `Detect2.v`, `Angle.v` | `RoundedBox2d` is not exported from the crate at this commit (`cfg(any())`), modelled anyway |
| `src/col2d/shape/mod.rs` shape_union, Shape2d | `Shapes2.v`, `Detect2.v` | |
| `src/col2d/shape/local_minkowski_diff/*.rs`, `detection/sdfv_minkowski.rs` | `Gjk.v` | the whole GJK/EPA, line by line |
| `src/col2d/detection/*.rs`, `collider2d.rs`, `col2d/mod.rs` | `Detect2.v`, `Shapes2.v` | |
| `src/col2d/shape/tilemap.rs` | `Tilemap.v` | save/load up to the serializer |
| `src/col3d/**` | `Col3.v` | the `3d` feature does not compile at this commit (missing trait items); the text is modelled as if it did. `cylinder3d.rs` is not in the module tree |

### 4.4 Not modelled
* `Isotropic2d` (`todo!()`), the
  derives (`Debug`, `Default`, `PartialEq`, serde derives), bevy `Component` derives,
  the logging macros and the `println!` of two GJK variants, `examples/`, `tests/`.
* Memory, performance, threads (the crate has no shared state), panics of the allocator.
* f32 behaviour of GJK/EPA in general: only the facts in Section 5 (no panic, verdict consistency, soundness facts that hold for every
  arithmetic, refutations; boxes of any size: C56; boxes and polygons on a small grid: C58, C59; deep overlaps: C62; clear gaps: C63). The geometric theorems
  C27-C32, C54, C55 are about exact arithmetic.

## 5. Which theorems speak about `f32` itself
C02, C33, C34, C35, C37, C38, C44 (tile positions), C52, C56, C58, C59, C60, C61, C62, C63, C64, C65, C66, C67, C68, C69, C70, C76, C77, the `_f32` theorems of C78, the two `_f32` theorems of C71, C74_flag_f32 and the `_refuted` examples by `vm_compute` (C30, C33) are
about `b32`. C21, C26, C39-C43, C46, C50, C51, C75 hold for every arithmetic (or use none). The rest is over `XR`.
