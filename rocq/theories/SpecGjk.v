(** * What the theorems about GJK pairs range over, and the tolerance of the search. *)
From Coq Require Import Reals List.
From Verif Require Import Num NumXR Glam Transform2 Shapes2 Gjk Spec SpecLink.
Import ListNotations.
Local Open Scope R_scope.

(** f32::EPSILON: search directions shorter than this end or divert the search. *)
Definition eps : R := / IZR (2 ^ 23).

(** Coordinates considered: up to a billion. (Beyond about this size the scores of a polygon's vertices can pass
    f32::MIN and Poly2d::extreme_point ignores them, see C11.) *)
Definition world : R := 1000000000.

(** A shape of size at most L and the set of points it denotes. *)
Inductive body (L : R) : shape2d XR -> pset -> Prop :=
  | body_ball r : 0 <= r <= L -> body L (SBall (pball r)) (disc r)
  | body_box hx hy : 0 <= hx -> 0 <= hy -> norm (hx, hy) <= L -> body L (SBox (pbox hx hy)) (rect hx hy)
  | body_poly ps : ps <> [] -> (forall p, In p ps -> norm p <= L) -> body L (SPoly (ppoly ps)) (hull ps).

(** Shape [a] is the set [A]; shape [b] placed by [t] (scale k, rotation (c,s), translation v) is the set [B]; everything within the world size. *)
Inductive scene {T} {TR : Transformation2d XR T} (a b : shape2d XR) (t : T) (A B : pset) : Prop :=
  Scene L v c s k B0 :
    body world a A -> body L b B0 -> L <= world -> k * L <= world ->
    acts_as t v c s k -> c * c + s * s = 1 -> 0 <= k -> norm v <= world ->
    B = image (place v c s k k) B0 -> scene a b t A B.

(** Every search direction GJK can build from points of P (the negation of a point, the normals of the segments
    between two points, weighted by a triangle area) is zero or at least eps long: the tolerance never interferes. *)
Definition resolvable (P : pset) : Prop :=
  forall a b c, P a -> P b -> P c ->
    (norm a = 0 \/ eps <= norm a) /\
    (norm (psub b a) * Rabs (pcross a b) = 0 \/ eps <= norm (psub b a) * Rabs (pcross a b)) /\
    (norm (psub b a) * Rabs (pcross (psub b a) (psub c a)) = 0 \/
     eps <= norm (psub b a) * Rabs (pcross (psub b a) (psub c a))).

(** The longest search direction that can occur in such a scene. *)
Definition reach : R := 8 * ((3 * world) * (3 * world) * (3 * world)).
(** p is a value of the support function that drives the search *)
Definition support_value {T} {TR : Transformation2d XR T} (a b : shape2d XR) (t : T) (p : pt) : Prop :=
  exists d, norm d <= reach /\ lmd_extreme_point a b t (inj d) = inj p.
(** the tolerance never interferes with this pair of shapes *)
Definition resolved {T} {TR : Transformation2d XR T} (a b : shape2d XR) (t : T) : Prop :=
  resolvable (support_value a b t).
(** the support function has at most 20 values *)
Definition few_values {T} {TR : Transformation2d XR T} (a b : shape2d XR) (t : T) : Prop :=
  exists V, (length V <= 20)%nat /\ forall p, support_value a b t p -> In p V.

(** number of corners of a box or polygon *)
Definition corners (a : shape2d XR) : option nat :=
  match a with SBall _ => None | SBox _ => Some 4%nat | SPoly p => Some (length (points p)) end.
(** all coordinates are multiples of 1/128 *)
Definition on_grid (x : R) : Prop := exists z : Z, x = IZR z / 128.
Definition pt_on_grid (p : pt) : Prop := on_grid (fst p) /\ on_grid (snd p).
Definition shape_on_grid (a : shape2d XR) : Prop :=
  match a with
  | SBall _ => False
  | SBox b => exists h, halfsize b = inj h /\ pt_on_grid h
  | SPoly p => forall q, In q (points p) -> exists h, q = inj h /\ pt_on_grid h
  end.
