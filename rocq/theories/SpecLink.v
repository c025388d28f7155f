(** * How the answers of the code are read against the specification.

    [inj] embeds real points into the scalars of the model; [answers_exact] is what it means for
    the four relative queries to be geometrically right for bodies A (self) and B (other, placed
    in A's frame). *)
From Coq Require Import Reals.
From Verif Require Import Num NumXR Glam Transform2 Shapes2 Gjk Spec.
Local Open Scope R_scope.

Definition inj (p : pt) : vec2 XR := V2 (XFin (fst p)) (XFin (snd p)).
Definition inj3 (p : pt3) : vec3 XR := V3 (XFin (x3 p)) (XFin (y3 p)) (XFin (z3 p)).

(** Finite values of the model's types from real numbers: rotation with cosine c and sine s; Transform2d with
    position v, that rotation and scale (sx, sy); AxisTransform2d; quaternion. *)
Definition rotor (c s : R) : rotor2d XR := Rotor (inj (c, s)).
Definition t2 (v : pt) (c s sx sy : R) : transform2d XR := Transform2d (inj v) (Rotor (inj (c, s))) (inj (sx, sy)).
Definition ax (v : pt) (k : R) : axis_transform2d XR := AxisTransform2d (inj v) (XFin k).
Definition quat_of (x y z w : R) : quat XR := Qt (XFin x) (XFin y) (XFin z) (XFin w).

Definition pball (r : R) : ball XR := Ball (XFin r).
Definition pbox (hx hy : R) : box2d XR := Box2d (inj (hx, hy)).
Definition prounded (hx hy r : R) : rounded_box2d XR := RoundedBox2d (inj (hx, hy)) (XFin r).
Definition ppoly (ps : list pt) : poly2d XR := Poly2d (List.map inj ps).
(** The largest finite f32, about 3.4e38 (Poly2d::extreme_point starts its search from minus this value). *)
Definition f32_max : R := IZR ((2^24 - 1) * 2^104).

(** [t] acts on the plane as the similarity: scale by k, rotate by (c,s), translate by v; and on directions
    as the rotation. *)
Definition acts_as {T} {TR : Transformation2d XR T} (t : T) (v : pt) (c s k : R) : Prop :=
  (forall p, apply t (inj p) = inj (place v c s k k p)) /\
  apply_origin t = inj v /\
  (forall n, apply_normal t (inj n) = inj (rotate c s n)) /\
  (forall n, unapply_normal t (inj n) = inj (rotate c (- s) n)) /\
  scaling_factor t = XFin k.

(** [extreme_point] of shape [a] is a farthest point of the set [A] for every direction of length at most [K]. *)
Definition supports {S} {E : ExtremePoint2d XR S} (K : R) (a : S) (A : pset) : Prop :=
  forall d, norm d <= K -> exists p, extreme_point a (inj d) = inj p /\ is_farthest A d p.

(** [collides], [penetrates], [distance_to] and [sdfv] say: overlapping with the shortest separating
    translation of A, or not overlapping with the shortest translation of A into contact. *)
Definition answers_exact (A B : pset)
  (collides : res bool) (penetrates distance : res (option (vec2 XR))) (sdfv : res (bool * vec2 XR)) : Prop :=
  (overlaps A B /\
     exists v, is_min_separation v A B /\
       collides = Ok true /\ penetrates = Ok (Some (inj v)) /\ distance = Ok None /\ sdfv = Ok (true, inj v))
  \/ (~ overlaps A B /\
     exists v, is_min_contact v A B /\
       collides = Ok false /\ penetrates = Ok None /\ distance = Ok (Some (inj v)) /\ sdfv = Ok (false, inj v)).

(** The same at collider level, for self scaled by k, rotated by (c,s) in the world and the world sets A and B:
    with v the true shortest world translation, [sdfv] returns v/k and [penetrates]/[distance_to] return v/k turned
    back into self's local frame. For unscaled self (k = 1) this says that [sdfv] is exact in world space. *)
Definition answers_world (A B : pset) (k c s : R)
  (collides : res bool) (penetrates distance : res (option (vec2 XR))) (sdfv : res (bool * vec2 XR)) : Prop :=
  (overlaps A B /\
     exists v, is_min_separation v A B /\
       collides = Ok true /\ sdfv = Ok (true, inj (pscale (1 / k) v)) /\
       penetrates = Ok (Some (inj (pscale (1 / k) (rotate c (- s) v)))) /\ distance = Ok None)
  \/ (~ overlaps A B /\
     exists v, is_min_contact v A B /\
       collides = Ok false /\ sdfv = Ok (false, inj (pscale (1 / k) v)) /\
       penetrates = Ok None /\ distance = Ok (Some (inj (pscale (1 / k) (rotate c (- s) v))))).
