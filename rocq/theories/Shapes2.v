(** * 2D shapes, support functions and bounding boxes: src/col/{ball,point}.rs, src/col2d/shape/. *)
From Coq Require Import Bool List.
From Verif Require Import Num Glam Transform2.
Import ListNotations.

(** struct Point, src/col/point.rs:3-11 *)
Inductive point_shape := PointS.
(** struct Ball, src/col/ball.rs:3-17 *)
Record ball (F : Type) := Ball { b_radius : F }.
(** struct Box2d, src/col2d/shape/box2d/mod.rs:6-19 *)
Record box2d (F : Type) := Box2d { halfsize : vec2 F }.
(** struct RoundedBox2d, src/col2d/shape/rounded_box2d/mod.rs:5-14 *)
Record rounded_box2d (F : Type) := RoundedBox2d { rb_halfsize : vec2 F; rb_radius : F }.
(** struct Poly2d, src/col2d/shape/poly2d/mod.rs:7-23 *)
Record poly2d (F : Type) := Poly2d { points : list (vec2 F) }.
Arguments Ball {F}. Arguments b_radius {F}. Arguments Box2d {F}. Arguments halfsize {F}.
Arguments RoundedBox2d {F}. Arguments rb_halfsize {F}. Arguments rb_radius {F}.
Arguments Poly2d {F}. Arguments points {F}.
(** shape_union!(Shape2d; Ball, Box2d, Poly2d), src/col2d/shape/mod.rs:26-53 *)
Inductive shape2d (F : Type) := SBall (b : ball F) | SBox (b : box2d F) | SPoly (p : poly2d F).
Arguments SBall {F}. Arguments SBox {F}. Arguments SPoly {F}.

(** trait ExtremePoint2d, src/col2d/detection/extreme_point.rs:6-17 *)
Class ExtremePoint2d (F S : Type) := extreme_point : S -> vec2 F -> vec2 F.
(** trait ExtremePointT2d, extreme_point.rs:20-41 *)
Class ExtremePointT2d (F S T : Type) := extreme_point_t : S -> T -> vec2 F -> vec2 F.
(** trait SymmetricBoundingBox2d, src/col2d/mod.rs:39-54 *)
Class SymmetricBoundingBox2d (F S : Type) := symmetric_bounding_box : S -> box2d F.

(** struct Collider2d, src/col2d/collider2d.rs:5-14; From<(&S,&T)> 33-37 *)
Record collider2d (S T : Type) := Collider2d { c_shape : S; c_transform : T }.
Arguments Collider2d {S T}. Arguments c_shape {S T}. Arguments c_transform {S T}.

Section Shapes.
Context {F : Type} {FL : Float F}.
Local Open Scope float_scope.

(** Box2d::with_halfdims, box2d/mod.rs:14-16 *)
Definition box_with_halfdims (x y : F) : box2d F := Box2d (V2 x y).
(** Box2d::cover, box2d/mod.rs:20-25 *)
Definition box_cover (b : box2d F) (p : vec2 F) : box2d F :=
  let x := fabs (vx p) in
  let y := fabs (vy p) in
  Box2d (V2 (fmax (vx (halfsize b)) x) (fmax (vy (halfsize b)) y)).
(** RoundedBox2d::box_part, rounded_box2d/mod.rs:16-18 *)
Definition box_part (r : rounded_box2d F) : box2d F := Box2d (rb_halfsize r).

(** ** extreme_point *)
(** point2d.rs:9-13 *)
#[global] Instance Ext_Point : ExtremePoint2d F point_shape := fun _ _ => v2zero.
(** ball2d/mod.rs:15-19 *)
#[global] Instance Ext_Ball : ExtremePoint2d F (ball F) :=
  fun s d => v2smul (b_radius s) (v2normalize_or_zero d).
(** box2d/mod.rs:34-41 *)
#[global] Instance Ext_Box : ExtremePoint2d F (box2d F) :=
  fun s d => V2 (fsignum (vx d) *. vx (halfsize s)) (fsignum (vy d) *. vy (halfsize s)).
(** rounded_box2d/mod.rs:27-33 *)
#[global] Instance Ext_Rounded : ExtremePoint2d F (rounded_box2d F) :=
  fun s d => v2add (extreme_point (Ball (rb_radius s)) d) (extreme_point (Box2d (rb_halfsize s)) d).
(** The fold of poly2d/mod.rs:92-99: strict improvement over the best score so far. *)
Definition poly_step (d : vec2 F) (acc : F * vec2 F) (p : vec2 F) : F * vec2 F :=
  let score := v2dot d p in
  if score >. fst acc then (score, p) else acc.
(** poly2d/mod.rs:85-105 *)
#[global] Instance Ext_Poly : ExtremePoint2d F (poly2d F) :=
  fun s d => snd (fold_left (poly_step d) (points s) (fminval, v2zero)).
(** shape/mod.rs:36-44 *)
#[global] Instance Ext_Shape : ExtremePoint2d F (shape2d F) :=
  fun s d => match s with
             | SBall b => extreme_point b d
             | SBox b => extreme_point b d
             | SPoly p => extreme_point p d
             end.

(** ** extreme_point_t *)
(** Default method, detection/extreme_point.rs:31-40 *)
Definition default_extreme_point_t {S T} {E : ExtremePoint2d F S} {TR : Transformation2d F T}
  (s : S) (t : T) (d : vec2 F) : vec2 F :=
  let local_direction := unapply_normal t d in
  let local_extreme_point := extreme_point s local_direction in
  apply t local_extreme_point.
Section ExtT.
Context {T : Type} {TR : Transformation2d F T}.
(** point2d.rs:15-19 *)
#[global] Instance ExtT_Point : ExtremePointT2d F point_shape T := fun _ t _ => apply_origin t.
(** ball2d/mod.rs:21-25 *)
#[global] Instance ExtT_Ball : ExtremePointT2d F (ball F) T :=
  fun s t d => v2add (apply_origin t) (v2smul (scaling_factor t) (extreme_point s d)).
(** box2d/mod.rs:43, poly2d/mod.rs:107, shape/mod.rs:46: default method *)
#[global] Instance ExtT_Box : ExtremePointT2d F (box2d F) T := default_extreme_point_t.
#[global] Instance ExtT_Poly : ExtremePointT2d F (poly2d F) T := default_extreme_point_t.
#[global] Instance ExtT_Shape : ExtremePointT2d F (shape2d F) T := default_extreme_point_t.
(** Collider2d::extreme_point, collider2d.rs:39-47 *)
#[global] Instance Ext_Collider {S} {E : ExtremePointT2d F S T} : ExtremePoint2d F (collider2d S T) :=
  fun c d => extreme_point_t (c_shape c) (c_transform c) d.
End ExtT.

(** ** bounding boxes *)
(** point2d.rs:3-7 *)
#[global] Instance Bb_Point : SymmetricBoundingBox2d F point_shape := fun _ => box_with_halfdims f0 f0.
(** ball2d/mod.rs:9-13 *)
#[global] Instance Bb_Ball : SymmetricBoundingBox2d F (ball F) :=
  fun s => box_with_halfdims (b_radius s) (b_radius s).
(** box2d/mod.rs:28-32 *)
#[global] Instance Bb_Box : SymmetricBoundingBox2d F (box2d F) := fun s => s.
(** rounded_box2d/mod.rs:21-25 *)
#[global] Instance Bb_Rounded : SymmetricBoundingBox2d F (rounded_box2d F) :=
  fun s => box_with_halfdims (vx (rb_halfsize s) +. rb_radius s) (vy (rb_halfsize s) +. rb_radius s).
(** poly2d/mod.rs:74-83 *)
#[global] Instance Bb_Poly : SymmetricBoundingBox2d F (poly2d F) :=
  fun s => fold_left box_cover (points s) (box_with_halfdims f0 f0).

(** ** Poly2d *)
(** From<Box2d> for Poly2d, poly2d/mod.rs:57-72 *)
Definition poly_of_box (b : box2d F) : poly2d F :=
  let mn := v2neg (halfsize b) in
  let mx := halfsize b in
  Poly2d [mn; mx; V2 (vx mn) (vy mx); V2 (vx mx) (vy mn)].
(** Poly2d::strict_check, poly2d/mod.rs:45-55 *)
Definition strict_check (s : poly2d F) : bool :=
  forallb (fun p => v2eq (extreme_point s p) p) (points s).
(** Shape2d::ball / rect / poly, shape/mod.rs:55-68 *)
Definition shape_ball (r : F) : shape2d F := SBall (Ball r).
Definition shape_rect (rx ry : F) : shape2d F := SBox (box_with_halfdims rx ry).
Definition shape_poly (l : list (vec2 F)) : shape2d F := SPoly (Poly2d l).
End Shapes.
