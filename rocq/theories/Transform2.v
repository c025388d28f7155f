(** * 2D transformations: src/col/transform.rs and src/col2d/transformation2d/. *)
From Coq Require Import Bool.
From Verif Require Import Num Glam.

(** trait Transformation2d, src/col2d/transformation2d/mod.rs:23-41 *)
Class Transformation2d (F T : Type) := {
  apply_origin : T -> vec2 F;
  apply : T -> vec2 F -> vec2 F;
  unapply : T -> vec2 F -> vec2 F;
  apply_normal : T -> vec2 F -> vec2 F;
  unapply_normal : T -> vec2 F -> vec2 F;
  scaling_factor : T -> F;
}.

(** trait Invertible, src/col/transform.rs:7-22 *)
Class Invertible (T : Type) := inverse : T -> T.
(** trait Composable, src/col/transform.rs:24-43 *)
Class Composable (T : Type) := compose : T -> T -> T.
(** DeltaTransform::delta_transform, src/col/transform.rs:66-70 *)
Definition delta_transform {T} {I : Invertible T} {C : Composable T} (a b : T) : T :=
  compose (inverse a) b.

(** struct IdentityTransform, src/col/transform.rs:4-5 *)
Inductive IdentityTransform := IdT.

Section Transforms.
Context {F : Type} {FL : Float F}.
Local Open Scope float_scope.

(** src/col2d/transformation2d/mod.rs:43-67 *)
#[global] Instance Tr_Identity : Transformation2d F IdentityTransform := {
  apply_origin := fun _ => v2zero;
  apply := fun _ p => p;
  unapply := fun _ p => p;
  apply_normal := fun _ n => n;
  unapply_normal := fun _ n => n;
  scaling_factor := fun _ => f1;
}.

(** impl Transformation2d for Vec2, src/col2d/transformation2d/translate2d.rs:14-38 *)
#[global] Instance Tr_Vec2 : Transformation2d F (vec2 F) := {
  apply_origin := fun t => t;
  apply := fun t p => v2add p t;
  unapply := fun t p => v2sub p t;
  apply_normal := fun _ n => n;
  unapply_normal := fun _ n => n;
  scaling_factor := fun _ => f1;
}.
(** translate2d.rs:40-44 *)
#[global] Instance Inv_Vec2 : Invertible (vec2 F) := fun t => v2neg t.
(** translate2d.rs:46-50 *)
#[global] Instance Comp_Vec2 : Composable (vec2 F) := fun a b => apply a b.

(** struct Translate2d, translate2d.rs:3-6; new 52-56; From<Vec2> 8-12 *)
Record translate2d := Translate2d { tr_pos : vec2 F }.
(** translate2d.rs:58-82 *)
#[global] Instance Tr_Translate2d : Transformation2d F translate2d := {
  apply_origin := fun t => tr_pos t;
  apply := fun t p => v2add p (tr_pos t);
  unapply := fun t p => v2sub p (tr_pos t);
  apply_normal := fun _ n => n;
  unapply_normal := fun _ n => n;
  scaling_factor := fun _ => f1;
}.
(** translate2d.rs:84-88 *)
#[global] Instance Inv_Translate2d : Invertible translate2d := fun t => Translate2d (v2neg (tr_pos t)).
(** translate2d.rs:90-94 *)
#[global] Instance Comp_Translate2d : Composable translate2d :=
  fun a b => Translate2d (apply a (tr_pos b)).

(** struct AxisTransform2d, axis_transform2d.rs:3-13 *)
Record axis_transform2d := AxisTransform2d { ax_pos : vec2 F; ax_scale : F }.
(** axis_transform2d.rs:15-39 *)
#[global] Instance Tr_Axis2d : Transformation2d F axis_transform2d := {
  apply_origin := fun t => ax_pos t;
  apply := fun t p => v2add (ax_pos t) (v2smul (ax_scale t) p);
  unapply := fun t p => v2divs (v2sub p (ax_pos t)) (ax_scale t);
  apply_normal := fun _ n => n;
  unapply_normal := fun _ n => n;
  scaling_factor := fun t => ax_scale t;
}.
(** axis_transform2d.rs:41-48 *)
#[global] Instance Inv_Axis2d : Invertible axis_transform2d :=
  fun t => AxisTransform2d (v2neg (ax_pos t)) (f1 /. ax_scale t).
(** axis_transform2d.rs:50-57 *)
#[global] Instance Comp_Axis2d : Composable axis_transform2d :=
  fun a b => AxisTransform2d (apply a (ax_pos b)) (ax_scale a *. ax_scale b).

(** struct Rotor2d, mod.rs:69-73: [a] = (cos, sin) *)
Record rotor2d := Rotor { ra : vec2 F }.
(** Rotor2d::IDENTITY mod.rs:84-86 and Default mod.rs:75-81 *)
Definition rotor_identity : rotor2d := Rotor (V2 f1 f0).
(** Rotor2d::inverse mod.rs:102-106 *)
Definition rotor_inverse (r : rotor2d) : rotor2d := Rotor (V2 (vx (ra r)) (-. vy (ra r))).
(** Rotor2d::from_quaternion mod.rs:109-119 *)
Definition rotor_from_quaternion (q : quat F) : rotor2d :=
  let norm := fsqrt (qdot q q) in
  let w := qw q /. norm in
  let z := qz q /. norm in
  let cos := w *. f2 *. w -. f1 in
  let sin := f2 *. w *. z in
  Rotor (V2 cos sin).
(** impl Mul<Rotor2d> for Rotor2d, mod.rs:122-135 *)
Definition rotor_mul (r s : rotor2d) : rotor2d :=
  Rotor (V2 (vx (ra r) *. vx (ra s) -. vy (ra r) *. vy (ra s))
            (vx (ra r) *. vy (ra s) +. vy (ra r) *. vx (ra s))).
(** impl Mul<Vec2> for Rotor2d, mod.rs:137-147 *)
Definition rotor_rot (r : rotor2d) (v : vec2 F) : vec2 F :=
  V2 (vx (ra r) *. vx v -. vy (ra r) *. vy v) (vx (ra r) *. vy v +. vy (ra r) *. vx v).

(** struct Transform2d, transform2d.rs:3-12 *)
Record transform2d := Transform2d { t_pos : vec2 F; t_rot : rotor2d; t_scale : vec2 F }.
(** transform2d.rs:24-48. Note [a * b / c] parses as [(a * b) / c] in [unapply]. *)
#[global] Instance Tr_Transform2d : Transformation2d F transform2d := {
  apply_origin := fun t => t_pos t;
  apply := fun t p => v2add (rotor_rot (t_rot t) (v2mul (t_scale t) p)) (t_pos t);
  unapply := fun t p => v2div (rotor_rot (rotor_inverse (t_rot t)) (v2sub p (t_pos t))) (t_scale t);
  apply_normal := fun t n => rotor_rot (t_rot t) n;
  unapply_normal := fun t n => rotor_rot (rotor_inverse (t_rot t)) n;
  scaling_factor := fun t => fmax (vx (t_scale t)) (vy (t_scale t));
}.
(** transform2d.rs:50-58 *)
#[global] Instance Inv_Transform2d : Invertible transform2d :=
  fun t => Transform2d (unapply t v2zero) (rotor_inverse (t_rot t)) (v2sdiv f1 (t_scale t)).
(** transform2d.rs:62-70 *)
#[global] Instance Comp_Transform2d : Composable transform2d :=
  fun a b => Transform2d (apply a (t_pos b)) (rotor_mul (t_rot a) (t_rot b))
                         (v2mul (t_scale a) (t_scale b)).
(** Transform2d::IDENTITY transform2d.rs:73-77 and Default 14-22 *)
Definition t2_identity : transform2d := Transform2d v2zero rotor_identity v2one.
(** from_translation 79-84, from_rotation 93-98, from_scale 100-105 *)
Definition t2_from_translation (v : vec2 F) : transform2d := Transform2d v rotor_identity v2one.
Definition t2_from_rotation (r : rotor2d) : transform2d := Transform2d v2zero r v2one.
Definition t2_from_scale (s : vec2 F) : transform2d := Transform2d v2zero rotor_identity s.
(** with_translation 107-110, with_rotation 117-120, with_scale 122-125 *)
Definition t2_with_translation (t : transform2d) (v : vec2 F) := Transform2d v (t_rot t) (t_scale t).
Definition t2_with_rotation (t : transform2d) (r : rotor2d) := Transform2d (t_pos t) r (t_scale t).
Definition t2_with_scale (t : transform2d) (s : vec2 F) := Transform2d (t_pos t) (t_rot t) s.

(** bevy::prelude::Transform (external): translation, rotation, scale *)
Record bevy_transform := BevyTransform { bt_tr : vec3 F; bt_rot : quat F; bt_scale : vec3 F }.
(** to_vec2 bevy_transform.rs:3-5 *)
Definition to_vec2 (v : vec3 F) : vec2 F := V2 (wx v) (wy v).
(** From<bevy Transform> for Transform2d, bevy_transform.rs:7-15 *)
Definition t2_of_bevy (t : bevy_transform) : transform2d :=
  Transform2d (to_vec2 (bt_tr t)) (rotor_from_quaternion (bt_rot t)) (to_vec2 (bt_scale t)).
(** impl Transformation2d for bevy Transform, bevy_transform.rs:17-41 *)
#[global] Instance Tr_Bevy : Transformation2d F bevy_transform := {
  apply_origin := fun t => apply_origin (t2_of_bevy t);
  apply := fun t p => apply (t2_of_bevy t) p;
  unapply := fun t p => unapply (t2_of_bevy t) p;
  apply_normal := fun t n => apply_normal (t2_of_bevy t) n;
  unapply_normal := fun t n => unapply_normal (t2_of_bevy t) n;
  scaling_factor := fun t => scaling_factor (t2_of_bevy t);
}.
End Transforms.
Arguments translate2d F : clear implicits.
Arguments axis_transform2d F : clear implicits.
Arguments rotor2d F : clear implicits.
Arguments transform2d F : clear implicits.
Arguments bevy_transform F : clear implicits.
