(** * Angles and regular polygons (exact scalars only).

    The functions below call [sin_cos], [sin], [cos], [atan2] of [f32], whose results Rust leaves to the
    platform; they are modelled on exact reals only, with Coq's [sin], [cos] and [atan]. *)
From Coq Require Import Reals List.
From Verif Require Import Num NumXR Glam Transform2 Shapes2.
Import ListNotations.
Local Open Scope R_scope.

(** f32::atan2 for finite arguments (textbook definition of the principal value) *)
Definition ratan2 (y x : R) : R :=
  if Rltb 0 x then atan (y / x)
  else if Rltb x 0 then (if Rltb y 0 then atan (y / x) - PI else atan (y / x) + PI)
  else if Rltb 0 y then PI / 2 else if Rltb y 0 then - (PI / 2) else 0.
Definition xatan2 (y x : XR) : XR :=
  match y, x with XFin b, XFin a => XFin (ratan2 b a) | _, _ => XNaN end.
Definition xcos (a : XR) : XR := match a with XFin t => XFin (cos t) | _ => XNaN end.
Definition xsin (a : XR) : XR := match a with XFin t => XFin (sin t) | _ => XNaN end.

(** Rotor2d::from_angle, transformation2d/mod.rs:89-94 *)
Definition rotor_from_angle (angle : XR) : rotor2d XR := Rotor (V2 (xcos angle) (xsin angle)).
(** Rotor2d::angle, transformation2d/mod.rs:97-99 *)
Definition rotor_angle (r : rotor2d XR) : XR := xatan2 (vy (ra r)) (vx (ra r)).
(** Transform2d::from_angle, transform2d.rs:86-91 *)
Definition t2_from_angle (angle : XR) : transform2d XR := Transform2d v2zero (rotor_from_angle angle) v2one.
(** Transform2d::with_angle, transform2d.rs:112-115 *)
Definition t2_with_angle (t : transform2d XR) (angle : XR) : transform2d XR :=
  Transform2d (t_pos t) (rotor_from_angle angle) (t_scale t).

(** Poly2d::regular, poly2d/mod.rs:25-33; the loop [for i in 0..sides] is a map over [seq 0 sides] *)
Definition poly_regular (sides : nat) (radius : XR) : poly2d XR :=
  Poly2d (map (fun i =>
    let angle := fdiv (fmul (fmul f2 (XFin PI)) (fofZ (Z.of_nat i))) (fofZ (Z.of_nat sides)) in
    v2smul radius (V2 (xcos angle) (xsin angle))) (seq 0 sides)).
(** Poly2d::regular_upright, poly2d/mod.rs:35-42 *)
Definition poly_regular_upright (sides : nat) (radius : XR) : poly2d XR :=
  Poly2d (map (fun i =>
    let angle := fdiv (fmul (fmul f2 (XFin PI)) (fofZ (Z.of_nat i))) (fofZ (Z.of_nat sides)) in
    v2smul radius (V2 (xsin angle) (xcos angle))) (seq 0 sides)).
