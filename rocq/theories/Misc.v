(** * src/lib.rs (Square, Lerp) and src/utils/approx.rs *)
From Coq Require Import Bool.
From Verif Require Import Num Glam.

Section Misc.
Context {F : Type} {FL : Float F}.
Local Open Scope float_scope.

(** Square for f32, lib.rs:18-22 *)
Definition square (x : F) : F := x *. x.
(** Lerp for f32, lib.rs:28-32 *)
Definition lerp (a b t : F) : F := a +. t *. (b -. a).
(** Lerp for Vec2, lib.rs:34-38 *)
Definition lerp2 (a b : vec2 F) (t : F) : vec2 F := v2add a (v2smul t (v2sub b a)).

(** Approx for f32, approx.rs:14-36 *)
Definition approx_eq_tolerance (a b tolerance : F) : bool :=
  let error := a -. b in
  if fisnan error then false
  else if fisinf error then a ==. b
  else if (a ==. f0) || (b ==. f0) then fabs error <. tolerance
  else
    let relative_error := error /. a in
    if fabs relative_error >. tolerance then false else true.
(** Approx::approx_eq with DEFAULT_TOLERANCE = 1e-6, approx.rs:5-9 *)
Definition approx_eq (a b : F) : bool := approx_eq_tolerance a b fmicro.

(** Approx for Vec2, approx.rs:38-72 *)
Definition approx_eq_tolerance2 (a b : vec2 F) (tolerance : F) : bool :=
  let magn_sq := fmax (v2lensq a) (v2lensq b) in
  if magn_sq ==. f0 then true
  else
    let error := v2sub a b in
    if fisnan (vx error) || fisnan (vy error) then false
    else if fisinf (vx error) || fisinf (vy error) then v2eq a b
    else
      let error_sq := v2lensq error in
      let relative_error_sq := error_sq /. magn_sq in
      if relative_error_sq >. tolerance *. tolerance then false
      else if vx error *. (vx error /. magn_sq) >. tolerance *. tolerance then false
      else if vy error *. (vy error /. magn_sq) >. tolerance *. tolerance then false
      else true.
Definition approx_eq2 (a b : vec2 F) : bool := approx_eq_tolerance2 a b fmicro.

(** Approx for Vec3, approx.rs:74-112 *)
Definition approx_eq_tolerance3 (a b : vec3 F) (tolerance : F) : bool :=
  let magn_sq := fmax (v3lensq a) (v3lensq b) in
  if magn_sq ==. f0 then true
  else
    let error := v3sub a b in
    if fisnan (wx error) || fisnan (wy error) || fisnan (wz error) then false
    else if fisinf (wx error) || fisinf (wy error) || fisinf (wz error) then v3eq a b
    else
      let error_sq := v3lensq error in
      let relative_error_sq := error_sq /. magn_sq in
      if relative_error_sq >. tolerance *. tolerance then false
      else if wx error *. (wx error /. magn_sq) >. tolerance *. tolerance then false
      else if wy error *. (wy error /. magn_sq) >. tolerance *. tolerance then false
      else if wz error *. (wz error /. magn_sq) >. tolerance *. tolerance then false
      else true.
Definition approx_eq3 (a b : vec3 F) : bool := approx_eq_tolerance3 a b fmicro.
End Misc.
