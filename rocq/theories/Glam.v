(** * The glam 0.29 vector operations the library calls (external crate; recorded in the trusted base). *)
From Coq Require Import Bool.
From Verif Require Import Num.

Record vec2 (F : Type) := V2 { vx : F; vy : F }.
Arguments V2 {F} _ _. Arguments vx {F} _. Arguments vy {F} _.

Record vec3 (F : Type) := V3 { wx : F; wy : F; wz : F }.
Arguments V3 {F} _ _ _. Arguments wx {F} _. Arguments wy {F} _. Arguments wz {F} _.

(** glam::Quat (x, y, z, w) *)
Record quat (F : Type) := Qt { qx : F; qy : F; qz : F; qw : F }.
Arguments Qt {F} _ _ _ _. Arguments qx {F} _. Arguments qy {F} _. Arguments qz {F} _. Arguments qw {F} _.

Section Glam.
Context {F : Type} {FL : Float F}.
Local Open Scope float_scope.

(** ** Vec2: componentwise operators *)
Definition v2add (a b : vec2 F) := V2 (vx a +. vx b) (vy a +. vy b).
Definition v2sub (a b : vec2 F) := V2 (vx a -. vx b) (vy a -. vy b).
Definition v2mul (a b : vec2 F) := V2 (vx a *. vx b) (vy a *. vy b).
Definition v2div (a b : vec2 F) := V2 (vx a /. vx b) (vy a /. vy b).
Definition v2neg (a : vec2 F) := V2 (-. vx a) (-. vy a).
Definition v2smul (k : F) (a : vec2 F) := V2 (k *. vx a) (k *. vy a).   (* f32 * Vec2 *)
Definition v2muls (a : vec2 F) (k : F) := V2 (vx a *. k) (vy a *. k).   (* Vec2 * f32 *)
Definition v2divs (a : vec2 F) (k : F) := V2 (vx a /. k) (vy a /. k).   (* Vec2 / f32 *)
Definition v2sdiv (k : F) (a : vec2 F) := V2 (k /. vx a) (k /. vy a).   (* f32 / Vec2 *)
Definition v2eq (a b : vec2 F) : bool := (vx a ==. vx b) && (vy a ==. vy b).
Definition v2dot (a b : vec2 F) : F := vx a *. vx b +. vy a *. vy b.
Definition v2lensq (a : vec2 F) : F := v2dot a a.
Definition v2len (a : vec2 F) : F := fsqrt (v2dot a a).
(** Vec2::length_recip = self.length().recip() *)
Definition v2lenrecip (a : vec2 F) : F := f1 /. v2len a.
(** Vec2::normalize_or_zero: rcp finite and > 0, otherwise zero *)
Definition v2zero : vec2 F := V2 f0 f0.
Definition v2one : vec2 F := V2 f1 f1.
Definition v2X : vec2 F := V2 f1 f0.
Definition v2Y : vec2 F := V2 f0 f1.
Definition v2nan : vec2 F := V2 fnan fnan.
Definition v2normalize_or_zero (a : vec2 F) : vec2 F :=
  let rcp := v2lenrecip a in
  if fisfinite rcp && (rcp >. f0) then v2muls a rcp else v2zero.
(** Vec2::perp: rotate by +90 degrees *)
Definition v2perp (a : vec2 F) : vec2 F := V2 (-. vy a) (vx a).

(** ** Vec3 *)
Definition v3add (a b : vec3 F) := V3 (wx a +. wx b) (wy a +. wy b) (wz a +. wz b).
Definition v3sub (a b : vec3 F) := V3 (wx a -. wx b) (wy a -. wy b) (wz a -. wz b).
Definition v3mul (a b : vec3 F) := V3 (wx a *. wx b) (wy a *. wy b) (wz a *. wz b).
Definition v3div (a b : vec3 F) := V3 (wx a /. wx b) (wy a /. wy b) (wz a /. wz b).
Definition v3neg (a : vec3 F) := V3 (-. wx a) (-. wy a) (-. wz a).
Definition v3smul (k : F) (a : vec3 F) := V3 (k *. wx a) (k *. wy a) (k *. wz a).
Definition v3muls (a : vec3 F) (k : F) := V3 (wx a *. k) (wy a *. k) (wz a *. k).
Definition v3divs (a : vec3 F) (k : F) := V3 (wx a /. k) (wy a /. k) (wz a /. k).
Definition v3sdiv (k : F) (a : vec3 F) := V3 (k /. wx a) (k /. wy a) (k /. wz a).
Definition v3eq (a b : vec3 F) : bool := (wx a ==. wx b) && (wy a ==. wy b) && (wz a ==. wz b).
Definition v3dot (a b : vec3 F) : F := wx a *. wx b +. wy a *. wy b +. wz a *. wz b.
Definition v3cross (a b : vec3 F) : vec3 F :=
  V3 (wy a *. wz b -. wy b *. wz a) (wz a *. wx b -. wz b *. wx a) (wx a *. wy b -. wx b *. wy a).
Definition v3lensq (a : vec3 F) : F := v3dot a a.
Definition v3len (a : vec3 F) : F := fsqrt (v3dot a a).
Definition v3zero : vec3 F := V3 f0 f0 f0.
Definition v3X : vec3 F := V3 f1 f0 f0.
Definition v3normalize_or_zero (a : vec3 F) : vec3 F :=
  let rcp := f1 /. v3len a in
  if fisfinite rcp && (rcp >. f0) then v3muls a rcp else v3zero.

(** ** Quat *)
Definition qdot (a b : quat F) : F := qx a *. qx b +. qy a *. qy b +. qz a *. qz b +. qw a *. qw b.
(** Quat::inverse = conjugate (glam asserts normalisation only with glam_assert) *)
Definition qinv (a : quat F) : quat F := Qt (-. qx a) (-. qy a) (-. qz a) (qw a).
(** Quat::mul_quat (Hamilton product) *)
Definition qmul (a b : quat F) : quat F :=
  Qt (qw a *. qx b +. qx a *. qw b +. qy a *. qz b -. qz a *. qy b)
     (qw a *. qy b -. qx a *. qz b +. qy a *. qw b +. qz a *. qx b)
     (qw a *. qz b +. qx a *. qy b -. qy a *. qx b +. qz a *. qw b)
     (qw a *. qw b -. qx a *. qx b -. qy a *. qy b -. qz a *. qz b).
(** Quat::mul_vec3 (scalar version): v*(w^2 - b.b) + b*(2 v.b) + (b x v)*(2 w), with b = (x,y,z) *)
Definition qrot (q : quat F) (v : vec3 F) : vec3 F :=
  let w := qw q in
  let b := V3 (qx q) (qy q) (qz q) in
  let b2 := v3dot b b in
  v3add (v3add (v3muls v (w *. w -. b2)) (v3muls b (v3dot v b *. f2)))
        (v3muls (v3cross b v) (w *. f2)).
End Glam.
