(** * Code that is in the repository but not compiled at this commit: Ellipse2d ([cfg(any())]), MinkowskiDiff2d (module commented out) and the
    conversion of a bevy Transform to Isotropic3d (feature bevy, 3d). The text is modelled as if it were compiled. *)
From Coq Require Import Bool List.
From Verif Require Import Num Glam Transform2 Shapes2 Gjk Detect2 Misc Col3.

(** struct Ellipse2d, src/col2d/shape/ellipse2d.rs:8-12 *)
Record ellipse2d (F : Type) := Ellipse2d { el_radii : vec2 F }.
Arguments Ellipse2d {F}. Arguments el_radii {F}.

Section Ellipse.
Context {F : Type} {FL : Float F}.
Local Open Scope float_scope.
(** SymmetricBoundingBox2d, ellipse2d.rs:16-20 *)
#[global] Instance Bb_Ellipse : SymmetricBoundingBox2d F (ellipse2d F) := fun e => box_with_halfdims (vx (el_radii e)) (vy (el_radii e)).
(** intercept_ray, ellipse2d.rs:23-26 *)
Definition intercept_ray (e : ellipse2d F) (dir : vec2 F) : vec2 F := v2muls dir (v2lenrecip (v2div dir (el_radii e))).
(** extreme_point_direction, ellipse2d.rs:28-32: a * a * dir.x parses as (a * a) * dir.x *)
Definition extreme_point_direction (e : ellipse2d F) (dir : vec2 F) : vec2 F :=
  let a := vx (el_radii e) in
  let b := vy (el_radii e) in
  V2 (a *. a *. vx dir) (b *. b *. vy dir).
(** extreme_point_by_composing, ellipse2d.rs:34-36 *)
Definition extreme_point_by_composing (e : ellipse2d F) (dir : vec2 F) : vec2 F := intercept_ray e (extreme_point_direction e dir).
(** extreme_point_expanded, ellipse2d.rs:38-45: a * ap * d parses as (a * ap) * d *)
Definition extreme_point_expanded (e : ellipse2d F) (dir : vec2 F) : vec2 F :=
  let a := vx (el_radii e) in
  let b := vy (el_radii e) in
  let ap := a *. vx dir in
  let bq := b *. vy dir in
  let d := v2lenrecip (V2 ap bq) in
  V2 (a *. ap *. d) (b *. bq *. d).
(** ExtremePoint2d, ellipse2d.rs:48-52 *)
#[global] Instance Ext_Ellipse : ExtremePoint2d F (ellipse2d F) := fun e d => extreme_point_expanded e d.
(** CollidesRel2d<Point>, ellipse2d.rs:65-70 (a bool, not through SdfvCommonRel2d) *)
Definition ellipse_collides_rel {T} {TR : Transformation2d F T} (e : ellipse2d F) (_ : point_shape) (rel : T) : bool :=
  let delta := apply_origin rel in
  square (vx delta /. vx (el_radii e)) +. square (vy delta /. vy (el_radii e)) <=. f1.
End Ellipse.

(** struct MinkowskiDiff2d, src/col2d/shape/minkowski_diff/mod.rs:7-17; MinkowskiDiff2dOwned 30-40 is the same with an owned ab_t, From 42-57 copies the fields *)
Record minkowski_diff2d (A B T : Type) := MinkowskiDiff2d { md_a : A; md_b : B; md_a_t : T; md_ab_t : T }.
Arguments MinkowskiDiff2d {A B T}. Arguments md_a {A B T}. Arguments md_b {A B T}. Arguments md_a_t {A B T}. Arguments md_ab_t {A B T}.
Section Md.
Context {F : Type} {FL : Float F}.
Context {A B T : Type} {EA : ExtremePoint2d F A} {EB : ExtremePoint2d F B} {TR : Transformation2d F T} {I : Invertible T} {C : Composable T}.
(** MinkowskiDiff2dOwned::from_colliders, mod.rs:65-75 *)
Definition md_from_colliders (a : collider2d A T) (b : collider2d B T) : minkowski_diff2d A B T :=
  MinkowskiDiff2d (c_shape a) (c_shape b) (c_transform a) (delta_transform (c_transform a) (c_transform b)).
(** ExtremePoint2d, mod.rs:78-93; to_local (25-27) is the LocalMinkowskiDiff2d of (a, b, ab_t) *)
#[global] Instance Ext_MinkowskiDiff : ExtremePoint2d F (minkowski_diff2d A B T) := fun d direction =>
  let local_dir := unapply_normal (md_a_t d) direction in
  let local_result := lmd_extreme_point (md_a d) (md_b d) (md_ab_t d) local_dir in
  apply (md_a_t d) local_result.
(** SdfvMinkowski2d<P, D>, minkowski_diff/v.rs:4-57 *)
Definition md_sdfv_minkowski (P D : bool) (d : minkowski_diff2d A B T) : res (bool * vec2 F) :=
  rmap (fun r : bool * vec2 F => (fst r, if P || D then apply (md_a_t d) (snd r) else v2nan)) (minkowski_sdfv P D (md_a d) (md_b d) (md_ab_t d)).
End Md.

(** From<bevy Transform> for Isotropic3d, src/col3d/transformation3d/isotropic3d.rs:319-329: the scale is the x scale *)
Definition iso_of_bevy {F} (t : bevy_transform F) : isotropic3d F := Isotropic3d (bt_tr t) (bt_rot t) (wx (bt_scale t)).
