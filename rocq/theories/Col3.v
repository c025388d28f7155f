(** * 3D: src/col3d/ and the 3D trait of src/col/mod.rs, src/col/bevy_transform.rs.

    The feature "3d" does not compile at this commit (for instance cylinder3d.rs is not in the module tree although
    col3d/mod.rs documents it), so the source text is modelled: the inherent semantics of each impl.
    The impls under [#[cfg(minkowski)]] (default_impls.rs:17-27, 39-61, 73-83) are never enabled and not modelled. *)
From Coq Require Import Bool.
From Verif Require Import Num Glam Transform2 Shapes2 Gjk Detect2.

(** trait Transformation3d, src/col/mod.rs:12-29 *)
Class Transformation3d (F T : Type) := {
  apply_origin3 : T -> vec3 F;
  apply3 : T -> vec3 F -> vec3 F;
  unapply3 : T -> vec3 F -> vec3 F;
}.
(** trait ExtremePoint3d, src/col3d/detection/extreme_point.rs:7-20 *)
Class ExtremePoint3d (F S : Type) := extreme_point3 : S -> vec3 F -> vec3 F.
(** traits CollidesRel3d (collides.rs:8-27), PenetratesRel3d (penetrates.rs:7-26), SdfRel3d (sdf.rs:7-26), SdfvRel3d (sdfv.rs:7-26) *)
Class CollidesRel3d (F A B : Type) :=
  collides_rel3 : forall {T} {TR : Transformation3d F T}, A -> B -> T -> bool.
Class PenetratesRel3d (F A B : Type) :=
  penetrates_rel3 : forall {T} {TR : Transformation3d F T}, A -> B -> T -> option (vec3 F).
Class SdfRel3d (F A B : Type) :=
  sdf_rel3 : forall {T} {TR : Transformation3d F T}, A -> B -> T -> F.
Class SdfvRel3d (F A B : Type) :=
  sdfv_rel3 : forall {T} {TR : Transformation3d F T}, A -> B -> T -> vec3 F.

Section Col3.
Context {F : Type} {FL : Float F}.
Local Open Scope float_scope.

(** ** Transformations *)
(** src/col/mod.rs:31-43 *)
#[global] Instance Tr3_Identity : Transformation3d F IdentityTransform := {
  apply_origin3 := fun _ => v3zero; apply3 := fun _ p => p; unapply3 := fun _ p => p }.

(** impl Transformation3d for Vec3, translate3d.rs:14-26; Invertible 28-32; Composable 34-38 *)
#[global] Instance Tr3_Vec3 : Transformation3d F (vec3 F) := {
  apply_origin3 := fun t => t; apply3 := fun t p => v3add p t; unapply3 := fun t p => v3sub p t }.
#[global] Instance Inv_Vec3 : Invertible (vec3 F) := fun t => v3neg t.
#[global] Instance Comp_Vec3 : Composable (vec3 F) := fun a b => apply3 a b.

(** struct Translate3d, translate3d.rs:3-6, 8-12, 40-44; impls 46-70 *)
Record translate3d := Translate3d { tr3_pos : vec3 F }.
#[global] Instance Tr3_Translate3d : Transformation3d F translate3d := {
  apply_origin3 := fun t => tr3_pos t;
  apply3 := fun t p => v3add p (tr3_pos t);
  unapply3 := fun t p => v3sub p (tr3_pos t) }.
#[global] Instance Inv_Translate3d : Invertible translate3d := fun t => Translate3d (v3neg (tr3_pos t)).
#[global] Instance Comp_Translate3d : Composable translate3d := fun a b => Translate3d (apply3 a (tr3_pos b)).

(** struct AxisTransform3d, axis_transform3d.rs:3-13; impls 15-45 *)
Record axis_transform3d := AxisTransform3d { ax3_pos : vec3 F; ax3_scale : F }.
#[global] Instance Tr3_Axis3d : Transformation3d F axis_transform3d := {
  apply_origin3 := fun t => ax3_pos t;
  apply3 := fun t p => v3add (ax3_pos t) (v3smul (ax3_scale t) p);
  unapply3 := fun t p => v3divs (v3sub p (ax3_pos t)) (ax3_scale t) }.
#[global] Instance Inv_Axis3d : Invertible axis_transform3d :=
  fun t => AxisTransform3d (v3neg (ax3_pos t)) (f1 /. ax3_scale t).
#[global] Instance Comp_Axis3d : Composable axis_transform3d :=
  fun a b => AxisTransform3d (apply3 a (ax3_pos b)) (ax3_scale a *. ax3_scale b).

(** struct Isotropic3d, isotropic3d.rs:3-12; impls 27-58. [rot.inverse() * (p - pos) / scale] parses as
    [(rot.inverse() * (p - pos)) / scale]. *)
Record isotropic3d := Isotropic3d { iso_pos : vec3 F; iso_rot : quat F; iso_scale : F }.
#[global] Instance Tr3_Isotropic3d : Transformation3d F isotropic3d := {
  apply_origin3 := fun t => iso_pos t;
  apply3 := fun t p => v3add (qrot (iso_rot t) (v3smul (iso_scale t) p)) (iso_pos t);
  unapply3 := fun t p => v3divs (qrot (qinv (iso_rot t)) (v3sub p (iso_pos t))) (iso_scale t) }.
#[global] Instance Inv_Isotropic3d : Invertible isotropic3d :=
  fun t => Isotropic3d (unapply3 t v3zero) (qinv (iso_rot t)) (f1 /. iso_scale t).
#[global] Instance Comp_Isotropic3d : Composable isotropic3d :=
  fun a b => Isotropic3d (apply3 a (iso_pos b)) (qmul (iso_rot a) (iso_rot b)) (iso_scale a *. iso_scale b).

(** struct Transform3d, transform3d.rs:3-16; impls 40-74 *)
Record transform3d := Transform3d { t3_pos : vec3 F; t3_rot : quat F; t3_scale : vec3 F }.
#[global] Instance Tr3_Transform3d : Transformation3d F transform3d := {
  apply_origin3 := fun t => t3_pos t;
  apply3 := fun t p => v3add (qrot (t3_rot t) (v3mul (t3_scale t) p)) (t3_pos t);
  unapply3 := fun t p => v3div (qrot (qinv (t3_rot t)) (v3sub p (t3_pos t))) (t3_scale t) }.
#[global] Instance Inv_Transform3d : Invertible transform3d :=
  fun t => Transform3d (unapply3 t v3zero) (qinv (t3_rot t)) (v3sdiv f1 (t3_scale t)).
#[global] Instance Comp_Transform3d : Composable transform3d :=
  fun a b => Transform3d (apply3 a (t3_pos b)) (qmul (t3_rot a) (t3_rot b)) (v3mul (t3_scale a) (t3_scale b)).

(** bevy Transform in 3D and its Invertible/Composable (which Collider2d queries use, too), src/col/bevy_transform.rs:7-41 *)
#[global] Instance Tr3_Bevy : Transformation3d F (bevy_transform F) := {
  apply_origin3 := fun t => bt_tr t;
  apply3 := fun t p => v3add (qrot (bt_rot t) (v3mul (bt_scale t) p)) (bt_tr t);
  unapply3 := fun t p => v3div (qrot (qinv (bt_rot t)) (v3sub p (bt_tr t))) (bt_scale t) }.
#[global] Instance Inv_Bevy : Invertible (bevy_transform F) :=
  fun t => BevyTransform (unapply3 t v3zero) (qinv (bt_rot t)) (v3sdiv f1 (bt_scale t)).
#[global] Instance Comp_Bevy : Composable (bevy_transform F) :=
  fun a b => BevyTransform (apply3 a (bt_tr b)) (qmul (bt_rot a) (bt_rot b)) (v3mul (bt_scale a) (bt_scale b)).
(** From conversions between bevy Transform and Transform3d, transform3d.rs:18-38 *)
Definition t3_of_bevy (t : bevy_transform F) : transform3d := Transform3d (bt_tr t) (bt_rot t) (bt_scale t).
Definition bevy_of_t3 (t : transform3d) : bevy_transform F := BevyTransform (t3_pos t) (t3_rot t) (t3_scale t).

(** ** Shapes *)
(** struct Box3d, box3d.rs:6-8; with_halfdims 11-13, new 14-16 *)
Record box3d := Box3d { halfsize3 : vec3 F }.
Definition box3_with_halfdims (x y z : F) : box3d := Box3d (V3 x y z).
(** Box3d::cover, box3d.rs:17-22 *)
Definition box3_cover (b : box3d) (p : vec3 F) : box3d :=
  let x := fabs (wx p) in
  let y := fabs (wy p) in
  Box3d (V3 (fmax (wx (halfsize3 b)) x) (fmax (wy (halfsize3 b)) y) (wz (halfsize3 b))).
(** box3d.rs:31-51 *)
#[global] Instance Ext3_Box : ExtremePoint3d F box3d := fun b d =>
  V3 (if wx d >. f0 then wx (halfsize3 b) else -. wx (halfsize3 b))
     (if wy d >. f0 then wy (halfsize3 b) else -. wy (halfsize3 b))
     (if wz d >. f0 then wz (halfsize3 b) else -. wz (halfsize3 b)).
(** MinkowskiSum<Box3d> for Box3d, box3d.rs:55-63 *)
Definition box3_minkowski_sum (a b : box3d) : box3d := Box3d (v3add (halfsize3 a) (halfsize3 b)).

(** box3d.rs:69-79 *)
#[global] Instance Col3_BoxPoint : CollidesRel3d F box3d point_shape := fun T TR s _ rel =>
  let delta := apply_origin3 rel in
  let h := halfsize3 s in
  (-. wx h <. wx delta) && (wx delta <. wx h) && (-. wy h <. wy delta) && (wy delta <. wy h)
  && (-. wz h <. wz delta) && (wz delta <. wz h).
(** box3d.rs:83-104 *)
#[global] Instance Pen3_BoxPoint : PenetratesRel3d F box3d point_shape := fun T TR s t rel =>
  if collides_rel3 s t rel then
    let delta := apply_origin3 rel in
    let delta_x := fabs (wx delta) -. wx (halfsize3 s) in
    let delta_y := fabs (wy delta) -. wy (halfsize3 s) in
    let delta_z := fabs (wz delta) -. wz (halfsize3 s) in
    if delta_x >. delta_y then
      if delta_z >. delta_x then Some (V3 f0 f0 (delta_z *. fsignum (wz delta)))
      else Some (V3 (delta_x *. fsignum (wx delta)) f0 f0)
    else if delta_z >. delta_y then Some (V3 f0 f0 (delta_z *. fsignum (wz delta)))
    else Some (V3 f0 (delta_y *. fsignum (wy delta)) f0)
  else None.
(** box3d.rs:108-137 *)
#[global] Instance Sdf3_BoxPoint : SdfRel3d F box3d point_shape := fun T TR s t rel =>
  let delta := apply_origin3 rel in
  let delta_x := fabs (wx delta) -. wx (halfsize3 s) in
  let delta_y := fabs (wy delta) -. wy (halfsize3 s) in
  let delta_z := fabs (wz delta) -. wz (halfsize3 s) in
  if collides_rel3 s t rel then fmax (fmax delta_x delta_y) delta_z
  else if delta_z <. f0 then
    if delta_x <. f0 then delta_y
    else if delta_y <. f0 then delta_x
    else v2len (V2 delta_x delta_y)
  else
    if delta_x <. f0 then v2len (V2 delta_z delta_y)
    else if delta_y <. f0 then v2len (V2 delta_z delta_x)
    else v3len (V3 delta_x delta_y delta_z).
(** box3d.rs:141-173 *)
#[global] Instance Sdfv3_BoxPoint : SdfvRel3d F box3d point_shape := fun T TR s t rel =>
  let delta := apply_origin3 rel in
  let delta_x := fabs (wx delta) -. wx (halfsize3 s) in
  let delta_y := fabs (wy delta) -. wy (halfsize3 s) in
  let delta_z := fabs (wz delta) -. wz (halfsize3 s) in
  if collides_rel3 s t rel then
    if delta_x >. delta_y then
      if delta_z >. delta_x then V3 f0 f0 (delta_z *. fsignum (wz delta))
      else V3 (delta_x *. fsignum (wx delta)) f0 f0
    else
      if delta_z >. delta_y then V3 f0 f0 (delta_z *. fsignum (wz delta))
      else V3 f0 (delta_y *. fsignum (wy delta)) f0
  else
    V3 (fmax delta_x f0 *. fsignum (wx delta)) (fmax delta_y f0 *. fsignum (wy delta))
       (fmax delta_z f0 *. fsignum (wz delta)).

(** Ball, ball3d.rs:11-15 *)
#[global] Instance Ext3_Ball : ExtremePoint3d F (ball F) := fun s d => v3smul (b_radius s) (v3normalize_or_zero d).
(** ball3d.rs:19-23 *)
#[global] Instance Col3_BallPoint : CollidesRel3d F (ball F) point_shape := fun T TR s _ rel =>
  v3lensq (apply_origin3 rel) <. b_radius s *. b_radius s.
(** ball3d.rs:29-47 *)
#[global] Instance Pen3_BallPoint : PenetratesRel3d F (ball F) point_shape := fun T TR s t rel =>
  if collides_rel3 s t rel then
    let delta := apply_origin3 rel in
    let distance_to_center := v3len delta in
    if distance_to_center <. feps then Some (V3 (b_radius s) f0 f0)
    else
      let old_magn := distance_to_center in
      let new_magn := b_radius s -. distance_to_center in
      Some (v3neg (v3muls delta (new_magn /. old_magn)))
  else None.
(** ball3d.rs:49-54 *)
#[global] Instance Sdf3_BallPoint : SdfRel3d F (ball F) point_shape := fun T TR s _ rel =>
  v3len (apply_origin3 rel) -. b_radius s.
(** ball3d.rs:56-67 *)
#[global] Instance Sdfv3_BallPoint : SdfvRel3d F (ball F) point_shape := fun T TR s _ rel =>
  let delta := apply_origin3 rel in
  let length := v3len delta in
  if length >. f0 then v3muls delta ((length -. b_radius s) /. length)
  else v3smul (b_radius s) v3X.

(** point3d.rs:3-7 *)
#[global] Instance Ext3_Point : ExtremePoint3d F point_shape := fun _ _ => v3zero.

(** Point v A for every A: DefaultCol3dImpls (Box3d, Ball), default_impls.rs:7-15, 29-37, 63-71, 85-93 *)
#[global] Instance Col3_PointBox : CollidesRel3d F point_shape box3d := fun T TR s o rel => collides_rel3 o s rel.
#[global] Instance Col3_PointBall : CollidesRel3d F point_shape (ball F) := fun T TR s o rel => collides_rel3 o s rel.
#[global] Instance Pen3_PointBox : PenetratesRel3d F point_shape box3d := fun T TR s o rel => penetrates_rel3 o s rel.
#[global] Instance Pen3_PointBall : PenetratesRel3d F point_shape (ball F) := fun T TR s o rel => penetrates_rel3 o s rel.
#[global] Instance Sdf3_PointBox : SdfRel3d F point_shape box3d := fun T TR s o rel => sdf_rel3 o s rel.
#[global] Instance Sdf3_PointBall : SdfRel3d F point_shape (ball F) := fun T TR s o rel => sdf_rel3 o s rel.
#[global] Instance Sdfv3_PointBox : SdfvRel3d F point_shape box3d := fun T TR s o rel => sdfv_rel3 o s rel.
#[global] Instance Sdfv3_PointBall : SdfvRel3d F point_shape (ball F) := fun T TR s o rel => sdfv_rel3 o s rel.

(** struct Cylinder3d, cylinder3d.rs:4-8; new 11-16; to_ball 18-20 *)
Record cylinder3d := Cylinder3d { cy_halfheight : F; cy_radius : F }.
Definition cylinder_new (height radius : F) : cylinder3d := Cylinder3d (height /. f2) radius.
Definition cylinder_to_ball (c : cylinder3d) : ball F := Ball (cy_radius c).
(** cylinder3d.rs:23-38 *)
#[global] Instance Ext3_Cylinder : ExtremePoint3d F cylinder3d := fun c dir =>
  let d := extreme_point (cylinder_to_ball c) (V2 (wx dir) (wy dir)) in
  let z := if wz dir >. f0 then cy_halfheight c else -. cy_halfheight c in
  V3 (vx d) (vy d) z.
(** cylinder3d.rs:40-49 *)
Definition cylinder_minkowski_sum (a b : cylinder3d) : cylinder3d :=
  cylinder_new (cy_halfheight a +. cy_halfheight b) (cy_radius a +. cy_radius b).
(** cylinder3d.rs:53-64. The 2D [collides_rel] of Ball v Point never panics; it is read off its [Ok] result. *)
#[global] Instance Col3_CylinderPoint : CollidesRel3d F cylinder3d point_shape := fun T TR c _ rel =>
  let o := apply_origin3 rel in
  if (wz o <. -. cy_halfheight c) || (wz o >. cy_halfheight c) then false
  else fst (ball_point_sdfv (TR := Tr_Vec2) false false (cylinder_to_ball c) (V2 (wx o) (wy o))).
(** cylinder3d.rs:66-82 *)
#[global] Instance Pen3_CylinderPoint : PenetratesRel3d F cylinder3d point_shape := fun T TR c t rel =>
  if collides_rel3 c t rel then
    let delta := apply_origin3 rel in
    let delta2d := V2 (wx delta) (wy delta) in
    let delta2d_sq := v2lensq delta2d in
    let z2 := wz delta *. wz delta in
    if z2 <. delta2d_sq then Some (V3 f0 f0 (fsignum (wz delta) *. cy_halfheight c))
    else
      let (b, v) := ball_point_sdfv (TR := Tr_Vec2) true false (cylinder_to_ball c) delta2d in
      if b then Some (V3 (vx v) (vy v) f0) else None
  else None.
(** cylinder3d.rs:84-97 *)
#[global] Instance Sdf3_CylinderPoint : SdfRel3d F cylinder3d point_shape := fun T TR c t rel =>
  let o := apply_origin3 rel in
  let o2d := V2 (wx o) (wy o) in
  let o2d_sq := v2lensq o2d in
  let z := fabs (wz o) -. cy_halfheight c in
  let z_sq := z *. z in
  if z_sq >. o2d_sq then z
  else ball_point_sdf (TR := Tr_Vec2) (cylinder_to_ball c) o2d.
(** cylinder3d.rs:99-124. The called 2D trait [SdfRel2dVector] no longer exists (it was renamed SdfvRel2d and now
    also returns a flag); modelled as the vector part of the current 2D [sdfv_rel]. *)
#[global] Instance Sdfv3_CylinderPoint : SdfvRel3d F cylinder3d point_shape := fun T TR c t rel =>
  let o := apply_origin3 rel in
  let o2d := V2 (wx o) (wy o) in
  let o2d_sq := v2lensq o2d in
  let z := fabs (wz o) -. cy_halfheight c in
  let z_sq := z *. z in
  let r := cy_radius c in
  let r_sq := r *. r in
  let ball2 := snd (ball_point_sdfv (TR := Tr_Vec2) true true (cylinder_to_ball c) o2d) in
  if z <. f0 then
    if z_sq >. o2d_sq then V3 f0 f0 (fsignum (wz o) *. z)
    else V3 (vx ball2) (vy ball2) f0
  else
    if o2d_sq <=. r_sq then V3 f0 f0 (fsignum (wz o) *. z)
    else V3 (vx ball2) (vy ball2) (fsignum z *. z).

(** ** Collider level *)
Section Queries.
Context {A B T : Type} {TR : Transformation3d F T} {I : Invertible T} {C : Composable T}.
(** Collides3d::collides, collides.rs:57-66; the same for collides_v2 (73-83) and collides_v3 (90-101) *)
Definition collides3 {CR : CollidesRel3d F A B} (a : A) (ta : T) (b : B) (tb : T) : bool :=
  collides_rel3 a b (delta_transform ta tb).
Definition collides3_v2 {CR : CollidesRel3d F A B} (a : A * T) (b : B) (tb : T) : bool :=
  let (a, ta) := a in collides_rel3 a b (delta_transform ta tb).
Definition collides3_v3 {CR : CollidesRel3d F A B} (a : A * T) (b : B * T) : bool :=
  let (a, ta) := a in let (b, tb) := b in collides_rel3 a b (delta_transform ta tb).
(** Penetrates3d::penetrates, penetrates.rs:57-66 *)
Definition penetrates3 {PR : PenetratesRel3d F A B} (a : A) (ta : T) (b : B) (tb : T) : option (vec3 F) :=
  penetrates_rel3 a b (delta_transform ta tb).
End Queries.
End Col3.
Arguments translate3d F : clear implicits. Arguments axis_transform3d F : clear implicits.
Arguments isotropic3d F : clear implicits. Arguments transform3d F : clear implicits.
Arguments box3d F : clear implicits. Arguments cylinder3d F : clear implicits.
