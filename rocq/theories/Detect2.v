(** * 2D pair detection and the query traits: src/col2d/shape/*/v_*.rs, src/col2d/detection/. *)
From Coq Require Import Bool List.
From Verif Require Import Num Glam Transform2 Shapes2 Gjk.
Import ListNotations.

Section Analytic.
Context {F : Type} {FL : Float F} {T : Type} {TR : Transformation2d F T}.
Local Open Scope float_scope.

(** Box2d v Point, box2d/v_point.rs:6-34 *)
Definition box_point_sdfv (P D : bool) (s : box2d F) (rel : T) : bool * vec2 F :=
  let p := apply_origin rel in
  let px := fabs (vx p) -. vx (halfsize s) in
  let py := fabs (vy p) -. vy (halfsize s) in
  if fnegsign px && fnegsign py then
    (true,
     if P then
       if px >. py then V2 (px *. fsignum (vx p)) f0 else V2 f0 (py *. fsignum (vy p))
     else v2nan)
  else
    (false,
     if D then
       let dx := fmax px f0 in
       let dy := fmax py f0 in
       V2 (dx *. fsignum (vx p)) (dy *. fsignum (vy p))
     else v2nan).
(** Box2d v Point sdf, box2d/v_point.rs:37-55 *)
Definition box_point_sdf (s : box2d F) (rel : T) : F :=
  let delta := apply_origin rel in
  let delta_x := fabs (vx delta) -. vx (halfsize s) in
  let delta_y := fabs (vy delta) -. vy (halfsize s) in
  if fst (box_point_sdfv false false s rel) then fmax delta_x delta_y
  else if delta_x <. f0 then delta_y
  else if delta_y <. f0 then delta_x
  else v2len (V2 delta_x delta_y).

(** RoundedBox2d v Point, rounded_box2d/v_point.rs:6-41.
    Note [corner * (l - r) / l] parses as [(corner * (l - r)) / l]. *)
Definition rounded_point_sdfv (P D : bool) (s : rounded_box2d F) (rel : T) : bool * vec2 F :=
  let delta := apply_origin rel in
  let delta_x := fabs (vx delta) -. vx (rb_halfsize s) in
  let delta_y := fabs (vy delta) -. vy (rb_halfsize s) in
  let r := rb_radius s in
  if fst (box_point_sdfv false false (box_part s) rel) then
    if delta_x >. delta_y
    then (true, V2 ((delta_x -. r) *. fsignum (vx delta)) f0)
    else (true, V2 f0 ((delta_y -. r) *. fsignum (vy delta)))
  else if delta_x <=. f0 then
    (delta_y <. r, V2 f0 ((delta_y -. r) *. fsignum (vy delta)))
  else if delta_y <=. f0 then
    (delta_x <. r, V2 ((delta_x -. r) *. fsignum (vx delta)) f0)
  else
    let corner := V2 (delta_x *. fsignum (vx delta)) (delta_y *. fsignum (vy delta)) in
    let corner_length := v2len corner in
    let corner' := v2divs (v2muls corner (corner_length -. r)) corner_length in
    (corner_length <. r, corner').
(** RoundedBox2d v Point sdf, rounded_box2d/v_point.rs:44-48 *)
Definition rounded_point_sdf (s : rounded_box2d F) (rel : T) : F :=
  box_point_sdf (box_part s) rel -. rb_radius s.

(** Box2d v Ball, box2d/v_ball.rs:8-15 *)
Definition box_ball_sdfv (P D : bool) (s : box2d F) (b : ball F) (rel : T) : bool * vec2 F :=
  rounded_point_sdfv P D (RoundedBox2d (halfsize s) (b_radius b)) rel.
(** Box2d v Ball sdf, box2d/v_ball.rs:18-39 *)
Definition box_ball_sdf (s : box2d F) (b : ball F) (rel : T) : F :=
  let b_center := apply_origin rel in
  let towards_self := v2neg b_center in
  let p := extreme_point_t b rel towards_self in
  let px := fabs (vx p) -. vx (halfsize s) in
  let py := fabs (vy p) -. vy (halfsize s) in
  if fst (box_ball_sdfv false false s b rel) then fmin px py
  else if fnegsign px then py
  else if fnegsign py then px
  else v2len (V2 px py).

(** The common body of Ball v Point (v_point.rs:6-16) and Ball v Ball (v_ball2d.rs:6-17), with the total radius. *)
Definition ball_point_sdfv (P D : bool) (s : ball F) (rel : T) : bool * vec2 F :=
  let delta := apply_origin rel in
  let length := v2len delta in
  if length >. f0 then
    let collides := length <. b_radius s in
    let new_length := length -. b_radius s in
    (collides, v2muls delta (new_length /. length))
  else (true, v2smul (b_radius s) v2X).
(** Ball v Point sdf, ball2d/v_point.rs:19-24 *)
Definition ball_point_sdf (s : ball F) (rel : T) : F :=
  v2len (apply_origin rel) -. b_radius s.
(** Ball v Ball, ball2d/v_ball2d.rs:6-17 *)
Definition ball_ball_sdfv (P D : bool) (s b : ball F) (rel : T) : bool * vec2 F :=
  let radius := b_radius s +. b_radius b in
  let delta := apply_origin rel in
  let length := v2len delta in
  if length >. f0 then
    let collides := length <. radius in
    let new_length := length -. radius in
    (collides, v2muls delta (new_length /. length))
  else (true, v2smul radius v2X).
(** Ball v Ball sdf, ball2d/v_ball2d.rs:20-26 *)
Definition ball_ball_sdf (s b : ball F) (rel : T) : F :=
  let radius := b_radius s +. b_radius b in
  v2len (apply_origin rel) -. radius.

(** Point v Point, point2d.rs:28-34 *)
Definition point_point_sdfv (P D : bool) (rel : T) : bool * vec2 F :=
  let a := apply_origin rel in
  ((vx a ==. f0) && (vy a ==. f0), a).
(** Point v Point sdf, point2d.rs:21-26 *)
Definition point_point_sdf (rel : T) : F := v2len (apply_origin rel).

(** impl_reverse_sdfv_common_rel!, point2d.rs:36-53 *)
Definition reverse_sdfv {I : Invertible T} (f : T -> bool * vec2 F) (rel : T) : bool * vec2 F :=
  let inv_rel := inverse rel in
  let '(collides, sdfv) := f inv_rel in
  let negated := v2neg sdfv in
  (collides, apply_normal rel negated).
End Analytic.

(** ** Query traits *)
(** trait SdfvCommonRel2d<P, D, B, T>, detection/sdfv_common.rs:7-32 *)
Class SdfvCommonRel2d (F A B T : Type) :=
  sdfv_common_rel : forall (P D : bool), A -> B -> T -> res (bool * vec2 F).
(** trait SdfRel2d<B>, detection/sdf.rs:7-28 *)
Class SdfRel2d (F A B T : Type) := sdf_rel : A -> B -> T -> F.

Section Pairs.
Context {F : Type} {FL : Float F} {T : Type} {TR : Transformation2d F T}.
#[global] Instance Sdfv_BoxPoint : SdfvCommonRel2d F (box2d F) point_shape T :=
  fun P D a _ rel => Ok (box_point_sdfv P D a rel).
#[global] Instance Sdfv_RoundedPoint : SdfvCommonRel2d F (rounded_box2d F) point_shape T :=
  fun P D a _ rel => Ok (rounded_point_sdfv P D a rel).
#[global] Instance Sdfv_BoxBall : SdfvCommonRel2d F (box2d F) (ball F) T :=
  fun P D a b rel => Ok (box_ball_sdfv P D a b rel).
#[global] Instance Sdfv_BallPoint : SdfvCommonRel2d F (ball F) point_shape T :=
  fun P D a _ rel => Ok (ball_point_sdfv P D a rel).
#[global] Instance Sdfv_BallBall : SdfvCommonRel2d F (ball F) (ball F) T :=
  fun P D a b rel => Ok (ball_ball_sdfv P D a b rel).
#[global] Instance Sdfv_PointPoint : SdfvCommonRel2d F point_shape point_shape T :=
  fun P D _ _ rel => Ok (point_point_sdfv P D rel).
(** point2d.rs:55-56 *)
#[global] Instance Sdfv_PointBox {I : Invertible T} : SdfvCommonRel2d F point_shape (box2d F) T :=
  fun P D _ b rel => Ok (reverse_sdfv (box_point_sdfv P D b) rel).
#[global] Instance Sdfv_PointBall {I : Invertible T} : SdfvCommonRel2d F point_shape (ball F) T :=
  fun P D _ b rel => Ok (reverse_sdfv (ball_point_sdfv P D b) rel).
(** DefaultMinkowski pairs: box2d/mod.rs:45-46, poly2d/mod.rs:109-110, ball2d/mod.rs:7, shape/mod.rs:48 *)
#[global] Instance Sdfv_BoxBox : SdfvCommonRel2d F (box2d F) (box2d F) T := minkowski_sdfv.
#[global] Instance Sdfv_BoxPoly : SdfvCommonRel2d F (box2d F) (poly2d F) T := minkowski_sdfv.
#[global] Instance Sdfv_PolyBox : SdfvCommonRel2d F (poly2d F) (box2d F) T := minkowski_sdfv.
#[global] Instance Sdfv_PolyPoly : SdfvCommonRel2d F (poly2d F) (poly2d F) T := minkowski_sdfv.
#[global] Instance Sdfv_BallBox : SdfvCommonRel2d F (ball F) (box2d F) T := minkowski_sdfv.
#[global] Instance Sdfv_ShapeShape : SdfvCommonRel2d F (shape2d F) (shape2d F) T := minkowski_sdfv.

#[global] Instance Sdf_BoxPoint : SdfRel2d F (box2d F) point_shape T := fun a _ rel => box_point_sdf a rel.
#[global] Instance Sdf_RoundedPoint : SdfRel2d F (rounded_box2d F) point_shape T := fun a _ rel => rounded_point_sdf a rel.
#[global] Instance Sdf_BoxBall : SdfRel2d F (box2d F) (ball F) T := fun a b rel => box_ball_sdf a b rel.
#[global] Instance Sdf_BallPoint : SdfRel2d F (ball F) point_shape T := fun a _ rel => ball_point_sdf a rel.
#[global] Instance Sdf_BallBall : SdfRel2d F (ball F) (ball F) T := fun a b rel => ball_ball_sdf a b rel.
#[global] Instance Sdf_PointPoint : SdfRel2d F point_shape point_shape T := fun _ _ rel => point_point_sdf rel.
End Pairs.

Section Queries.
Context {F : Type} {A B T : Type} {SD : SdfvCommonRel2d F A B T}.
(** sdfv_common.rs:36-44 *)
Definition collides_rel (a : A) (b : B) (rel : T) : res bool :=
  rmap fst (sdfv_common_rel (F:=F) false false a b rel).
(** sdfv_common.rs:46-59 *)
Definition penetrates_rel (a : A) (b : B) (rel : T) : res (option (vec2 F)) :=
  rmap (fun r : bool * vec2 F => if fst r then Some (snd r) else None) (sdfv_common_rel (F:=F) true false a b rel).
(** sdfv_common.rs:61-74 *)
Definition distance_to_rel (a : A) (b : B) (rel : T) : res (option (vec2 F)) :=
  rmap (fun r : bool * vec2 F => if fst r then None else Some (snd r)) (sdfv_common_rel (F:=F) false true a b rel).
(** sdfv_common.rs:76-84 *)
Definition sdfv_rel (a : A) (b : B) (rel : T) : res (bool * vec2 F) :=
  sdfv_common_rel (F:=F) true true a b rel.

Context {TR : Transformation2d F T} {I : Invertible T} {C : Composable T}.
(** Collides2d::collides, detection/collides.rs:79-84 *)
Definition collides (a : collider2d A T) (b : collider2d B T) : res bool :=
  let rel := delta_transform (c_transform a) (c_transform b) in
  collides_rel (c_shape a) (c_shape b) rel.
(** Penetrates2d::penetrates, detection/penetrates.rs:70-75 *)
Definition penetrates (a : collider2d A T) (b : collider2d B T) : res (option (vec2 F)) :=
  let rel := delta_transform (c_transform a) (c_transform b) in
  penetrates_rel (c_shape a) (c_shape b) rel.
(** DistanceTo2d::distance_to, detection/distance_to.rs:78-83 *)
Definition distance_to (a : collider2d A T) (b : collider2d B T) : res (option (vec2 F)) :=
  let rel := delta_transform (c_transform a) (c_transform b) in
  distance_to_rel (c_shape a) (c_shape b) rel.
(** Sdfv2d::sdfv, detection/sdfv.rs:70-77 *)
Definition sdfv (a : collider2d A T) (b : collider2d B T) : res (bool * vec2 F) :=
  let rel := delta_transform (c_transform a) (c_transform b) in
  rmap (fun r : bool * vec2 F => (fst r, apply_normal (c_transform a) (snd r))) (sdfv_rel (c_shape a) (c_shape b) rel).
End Queries.
(** Sdf2d::sdf, detection/sdf.rs:71-76 *)
Definition sdf {F A B T : Type} {SR : SdfRel2d F A B T} {I : Invertible T} {C : Composable T}
  (a : collider2d A T) (b : collider2d B T) : F :=
  sdf_rel (c_shape a) (c_shape b) (delta_transform (c_transform a) (c_transform b)).
