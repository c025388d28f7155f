(** * The blocks of src/col3d/default_impls.rs under [cfg(minkowski)] (never set at this commit): pairs queried through their Minkowski difference.
    [MinkowskiDifference] itself is not in the repository any more; for a type with [MinkowskiNegationIsIdentity] (Box3d, box3d.rs:53) it is the
    [MinkowskiSum], which is how it is modelled here. *)
From Coq Require Import Bool List.
From Verif Require Import Num Glam Transform2 Shapes2 Gjk Detect2 Misc Col3.

Section Sum.
Context {F : Type} {FL : Float F}.
Context {A B C : Type} (minkowski_difference : A -> B -> C).
(** default_impls.rs:17-27 *)
Definition sum_collides {CC : CollidesRel3d F C point_shape} {T} {TR : Transformation3d F T} (a : A) (b : B) (rel : T) : bool :=
  collides_rel3 (minkowski_difference a b) PointS rel.
(** default_impls.rs:39-49 *)
Definition sum_penetrates {CC : PenetratesRel3d F C point_shape} {T} {TR : Transformation3d F T} (a : A) (b : B) (rel : T) : option (vec3 F) :=
  penetrates_rel3 (minkowski_difference a b) PointS rel.
(** default_impls.rs:51-61 *)
Definition sum_sdf {CC : SdfRel3d F C point_shape} {T} {TR : Transformation3d F T} (a : A) (b : B) (rel : T) : F :=
  sdf_rel3 (minkowski_difference a b) PointS rel.
(** default_impls.rs:73-83 *)
Definition sum_sdfv {CC : SdfvRel3d F C point_shape} {T} {TR : Transformation3d F T} (a : A) (b : B) (rel : T) : vec3 F :=
  sdfv_rel3 (minkowski_difference a b) PointS rel.
End Sum.
