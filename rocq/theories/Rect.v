(** * src/utils/rect2.rs: integer rectangles. V2i32 is a pair of integers; i32 overflow (only possible in [pad]) is in Machine.v. *)
From Coq Require Import List Bool ZArith.
From Verif Require Import Num.
Import ListNotations.
Local Open Scope Z_scope.

Definition v2i : Type := (Z * Z)%type.
(** Rect2i32, rect2.rs:4-7; min_max, rect2.rs:10-12 *)
Record rect2 := Rect2 { rmin : v2i; rmax : v2i }.
Definition rect_min_max (min max : v2i) : rect2 := Rect2 min max.
(** Rect2i32::pad, rect2.rs:14-19 (both corners move by minus the padding, as in the source) *)
Definition rect_pad (r : rect2) (padding : v2i) : rect2 :=
  Rect2 (fst (rmin r) - fst padding, snd (rmin r) - snd padding) (fst (rmax r) - fst padding, snd (rmax r) - snd padding).

(** core RangeInclusive<i32>: lo..=hi as the list of its elements *)
Definition zrange (lo hi : Z) : list Z := map (fun i => lo + Z.of_nat i) (seq 0 (Z.to_nat (hi - lo + 1))).
(** y_range.flat_map(|y| x_range.map(|x| (x, y))), rect2.rs:37,43,49,55 *)
Definition cells (xs ys : list Z) : list v2i := flat_map (fun y => map (fun x => (x, y)) xs) ys.

(** iterate_north_east, rect2.rs:34-38 *)
Definition iterate_north_east (r : rect2) : list v2i :=
  cells (zrange (fst (rmin r)) (fst (rmax r))) (zrange (snd (rmin r)) (snd (rmax r))).
(** iterate_south_east, rect2.rs:40-44 *)
Definition iterate_south_east (r : rect2) : list v2i :=
  cells (zrange (fst (rmin r)) (fst (rmax r))) (rev (zrange (snd (rmin r)) (snd (rmax r)))).
(** iterate_south_west, rect2.rs:46-50 *)
Definition iterate_south_west (r : rect2) : list v2i :=
  cells (rev (zrange (fst (rmin r)) (fst (rmax r)))) (rev (zrange (snd (rmin r)) (snd (rmax r)))).
(** iterate_north_west, rect2.rs:52-56 *)
Definition iterate_north_west (r : rect2) : list v2i :=
  cells (rev (zrange (fst (rmin r)) (fst (rmax r)))) (zrange (snd (rmin r)) (snd (rmax r))).
(** iterate, rect2.rs:30-32 *)
Definition iterate (r : rect2) : list v2i := iterate_north_east r.
(** iterate_boxed, rect2.rs:58-73 *)
Definition iterate_boxed (r : rect2) (flip_x flip_y : bool) : list v2i :=
  if flip_y then (if flip_x then iterate_south_west r else iterate_south_east r)
  else (if flip_x then iterate_north_west r else iterate_north_east r).
(** iterate_with_direction_f32, rect2.rs:21-28 *)
Definition iterate_with_direction {F} {FL : Float F} (r : rect2) (dir_x dir_y : F) : list v2i :=
  iterate_boxed r (flt dir_x f0) (flt dir_y f0).
