(** * src/col2d/shape/tilemap.rs *)
From Coq Require Import List Bool ZArith.
From Verif Require Import Num Glam Transform2 Shapes2 Gjk Detect2 Publisher Rect.
Import ListNotations.
Local Open Scope Z_scope.

(** TilemapEvent, tilemap.rs:22-27 *)
Inductive tm_event := ChunkCreated (c : v2i) | ChunkRemoved (c : v2i) | ChunkChanged (c : v2i).

(** Chunk, tilemap.rs:40-43: a 16 x 16 Array2d<u8>; a tile (u8) is an integer. The array's data is a list of 256 tiles;
    which index holds which cell is lk_math's business, here x + 16 y. *)
Record chunk := Chunk { c_data : list Z }.
(** Chunk::default, tilemap.rs:45-51 *)
Definition chunk_default : chunk := Chunk (repeat 0 256).
Definition local_in_range (l : v2i) : bool := (0 <=? fst l) && (fst l <? 16) && (0 <=? snd l) && (snd l <? 16).
Definition local_index (l : v2i) : nat := Z.to_nat (fst l + 16 * snd l).
(** lk_math Array2d::get (None outside the array) *)
Definition array_get (c : chunk) (l : v2i) : option Z :=
  if local_in_range l then nth_error (c_data c) (local_index l) else None.
Fixpoint replace_nth (n : nat) (v : Z) (l : list Z) : list Z :=
  match l, n with
  | [], _ => []
  | _ :: l', O => v :: l'
  | x :: l', S n' => x :: replace_nth n' v l'
  end.
(** lk_math Array2d::set (its behaviour outside the array does not matter: it is never reached) *)
Definition array_set (c : chunk) (l : v2i) (v : Z) : chunk :=
  if local_in_range l then Chunk (replace_nth (local_index l) v (c_data c)) else c.
(** chunk.array2d.data.iter().all(|x| x == &0), tilemap.rs:118 *)
Definition array_all_zero (c : chunk) : bool := forallb (fun x => x =? 0) (c_data c).

(** std::collections::HashMap<V2i32, Chunk>: a list of entries in which no key occurs twice; its order is not observed. *)
Definition v2i_eqb (a b : v2i) : bool := (fst a =? fst b) && (snd a =? snd b).
Definition chunk_map := list (v2i * chunk).
Fixpoint map_get (m : chunk_map) (k : v2i) : option chunk :=
  match m with [] => None | (k', c) :: m' => if v2i_eqb k k' then Some c else map_get m' k end.
Definition map_remove (m : chunk_map) (k : v2i) : chunk_map := filter (fun e => negb (v2i_eqb k (fst e))) m.
Definition map_insert (m : chunk_map) (k : v2i) (c : chunk) : chunk_map := (k, c) :: map_remove m k.

(** Tilemap, tilemap.rs:29-38 *)
Record tilemap := Tilemap { chunks : chunk_map; events : ledger tm_event }.
(** Tilemap::default (derived), tilemap.rs:30 *)
Definition tilemap_default : tilemap := Tilemap [] ledger_new.

Section Tilemap.
(** lk_math ModularDecompose for V2i32 with CHUNK_SIZE = (16,16), tilemap.rs:20: tile position to (chunk, local) *)
Variable decompose : v2i -> v2i * v2i.

(** tile_to_chunk_and_local_pos, tilemap.rs:69-71; tile_to_chunk_pos, tilemap.rs:73-76 *)
Definition tile_to_chunk_and_local_pos (p : v2i) : v2i * v2i := decompose p.
Definition tile_to_chunk_pos (p : v2i) : v2i := fst (decompose p).
(** get_chunk, tilemap.rs:78-80 *)
Definition get_chunk (m : tilemap) (c : v2i) : option chunk := map_get (chunks m) c.
(** get_tile, tilemap.rs:82-89 *)
Definition get_tile (m : tilemap) (pos : v2i) : Z :=
  let '(chunk_pos, local) := decompose pos in
  match map_get (chunks m) chunk_pos with
  | Some c => match array_get c local with Some t => t | None => 0 end
  | None => 0
  end.
(** set_tile, tilemap.rs:91-110 *)
Definition set_tile (m : tilemap) (pos : v2i) (tile : Z) : tilemap :=
  let '(chunk_pos, local) := decompose pos in
  let '(created, c, ev) :=
    match map_get (chunks m) chunk_pos with
    | Some c => (false, c, events m)
    | None => (true, chunk_default, ledger_notify (events m) (ChunkCreated chunk_pos))
    end in
  match array_get c local with
  | Some current_tile =>
      if negb (current_tile =? tile) then
        let ev := if negb created then ledger_notify ev (ChunkChanged chunk_pos) else ev in
        Tilemap (map_insert (chunks m) chunk_pos (array_set c local tile)) ev
      else Tilemap (map_insert (chunks m) chunk_pos c) ev
  | None => Tilemap (map_insert (chunks m) chunk_pos c) ev
  end.
(** remove_tile, tilemap.rs:112-122 *)
Definition remove_tile (m : tilemap) (pos : v2i) : tilemap :=
  let '(chunk_pos, local) := decompose pos in
  let c := match map_get (chunks m) chunk_pos with Some c => c | None => chunk_default end in
  let c := array_set c local 0 in
  let ch := map_insert (chunks m) chunk_pos c in
  if array_all_zero c then
    Tilemap (map_remove ch chunk_pos) (ledger_notify (events m) (ChunkRemoved chunk_pos))
  else Tilemap ch (events m).

Section Geometry.
Context {F : Type} {FL : Float F}.
(** round_to::RoundTo::round_to_i32 *)
Variable round_to_i32 : F -> Z.
(** world_to_tile_pos, tilemap.rs:54-57 *)
Definition world_to_tile_pos (p : vec2 F) : v2i := (round_to_i32 (vx p), round_to_i32 (vy p)).
(** tile_to_world_pos, tilemap.rs:58-60 *)
Definition tile_to_world_pos (p : v2i) : vec2 F := V2 (fofZ (fst p)) (fofZ (snd p)).
(** quantize, tilemap.rs:61-66 *)
Definition quantize (t : box2d F) (world_pos : vec2 F) : rect2 :=
  Rect2 (world_to_tile_pos (v2sub world_pos (halfsize t))) (world_to_tile_pos (v2add world_pos (halfsize t))).

(** for_tiles_in_rect, tilemap.rs:124-154: the tiles the callback is called with, in order *)
Definition tiles_in_rect (m : tilemap) (rect : rect2) (dir_x dir_y : F) : list (v2i * Z) :=
  map (fun p => (p, get_tile m p))
    (let flip_x := flt dir_x f0 in
     let flip_y := flt dir_y f0 in
     if flip_y then (if flip_x then iterate_south_west rect else iterate_south_east rect)
     else if flip_x then iterate_north_west rect else iterate_north_east rect).

(** the callback of simple_resolve_ball / _box, tilemap.rs:160-168, 175-183, run on the visited tiles; a panic stops it *)
Definition resolve_step {A} {SD : SdfvCommonRel2d F A (box2d F) (vec2 F)} (col : A) (pos : vec2 F) (pt : v2i * Z) : res (vec2 F) :=
  if 0 <? snd pt then
    let b := box_with_halfdims fhalf fhalf in
    let delta := v2sub (tile_to_world_pos (fst pt)) pos in
    bind (penetrates_rel (F:=F) col b delta) (fun e =>
      match e with Some error => Ok (v2add pos error) | None => Ok pos end)
  else Ok pos.
Fixpoint resolve_all {A} {SD : SdfvCommonRel2d F A (box2d F) (vec2 F)} (col : A) (pos : vec2 F) (ts : list (v2i * Z)) : res (vec2 F) :=
  match ts with
  | [] => Ok pos
  | t :: ts' => bind (resolve_step col pos t) (fun pos' => resolve_all col pos' ts')
  end.
(** simple_resolve_ball, tilemap.rs:156-170 *)
Definition simple_resolve_ball (m : tilemap) (col : ball F) (pos dir : vec2 F) : res (vec2 F) :=
  let bbox := symmetric_bounding_box col in
  let rect := quantize bbox pos in
  resolve_all col pos (tiles_in_rect m rect (vx dir) (vy dir)).
(** simple_resolve_box, tilemap.rs:172-185 *)
Definition simple_resolve_box (m : tilemap) (col : box2d F) (pos dir : vec2 F) : res (vec2 F) :=
  let rect := quantize col pos in
  resolve_all col pos (tiles_in_rect m rect (vx dir) (vy dir)).

(** Tilemap v Point, tilemap.rs:202-222 (collides, and the unfinished penetrates which returns Vec2::Y) *)
Definition tilemap_point_sdfv {T} {TR : Transformation2d F T} (P : bool) (m : tilemap) (rel : T) : bool * vec2 F :=
  let delta := apply_origin rel in
  let tile := get_tile m (world_to_tile_pos delta) in
  let collides := negb (tile =? 0) in
  (collides, if P then V2 f0 f1 else v2nan).
End Geometry.

(** save, tilemap.rs:225-231: the serialized value is the list of entries in the map's iteration order;
    load, tilemap.rs:233-237: the entries are inserted into an empty map in file order, the ledger is new
    (#[serde(skip)]). File access and JSON text are not modelled. *)
Definition tilemap_entries (m : tilemap) : list (v2i * chunk) := chunks m.
Definition tilemap_load (l : list (v2i * chunk)) : tilemap :=
  Tilemap (fold_left (fun m e => map_insert m (fst e) (snd e)) l []) ledger_new.
End Tilemap.

(** Euclidean decomposition, what lk_math's modular_decompose is meant to compute *)
Definition euclid_decompose (p : v2i) : v2i * v2i :=
  ((fst p / 16, snd p / 16), (fst p mod 16, snd p mod 16)).
