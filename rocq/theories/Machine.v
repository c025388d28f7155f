(** * src/utils/rect2.rs in machine integers: i32 arithmetic that overflows, and the iterators as the state machines they are
    (core::ops::RangeInclusive<i32>, Rev and FlatMap of Rust's core library, transcribed). *)
From Coq Require Import List Bool ZArith.
From Verif Require Import Num Rect.
Import ListNotations.
Local Open Scope Z_scope.

(** the values of an i32, and the two meanings of an overflowing operation: a panic when overflow checks are on (debug builds),
    the value modulo 2^32 when they are off (release builds) *)
Definition in_i32 (z : Z) : bool := (- 2 ^ 31 <=? z) && (z <? 2 ^ 31).
Definition wrap32 (z : Z) : Z := (z + 2 ^ 31) mod 2 ^ 32 - 2 ^ 31.
(** [None] is the overflow: a panic, or undefined behaviour for the unchecked step of a range *)
Definition checked (z : Z) : option Z := if in_i32 z then Some z else None.

(** Rect2i32::pad, rect2.rs:14-19, with overflow checks: V2i32's subtraction subtracts x, then y *)
Definition pad_checked (r : rect2) (k : v2i) : option rect2 :=
  match checked (fst (rmin r) - fst k), checked (snd (rmin r) - snd k), checked (fst (rmax r) - fst k), checked (snd (rmax r) - snd k) with
  | Some a, Some b, Some c, Some d => Some (Rect2 (a, b) (c, d))
  | _, _, _, _ => None
  end.
(** Rect2i32::pad, rect2.rs:14-19, without overflow checks *)
Definition pad_wrapping (r : rect2) (k : v2i) : rect2 :=
  Rect2 (wrap32 (fst (rmin r) - fst k), wrap32 (snd (rmin r) - snd k)) (wrap32 (fst (rmax r) - fst k), wrap32 (snd (rmax r) - snd k)).

(** core::ops::RangeInclusive<i32>: start..=end, used in rect2.rs:35,36,41,42,47,48,53,54 *)
Record range := Range { r_start : Z; r_end : Z; r_exhausted : bool }.
Definition range_new (lo hi : Z) : range := Range lo hi false.
Definition range_is_empty (r : range) : bool := r_exhausted r || negb (r_start r <=? r_end r).
(** Iterator::next: the last element sets [exhausted] instead of stepping past [end] *)
Definition range_next (r : range) : option (option Z * range) :=
  if range_is_empty r then Some (None, r)
  else if r_start r <? r_end r then
    match checked (r_start r + 1) with Some n => Some (Some (r_start r), Range n (r_end r) (r_exhausted r)) | None => None end
  else Some (Some (r_start r), Range (r_start r) (r_end r) true).
(** DoubleEndedIterator::next_back, which is next of .rev() *)
Definition range_next_back (r : range) : option (option Z * range) :=
  if range_is_empty r then Some (None, r)
  else if r_start r <? r_end r then
    match checked (r_end r - 1) with Some n => Some (Some (r_end r), Range (r_start r) n (r_exhausted r)) | None => None end
  else Some (Some (r_end r), Range (r_start r) (r_end r) true).
Definition range_get (flip : bool) : range -> option (option Z * range) := if flip then range_next_back else range_next.

(** y_range.flat_map(move |y| x_range.clone().map(move |x| (x, y))), rect2.rs:37,43,49,55: the rest of the rows, the row being
    walked and the captured x_range *)
Record rows := Rows { rw_ys : range; rw_front : option (Z * range); rw_xs : range }.
Inductive emit := Yield (p : v2i) | Busy | Done.
(** one turn of FlatMap's loop: ask the row being walked; when it is over, drop it; without one, ask for the next row *)
Definition rows_turn (flip_x flip_y : bool) (s : rows) : option (emit * rows) :=
  match rw_front s with
  | Some (y, it) =>
      match range_get flip_x it with
      | Some (Some x, it') => Some (Yield (x, y), Rows (rw_ys s) (Some (y, it')) (rw_xs s))
      | Some (None, _) => Some (Busy, Rows (rw_ys s) None (rw_xs s))
      | None => None
      end
  | None =>
      match range_get flip_y (rw_ys s) with
      | Some (Some y, ys') => Some (Busy, Rows ys' (Some (y, rw_xs s)) (rw_xs s))
      | Some (None, ys') => Some (Done, Rows ys' None (rw_xs s))
      | None => None
      end
  end.
(** the iterator made by iterate_north_east (false false), iterate_south_east (false true), iterate_south_west (true true) and
    iterate_north_west (true false), rect2.rs:34-56; iterate_boxed, rect2.rs:58-73, picks one of them *)
Definition rows_new (r : rect2) : rows :=
  Rows (range_new (snd (rmin r)) (snd (rmax r))) None (range_new (fst (rmin r)) (fst (rmax r))).
(** what a consumer has received after [n] turns, and whether the iterator has ended; [None] if something overflowed *)
Fixpoint rows_run (flip_x flip_y : bool) (n : nat) (s : rows) : option (list v2i * bool) :=
  match n with
  | O => Some ([], false)
  | S n =>
      match rows_turn flip_x flip_y s with
      | None => None
      | Some (Done, _) => Some ([], true)
      | Some (Busy, s') => rows_run flip_x flip_y n s'
      | Some (Yield p, s') =>
          match rows_run flip_x flip_y n s' with Some (l, e) => Some (p :: l, e) | None => None end
      end
  end.
