(** * GJK and EPA: src/col2d/shape/local_minkowski_diff/{mod,v}.rs.

    The algorithms are written over an arbitrary support function [sup] (the method
    [LocalMinkowskiDiff2d::extreme_point]) and initial direction; [lmd_*] instantiates them. *)
From Coq Require Import Bool List Arith.
From Verif Require Import Num Glam Transform2 Shapes2.
Import ListNotations.

(** Panics of the Rust code as values. *)
Inductive panic :=
  | PUnreachable        (* unreachable!() : mod.rs:227, 269, 271 *)
  | PAssert             (* assert_eq!(len, 3): mod.rs:276, 286; v.rs:93 *)
  | PCollidedLate.      (* panic!("Simplex collided after collision was no longer possible"): v.rs:216 *)
Inductive res (A : Type) := Ok (a : A) | Panic (p : panic).
Arguments Ok {A}. Arguments Panic {A}.
Definition bind {A B} (x : res A) (f : A -> res B) : res B :=
  match x with Ok a => f a | Panic p => Panic p end.
Definition rmap {A B} (f : A -> B) (x : res A) : res B :=
  match x with Ok a => Ok (f a) | Panic p => Panic p end.

Section Gjk.
Context {F : Type} {FL : Float F}.
Local Open Scope float_scope.

(** ** Cross products *)
(** impl Crossf32 for f32 (scalar x vector), mod.rs:301-305 *)
Definition cross_sv (k : F) (v : vec2 F) : vec2 F := V2 (-. k *. vy v) (k *. vx v).
(** Cross2d::cross, mod.rs:315-317 *)
Definition cross (a b : vec2 F) : F := vx a *. vy b -. vy a *. vx b.
(** Cross2d::cross_f32 (vector x scalar), mod.rs:319-321 *)
Definition cross_f32 (a : vec2 F) (k : F) : vec2 F := V2 (vy a *. k) (-. vx a *. k).
(** Cross2d::cross_aba, mod.rs:323-326 *)
Definition cross_aba (a b : vec2 F) : vec2 F :=
  let c := cross a b in V2 (-. vy a *. c) (vx a *. c).
(** Cross2d::perp_right, mod.rs:328-330 *)
Definition perp_right (a : vec2 F) : vec2 F := V2 (vy a) (-. vx a).
(** same_direction, mod.rs:293-295 *)
Definition same_direction (a b : vec2 F) : bool := v2dot a b >=. f0.
(** is_a_sufficiently_better_than_b, mod.rs:335-341 *)
Definition sufficiently_better (a b t : F) : bool :=
  if b >. f0 then a >. b *. (f1 +. t) else a >. b *. (f1 -. t).
(** direction_is_too_small, v.rs:251-253 *)
Definition direction_is_too_small (d : vec2 F) : bool := v2lensq d <. feps *. feps.

(** ** Simplex2d: at most three points, newest first *)
Definition simplex := list (vec2 F).

(** Simplex2d::add_point, mod.rs:155-229. Returns the new simplex, the collision flag and the next direction. *)
Definition add_point (s : simplex) (point : vec2 F) : res (simplex * (bool * vec2 F)) :=
  match point :: s with
  | [_] => Ok ([point], (false, v2neg point))
  | [a; b] =>
      let ab := v2sub b a in
      let ao := v2neg a in
      if v2dot ab ao >=. f0 then Ok ([a; b], (false, cross_aba ab ao))
      else Ok ([a; b], (false, ao))
  | [a; b; c] =>
      let ab := v2sub b a in
      let ac := v2sub c a in
      let ao := v2neg a in
      let abc := cross ab ac in
      let ac_perp := cross_sv abc ac in
      let ab_perp := cross_f32 ab abc in
      if same_direction ab_perp ao then
        if same_direction ab ao then Ok ([a; b], (false, ab_perp))
        else Ok ([a; c], (false, ac_perp))
      else if same_direction ac_perp ao then Ok ([a; c], (false, ac_perp))
      else Ok ([a; b; c], (true, v2nan))
  | _ => Panic PUnreachable
  end.

(** Simplex2d::distance_to_origin, mod.rs:231-273 *)
Definition distance_to_origin (s : simplex) : res (vec2 F) :=
  match s with
  | [a] => Ok (v2neg a)
  | [a; b] =>
      let ab := v2sub b a in
      let ao := v2neg a in
      let t := v2dot ao ab /. v2dot ab ab in
      if t <=. f0 then Ok ao
      else if t >=. f1 then Ok (v2neg b)
      else Ok (v2sub ao (v2muls ab t))
  | _ => Panic PUnreachable
  end.

(** Simplex2d::enforce_counter_clockwise_winding, mod.rs:285-290 with is_winding_counter_clockwise, 275-283 *)
Definition enforce_ccw (s : simplex) : res simplex :=
  match s with
  | [a; b; c] =>
      let ab := v2sub b a in
      let ac := v2sub c a in
      if cross ab ac >. f0 then Ok [a; b; c] else Ok [a; c; b]
  | _ => Panic PAssert
  end.

(** ** EPA *)
(** The (index, a, b) triples visited by the loop of mod.rs:121-123: b is the cyclic successor of a. *)
Definition indexed_edges (pts : list (vec2 F)) : list (nat * (vec2 F * vec2 F)) :=
  match pts with
  | [] => []
  | p0 :: rest => combine (seq 0 (length pts)) (combine pts (rest ++ [p0]))
  end.

(** Squared distance from the origin to the segment ab, mod.rs:124-133 *)
Definition edge_dist_sq (a b : vec2 F) : F :=
  let ab := v2sub b a in
  let ao := v2neg a in
  let t := v2dot ao ab /. v2dot ab ab in
  let t_clamped := fclamp t f0 f1 in
  let closest_point := v2add a (v2muls ab t_clamped) in
  v2lensq closest_point.

(** Loop body mod.rs:135-139; accumulator = (closest_distance, (index, edge)) *)
Definition edge_step (acc : F * (nat * (vec2 F * vec2 F))) (e : nat * (vec2 F * vec2 F)) :=
  let distance := edge_dist_sq (fst (snd e)) (snd (snd e)) in
  if distance <. fst acc then (distance, e) else acc.

(** EpaPoly2d::find_closest_edge, mod.rs:116-143 *)
Definition find_closest_edge (pts : list (vec2 F)) : nat * (vec2 F * vec2 F) :=
  snd (fold_left edge_step (indexed_edges pts) (finf, (0%nat, (v2nan, v2nan)))).

(** Vec::insert(i + 1, p), mod.rs:107 *)
Definition insert_after (i : nat) (p : vec2 F) (pts : list (vec2 F)) : list (vec2 F) :=
  firstn (S i) pts ++ p :: skipn (S i) pts.

Section WithSupport.
Variable sup : vec2 F -> vec2 F.

(** EpaPoly2d::calculate_penetration, mod.rs:65-114; [None] = did not converge (the code then returns zero). *)
Fixpoint epa_run (limit : nat) (pts : list (vec2 F)) : option (vec2 F) :=
  match limit with
  | O => None
  | S n =>
      let '(i, (a, b)) := find_closest_edge pts in
      let normal := perp_right (v2sub b a) in
      let point := sup normal in
      let fitness := v2dot point normal in
      let fitness_to_beat := v2dot a normal in
      if negb (sufficiently_better fitness fitness_to_beat fcent) then
        let denom := v2dot normal normal in
        Some (v2muls normal (-. fitness /. denom))
      else epa_run n (insert_after i point pts)
  end.
Definition epa (limit : nat) (pts : list (vec2 F)) : vec2 F :=
  match epa_run limit pts with Some v => v | None => v2zero end.

(** How a GJK loop ended. *)
Inductive outcome :=
  | Separated (s : simplex) (dir : vec2 F)   (* left at the fitness test *)
  | Captured (s : simplex)                   (* the simplex reported a collision *)
  | TooSmall (s : simplex) (dir : vec2 F)    (* next direction too small (collision-only variant) *)
  | Exhausted (s : simplex)                  (* iteration limit reached *)
  | Crashed (p : panic).

(** *** Collision only: SdfvMinkowski2d<false, false>, v.rs:19-53 *)
Fixpoint run_ff (n : nat) (s : simplex) (dir : vec2 F) : outcome :=
  match n with
  | O => Exhausted s
  | S n' =>
      let a := sup dir in
      if v2dot a dir <=. f0 then Separated s dir
      else match add_point s a with
           | Panic p => Crashed p
           | Ok (s', (collides, new_dir)) =>
               if collides then Captured s'
               else if direction_is_too_small new_dir then TooSmall s' new_dir
               else run_ff n' s' new_dir
           end
  end.
Definition gjk_ff (dir0 : vec2 F) : res (bool * vec2 F) :=
  match run_ff 20 [] dir0 with
  | Separated _ _ => Ok (false, v2nan)
  | Captured _ => Ok (true, v2nan)
  | TooSmall _ _ => Ok (true, v2nan)
  | Exhausted _ => Ok (false, v2nan)
  | Crashed p => Panic p
  end.

(** *** Penetration only: SdfvMinkowski2d<true, false>, v.rs:112-163 *)
Fixpoint run_tf (n : nat) (s : simplex) (dir : vec2 F) : outcome :=
  match n with
  | O => Exhausted s
  | S n' =>
      let a := sup dir in
      let fitness := v2dot a dir in
      if fitness <=. f0 then Separated s dir
      else match add_point s a with
           | Panic p => Crashed p
           | Ok (s', (collides, new_dir)) =>
               let new_dir := if direction_is_too_small new_dir then v2perp dir else new_dir in
               if collides then Captured s'
               else run_tf n' s' new_dir
           end
  end.
Definition gjk_tf (dir0 : vec2 F) : res (bool * vec2 F) :=
  match run_tf 20 [] dir0 with
  | Separated _ _ => Ok (false, v2nan)
  | Captured s | TooSmall s _ => rmap (fun pts => (true, epa 20 pts)) (enforce_ccw s)
  | Exhausted _ => Ok (false, v2nan)
  | Crashed p => Panic p
  end.

(** *** Distance only: SdfvMinkowski2d<false, true>, v.rs:62-103 *)
Fixpoint run_ft (n : nat) (s : simplex) (last_a dir : vec2 F) : outcome :=
  match n with
  | O => Exhausted s
  | S n' =>
      let a := sup dir in
      let fitness := v2dot a dir in
      let last_fitness := v2dot last_a dir in
      if (fitness <=. f0) && (fitness <=. last_fitness) then Separated s dir
      else match add_point s a with
           | Panic p => Crashed p
           | Ok (s', (collides, new_dir)) =>
               let new_dir := if direction_is_too_small new_dir then v2perp dir else new_dir in
               if collides then Captured s'
               else run_ft n' s' a new_dir
           end
  end.
Definition start_ft (dir0 : vec2 F) : outcome :=
  let last_a := sup dir0 in
  match add_point [] last_a with
  | Panic p => Crashed p
  | Ok (s, (_, dir)) => run_ft 20 s last_a dir
  end.
Definition gjk_ft (dir0 : vec2 F) : res (bool * vec2 F) :=
  match start_ft dir0 with
  | Separated s _ => rmap (fun v => (false, v)) (distance_to_origin s)
  | Captured s | TooSmall s _ => if Nat.eqb (length s) 3 then Ok (true, v2nan) else Panic PAssert
  | Exhausted s => rmap (fun v => (false, v)) (distance_to_origin s)
  | Crashed p => Panic p
  end.

(** *** Full: SdfvMinkowski2d<true, true>, v.rs:172-248. [possible] is [collision_possible]. *)
Fixpoint run_tt (n : nat) (s : simplex) (last_a dir : vec2 F) (possible : bool) : outcome :=
  match n with
  | O => Exhausted s
  | S n' =>
      let a := sup dir in
      let fitness := v2dot a dir in
      let last_fitness := v2dot last_a dir in
      if (fitness <=. f0) && negb (sufficiently_better fitness last_fitness fcent) then Separated s dir
      else
        let possible := if fitness <=. f0 then false else possible in
        match add_point s a with
           | Panic p => Crashed p
           | Ok (s', (collides, new_dir)) =>
               if collides && negb possible then Crashed PCollidedLate
               else
                 let new_dir := if direction_is_too_small new_dir then v2perp dir else new_dir in
                 if collides then Captured s'
                 else run_tt n' s' a new_dir possible
           end
  end.
Definition start_tt (dir0 : vec2 F) : outcome :=
  let last_a := sup dir0 in
  match add_point [] last_a with
  | Panic p => Crashed p
  | Ok (s, (_, dir)) => run_tt 20 s last_a dir true
  end.
Definition gjk_tt (dir0 : vec2 F) : res (bool * vec2 F) :=
  match start_tt dir0 with
  | Separated s _ => rmap (fun v => (false, v)) (distance_to_origin s)
  | Captured s | TooSmall s _ => rmap (fun pts => (true, epa 20 pts)) (enforce_ccw s)
  | Exhausted s => rmap (fun v => (false, v)) (distance_to_origin s)
  | Crashed p => Panic p
  end.

(** Dispatch on the const-generic booleans <COMPUTE_PENETRATION, COMPUTE_DISTANCE>,
    src/col2d/detection/sdfv_minkowski.rs:16-62 *)
Definition gjk (P D : bool) (dir0 : vec2 F) : res (bool * vec2 F) :=
  match P, D with
  | false, false => gjk_ff dir0
  | false, true => gjk_ft dir0
  | true, false => gjk_tf dir0
  | true, true => gjk_tt dir0
  end.
End WithSupport.

(** ** LocalMinkowskiDiff2d *)
Section Lmd.
Context {A B T : Type} {EA : ExtremePoint2d F A} {EB : ExtremePoint2d F B} {TR : Transformation2d F T}.
(** LocalMinkowskiDiff2d::extreme_point, mod.rs:48-59 *)
Definition lmd_extreme_point (a : A) (b : B) (rel : T) (direction : vec2 F) : vec2 F :=
  let a_point := extreme_point a direction in
  let b_direction := unapply_normal rel (v2neg direction) in
  let b_point := apply rel (extreme_point b b_direction) in
  v2sub a_point b_point.
(** LocalMinkowskiDiff2d::initial_direction, mod.rs:28-35 *)
Definition lmd_initial_direction (rel : T) : vec2 F :=
  let direction := apply_origin rel in
  if v2lensq direction <. feps then V2 f1 f0 else direction.
(** SdfvCommonRel2d for DefaultMinkowski pairs, detection/sdfv_minkowski.rs:16-62 *)
Definition minkowski_sdfv (P D : bool) (a : A) (b : B) (rel : T) : res (bool * vec2 F) :=
  gjk (lmd_extreme_point a b rel) P D (lmd_initial_direction rel).
End Lmd.
End Gjk.
Arguments outcome F : clear implicits.
Arguments simplex F : clear implicits.
