(** * What it means for an f32 answer to be nearly right (vocabulary of C61) *)
From Coq Require Import Reals ZArith Bool.
From Verif Require Import Num NumB32 Glam Transform2 Shapes2 Gjk Detect2 Spec P_B32 Props_F32 Props_F32Gjk.
Local Open Scope R_scope.

(** w is what a faultless query would give for the bodies A and B, except that on a penetration it may be longer than the shortest way out by a
    factor 1 + 2^-22 (when two sides are equally near up to rounding, either may be chosen) *)
Definition true_answer (A B : pset) (w : pt) : Prop :=
  (overlaps A B /\ separates w A B /\ forall v, separates v A B -> norm w <= (1 + 4 * u32) * norm v)
  \/ (~ overlaps A B /\ is_min_contact w A B).
(** the flag c and the vector v: v is finite and differs from the true answer w by at most 2^-20 of (depth or gap + twice the radius r), and the
    flag is right unless the depth or gap is no larger than that *)
Definition close_answer (r : R) (A B : pset) (c : bool) (v : vec2 b32) : Prop :=
  fin2 v /\ exists w, true_answer A B w /\ norm (psub (rval v) w) <= 16 * u32 * (norm w + 2 * r) /\
  (16 * u32 * (norm w + 2 * r) < norm w -> (c = true <-> overlaps A B)).
(** the four queries all report the flag c and the vector v *)
Definition reports {X Y T : Type} {SD : SdfvCommonRel2d b32 X Y T} (a : X) (b : Y) (rel : T) (c : bool) (v : vec2 b32) : Prop :=
  collides_rel (F:=b32) a b rel = Ok c /\
  penetrates_rel (F:=b32) a b rel = Ok (if c then Some v else None) /\
  distance_to_rel (F:=b32) a b rel = Ok (if c then None else Some v) /\
  sdfv_rel (F:=b32) a b rel = Ok (c, v).
