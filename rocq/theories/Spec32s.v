(** * What it means for an f32 answer about 3D bodies to be nearly right (vocabulary of C67) *)
From Coq Require Import Reals ZArith Bool.
From Flocq Require Import Core.
From Verif Require Import Num NumB32 Glam Transform2 Shapes2 Col3 Spec P_B32 Props_F32 Props_Approx.
Local Open Scope R_scope.

(** the point an f32 vector stands for; its coordinates do not exceed 2^k *)
Definition rval3 (v : vec3 b32) : pt3 := (val (wx v), val (wy v), val (wz v)).
Definition small3 (v : vec3 b32) (k : Z) : Prop := fin3 v /\ small (val (wx v)) k /\ small (val (wy v)) k /\ small (val (wz v)) k.
(** the solid a box with these f32 half sizes stands for *)
Definition solid_box (h : vec3 b32) : pset3 := box3 (val (wx h)) (val (wy h)) (val (wz h)).
Definition half3_ok (h : vec3 b32) : Prop := small3 h 59 /\ 0 <= val (wx h) /\ 0 <= val (wy h) /\ 0 <= val (wz h).
(** w is what a faultless query would give for the bodies A and B, except that on a penetration it may be longer than the shortest way out by a
    factor 1 + 2^-22 (when two faces are equally near up to rounding, either may be chosen) *)
Definition true_answer3 (A B : pset3) (w : pt3) : Prop :=
  (overlaps3 A B /\ separates3 w A B /\ forall v, separates3 v A B -> norm3 w <= (1 + 4 * u32) * norm3 v)
  \/ (~ overlaps3 A B /\ is_min_contact3 w A B).
(** the point is exactly at the centre, or at a distance of at least 2^-60 from it *)
Definition centre3_ok (p : vec3 b32) : Prop := small3 p 59 /\ (rval3 p = (0, 0, 0) \/ bpow radix2 (-60) <= norm3 (rval3 p)).
