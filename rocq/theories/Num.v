(** * Scalars: the operations of Rust's [f32] that the library uses.

    The whole model is parametric in a scalar type [F] with these operations.
    [NumXR.v] instantiates it with exact (extended) reals, [NumB32.v] with IEEE binary32.
    Only the primitive operations are fields; everything the Rust core library defines
    from them is defined here once, generically. *)
From Coq Require Import ZArith Bool.

Declare Scope float_scope.
Delimit Scope float_scope with float.

Class Float (F : Type) := {
  fadd : F -> F -> F;   (* a + b *)
  fsub : F -> F -> F;   (* a - b *)
  fmul : F -> F -> F;   (* a * b *)
  fdiv : F -> F -> F;   (* a / b *)
  fneg : F -> F;        (* -a *)
  fabs : F -> F;        (* a.abs() *)
  fsqrt : F -> F;       (* a.sqrt() *)
  flt : F -> F -> bool; (* a < b; also used for b > a *)
  fle : F -> F -> bool; (* a <= b; also used for b >= a *)
  feq : F -> F -> bool; (* a == b *)
  fnegsign : F -> bool; (* a.is_sign_negative() *)
  fisnan : F -> bool;   (* a.is_nan() *)
  fisinf : F -> bool;   (* a.is_infinite() *)
  fofZ : Z -> F;        (* i as f32, for an i32 (or usize) i *)
  f0 : F;               (* 0.0 *)
  f1 : F;               (* 1.0 *)
  f2 : F;               (* 2.0 *)
  fhalf : F;            (* 0.5 *)
  fcent : F;            (* 0.01 *)
  fmicro : F;           (* 1e-6 *)
  feps : F;             (* f32::EPSILON = 2^-23 *)
  fmaxval : F;          (* f32::MAX; f32::MIN is its negation *)
  finf : F;             (* f32::INFINITY *)
  fnan : F;             (* f32::NAN *)
}.

Infix "+." := fadd (at level 50, left associativity) : float_scope.
Infix "-." := fsub (at level 50, left associativity) : float_scope.
Infix "*." := fmul (at level 40, left associativity) : float_scope.
Infix "/." := fdiv (at level 40, left associativity) : float_scope.
Infix "<." := flt (at level 70, no associativity) : float_scope.
Infix "<=." := fle (at level 70, no associativity) : float_scope.
Infix "==." := feq (at level 70, no associativity) : float_scope.
Notation "-. x" := (fneg x) (at level 35, right associativity) : float_scope.
Notation "x >. y" := (flt y x) (at level 70, no associativity, only parsing) : float_scope.
Notation "x >=. y" := (fle y x) (at level 70, no associativity, only parsing) : float_scope.

Section Generic.
Context {F : Type} {FL : Float F}.
Local Open Scope float_scope.

(** core::f32::max / min: a NaN argument is ignored. (The sign of a zero result when both
    arguments are zeros of different sign is unspecified in Rust; here the first one is kept.) *)
Definition fmax (a b : F) : F :=
  if fisnan a then b else if fisnan b then a else if a <. b then b else a.
Definition fmin (a b : F) : F :=
  if fisnan a then b else if fisnan b then a else if b <. a then b else a.

(** core::f32::clamp(lo, hi) *)
Definition fclamp (x lo hi : F) : F :=
  let x := if x <. lo then lo else x in
  if x >. hi then hi else x.

(** core::f32::signum: NaN for NaN, otherwise +-1 by the sign bit. *)
Definition fsignum (x : F) : F :=
  if fisnan x then fnan else if fnegsign x then -. f1 else f1.

(** core::f32::is_finite *)
Definition fisfinite (x : F) : bool := negb (fisnan x) && negb (fisinf x).

(** f32::MIN *)
Definition fminval : F := -. fmaxval.
End Generic.
