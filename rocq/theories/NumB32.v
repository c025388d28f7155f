(** * IEEE-754 binary32 scalars (Flocq), round to nearest even.

    Rust [f32] arithmetic is IEEE binary32 with round-to-nearest-even. The payload and the sign
    of NaN are not modelled (one NaN; [is_sign_negative] of NaN is taken to be false). *)
From Coq Require Import Reals ZArith Bool.
From Flocq Require Import IEEE754.BinarySingleNaN Core.
From Verif Require Import Num.

Definition b32 := binary_float 24 128.

#[export] Instance prec_gt_0_24 : Prec_gt_0 24 := eq_refl.
#[export] Instance prec_lt_emax_24 : Prec_lt_emax 24 128 := eq_refl.

(** Integer [m * 2^e] rounded to nearest even. *)
Definition b32_of (m e : Z) : b32 := binary_normalize 24 128 _ _ mode_NE m e false.

Definition b32_isnan (x : b32) : bool := is_nan x.
Definition b32_isinf (x : b32) : bool :=
  match x with B754_infinity _ => true | _ => false end.
Definition b32_sign (x : b32) : bool :=
  match x with
  | B754_zero s => s | B754_infinity s => s | B754_nan => false | B754_finite s _ _ _ => s
  end.

#[export] Instance FloatB32 : Float b32 := {
  fadd := Bplus mode_NE; fsub := Bminus mode_NE; fmul := Bmult mode_NE; fdiv := Bdiv mode_NE;
  fneg := Bopp; fabs := Babs; fsqrt := Bsqrt mode_NE;
  flt := Bltb; fle := Bleb; feq := Beqb;
  fnegsign := b32_sign; fisnan := b32_isnan; fisinf := b32_isinf;
  fofZ := fun z => b32_of z 0;
  f0 := B754_zero false; f1 := b32_of 1 0; f2 := b32_of 2 0; fhalf := b32_of 1 (-1);
  fcent := Bdiv mode_NE (b32_of 1 0) (b32_of 100 0);
  fmicro := Bdiv mode_NE (b32_of 1 0) (b32_of 1000000 0);
  feps := b32_of 1 (-23);
  fmaxval := b32_of (2^24 - 1) 104;
  finf := B754_infinity false; fnan := B754_nan;
}.

(** Decidable bit-level observation of a float, for concrete witnesses. *)
Definition b32_obs (x : b32) : SpecFloat.spec_float := B2SF x.
