(** * Exact scalars: real numbers extended with infinities and NaN.

    Simplifications with respect to binary32, all deliberate: no rounding, no overflow or
    underflow, a single zero (positive sign), decimal literals denote their exact decimal value. *)
From Coq Require Import Reals ZArith Bool Lra.
From Verif Require Import Num.
Local Open Scope R_scope.

Inductive XR := XFin (r : R) | XInf (neg : bool) | XNaN.

Definition Rltb (a b : R) : bool := if Rlt_dec a b then true else false.
Definition Rleb (a b : R) : bool := if Rle_dec a b then true else false.
Definition Reqb (a b : R) : bool := if Req_EM_T a b then true else false.

Definition xneg (a : XR) : XR :=
  match a with XFin r => XFin (- r) | XInf s => XInf (negb s) | XNaN => XNaN end.

Definition xabs (a : XR) : XR :=
  match a with XFin r => XFin (Rabs r) | XInf _ => XInf false | XNaN => XNaN end.

Definition xadd (a b : XR) : XR :=
  match a, b with
  | XFin x, XFin y => XFin (x + y)
  | XNaN, _ | _, XNaN => XNaN
  | XInf s, XInf t => if Bool.eqb s t then XInf s else XNaN
  | XInf s, XFin _ => XInf s
  | XFin _, XInf t => XInf t
  end.

Definition xsub (a b : XR) : XR :=
  match a, b with
  | XFin x, XFin y => XFin (x - y)
  | _, _ => xadd a (xneg b)
  end.

Definition xsgn (a : XR) : bool :=
  match a with XFin r => Rltb r 0 | XInf s => s | XNaN => false end.

Definition xmul (a b : XR) : XR :=
  match a, b with
  | XFin x, XFin y => XFin (x * y)
  | XNaN, _ | _, XNaN => XNaN
  | XInf s, XInf t => XInf (xorb s t)
  | XInf s, XFin y | XFin y, XInf s => if Reqb y 0 then XNaN else XInf (xorb s (Rltb y 0))
  end.

Definition xdiv (a b : XR) : XR :=
  match a, b with
  | XFin x, XFin y =>
      if Reqb y 0 then (if Reqb x 0 then XNaN else XInf (Rltb x 0)) else XFin (x / y)
  | XNaN, _ | _, XNaN => XNaN
  | XInf s, XInf t => XNaN
  | XInf s, XFin y => XInf (xorb s (Rltb y 0))
  | XFin _, XInf _ => XFin 0
  end.

Definition xsqrt (a : XR) : XR :=
  match a with
  | XFin r => if Rltb r 0 then XNaN else XFin (sqrt r)
  | XInf false => XInf false
  | _ => XNaN
  end.

Definition xlt (a b : XR) : bool :=
  match a, b with
  | XFin x, XFin y => Rltb x y
  | XNaN, _ | _, XNaN => false
  | XInf s, XInf t => s && negb t
  | XInf s, XFin _ => s
  | XFin _, XInf t => negb t
  end.

Definition xeq (a b : XR) : bool :=
  match a, b with
  | XFin x, XFin y => Reqb x y
  | XInf s, XInf t => Bool.eqb s t
  | _, _ => false
  end.

Definition xle (a b : XR) : bool :=
  match a, b with
  | XFin x, XFin y => Rleb x y
  | _, _ => xlt a b || xeq a b
  end.

#[export] Instance FloatXR : Float XR := {
  fadd := xadd; fsub := xsub; fmul := xmul; fdiv := xdiv;
  fneg := xneg; fabs := xabs; fsqrt := xsqrt;
  flt := xlt; fle := xle; feq := xeq;
  fnegsign := xsgn;
  fisnan := fun a => match a with XNaN => true | _ => false end;
  fisinf := fun a => match a with XInf _ => true | _ => false end;
  fofZ := fun z => XFin (IZR z);
  f0 := XFin 0; f1 := XFin 1; f2 := XFin 2; fhalf := XFin (1/2);
  fcent := XFin (1/100); fmicro := XFin (1/1000000);
  feps := XFin (/ IZR (2^23)%Z);
  fmaxval := XFin (IZR ((2^24 - 1) * 2^104)%Z);
  finf := XInf false; fnan := XNaN;
}.

(** Reflection lemmas for the boolean comparisons. *)
Lemma Rltb_true a b : a < b -> Rltb a b = true.
Proof. unfold Rltb; intro; destruct (Rlt_dec a b); [reflexivity | contradiction]. Qed.
Lemma Rltb_false a b : b <= a -> Rltb a b = false.
Proof. unfold Rltb; intro; destruct (Rlt_dec a b); [lra | reflexivity]. Qed.
Lemma Rleb_true a b : a <= b -> Rleb a b = true.
Proof. unfold Rleb; intro; destruct (Rle_dec a b); [reflexivity | contradiction]. Qed.
Lemma Rleb_false a b : b < a -> Rleb a b = false.
Proof. unfold Rleb; intro; destruct (Rle_dec a b); [lra | reflexivity]. Qed.
Lemma Reqb_true a b : a = b -> Reqb a b = true.
Proof. unfold Reqb; intro; destruct (Req_EM_T a b); [reflexivity | contradiction]. Qed.
Lemma Reqb_false a b : a <> b -> Reqb a b = false.
Proof. unfold Reqb; intro; destruct (Req_EM_T a b); [contradiction | reflexivity]. Qed.
Lemma Rltb_spec a b : reflect (a < b) (Rltb a b).
Proof. unfold Rltb; destruct (Rlt_dec a b); constructor; assumption. Qed.
Lemma Rleb_spec a b : reflect (a <= b) (Rleb a b).
Proof. unfold Rleb; destruct (Rle_dec a b); constructor; assumption. Qed.
Lemma Reqb_spec a b : reflect (a = b) (Reqb a b).
Proof. unfold Reqb; destruct (Req_EM_T a b); constructor; assumption. Qed.
