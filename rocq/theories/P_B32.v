(** * Facts about binary32 arithmetic used by the f32 theorems. *)
From Coq Require Import Reals ZArith Bool Lra Lia List Psatz.
From Flocq Require Import IEEE754.BinarySingleNaN Core Relative Plus_error Sterbenz.
From Verif Require Import Num NumXR NumB32 Glam.
Import ListNotations.
Local Open Scope R_scope.

(** The real number denoted by a finite f32, and finiteness. *)
Definition val (x : b32) : R := B2R x.
Definition fin (x : b32) : Prop := is_finite x = true.
(** Rounding of a real to the nearest f32 (unbounded exponent above). *)
Definition rnd (r : R) : R := round radix2 (SpecFloat.fexp 24 128) ZnearestE r.
Definition big : R := bpow radix2 128.

Lemma fin_nan x : fin x -> fisnan x = false. Proof. unfold fin. destruct x; cbn; intro; congruence. Qed.
Lemma fin_inf x : fin x -> fisinf x = false. Proof. unfold fin. destruct x; cbn; intro; congruence. Qed.
Lemma fin_intro x : fisnan x = false -> fisinf x = false -> fin x.
Proof. destruct x; cbn; intros; try congruence; reflexivity. Qed.
Lemma bsign_eq x : b32_sign x = Bsign x. Proof. destruct x; reflexivity. Qed.

Lemma Rlt_bool_Rltb a b : Rlt_bool a b = Rltb a b.
Proof. destruct (Rltb_spec a b); [apply Rlt_bool_true | apply Rlt_bool_false]; lra. Qed.
Lemma flt_fin x y : fin x -> fin y -> flt x y = Rltb (val x) (val y).
Proof. intros. cbn. rewrite Bltb_correct by assumption. apply Rlt_bool_Rltb. Qed.
Lemma fle_fin x y : fin x -> fin y -> fle x y = Rleb (val x) (val y).
Proof. intros. cbn. rewrite Bleb_correct by assumption. unfold val. destruct (Rleb_spec (B2R x) (B2R y)); [apply Rle_bool_true | apply Rle_bool_false]; lra. Qed.
Lemma feq_fin x y : fin x -> fin y -> feq x y = Reqb (val x) (val y).
Proof. intros. cbn. rewrite Beqb_correct by assumption. unfold val. destruct (Reqb_spec (B2R x) (B2R y)); [apply Req_bool_true | apply Req_bool_false]; lra. Qed.

(** order of all f32 values through the extended reals *)
Definition bx (x : b32) : XR :=
  match x with B754_nan => XNaN | B754_infinity s => XInf s | _ => XFin (B2R x) end.
Lemma flt_bx x y : flt x y = xlt (bx x) (bx y).
Proof.
  destruct (is_finite x) eqn:Ex, (is_finite y) eqn:Ey.
  - rewrite flt_fin by assumption. destruct x, y; try discriminate; reflexivity.
  - destruct x, y; try discriminate; cbn; try destruct s; try destruct s0; reflexivity.
  - destruct x, y; try discriminate; cbn; try destruct s; try destruct s0; reflexivity.
  - destruct x, y; try discriminate; cbn; try destruct s; try destruct s0; reflexivity.
Qed.
Lemma xlt_trans a b c : xlt a b = true -> xlt b c = true -> xlt a c = true.
Proof.
  destruct a as [a|[|]|], b as [b|[|]|], c as [c|[|]|]; cbn; intros H1 H2; try discriminate; try reflexivity.
  destruct (Rltb_spec a b), (Rltb_spec b c); try discriminate. apply Rltb_true. lra.
Qed.
Lemma flt_trans32 (a b c : b32) : flt a b = true -> flt b c = true -> flt a c = true.
Proof. rewrite !flt_bx. apply xlt_trans. Qed.

(** ** Correctness of the four operations when the result does not overflow *)
Lemma sub_ok x y : fin x -> fin y -> Rabs (rnd (val x - val y)) < big -> fin (fsub x y) /\ val (fsub x y) = rnd (val x - val y).
Proof.
  intros Hx Hy B. pose proof (Bminus_correct 24 128 _ _ mode_NE x y Hx Hy) as C.
  rewrite Rlt_bool_true in C by exact B. destruct C as (C1 & C2 & _). split; assumption.
Qed.
Lemma add_ok x y : fin x -> fin y -> Rabs (rnd (val x + val y)) < big -> fin (fadd x y) /\ val (fadd x y) = rnd (val x + val y).
Proof.
  intros Hx Hy B. pose proof (Bplus_correct 24 128 _ _ mode_NE x y Hx Hy) as C.
  rewrite Rlt_bool_true in C by exact B. destruct C as (C1 & C2 & _). split; assumption.
Qed.
Lemma mul_ok x y : fin x -> fin y -> Rabs (rnd (val x * val y)) < big -> fin (fmul x y) /\ val (fmul x y) = rnd (val x * val y).
Proof.
  intros Hx Hy B. pose proof (Bmult_correct 24 128 _ _ mode_NE x y) as C.
  rewrite Rlt_bool_true in C by exact B. destruct C as (C1 & C2 & _). split; [|exact C1]. unfold fin in * .
  cbn. rewrite C2, Hx, Hy. reflexivity.
Qed.
Lemma div_ok x y : fin x -> val y <> 0 -> Rabs (rnd (val x / val y)) < big -> fin (fdiv x y) /\ val (fdiv x y) = rnd (val x / val y).
Proof.
  intros Hx Hy B. pose proof (Bdiv_correct 24 128 _ _ mode_NE x y Hy) as C.
  rewrite Rlt_bool_true in C by exact B. destruct C as (C1 & C2 & _). split; [|exact C1]. unfold fin. cbn. rewrite C2. exact Hx.
Qed.
Lemma val_neg x : val (fneg x) = - val x. Proof. apply B2R_Bopp. Qed.
Lemma fin_neg x : fin (fneg x) <-> fin x. Proof. unfold fin. cbn. rewrite is_finite_Bopp. reflexivity. Qed.
Lemma val_abs x : val (fabs x) = Rabs (val x). Proof. apply B2R_Babs. Qed.
Lemma fin_abs x : fin (fabs x) <-> fin x. Proof. unfold fin. cbn. rewrite is_finite_Babs. reflexivity. Qed.

(** ** Rounding *)
Lemma rnd_exact x : rnd (val x) = val x.
Proof. apply round_generic; [apply valid_rnd_N | apply generic_format_B2R]. Qed.
Lemma val_big x : Rabs (val x) < big.
Proof. apply abs_B2R_lt_emax. Qed.
#[export] Instance fexp_valid : Valid_exp (SpecFloat.fexp 24 128) := FLT_exp_valid (-149) 24.
Lemma rnd_le a b : a <= b -> rnd a <= rnd b.
Proof. apply round_le; [exact fexp_valid | apply valid_rnd_N]. Qed.
Lemma rnd_0 : rnd 0 = 0. Proof. apply round_0, valid_rnd_N. Qed.
Lemma rnd_opp a : rnd (- a) = - rnd a. Proof. apply round_NE_opp. Qed.
(** an integer multiple of a power of two with at most 24 bits is representable *)
Lemma rnd_dyadic m e : (Z.abs m <= 2 ^ 24)%Z -> (-149 <= e)%Z -> rnd (IZR m * bpow radix2 e) = IZR m * bpow radix2 e.
Proof.
  intros Hm He. apply round_generic; [apply valid_rnd_N|].
  destruct (Z.eq_dec (Z.abs m) (2 ^ 24)) as [E|E].
  - destruct (Z.abs_eq_iff m). assert (M : (m = 2 ^ 24 \/ m = - 2 ^ 24)%Z) by lia.
    assert (G : generic_format radix2 (SpecFloat.fexp 24 128) (bpow radix2 (24 + e))).
    { apply generic_format_bpow. unfold SpecFloat.fexp, SpecFloat.emin. lia. }
    destruct M as [-> | ->].
    + replace (IZR (2 ^ 24) * bpow radix2 e) with (bpow radix2 (24 + e)) by (rewrite bpow_plus; reflexivity). exact G.
    + replace (IZR (- 2 ^ 24) * bpow radix2 e) with (- bpow radix2 (24 + e)). { apply generic_format_opp, G. }
      rewrite bpow_plus, opp_IZR. change (bpow radix2 24) with (IZR (2 ^ 24)). ring.
  - apply generic_format_F2R' with (f := Defs.Float radix2 m e); [reflexivity|]. intro N0. cbn [Fexp].
    unfold cexp, SpecFloat.fexp, SpecFloat.emin.
    assert (M : (mag radix2 (F2R (Defs.Float radix2 m e)) <= 24 + e)%Z).
    { apply mag_le_bpow; [exact N0|]. unfold F2R. cbn [Fnum Fexp]. rewrite Rabs_mult, <- abs_IZR, bpow_plus.
      rewrite (Rabs_pos_eq (bpow _ _)) by apply bpow_ge_0. apply Rmult_lt_compat_r; [apply bpow_gt_0|].
      change (bpow radix2 24) with (IZR (2 ^ 24)). apply IZR_lt. lia. }
    change (IZR m * bpow radix2 e) with (F2R (Defs.Float radix2 m e)). lia.
Qed.

(** the sign bit of a rounded difference is the sign of the exact difference *)
Lemma sub_sign x y : fin x -> fin y -> Bsign x = false -> fnegsign (fsub x y) = Rltb (val x) (val y).
Proof.
  intros Hx Hy S. cbn. rewrite bsign_eq. pose proof (Bminus_correct 24 128 _ _ mode_NE x y Hx Hy) as C. unfold val.
  destruct (Rlt_bool_spec (Rabs (round radix2 (SpecFloat.fexp 24 128) (round_mode mode_NE) (B2R x - B2R y))) (bpow radix2 128)) as [L|L].
  - destruct C as (_ & _ & ->). destruct (Rcompare_spec (B2R x - B2R y) 0) as [c|c|c].
    + symmetry. apply Rltb_true. lra.
    + rewrite S. symmetry. apply Rltb_false. lra.
    + symmetry. apply Rltb_false. lra.
  - destruct C as (C1 & C2). rewrite S in C1, C2. assert (Sy : Bsign y = true) by (destruct (Bsign y); cbn in C2; congruence).
    replace (Bsign (Bminus mode_NE x y)) with false.
    + symmetry. apply Rltb_false. assert (B2R y <= 0). { destruct y; cbn in *; try lra. subst. apply F2R_le_0. cbn. lia. }
      assert (0 <= B2R x). { destruct x; cbn in *; try lra. subst. apply F2R_ge_0. cbn. lia. } lra.
    + destruct (Bminus mode_NE x y); cbn in *; congruence.
Qed.

(** ** Error of rounding: relative 2^-24 plus absolute 2^-150 *)
Definition u32 : R := / IZR (2 ^ 24).
Definition tiny : R := bpow radix2 (-150).
Lemma rnd_error r : exists eps eta, Rabs eps <= u32 /\ Rabs eta <= tiny /\ rnd r = r * (1 + eps) + eta.
Proof.
  destruct (error_N_FLT radix2 (-149) 24 ltac:(lia) (fun x => negb (Z.even x)) r) as (eps & eta & E1 & E2 & _ & E).
  exists eps, eta. split; [|split].
  - eapply Rle_trans; [exact E1|]. unfold u32. cbn. lra.
  - eapply Rle_trans; [exact E2|]. unfold tiny. replace (-149)%Z with (1 + -150)%Z by reflexivity. rewrite bpow_plus. cbn [bpow Z.pow_pos Pos.iter radix_val radix2]. cbn. lra.
  - exact E.
Qed.
(** addition and subtraction have no absolute error *)
Lemma rnd_error_add x y : exists eps, Rabs eps <= u32 /\ rnd (val x + val y) = (val x + val y) * (1 + eps).
Proof.
  destruct (Rlt_or_le (Rabs (val x + val y)) (bpow radix2 (-149 + 24 - 1))) as [L|L].
  - exists 0. split; [unfold u32; rewrite Rabs_R0; cbn; lra|]. rewrite Rplus_0_r, Rmult_1_r. apply round_generic; [apply valid_rnd_N|].
    apply (FLT_format_plus_small radix2 (-149) 24); try (apply generic_format_B2R). eapply Rle_trans; [apply Rlt_le, L|]. apply bpow_le. lia.
  - destruct (relative_error_N_FLT_ex radix2 (-149) 24 ltac:(lia) (fun x => negb (Z.even x)) _ L) as (eps & E1 & E).
    exists eps. split; [|exact E]. eapply Rle_trans; [exact E1|]. unfold u32. cbn. lra.
Qed.

(** ** Values of constants *)
Lemma val_of m e : (Z.abs m <= 2 ^ 24)%Z -> (-149 <= e <= 103)%Z -> fin (b32_of m e) /\ val (b32_of m e) = IZR m * bpow radix2 e.
Proof.
  intros Hm He. unfold val, fin, b32_of. pose proof (binary_normalize_correct 24 128 _ _ mode_NE m e false) as C. cbv zeta in C.
  assert (R0 : round radix2 (SpecFloat.fexp 24 128) (round_mode mode_NE) (F2R (Defs.Float radix2 m e)) = IZR m * bpow radix2 e) by (apply rnd_dyadic; lia).
  rewrite R0, Rlt_bool_true in C; [split; [exact (proj1 (proj2 C)) | exact (proj1 C)]|].
  rewrite Rabs_mult, (Rabs_pos_eq (bpow _ _)) by apply bpow_ge_0. rewrite <- abs_IZR. apply Rle_lt_trans with (bpow radix2 (24 + e)); [|apply bpow_lt; lia].
  rewrite bpow_plus. apply Rmult_le_compat_r; [apply bpow_ge_0|]. change (bpow radix2 24) with (IZR (2 ^ 24)). apply IZR_le, Hm.
Qed.
Lemma val_sf (x : b32) s m e : B2SF x = SpecFloat.S754_finite s m e -> val x = IZR (cond_Zopp s (Z.pos m)) * bpow radix2 e.
Proof. intro H. unfold val. destruct x; cbn in H; try discriminate. injection H as -> -> ->. reflexivity. Qed.
(** rewrite the value of every constant b32_of m e in the goal *)
Ltac b32_vals := repeat match goal with |- context [val (b32_of ?m ?e)] => rewrite (proj2 (val_of m e ltac:(lia) ltac:(lia))) end.
