(** * C66: extreme points, Minkowski support points and bounding boxes in f32

    C11 to C14 are about exact arithmetic. Here directions, shapes and transforms have binary32 numbers and the code rounds. *)
From Coq Require Import Reals ZArith Bool Lra Lia List Psatz.
From Flocq Require Import IEEE754.BinarySingleNaN Core Relative.
From Verif Require Import Num NumXR NumB32 Glam Transform2 Shapes2 Gjk Detect2 Spec SpecLink P_Base P_Transform P_Shapes P_Geo P_Gjk P_B32 Props_F32 Props_F32Gjk
  Props_F32Ball P_F32Box Props_F32Box P_Drift P_Deep P_Scene Props_Deep Spec32 Props_Drift P_Closed32 Props_Approx P_Deep32 P_Deep32b P_Deep32c P_Deep32d P_Deep32e
  P_Deep32f P_Deep32g Props_Deep32 Props_Sdf32.
Import ListNotations.
Local Open Scope R_scope.

(** ** Vocabulary *)
(** p is within eps of A and no point of A lies further than p in direction d by more than eps *)
Definition nearly_farthest (eps : R) (A : pset) (d p : pt) : Prop :=
  (exists q, A q /\ norm (psub p q) <= eps) /\ forall q, A q -> pdot d q <= pdot d p + eps * norm d.
(** a direction whose length is between 2^-24 and 2^59 *)
Definition usual_direction (d : vec2 b32) : Prop := fin2 d /\ bpow radix2 (-24) <= norm (rval d) <= bpow radix2 59.

Lemma usual_probe d : usual_direction d -> probe d.
Proof. intros (F & L & U). split; [exact F|]. split; [eapply Rle_trans; [|exact L]; apply bpow_le; lia | eapply Rle_trans; [exact U|]; apply bpow_le; lia]. Qed.
Lemma nearly_mono eps eps' A d p : eps <= eps' -> nearly_farthest eps A d p -> nearly_farthest eps' A d p.
Proof. intros H [(q & Hq & N) M]. split; [exists q; split; [exact Hq | lra]|]. intros z Hz. specialize (M z Hz). pose proof (norm_nonneg d). assert (eps * norm d <= eps' * norm d) by (apply Rmult_le_compat_r; lra). lra. Qed.

(** ** Boxes: no error at all, for every finite direction *)
Theorem C66_box : forall (b : box2d b32) (d : vec2 b32), fin2 (halfsize b) -> 0 <= val (vx (halfsize b)) -> 0 <= val (vy (halfsize b)) -> fin2 d ->
  let p := extreme_point b d in fin2 p /\ is_farthest (rect (val (vx (halfsize b))) (val (vy (halfsize b)))) (rval d) (rval p).
Proof.
  intros b d [Fx Fy] X0 Y0 [Gx Gy]. destruct (sb_sgn _ Gx) as (s1 & S1 & [E1 Z1]). destruct (sb_sgn _ Gy) as (s2 & S2 & [E2 Z2]).
  assert (EX : extreme_point b d = V2 (fmul (one s1) (vx (halfsize b))) (fmul (one s2) (vy (halfsize b)))). { change (extreme_point b d) with (V2 (fmul (fsignum (vx d)) (vx (halfsize b))) (fmul (fsignum (vy d)) (vy (halfsize b)))). rewrite (sb_signum _ _ S1), (sb_signum _ _ S2). reflexivity. }
  destruct (one_mul s1 _ Fx) as [K1 W1]. destruct (one_mul s2 _ Fy) as [K2 W2]. cbv zeta. rewrite EX. set (x := val (vx (halfsize b))) in * . set (y := val (vy (halfsize b))) in * .
  assert (RX : rval (V2 (fmul (one s1) (vx (halfsize b))) (fmul (one s2) (vy (halfsize b)))) = (sg s1 * x, sg s2 * y)) by (unfold rval; cbn [vx vy]; rewrite W1, W2; reflexivity). rewrite RX.
  split; [split; assumption|]. split; [unfold rect; cbn [fst snd]; destruct s1, s2; cbn [sg]; lra|]. intros p [H1 H2]. unfold pdot. cbn [rval fst snd].
  assert (A1 : sg s1 * val (vx d) = Rabs (val (vx d))) by (rewrite E1 at 1; rewrite <- Rmult_assoc, sg_sq; ring).
  assert (Q1 : val (vx d) * fst p <= val (vx d) * (sg s1 * x)). { replace (val (vx d) * (sg s1 * x)) with (Rabs (val (vx d)) * x) by (rewrite <- A1; ring). eapply Rle_trans; [apply Rle_abs|]. rewrite Rabs_mult. apply Rmult_le_compat_l; [apply Rabs_pos | apply Rabs_le; lra]. }
  assert (A2 : sg s2 * val (vy d) = Rabs (val (vy d))) by (rewrite E2 at 1; rewrite <- Rmult_assoc, sg_sq; ring).
  assert (Q2 : val (vy d) * snd p <= val (vy d) * (sg s2 * y)). { replace (val (vy d) * (sg s2 * y)) with (Rabs (val (vy d)) * y) by (rewrite <- A2; ring). eapply Rle_trans; [apply Rle_abs|]. rewrite Rabs_mult. apply Rmult_le_compat_l; [apply Rabs_pos | apply Rabs_le; lra]. }
  lra.
Qed.
Print Assumptions C66_box.

(** ** All shapes *)
Theorem C66_shape : forall (a : shape2d b32) (d : vec2 b32) r, sound32 a -> included (points_of a) (disc r) -> r <= bpow radix2 24 -> usual_direction d ->
  let p := extreme_point a d in fin2 p /\ nearly_farthest (10 * u32 * r + bpow radix2 (-100)) (points_of a) (rval d) (rval p) /\
  forall l, corner_list a = Some l -> In p l.
Proof.
  intros a d r S I R D. destruct (ext32 a d r S I R (usual_probe d D)) as (F & N & M & C). cbv zeta. split; [exact F|]. split; [split; [exact N | exact M] | exact C].
Qed.
Print Assumptions C66_shape.

(** Ball as a type of its own *)
Theorem C66_ball : forall (r : b32) (d : vec2 b32), fin r -> 0 <= val r <= bpow radix2 24 -> usual_direction d ->
  let p := extreme_point (Ball r) d in fin2 p /\ nearly_farthest (10 * u32 * val r + bpow radix2 (-100)) (disc (val r)) (rval d) (rval p) /\
  norm (psub (rval p) (pscale (val r / norm (rval d)) (rval d))) <= 10 * u32 * val r + bpow radix2 (-100).
Proof.
  intros r d F [R0 R1] D. destruct (C66_shape (SBall (Ball r)) d (val r) (conj F R0) (fun p Hp => Hp) R1 D) as (A & B & _). destruct (ball_ext r d F R0 R1 (usual_probe d D)) as (_ & N & _). split; [exact A|]. split; [exact B | exact N].
Qed.
Print Assumptions C66_ball.

(** ** RoundedBox2d *)
Theorem C66_rounded_box : forall (b : rounded_box2d b32) (d : vec2 b32), let h := rb_halfsize b in let r := rb_radius b in
  fin2 h -> 0 <= val (vx h) -> 0 <= val (vy h) -> norm (rval h) <= bpow radix2 24 -> fin r -> 0 <= val r <= bpow radix2 24 -> usual_direction d ->
  let p := extreme_point b d in fin2 p /\
  nearly_farthest (u32 * (12 * val r + norm (rval h)) + bpow radix2 (-99)) (rounded_rect (val (vx h)) (val (vy h)) (val r)) (rval d) (rval p).
Proof.
  intros b d h r Fh X0 Y0 Nh Fr [R0 R1] D. destruct (C66_ball r d Fr (conj R0 R1) D) as (Fb & _ & Nb). destruct (C66_box (Box2d h) d Fh X0 Y0 (proj1 D)) as (Fc & Hc & Mc). cbn [halfsize] in Hc, Mc.
  change (extreme_point b d) with (v2add (extreme_point (Ball r) d) (extreme_point (Box2d h) d)). set (p1 := extreme_point (Ball r) d) in * . set (p2 := extreme_point (Box2d h) d) in * .
  set (n := norm (rval d)) in * . assert (Pn : 0 < n) by (destruct D as (_ & L & _); pose proof (bpow_gt_0 radix2 (-24)); fold n in L; lra). set (w := pscale (val r / n) (rval d)) in * .
  assert (Nw : norm w = val r). { unfold w. rewrite norm_scale, Rabs_pos_eq by (apply Rmult_le_pos; [lra | apply Rlt_le, Rinv_0_lt_compat, Pn]). fold n. field. lra. }
  assert (Dw : pdot (rval d) w = val r * n) by (unfold w; rewrite pdot_scale_r, <- norm_sq; fold n; field; lra).
  pose proof u32_pos as U0. pose proof u32_small as U1. pose proof (bpow_gt_0 radix2 (-100)) as H0. assert (H1 : bpow radix2 (-99) = 2 * bpow radix2 (-100)) by (change 2 with (bpow radix2 1); rewrite <- bpow_plus; reflexivity).
  assert (H2 : bpow radix2 (-100) <= 1) by (apply (bpow_le radix2 (-100) 0); lia). assert (UR : u32 * val r <= 1 / 16777216 * val r) by (apply Rmult_le_compat_r; lra).
  assert (N1 : norm (rval p1) <= 101 / 100 * val r + bpow radix2 (-100)) by (pose proof (norm_triangle_sub (rval p1) w); lra).
  assert (N2 : norm (rval p2) <= norm (rval h)). { destruct Hc as [[A1 A2] [B1 B2]]. unfold norm. apply sqrt_le_1_alt. unfold pdot. set (u := fst (rval p2)) in * . set (v := snd (rval p2)) in * . change (fst (rval h)) with (val (vx h)). change (snd (rval h)) with (val (vy h)). assert (u * u <= val (vx h) * val (vx h)) by nra. assert (v * v <= val (vy h) * val (vy h)) by nra. lra. }
  pose proof (norm_triangle (rval p1) (rval p2)) as T. assert (E24 : bpow radix2 24 = 16777216) by (cbn; lra).
  destruct (vadd_ok p1 p2 Fb Fc) as [F E]. { apply Rle_trans with (bpow radix2 30); [|apply bpow_le; lia]. assert (bpow radix2 30 = 1073741824) by (cbn; lra). lra. }
  assert (UE : u32 * norm (padd (rval p1) (rval p2)) <= u32 * (101 / 100 * val r + bpow radix2 (-100) + norm (rval h))) by (apply Rmult_le_compat_l; lra).
  assert (UH : u32 * bpow radix2 (-100) <= 1 * bpow radix2 (-100)) by (apply Rmult_le_compat_r; lra). assert (UR0 : 0 <= u32 * val r) by (apply Rmult_le_pos; lra).
  set (eps := u32 * (12 * val r + norm (rval h)) + bpow radix2 (-99)).
  assert (NE : norm (psub (rval (v2add p1 p2)) (padd w (rval p2))) <= eps).
  { replace (psub (rval (v2add p1 p2)) (padd w (rval p2))) with (padd (psub (rval (v2add p1 p2)) (padd (rval p1) (rval p2))) (psub (rval p1) w)) by (apply pt_eq; cbn; ring). eapply Rle_trans; [apply norm_triangle|]. unfold eps. lra. }
  cbv zeta. split; [exact F|]. split.
  - exists (padd w (rval p2)). split; [|exact NE]. exists (rval p2). split; [exact Hc|]. replace (psub (padd w (rval p2)) (rval p2)) with w by (apply pt_eq; cbn; ring). lra.
  - intros q (z & Hz & Nz). specialize (Mc z Hz). pose proof (cauchy (rval d) (psub q z)) as C. fold n in C. rewrite pdot_sub_r in C. assert (n * norm (psub q z) <= n * val r) by (apply Rmult_le_compat_l; lra).
    pose proof (cauchy_abs (rval d) (psub (rval (v2add p1 p2)) (padd w (rval p2)))) as CA. apply abs_le2' in CA. rewrite pdot_sub_r in CA. fold n in CA. assert (n * norm (psub (rval (v2add p1 p2)) (padd w (rval p2))) <= n * eps) by (apply Rmult_le_compat_l; lra).
    assert (pdot (rval d) (padd w (rval p2)) = val r * n + pdot (rval d) (rval p2)) by (rewrite <- Dw; unfold pdot, padd; cbn [fst snd]; ring). fold n. lra.
Qed.
Print Assumptions C66_rounded_box.

(** ** Placed shapes and the Minkowski support *)
Section Placed.
Context {T : Type} {TR : Transformation2d b32 T}.
Variables (t : T) (pos : pt) (c s k : R).
Hypotheses (Hk : 0 < k <= 16) (Hr1 : 1 / 2 <= norm (c, s)) (Hr2 : norm (c, s) <= 3 / 2) (Np : norm pos <= bpow radix2 22).
Hypothesis Hf : forall rho, 0 <= rho <= bpow radix2 25 -> follows t pos c s k rho (eta0 k rho pos) (5 * u32).
Lemma rho_ok r : 0 <= r <= bpow radix2 24 -> 0 <= r + slack r <= bpow radix2 25.
Proof.
  intros [R0 R1]. pose proof (slack_pos r R0). split; [lra|]. unfold slack. pose proof u32_small. pose proof u32_pos. assert (bpow radix2 24 = 16777216) by (cbn; lra). assert (bpow radix2 25 = 33554432) by (cbn; lra). assert (bpow radix2 (-100) <= 1) by (apply (bpow_le radix2 (-100) 0); lia). assert (u32 * r <= 1 / 16777216 * r) by (apply Rmult_le_compat_r; lra). lra.
Qed.
Lemma placed (b : shape2d b32) d r : sound32 b -> included (points_of b) (disc r) -> 0 <= r <= bpow radix2 24 -> usual_direction d ->
  let y := apply t (extreme_point b (unapply_normal t (v2neg d))) in fin2 y /\
  (exists q, points_of b q /\ norm (psub (rval y) (place pos c s k k q)) <= 46 * u32 * (k * r + norm pos) + 40 * bpow radix2 (-100)) /\
  forall q, points_of b q -> pdot (pneg (rval d)) (place pos c s k k q) <= pdot (pneg (rval d)) (rval y) + (46 * u32 * (k * r + norm pos) + 40 * bpow radix2 (-100)) * norm (rval d).
Proof.
  intros Sb Ib [R0 R1] D. pose proof u32_pos as U0. pose proof u32_small as U1. destruct (rho_ok r (conj R0 R1)) as [P1 P2]. pose proof (Hf (r + slack r) (conj P1 P2)) as F.
  destruct (back_probe t pos c s k r (eta0 k (r + slack r) pos) (5 * u32) Hr1 Hr2 ltac:(lra) F d D) as [Pe Ne]. destruct (proj2 F d D) as [_ Ke]. set (e := unapply_normal t (v2neg d)) in * .
  destruct (ext32 b e r Sb Ib R1 Pe) as (Fz & (q0 & Hq0 & Nq0) & Mz & _). set (z := extreme_point b e) in * . pose proof (slack_pos r R0) as PS.
  assert (Nz : norm (rval z) <= r + slack r). { pose proof (norm_triangle_sub (rval z) q0). pose proof (Ib q0 Hq0) as K. unfold disc in K. lra. }
  destruct (proj1 F z Fz Nz) as [Fy Ny]. set (y := apply t z) in * . set (n := norm (rval d)) in * . assert (Pn : 0 < n) by (destruct D as (_ & L & _); pose proof (bpow_gt_0 radix2 (-24)); fold n in L; lra).
  set (h := bpow radix2 (-100)) in * . assert (H0 : 0 < h) by apply bpow_gt_0. set (py := place pos c s k k (rval z)) in * . pose proof (norm_nonneg pos) as Pp.
  set (kr := k * r) in * . assert (PK : 0 <= kr) by (apply Rmult_le_pos; lra). set (eta := eta0 k (r + slack r) pos) in * .
  assert (KH : k * h <= 16 * h) by (apply Rmult_le_compat_r; lra). assert (UK : 0 <= u32 * kr) by (apply Rmult_le_pos; lra). assert (UP : 0 <= u32 * norm pos) by (apply Rmult_le_pos; lra). assert (UU : u32 * (u32 * kr) <= 1 / 1000 * (u32 * kr)) by (apply Rmult_le_compat_r; lra). assert (UKH : u32 * (k * h) <= 1 / 1000 * (16 * h)) by (apply Rmult_le_compat; try lra; apply Rmult_le_pos; lra).
  assert (KS : k * slack r = 10 * (u32 * kr) + k * h) by (unfold slack, kr; fold h; ring).
  assert (EB : eta + k * (3 * (5 * u32) * (r + slack r) + 2 * slack r) <= 46 * u32 * (kr + norm pos) + 40 * h).
  { replace (k * (3 * (5 * u32) * (r + slack r) + 2 * slack r)) with (15 * u32 * (kr + k * slack r) + 2 * (k * slack r)) by (unfold kr; ring). unfold eta, eta0. fold h. replace (k * (r + slack r)) with (kr + k * slack r) by (unfold kr; ring). rewrite KS.
    replace (u32 * (kr + (10 * (u32 * kr) + k * h))) with (u32 * kr + 10 * (u32 * (u32 * kr)) + u32 * (k * h)) by ring.
    replace (9 * u32 * (kr + (10 * (u32 * kr) + k * h) + norm pos) + h + (15 * u32 * (kr + (10 * (u32 * kr) + k * h)) + 2 * (10 * (u32 * kr) + k * h))) with (44 * (u32 * kr) + 240 * (u32 * (u32 * kr)) + 24 * (u32 * (k * h)) + 9 * (u32 * norm pos) + h + 2 * (k * h)) by ring. lra. }
  assert (KK : 0 <= k * slack r) by (apply Rmult_le_pos; lra).
  assert (X2 : 2 * (k * slack r) <= k * (3 * (5 * u32) * (r + slack r) + 2 * slack r)). { replace (k * (3 * (5 * u32) * (r + slack r) + 2 * slack r)) with (15 * (u32 * (k * (r + slack r))) + 2 * (k * slack r)) by ring. assert (0 <= u32 * (k * (r + slack r))) by (apply Rmult_le_pos; [lra | apply Rmult_le_pos; lra]). lra. }
  set (kk := k * (3 * (5 * u32) * (r + slack r) + 2 * slack r)) in * . set (eps := 46 * u32 * (kr + norm pos) + 40 * h) in * .
  cbv zeta. split; [exact Fy|]. split.
  - exists q0. split; [exact Hq0|]. replace (psub (rval y) (place pos c s k k q0)) with (padd (psub (rval y) py) (psub py (place pos c s k k q0))) by (apply pt_eq; cbn; ring). eapply Rle_trans; [apply norm_triangle|].
    assert (N3 : norm (psub py (place pos c s k k q0)) <= 3 / 2 * (k * slack r)). { unfold py. rewrite place_sub, norm_scale, rotate_norm, (Rabs_pos_eq k) by lra. replace (3 / 2 * (k * slack r)) with (k * (3 / 2 * slack r)) by ring. apply Rmult_le_compat_l; [lra|]. apply Rmult_le_compat; try apply norm_nonneg; assumption. }
    lra.
  - intros q Hq. specialize (Mz q Hq). set (r0 := rotate c (- s) (pneg (rval d))) in * .
    assert (C1 : pdot r0 q <= pdot (rval e) q + 5 * u32 * n * r). { pose proof (cauchy_abs (psub (rval e) r0) q) as C. apply abs_le2' in C. rewrite pdot_sub_l in C. pose proof (Ib q Hq) as K. unfold disc in K. assert (norm (psub (rval e) r0) * norm q <= 5 * u32 * n * r) by (apply Rmult_le_compat; try apply norm_nonneg; assumption). lra. }
    assert (C2 : pdot (rval e) (rval z) <= pdot r0 (rval z) + 5 * u32 * n * (r + slack r)). { pose proof (cauchy_abs (psub (rval e) r0) (rval z)) as C. apply abs_le2' in C. rewrite pdot_sub_l in C. assert (norm (psub (rval e) r0) * norm (rval z) <= 5 * u32 * n * (r + slack r)) by (apply Rmult_le_compat; try apply norm_nonneg; assumption). lra. }
    assert (C3 : slack r * norm (rval e) <= slack r * (151 / 100 * n)) by (apply Rmult_le_compat_l; assumption).
    assert (PKn : 0 <= 5 * u32 * n) by (apply Rmult_le_pos; lra). assert (C4 : 5 * u32 * n * r <= 5 * u32 * n * (r + slack r)) by (apply Rmult_le_compat_l; lra).
    assert (C5 : pdot r0 q <= pdot r0 (rval z) + n * (3 * (5 * u32) * (r + slack r) + 2 * slack r)). { assert (0 <= n * slack r) by (apply Rmult_le_pos; lra). assert (0 <= 5 * u32 * n * (r + slack r)) by (apply Rmult_le_pos; lra). lra. }
    assert (C6 : k * pdot r0 q <= k * pdot r0 (rval z) + n * kk). { unfold kk. replace (k * pdot r0 (rval z) + n * (k * (3 * (5 * u32) * (r + slack r) + 2 * slack r))) with (k * (pdot r0 (rval z) + n * (3 * (5 * u32) * (r + slack r) + 2 * slack r))) by ring. apply Rmult_le_compat_l; lra. }
    assert (C7 : pdot (pneg (rval d)) py <= pdot (pneg (rval d)) (rval y) + n * eta). { pose proof (cauchy_abs (pneg (rval d)) (psub (rval y) py)) as C. apply abs_le2' in C. rewrite pdot_sub_r, norm_neg in C. fold n in C. assert (n * norm (psub (rval y) py) <= n * eta) by (apply Rmult_le_compat_l; lra). lra. }
    unfold py in C7. rewrite place_dot in C7 |- * . fold r0 in C7 |- * . assert (n * (eta + kk) <= n * eps) by (apply Rmult_le_compat_l; lra). lra.
Qed.
Lemma neg_neg (d : vec2 b32) : v2neg (v2neg d) = d.
Proof. destruct d as [x y]. unfold v2neg. cbn [vx vy]. rewrite !opp_opp. reflexivity. Qed.
Lemma neg_usual d : usual_direction d -> usual_direction (v2neg d).
Proof. intros (F & L). destruct (neg32 d F) as [G E]. split; [exact G|]. rewrite E, norm_neg. exact L. Qed.
Lemma h_budget : 40 * bpow radix2 (-100) <= bpow radix2 (-90).
Proof. replace (-90)%Z with (10 + -100)%Z by reflexivity. rewrite bpow_plus. apply Rmult_le_compat_r; [apply bpow_ge_0 | cbn; lra]. Qed.
Lemma pneg_pneg p : pneg (pneg p) = p. Proof. apply pt_eq; cbn; ring. Qed.
Lemma placed_support (b : shape2d b32) d r : sound32 b -> included (points_of b) (disc r) -> r <= bpow radix2 24 -> usual_direction d ->
  let y := extreme_point (Collider2d b t) d in fin2 y /\
  nearly_farthest (64 * u32 * (k * r + norm pos) + bpow radix2 (-90)) (image (place pos c s k k) (points_of b)) (rval d) (rval y).
Proof.
  intros Sb Ib R1 D. pose proof (disc_radius b r Sb Ib) as R0. destruct (placed b (v2neg d) r Sb Ib (conj R0 R1) (neg_usual d D)) as (F & (q & Hq & N) & M). rewrite neg_neg in F, N, M. rewrite (proj2 (neg32 d (proj1 D))), pneg_pneg, norm_neg in M.
  change (extreme_point (Collider2d b t) d) with (apply t (extreme_point b (unapply_normal t d))). cbv zeta. split; [exact F|].
  apply (nearly_mono (46 * u32 * (k * r + norm pos) + 40 * bpow radix2 (-100))).
  - pose proof h_budget. pose proof u32_pos. pose proof (norm_nonneg pos). assert (0 <= u32 * (k * r + norm pos)) by (apply Rmult_le_pos; [lra|]; assert (0 <= k * r) by (apply Rmult_le_pos; lra); lra). lra.
  - split; [exists (place pos c s k k q); split; [exists q; split; [exact Hq | reflexivity] | exact N]|]. intros z (q' & Hq' & ->). apply M, Hq'.
Qed.
Lemma minkowski_support (a b : shape2d b32) d ra r : sound32 a -> included (points_of a) (disc ra) -> ra <= bpow radix2 24 -> sound32 b -> included (points_of b) (disc r) -> r <= bpow radix2 24 -> usual_direction d ->
  let p := lmd_extreme_point a b t d in fin2 p /\
  nearly_farthest (64 * u32 * (ra + k * r + norm pos) + bpow radix2 (-90)) (minkowski_diff (points_of a) (image (place pos c s k k) (points_of b))) (rval d) (rval p).
Proof.
  intros Sa Ia Ra Sb Ib R1 D. pose proof (disc_radius b r Sb Ib) as R0. pose proof (disc_radius a ra Sa Ia) as Ra0. destruct (placed b d r Sb Ib (conj R0 R1) D) as (Fy & (q & Hq & N) & M). destruct (ext32 a d ra Sa Ia Ra (usual_probe d D)) as (Fx & (p & Hp & Np0) & Mx & _).
  change (lmd_extreme_point a b t d) with (v2sub (extreme_point a d) (apply t (extreme_point b (unapply_normal t (v2neg d))))). set (x := extreme_point a d) in * . set (y := apply t (extreme_point b (unapply_normal t (v2neg d)))) in * .
  set (n := norm (rval d)) in * . set (h := bpow radix2 (-100)) in * . assert (H0 : 0 < h) by apply bpow_gt_0. assert (H1 : h <= 1) by (apply (bpow_le radix2 (-100) 0); lia). pose proof u32_pos as U0. pose proof u32_small as U1. pose proof (norm_nonneg pos) as Pp. assert (Pn : 0 <= n) by apply norm_nonneg.
  set (kr := k * r) in * . assert (PK : 0 <= kr) by (apply Rmult_le_pos; lra). set (eb := 46 * u32 * (kr + norm pos) + 40 * h) in * . unfold slack in Np0, Mx. fold h in Np0, Mx. set (ea := 10 * u32 * ra + h) in * .
  set (pq := place pos c s k k q) in * .
  assert (UA : 0 <= u32 * ra) by (apply Rmult_le_pos; lra). assert (UK : 0 <= u32 * (kr + norm pos)) by (apply Rmult_le_pos; lra). assert (UA1 : u32 * ra <= 1 / 1000 * ra) by (apply Rmult_le_compat_r; lra). assert (UK1 : u32 * (kr + norm pos) <= 1 / 1000 * (kr + norm pos)) by (apply Rmult_le_compat_r; lra). assert (UH : u32 * h <= 1 / 1000 * h) by (apply Rmult_le_compat_r; lra).
  assert (Npq : norm pq <= norm pos + 3 / 2 * kr). { replace pq with (padd pos (psub pq (place pos c s k k origin))) by (apply pt_eq; unfold pq, place, padd, psub, origin; cbn [fst snd]; ring). eapply Rle_trans; [apply norm_triangle|]. unfold pq. rewrite place_sub, norm_scale, rotate_norm, (Rabs_pos_eq k) by lra. replace (psub q origin) with q by (apply pt_eq; cbn; ring). pose proof (Ib q Hq) as K. unfold disc in K.
    assert (k * (norm (c, s) * norm q) <= k * (3 / 2 * r)) by (apply Rmult_le_compat_l; [lra|]; apply Rmult_le_compat; try apply norm_nonneg; assumption). unfold kr. lra. }
  assert (Nx : norm (rval x) <= 102 / 100 * ra + h). { pose proof (norm_triangle_sub (rval x) p). pose proof (Ia p Hp) as K. unfold disc in K. unfold ea in Np0. lra. }
  assert (Ny : norm (rval y) <= 16 / 10 * (kr + norm pos) + 40 * h). { pose proof (norm_triangle_sub (rval y) pq). unfold eb in N. lra. }
  assert (Nxy : norm (psub (rval x) (rval y)) <= 102 / 100 * ra + 16 / 10 * (kr + norm pos) + 41 * h). { replace (psub (rval x) (rval y)) with (padd (rval x) (pneg (rval y))) by (apply pt_eq; cbn; ring). eapply Rle_trans; [apply norm_triangle|]. rewrite norm_neg. lra. }
  assert (E24 : bpow radix2 24 = 16777216) by (cbn; lra). assert (E22 : bpow radix2 22 = 4194304) by (cbn; lra). assert (E30 : bpow radix2 30 = 1073741824) by (cbn; lra). assert (KR : kr <= 16 * 16777216) by (apply Rmult_le_compat; lra).
  destruct (vsub_ok x y Fx Fy) as [F E]. { apply Rle_trans with (bpow radix2 30); [lra | apply bpow_le; lia]. }
  assert (UN : u32 * norm (psub (rval x) (rval y)) <= u32 * (102 / 100 * ra + 16 / 10 * (kr + norm pos) + 41 * h)) by (apply Rmult_le_compat_l; lra). set (m := v2sub x y) in * .
  assert (BU : ea + eb + u32 * norm (psub (rval x) (rval y)) <= 64 * u32 * (ra + kr + norm pos) + bpow radix2 (-90)). { assert (42 * h <= bpow radix2 (-90)) by (replace (-90)%Z with (10 + -100)%Z by reflexivity; rewrite bpow_plus; fold h; apply Rmult_le_compat_r; [lra | cbn; lra]). unfold ea, eb. lra. }
  cbv zeta. split; [exact F|]. apply (nearly_mono _ _ _ _ _ BU). set (ec := u32 * norm (psub (rval x) (rval y))) in * . split.
  - exists (psub p pq). split; [exists p, pq; split; [exact Hp|]; split; [exists q; split; [exact Hq | reflexivity] | reflexivity]|].
    replace (psub (rval m) (psub p pq)) with (padd (padd (psub (rval x) p) (pneg (psub (rval y) pq))) (psub (rval m) (psub (rval x) (rval y)))) by (apply pt_eq; cbn; ring). eapply Rle_trans; [apply norm_triangle|]. pose proof (norm_triangle (psub (rval x) p) (pneg (psub (rval y) pq))) as TT. rewrite norm_neg in TT. lra.
  - intros z (p' & y' & Hp' & (q' & Hq' & ->) & ->). specialize (Mx p' Hp'). specialize (M q' Hq'). fold n in Mx, M. set (py := place pos c s k k q') in * .
    assert (EN : forall v, pdot (pneg (rval d)) v = - pdot (rval d) v) by (intro v; unfold pdot, pneg; cbn [fst snd]; ring). rewrite !EN in M.
    pose proof (cauchy_abs (rval d) (psub (rval m) (psub (rval x) (rval y)))) as C. apply abs_le2' in C. rewrite !pdot_sub_r in C. fold n in C. assert (n * norm (psub (rval m) (psub (rval x) (rval y))) <= n * ec) by (apply Rmult_le_compat_l; lra). rewrite pdot_sub_r. fold n. lra.
Qed.
End Placed.

(** a collider of any shape: the extreme point of the shape turned by a rotor, drawn k times as large and moved to v *)
Theorem C66_collider : forall (b : shape2d b32) (v rot : vec2 b32) (k : b32) (d : vec2 b32) r,
  fin2 v -> norm (rval v) <= bpow radix2 22 -> fin2 rot -> 1 / 2 <= norm (rval rot) <= 3 / 2 -> fin k -> 0 < val k <= 16 ->
  sound32 b -> included (points_of b) (disc r) -> r <= bpow radix2 24 -> usual_direction d ->
  let B c s f := image (place (rval v) c s f f) (points_of b) in
  (let y := extreme_point (Collider2d b (Transform2d v (Rotor rot) (V2 k k))) d in
   fin2 y /\ nearly_farthest (64 * u32 * (val k * r + norm (rval v)) + bpow radix2 (-90)) (B (val (vx rot)) (val (vy rot)) (val k)) (rval d) (rval y)) /\
  (let y := extreme_point (Collider2d b (AxisTransform2d v k)) d in
   fin2 y /\ nearly_farthest (64 * u32 * (val k * r + norm (rval v)) + bpow radix2 (-90)) (B 1 0 (val k)) (rval d) (rval y)) /\
  (let y := extreme_point (Collider2d b (Translate2d v)) d in
   fin2 y /\ nearly_farthest (64 * u32 * (1 * r + norm (rval v)) + bpow radix2 (-90)) (B 1 0 1) (rval d) (rval y)) /\
  (let y := extreme_point (Collider2d b v) d in
   fin2 y /\ nearly_farthest (64 * u32 * (1 * r + norm (rval v)) + bpow radix2 (-90)) (B 1 0 1) (rval d) (rval y)).
Proof.
  intros b v rot k d r Fv Nv Fr [N1 N2] Fk Hk Sb Ib R1 D B. split; [|split; [|split]].
  - apply placed_support; try assumption. intros rho Hrho. apply full_follows; assumption.
  - apply placed_support; try assumption; try (rewrite norm_cs0; lra). intros rho Hrho. apply axis_follows; assumption.
  - apply placed_support; try assumption; try (rewrite norm_cs0; lra); [lra|]. intros rho Hrho. apply translate_follows; assumption.
  - apply placed_support; try assumption; try (rewrite norm_cs0; lra); [lra|]. intros rho Hrho. apply vec_follows; assumption.
Qed.
Print Assumptions C66_collider.

(** the support points the overlap search works with *)
Theorem C66_minkowski : forall (a b : shape2d b32) (v rot : vec2 b32) (k : b32) (d : vec2 b32) ra r,
  fin2 v -> norm (rval v) <= bpow radix2 22 -> fin2 rot -> 1 / 2 <= norm (rval rot) <= 3 / 2 -> fin k -> 0 < val k <= 16 ->
  sound32 a -> included (points_of a) (disc ra) -> ra <= bpow radix2 24 -> sound32 b -> included (points_of b) (disc r) -> r <= bpow radix2 24 -> usual_direction d ->
  let M c s f := minkowski_diff (points_of a) (image (place (rval v) c s f f) (points_of b)) in
  (let y := lmd_extreme_point a b (Transform2d v (Rotor rot) (V2 k k)) d in
   fin2 y /\ nearly_farthest (64 * u32 * (ra + val k * r + norm (rval v)) + bpow radix2 (-90)) (M (val (vx rot)) (val (vy rot)) (val k)) (rval d) (rval y)) /\
  (let y := lmd_extreme_point a b (AxisTransform2d v k) d in
   fin2 y /\ nearly_farthest (64 * u32 * (ra + val k * r + norm (rval v)) + bpow radix2 (-90)) (M 1 0 (val k)) (rval d) (rval y)) /\
  (let y := lmd_extreme_point a b (Translate2d v) d in
   fin2 y /\ nearly_farthest (64 * u32 * (ra + 1 * r + norm (rval v)) + bpow radix2 (-90)) (M 1 0 1) (rval d) (rval y)) /\
  (let y := lmd_extreme_point a b v d in
   fin2 y /\ nearly_farthest (64 * u32 * (ra + 1 * r + norm (rval v)) + bpow radix2 (-90)) (M 1 0 1) (rval d) (rval y)).
Proof.
  intros a b v rot k d ra r Fv Nv Fr [N1 N2] Fk Hk Sa Ia Ra Sb Ib R1 D M. split; [|split; [|split]].
  - apply minkowski_support; try assumption. intros rho Hrho. apply full_follows; assumption.
  - apply minkowski_support; try assumption; try (rewrite norm_cs0; lra). intros rho Hrho. apply axis_follows; assumption.
  - apply minkowski_support; try assumption; try (rewrite norm_cs0; lra); [lra|]. intros rho Hrho. apply translate_follows; assumption.
  - apply minkowski_support; try assumption; try (rewrite norm_cs0; lra); [lra|]. intros rho Hrho. apply vec_follows; assumption.
Qed.
Print Assumptions C66_minkowski.

(** a Ball collider has its own code: the turn is not used, the larger of the two scales is *)
Theorem C66_ball_collider : forall (r k : b32) (v rot : vec2 b32) (d : vec2 b32),
  fin r -> 0 <= val r <= bpow radix2 24 -> fin k -> 0 < val k <= 16 -> fin2 v -> norm (rval v) <= bpow radix2 22 -> usual_direction d ->
  let good y := fin2 y /\ nearly_farthest (64 * u32 * (val k * val r + norm (rval v)) + bpow radix2 (-90)) (shift (rval v) (disc (val k * val r))) (rval d) (rval y) in
  good (extreme_point (Collider2d (Ball r) (Transform2d v (Rotor rot) (V2 k k))) d) /\ good (extreme_point (Collider2d (Ball r) (AxisTransform2d v k)) d).
Proof.
  intros r k v rot d Fr [R0 R1] Fk Hk Fv Nv D good.
  assert (G : good (v2add v (V2 (fmul k (vx (extreme_point (Ball r) d))) (fmul k (vy (extreme_point (Ball r) d)))))).
  { destruct (C66_ball r d Fr (conj R0 R1) D) as (Fp & _ & Np). set (p := extreme_point (Ball r) d) in * . set (n := norm (rval d)) in * . assert (Pn : 0 < n) by (destruct D as (_ & L & _); pose proof (bpow_gt_0 radix2 (-24)); fold n in L; lra).
    set (w := pscale (val r / n) (rval d)) in * . assert (Nw : norm w = val r). { unfold w. rewrite norm_scale, Rabs_pos_eq by (apply Rmult_le_pos; [lra | apply Rlt_le, Rinv_0_lt_compat, Pn]). fold n. field. lra. }
    assert (Dw : pdot (rval d) w = val r * n) by (unfold w; rewrite pdot_scale_r, <- norm_sq; fold n; field; lra). pose proof u32_pos as U0. pose proof u32_small as U1.
    assert (Nr : norm (rval p) <= val r + slack (val r)) by (pose proof (norm_triangle_sub (rval p) w); unfold slack; lra). destruct (rho_ok (val r) (conj R0 R1)) as [Q1 Q2].
    destruct (scale_ok k p _ Fk Hk Fp Nr Q2) as [Fq Eq]. set (q := V2 (fmul k (vx p)) (fmul k (vy p))) in * . set (kr := val k * val r) in * . assert (PK : 0 <= kr) by (apply Rmult_le_pos; lra).
    set (h := bpow radix2 (-100)) in * . assert (H0 : 0 < h) by apply bpow_gt_0. assert (H1 : h <= 1) by (apply (bpow_le radix2 (-100) 0); lia). pose proof tiny100 as T1. fold h in T1. pose proof tiny_pos as T0.
    assert (KS : val k * (val r + slack (val r)) = kr + 10 * (u32 * kr) + val k * h) by (unfold slack, kr; fold h; ring). assert (KH : val k * h <= 16 * h) by (apply Rmult_le_compat_r; lra). assert (KH0 : 0 <= val k * h) by (apply Rmult_le_pos; lra).
    assert (UK : 0 <= u32 * kr) by (apply Rmult_le_pos; lra). assert (UK1 : u32 * kr <= 1 / 1000 * kr) by (apply Rmult_le_compat_r; lra). assert (UU : u32 * (u32 * kr) <= 1 / 1000 * (u32 * kr)) by (apply Rmult_le_compat_r; lra). assert (UKH : u32 * (val k * h) <= 1 / 1000 * (16 * h)) by (apply Rmult_le_compat; lra). pose proof (norm_nonneg (rval v)) as Pv. assert (UV : 0 <= u32 * norm (rval v)) by (apply Rmult_le_pos; lra).
    rewrite KS in Eq. replace (u32 * (kr + 10 * (u32 * kr) + val k * h)) with (u32 * kr + 10 * (u32 * (u32 * kr)) + u32 * (val k * h)) in Eq by ring.
    assert (E2 : norm (psub (rval q) (pscale (val k) w)) <= 13 * (u32 * kr) + 20 * h).
    { replace (psub (rval q) (pscale (val k) w)) with (padd (psub (rval q) (pscale (val k) (rval p))) (pscale (val k) (psub (rval p) w))) by (apply pt_eq; cbn; ring). eapply Rle_trans; [apply norm_triangle|]. rewrite norm_scale, (Rabs_pos_eq (val k)) by lra.
      assert (val k * norm (psub (rval p) w) <= val k * (10 * u32 * val r + h)) by (apply Rmult_le_compat_l; lra). replace (val k * (10 * u32 * val r + h)) with (10 * (u32 * kr) + val k * h) in H by (unfold kr; ring). lra. }
    assert (Nkw : norm (pscale (val k) w) = kr) by (rewrite norm_scale, Rabs_pos_eq, Nw by lra; reflexivity).
    assert (Nq : norm (rval q) <= 102 / 100 * kr + 20 * h) by (pose proof (norm_triangle_sub (rval q) (pscale (val k) w)); lra). pose proof (norm_triangle (rval v) (rval q)) as TQ.
    assert (E24 : bpow radix2 24 = 16777216) by (cbn; lra). assert (E22 : bpow radix2 22 = 4194304) by (cbn; lra). assert (E30 : bpow radix2 30 = 1073741824) by (cbn; lra). assert (KR : kr <= 16 * 16777216) by (apply Rmult_le_compat; lra).
    destruct (vadd_ok v q Fv Fq) as [F E]. { apply Rle_trans with (bpow radix2 30); [lra | apply bpow_le; lia]. }
    assert (UE : u32 * norm (padd (rval v) (rval q)) <= u32 * (norm (rval v) + (102 / 100 * kr + 20 * h))) by (apply Rmult_le_compat_l; lra). assert (UH : u32 * h <= 1 / 1000 * h) by (apply Rmult_le_compat_r; lra).
    set (y := v2add v q) in * . set (eps := 64 * u32 * (kr + norm (rval v)) + bpow radix2 (-90)). pose proof h_budget as HB. fold h in HB.
    assert (NE : norm (psub (rval y) (padd (rval v) (pscale (val k) w))) <= eps). { replace (psub (rval y) (padd (rval v) (pscale (val k) w))) with (padd (psub (rval y) (padd (rval v) (rval q))) (psub (rval q) (pscale (val k) w))) by (apply pt_eq; cbn; ring). eapply Rle_trans; [apply norm_triangle|]. unfold eps. lra. }
    split; [exact F|]. fold eps. split.
    - exists (padd (rval v) (pscale (val k) w)). split; [|exact NE]. unfold shift, disc. replace (psub (padd (rval v) (pscale (val k) w)) (rval v)) with (pscale (val k) w) by (apply pt_eq; cbn; ring). lra.
    - intros z Hz. unfold shift, disc in Hz. fold n. pose proof (cauchy (rval d) (psub z (rval v))) as C. fold n in C. rewrite pdot_sub_r in C. assert (n * norm (psub z (rval v)) <= n * kr) by (apply Rmult_le_compat_l; lra).
      pose proof (cauchy_abs (rval d) (psub (rval y) (padd (rval v) (pscale (val k) w)))) as CA. apply abs_le2' in CA. rewrite pdot_sub_r in CA. fold n in CA. assert (n * norm (psub (rval y) (padd (rval v) (pscale (val k) w))) <= n * eps) by (apply Rmult_le_compat_l; lra).
      assert (pdot (rval d) (padd (rval v) (pscale (val k) w)) = pdot (rval d) (rval v) + kr * n). { replace (kr * n) with (val k * (val r * n)) by (unfold kr; ring). rewrite <- Dw. unfold pdot, padd, pscale. cbn [fst snd]. ring. } lra. }
  assert (MK : fmax k k = k). { unfold fmax. rewrite (fin_nan k Fk). cbn [negb]. rewrite flt_fin by assumption. destruct (Rltb (val k) (val k)); reflexivity. }
  split; [|exact G]. change (extreme_point (Collider2d (Ball r) (Transform2d v (Rotor rot) (V2 k k))) d) with (v2add v (V2 (fmul (fmax k k) (vx (extreme_point (Ball r) d))) (fmul (fmax k k) (vy (extreme_point (Ball r) d))))). rewrite MK. exact G.
Qed.
Print Assumptions C66_ball_collider.

(** ** Directions outside the usual range: the ball's extreme point is its centre *)
Theorem C66_ball_direction_refuted : exists r dbig dsmall : b32,
  fin r /\ val r = 1 /\ fin dbig /\ val dbig = bpow radix2 64 /\ fin dsmall /\ val dsmall = bpow radix2 (-75) /\
  (let p := extreme_point (Ball r) (V2 dbig f0) in rval p = origin /\ ~ nearly_farthest (1 / 2) (disc 1) (rval (V2 dbig f0)) (rval p)) /\
  (let p := extreme_point (Ball r) (V2 dsmall f0) in rval p = origin /\ ~ nearly_farthest (1 / 2) (disc 1) (rval (V2 dsmall f0)) (rval p)).
Proof.
  assert (Z : forall d m, 0 < m -> rval d = (m, 0) -> ~ nearly_farthest (1 / 2) (disc 1) (rval d) origin).
  { intros d m Pm E [_ M]. rewrite E in M. assert (N1 : norm (1, 0) = 1) by apply norm_cs0. specialize (M (1, 0) ltac:(unfold disc; lra)). assert (Nm : norm (m, 0) = m) by (unfold norm, pdot; cbn [fst snd]; replace (m * m + 0 * 0) with (m * m) by ring; apply sqrt_square; lra). rewrite Nm in M. unfold pdot, origin in M. cbn [fst snd] in M. lra. }
  exists (b32_of 1 0), (b32_of 1 64), (b32_of 1 (-75)).
  destruct (val_of 1 0 ltac:(lia) ltac:(lia)) as [F1 V1]. destruct (val_of 1 64 ltac:(lia) ltac:(lia)) as [F2 W2]. destruct (val_of 1 (-75) ltac:(lia) ltac:(lia)) as [F3 V3]. rewrite Rmult_1_l in V1, W2, V3. change (bpow radix2 0) with 1 in V1.
  split; [exact F1|]. split; [exact V1|]. split; [exact F2|]. split; [exact W2|]. split; [exact F3|]. split; [exact V3|].
  assert (P : forall m e, B2SF (vx (extreme_point (Ball (b32_of 1 0)) (V2 (b32_of m e) f0))) = SpecFloat.S754_zero false -> B2SF (vy (extreme_point (Ball (b32_of 1 0)) (V2 (b32_of m e) f0))) = SpecFloat.S754_zero false -> rval (extreme_point (Ball (b32_of 1 0)) (V2 (b32_of m e) f0)) = origin).
  { intros m e E1 E2. apply pt_eq; cbn [rval fst snd origin]; unfold val; [rewrite <- SF2R_B2SF; etransitivity; [apply (f_equal (SF2R radix2) E1) | reflexivity] | rewrite <- SF2R_B2SF; etransitivity; [apply (f_equal (SF2R radix2) E2) | reflexivity]]. }
  assert (O2 : rval (extreme_point (Ball (b32_of 1 0)) (V2 (b32_of 1 64) f0)) = origin) by (apply P; vm_compute; reflexivity).
  assert (O3 : rval (extreme_point (Ball (b32_of 1 0)) (V2 (b32_of 1 (-75)) f0)) = origin) by (apply P; vm_compute; reflexivity).
  cbv zeta. rewrite O2, O3. split; (split; [reflexivity|]).
  - apply (Z _ (bpow radix2 64)); [apply bpow_gt_0|]. unfold rval. cbn [vx vy]. rewrite W2. reflexivity.
  - apply (Z _ (bpow radix2 (-75))); [apply bpow_gt_0|]. unfold rval. cbn [vx vy]. rewrite V3. reflexivity.
Qed.
Print Assumptions C66_ball_direction_refuted.

(** ** Bounding boxes: exact *)
Definition half_of (b : box2d b32) : pt := rval (halfsize b).
Definition exact_bounds (A : pset) (b : box2d b32) : Prop := fin2 (halfsize b) /\ tight_box A (fst (half_of b)) (snd (half_of b)).
Lemma cover32 (b : box2d b32) p : fin2 (halfsize b) -> fin2 p -> fin2 (halfsize (box_cover b p)) /\
  fst (half_of (box_cover b p)) = Rmax (fst (half_of b)) (Rabs (fst (rval p))) /\ snd (half_of (box_cover b p)) = Rmax (snd (half_of b)) (Rabs (snd (rval p))).
Proof.
  intros [Hx Hy] [Px Py]. change (halfsize (box_cover b p)) with (V2 (fmax (vx (halfsize b)) (fabs (vx p))) (fmax (vy (halfsize b)) (fabs (vy p)))).
  destruct (fmax_fin32 (vx (halfsize b)) (fabs (vx p)) Hx ltac:(apply fin_abs; exact Px)) as [F1 E1]. destruct (fmax_fin32 (vy (halfsize b)) (fabs (vy p)) Hy ltac:(apply fin_abs; exact Py)) as [F2 E2].
  split; [split; assumption|]. unfold half_of, rval. cbn [fst snd]. change (halfsize (box_cover b p)) with (V2 (fmax (vx (halfsize b)) (fabs (vx p))) (fmax (vy (halfsize b)) (fabs (vy p)))). cbn [vx vy]. rewrite E1, E2, !val_abs. split; reflexivity.
Qed.
(** Box2d::cover *)
Theorem C66_cover : forall (b : box2d b32) (p : vec2 b32), fin2 (halfsize b) -> fin2 p -> 0 <= fst (half_of b) -> 0 <= snd (half_of b) ->
  let c := box_cover b p in let R := rect (fst (half_of b)) (snd (half_of b)) in let R' := rect (fst (half_of c)) (snd (half_of c)) in
  fin2 (halfsize c) /\ included R R' /\ R' (rval p) /\ forall kx ky, included R (rect kx ky) -> rect kx ky (rval p) -> included R' (rect kx ky).
Proof.
  intros b p Fb Fp Hx Hy. destruct (cover32 b p Fb Fp) as (F & E1 & E2). cbv zeta. rewrite E1, E2. split; [exact F|]. split; [|split].
  - apply rect_mono; apply Rmax_l.
  - apply rect_abs. split; apply Rmax_r.
  - intros kx ky I P. apply rect_abs in P. destruct (rect_incl_inv _ _ kx ky Hx Hy I). destruct P. apply rect_mono; apply Rmax_lub; assumption.
Qed.
Print Assumptions C66_cover.
Lemma poly_fold32 : forall l (b : box2d b32), fin2 (halfsize b) -> (forall p, In p l -> fin2 p) -> let c := fold_left box_cover l b in
  fin2 (halfsize c) /\ fst (half_of b) <= fst (half_of c) /\ snd (half_of b) <= snd (half_of c) /\ (forall p, In p l -> rect (fst (half_of c)) (snd (half_of c)) (rval p)) /\
  (forall kx ky, fst (half_of b) <= kx -> snd (half_of b) <= ky -> (forall p, In p l -> rect kx ky (rval p)) -> fst (half_of c) <= kx /\ snd (half_of c) <= ky).
Proof.
  induction l as [|p l IH]; intros b Fb Fl; cbn [fold_left]; cbv zeta.
  - split; [exact Fb|]. split; [lra|]. split; [lra|]. split; [intros p []|]. intros kx ky K1 K2 _. split; assumption.
  - destruct (cover32 b p Fb (Fl p (or_introl eq_refl))) as (F & E1 & E2). destruct (IH (box_cover b p) F (fun q Hq => Fl q (or_intror Hq))) as (Fc & L1 & L2 & C & M). set (c := fold_left box_cover l (box_cover b p)) in * . rewrite E1 in L1. rewrite E2 in L2.
    pose proof (Rmax_l (fst (half_of b)) (Rabs (fst (rval p)))). pose proof (Rmax_l (snd (half_of b)) (Rabs (snd (rval p)))). pose proof (Rmax_r (fst (half_of b)) (Rabs (fst (rval p)))). pose proof (Rmax_r (snd (half_of b)) (Rabs (snd (rval p)))).
    split; [exact Fc|]. split; [lra|]. split; [lra|]. split.
    + intros q [<-|Q]; [|apply C, Q]. apply rect_abs. lra.
    + intros kx ky K1 K2 K. pose proof (K p (or_introl eq_refl)) as Kp. apply rect_abs in Kp. apply M; [rewrite E1; apply Rmax_lub; lra | rewrite E2; apply Rmax_lub; lra|]. intros q Q. apply K. right. exact Q.
Qed.
Theorem C66_bounding_boxes : forall (r : b32) (b : box2d b32) (l : list (vec2 b32)),
  fin r -> 0 <= val r -> fin2 (halfsize b) -> l <> [] -> (forall p, In p l -> fin2 p) ->
  exact_bounds (single origin) (symmetric_bounding_box PointS) /\ exact_bounds (disc (val r)) (symmetric_bounding_box (Ball r)) /\
  exact_bounds (rect (val (vx (halfsize b))) (val (vy (halfsize b)))) (symmetric_bounding_box b) /\
  exact_bounds (hull (map rval l)) (symmetric_bounding_box (Poly2d l)).
Proof.
  intros r b l Fr R0 Fb Nl Fl. split; [|split; [|split]].
  - split; [split; reflexivity|]. change (fst (half_of (symmetric_bounding_box PointS))) with 0. change (snd (half_of (symmetric_bounding_box PointS))) with 0. destruct bb_point as (hx & hy & E & T). injection E as <- <-. exact T.
  - split; [split; exact Fr|]. destruct (bb_ball (val r) R0) as (hx & hy & E & T). injection E as <- <-. exact T.
  - split; [exact Fb|]. split; [intros p P; exact P | intros kx ky I; exact I].
  - destruct (poly_fold32 l (box_with_halfdims f0 f0) ltac:(split; reflexivity) Fl) as (Fc & L1 & L2 & C & M). change (symmetric_bounding_box (Poly2d l)) with (fold_left box_cover l (box_with_halfdims f0 f0)). set (c := fold_left box_cover l (box_with_halfdims f0 f0)) in * .
    split; [exact Fc|]. split.
    + apply hull_rect. intros p Hp. apply in_map_iff in Hp. destruct Hp as (q & <- & Hq). apply C, Hq.
    + intros kx ky I. assert (K : forall p, In p l -> rect kx ky (rval p)) by (intros p P; apply I, hull_in, in_map, P). destruct l as [|p0 l']; [contradiction|]. destruct (K p0 (or_introl eq_refl)) as [K1 K2].
      change (fst (half_of (box_with_halfdims f0 f0))) with 0 in M. change (snd (half_of (box_with_halfdims f0 f0))) with 0 in M. destruct (M kx ky ltac:(lra) ltac:(lra) K). apply rect_mono; assumption.
Qed.
Print Assumptions C66_bounding_boxes.

(** the bounding box of a rounded box is within half a unit in the last place of the tight one... *)
Theorem C66_rounded_bounds : forall b : rounded_box2d b32, let h := rb_halfsize b in let r := rb_radius b in
  fin2 h -> fin r -> 0 <= val (vx h) <= bpow radix2 100 -> 0 <= val (vy h) <= bpow radix2 100 -> 0 <= val r <= bpow radix2 100 ->
  let c := symmetric_bounding_box b in fin2 (halfsize c) /\ exists kx ky, tight_box (rounded_rect (val (vx h)) (val (vy h)) (val r)) kx ky /\
  Rabs (fst (half_of c) - kx) <= u32 * kx /\ Rabs (snd (half_of c) - ky) <= u32 * ky.
Proof.
  intros b h r [Fx Fy] Fr Hx Hy Hr. assert (S : forall x y, fin x -> fin y -> 0 <= val x <= bpow radix2 100 -> 0 <= val y <= bpow radix2 100 -> fin (fadd x y) /\ Rabs (val (fadd x y) - (val x + val y)) <= u32 * (val x + val y)).
  { intros x y A B X Y. assert (small (val x + val y) 101). { unfold small. rewrite Rabs_pos_eq by lra. change 101%Z with (1 + 100)%Z. rewrite bpow_plus. change (bpow radix2 1) with 2. lra. }
    destruct (add_ok x y A B) as [F E]. { apply (small_big _ 101); [lia|]. apply rnd_small; [lia | assumption]. } split; [exact F|]. destruct (rnd_error_add x y) as (e & He & Ee). rewrite E, Ee. replace ((val x + val y) * (1 + e) - (val x + val y)) with (e * (val x + val y)) by ring. rewrite Rabs_mult, (Rabs_pos_eq (val x + val y)) by lra. apply Rmult_le_compat_r; lra. }
  destruct (S (vx h) r Fx Fr Hx Hr) as [G1 E1]. destruct (S (vy h) r Fy Fr Hy Hr) as [G2 E2]. cbv zeta. split; [split; assumption|]. destruct (bb_rounded (val (vx h)) (val (vy h)) (val r) ltac:(lra) ltac:(lra) ltac:(lra)) as (kx & ky & E & T). injection E as <- <-.
  exists (val (vx h) + val r), (val (vy h) + val r). split; [exact T|]. split; [exact E1 | exact E2].
Qed.
Print Assumptions C66_rounded_bounds.
(** ... but it can be too small: a half size of 1 and a radius of 2^-24 give a half size of 1 *)
Theorem C66_rounded_bounds_refuted : exists b : rounded_box2d b32, fin2 (rb_halfsize b) /\ fin (rb_radius b) /\
  let h := rb_halfsize b in val (vx h) = 1 /\ val (vy h) = 1 /\ val (rb_radius b) = bpow radix2 (-24) /\
  let c := symmetric_bounding_box b in ~ included (rounded_rect (val (vx h)) (val (vy h)) (val (rb_radius b))) (rect (fst (half_of c)) (snd (half_of c))).
Proof.
  exists (RoundedBox2d (V2 (b32_of 1 0) (b32_of 1 0)) (b32_of 1 (-24))). destruct (val_of 1 0 ltac:(lia) ltac:(lia)) as [F1 V1]. destruct (val_of 1 (-24) ltac:(lia) ltac:(lia)) as [F2 W2]. rewrite Rmult_1_l in V1, W2. change (bpow radix2 0) with 1 in V1.
  cbn [rb_halfsize rb_radius vx vy]. split; [split; exact F1|]. split; [exact F2|]. split; [exact V1|]. split; [exact V1|]. split; [exact W2|]. cbv zeta. rewrite V1, W2. intro I.
  assert (H0 : 0 < bpow radix2 (-24)) by apply bpow_gt_0.
  assert (Px : rounded_rect 1 1 (bpow radix2 (-24)) (1 + bpow radix2 (-24), 0)). { exists (1, 0). split; [unfold rect; cbn [fst snd]; lra|]. unfold psub. cbn [fst snd]. replace (1 + bpow radix2 (-24) - 1) with (bpow radix2 (-24)) by ring. replace (0 - 0) with 0 by ring. rewrite norm_xaxis, Rabs_pos_eq; lra. }
  apply I in Px. destruct Px as [X _]. cbn [fst] in X.
  assert (E : fst (half_of (symmetric_bounding_box (RoundedBox2d (V2 (b32_of 1 0) (b32_of 1 0)) (b32_of 1 (-24))))) = 1).
  { change (val (fadd (b32_of 1 0) (b32_of 1 (-24))) = 1). rewrite <- V1. unfold val. rewrite <- !SF2R_B2SF. apply f_equal. vm_compute. reflexivity. }
  rewrite E in X. lra.
Qed.
Print Assumptions C66_rounded_bounds_refuted.

(** the polygon made from a box is the box *)
Theorem C66_poly_of_box : forall b : box2d b32, fin2 (halfsize b) -> 0 <= val (vx (halfsize b)) -> 0 <= val (vy (halfsize b)) ->
  sound32 (SPoly (poly_of_box b)) /\ length (points (poly_of_box b)) = 4%nat /\ same_set (points_of (SPoly (poly_of_box b))) (points_of (SBox b)).
Proof.
  intros b [Fx Fy] X0 Y0. cbn [sound32 points_of]. split; [|split; [reflexivity|]].
  - split; [discriminate|]. intros q Hq. cbn [poly_of_box points In] in Hq. destruct Hq as [<-|[<-|[<-|[<-|[]]]]]; split; cbn [vx vy v2neg]; try assumption; apply fin_neg; assumption.
  - replace (map rval (points (poly_of_box b))) with [(- val (vx (halfsize b)), - val (vy (halfsize b))); (val (vx (halfsize b)), val (vy (halfsize b))); (- val (vx (halfsize b)), val (vy (halfsize b))); (val (vx (halfsize b)), - val (vy (halfsize b)))].
    + apply box_hull; assumption.
    + unfold poly_of_box, rval. cbn [points map vx vy v2neg]. rewrite !val_neg. reflexivity.
Qed.
Print Assumptions C66_poly_of_box.

(** ** Cases *)
Definition case_dir : vec2 b32 := V2 (b32_of 3 0) (b32_of (-4) 0).
Lemma case_dir_ok : usual_direction case_dir /\ rval case_dir = (3, -4).
Proof.
  destruct (val_of 3 0 ltac:(lia) ltac:(lia)) as [F1 V1]. destruct (val_of (-4) 0 ltac:(lia) ltac:(lia)) as [F2 W2]. change (bpow radix2 0) with 1 in V1, W2. rewrite Rmult_1_r in V1, W2.
  assert (E : rval case_dir = (3, -4)) by (unfold rval, case_dir; cbn [vx vy]; rewrite V1, W2; reflexivity). split; [|exact E]. split; [split; assumption|]. rewrite E.
  assert (N : norm (3, -4) = 5) by (unfold norm, pdot; cbn [fst snd]; replace (3 * 3 + -4 * -4) with (5 * 5) by ring; apply sqrt_square; lra). rewrite N. split; [apply Rle_trans with 1; [apply (bpow_le radix2 (-24) 0); lia | lra] | apply Rle_trans with (bpow radix2 3); [cbn; lra | apply bpow_le; lia]].
Qed.
Lemma b32_pos m e : (0 < m <= 2 ^ 24)%Z -> (-149 <= e <= 103)%Z -> fin (b32_of m e) /\ val (b32_of m e) = IZR m * bpow radix2 e.
Proof. intros M E. apply val_of; lia. Qed.
(** a ball of radius 7 in direction (3,-4); a box in a huge direction; a turned, enlarged and shifted square *)
Example C66_ball_case : let p := extreme_point (Ball (b32_of 7 0)) case_dir in fin2 p /\ norm (psub (rval p) (pscale (7 / 5) (3, -4))) <= bpow radix2 (-16).
Proof.
  destruct case_dir_ok as [D E]. destruct (b32_pos 7 0 ltac:(lia) ltac:(lia)) as [F V]. change (bpow radix2 0) with 1 in V. rewrite Rmult_1_r in V.
  destruct (C66_ball (b32_of 7 0) case_dir F) as (G & _ & N); [rewrite V; split; [lra | apply Rle_trans with (bpow radix2 3); [cbn; lra | apply bpow_le; lia]] | exact D|]. cbv zeta. split; [exact G|]. rewrite V, E in N.
  assert (N5 : norm (3, -4) = 5) by (unfold norm, pdot; cbn [fst snd]; replace (3 * 3 + -4 * -4) with (5 * 5) by ring; apply sqrt_square; lra). rewrite N5 in N. eapply Rle_trans; [exact N|].
  assert (bpow radix2 (-100) <= bpow radix2 (-24)) by (apply bpow_le; lia). change u32 with (bpow radix2 (-24)). replace (-16)%Z with (8 + -24)%Z by reflexivity. rewrite bpow_plus. assert (bpow radix2 8 = 256) by (cbn; lra). pose proof (bpow_gt_0 radix2 (-24)). rewrite H0. lra.
Qed.
Example C66_box_case : let b := Box2d (V2 (b32_of 3 0) (b32_of 1 (-2))) in let d := V2 (b32_of (-1) 100) (b32_of 5 (-140)) in
  fin2 (halfsize b) /\ 0 <= val (vx (halfsize b)) /\ 0 <= val (vy (halfsize b)) /\ fin2 d /\ rval (extreme_point b d) = (-3, / 4).
Proof.
  intros b d. destruct (b32_pos 3 0 ltac:(lia) ltac:(lia)) as [F V]. destruct (b32_pos 1 (-2) ltac:(lia) ltac:(lia)) as [G W]. change (bpow radix2 0) with 1 in V. cbn [halfsize vx vy b]. rewrite V, W. change (bpow radix2 (-2)) with (/ 4). split; [split; assumption|]. split; [lra|]. split; [lra|].
  split; [split; [apply (val_of (-1) 100); lia | apply (val_of 5 (-140)); lia]|].
  change (rval (extreme_point b d)) with (val (fmul (fsignum (b32_of (-1) 100)) (b32_of 3 0)), val (fmul (fsignum (b32_of 5 (-140))) (b32_of 1 (-2)))).
  replace (fsignum (b32_of (-1) 100)) with (one false) by (apply B2SF_inj; vm_compute; reflexivity). replace (fsignum (b32_of 5 (-140))) with (one true) by (apply B2SF_inj; vm_compute; reflexivity).
  rewrite (proj2 (one_mul false _ F)), (proj2 (one_mul true _ G)), V, W. cbn [sg]. change (bpow radix2 (-2)) with (/ 4). f_equal; lra.
Qed.
Example C66_placed_case : let b := SBox (Box2d (V2 (b32_of 1 0) (b32_of 1 0))) in let v := V2 (b32_of 5 0) (b32_of 0 0) in let rot := V2 (b32_of 5033165 (-23)) (b32_of 13421773 (-24)) in let k := b32_of 2 0 in
  fin2 v /\ norm (rval v) <= bpow radix2 22 /\ fin2 rot /\ 1 / 2 <= norm (rval rot) <= 3 / 2 /\ fin k /\ 0 < val k <= 16 /\ sound32 b /\ included (points_of b) (disc 2) /\ 2 <= bpow radix2 24 /\ usual_direction case_dir.
Proof.
  intros b v rot k. destruct (b32_pos 1 0 ltac:(lia) ltac:(lia)) as [F V]. destruct (b32_pos 5 0 ltac:(lia) ltac:(lia)) as [F5 V5]. destruct (val_of 0 0 ltac:(lia) ltac:(lia)) as [F0 V0]. destruct (b32_pos 2 0 ltac:(lia) ltac:(lia)) as [F2 W2]. destruct (b32_pos 5033165 (-23) ltac:(lia) ltac:(lia)) as [Fc Vc]. destruct (b32_pos 13421773 (-24) ltac:(lia) ltac:(lia)) as [Fs Vs].
  change (bpow radix2 0) with 1 in V, V5, V0, W2. rewrite Rmult_1_r in V, V5, V0, W2. change (bpow radix2 (-23)) with (/ 8388608) in Vc. change (bpow radix2 (-24)) with (/ 16777216) in Vs.
  split; [split; assumption|]. split. { unfold rval, v. cbn [vx vy]. rewrite V5, V0, norm_xaxis, Rabs_pos_eq by lra. apply Rle_trans with (bpow radix2 3); [cbn; lra | apply bpow_le; lia]. }
  split; [split; assumption|]. split. { unfold rval, rot. cbn [vx vy]. rewrite Vc, Vs. set (x := 5033165 * / 8388608). set (y := 13421773 * / 16777216). assert (599 / 1000 <= x <= 601 / 1000) by (unfold x; lra). assert (799 / 1000 <= y <= 801 / 1000) by (unfold y; lra). unfold norm, pdot. cbn [fst snd]. split; [replace (1 / 2) with (sqrt ((1 / 2) * (1 / 2))) by (apply sqrt_square; lra) | replace (3 / 2) with (sqrt ((3 / 2) * (3 / 2))) by (apply sqrt_square; lra)]; apply sqrt_le_1_alt; nra. }
  split; [exact F2|]. split; [unfold k; rewrite W2; lra|]. split; [cbn [sound32 b halfsize vx vy]; rewrite V; split; [split; assumption | lra]|]. split. { intros p. cbn [points_of b halfsize vx vy]. rewrite V. intros [A B]. unfold disc, norm, pdot. replace 2 with (sqrt (2 * 2)) by (apply sqrt_square; lra). apply sqrt_le_1_alt. nra. }
  split; [apply Rle_trans with (bpow radix2 1); [cbn; lra | apply bpow_le; lia] | apply case_dir_ok].
Qed.
Example C66_bounds_case : exact_bounds (hull [(3, 1); (-4, -2)]) (symmetric_bounding_box (Poly2d [V2 (b32_of 3 0) (b32_of 1 0); V2 (b32_of (-4) 0) (b32_of (-2) 0)])).
Proof.
  destruct (b32_pos 3 0 ltac:(lia) ltac:(lia)) as [F3 V3]. destruct (b32_pos 1 0 ltac:(lia) ltac:(lia)) as [F1 V1]. destruct (val_of (-4) 0 ltac:(lia) ltac:(lia)) as [F4 V4]. destruct (val_of (-2) 0 ltac:(lia) ltac:(lia)) as [F2 W2]. change (bpow radix2 0) with 1 in V3, V1, V4, W2. rewrite Rmult_1_r in V3, V1, V4, W2.
  set (l := [V2 (b32_of 3 0) (b32_of 1 0); V2 (b32_of (-4) 0) (b32_of (-2) 0)]). replace [(3, 1); (-4, -2)] with (map rval l) by (unfold l, rval; cbn [map vx vy]; rewrite V3, V1, V4, W2; reflexivity).
  apply (C66_bounding_boxes (b32_of 3 0) (Box2d (V2 (b32_of 3 0) (b32_of 3 0))) l F3 ltac:(rewrite V3; lra)); [split; assumption | discriminate |]. intros p [<-|[<-|[]]]; split; assumption.
Qed.
Example C66_rounded_case : let h := V2 (b32_of 3 0) (b32_of 1 (-2)) in let r := b32_of 7 0 in
  fin2 h /\ 0 <= val (vx h) <= bpow radix2 100 /\ 0 <= val (vy h) <= bpow radix2 100 /\ norm (rval h) <= bpow radix2 24 /\ fin r /\ 0 <= val r <= bpow radix2 24 /\ usual_direction case_dir.
Proof.
  intros h r. destruct (b32_pos 3 0 ltac:(lia) ltac:(lia)) as [F3 V3]. destruct (b32_pos 1 (-2) ltac:(lia) ltac:(lia)) as [F1 V1]. destruct (b32_pos 7 0 ltac:(lia) ltac:(lia)) as [F7 V7]. change (bpow radix2 0) with 1 in V3, V7. rewrite Rmult_1_r in V3, V7. change (bpow radix2 (-2)) with (/ 4) in V1.
  assert (B : 8 <= bpow radix2 24) by (apply Rle_trans with (bpow radix2 3); [cbn; lra | apply bpow_le; lia]). assert (B' : bpow radix2 24 <= bpow radix2 100) by (apply bpow_le; lia).
  split; [split; assumption|]. cbn [vx vy h]. unfold r; rewrite V3, V1, V7. split; [lra|]. split; [lra|]. split. { unfold rval, h. cbn [vx vy]. rewrite V3, V1. eapply Rle_trans; [|exact B]. unfold norm, pdot. cbn [fst snd]. replace 8 with (sqrt (8 * 8)) by (apply sqrt_square; lra). apply sqrt_le_1_alt. lra. }
  split; [exact F7|]. split; [lra | apply case_dir_ok].
Qed.
Example C66_cover_case : let b := Box2d (V2 (b32_of 3 0) (b32_of 1 (-2))) in let p := V2 (b32_of (-4) 0) (b32_of 0 0) in
  fin2 (halfsize b) /\ fin2 p /\ 0 <= fst (half_of b) /\ 0 <= snd (half_of b) /\ half_of (box_cover b p) = (4, / 4).
Proof.
  intros b p. destruct (b32_pos 3 0 ltac:(lia) ltac:(lia)) as [F3 V3]. destruct (b32_pos 1 (-2) ltac:(lia) ltac:(lia)) as [F1 V1]. destruct (val_of (-4) 0 ltac:(lia) ltac:(lia)) as [F4 V4]. destruct (val_of 0 0 ltac:(lia) ltac:(lia)) as [F0 V0]. change (bpow radix2 0) with 1 in V3, V4, V0. rewrite Rmult_1_r in V3, V4, V0. change (bpow radix2 (-2)) with (/ 4) in V1.
  assert (Fb : fin2 (halfsize b)) by (split; assumption). assert (Fp : fin2 p) by (split; assumption). destruct (cover32 b p Fb Fp) as (_ & E1 & E2).
  assert (X : half_of b = (3, 1 * / 4)) by (unfold half_of, rval, b; cbn [halfsize vx vy]; rewrite V3, V1; reflexivity). assert (Y : rval p = (-4, 0)) by (unfold rval, p; cbn [vx vy]; rewrite V4, V0; reflexivity). rewrite X, Y in E1, E2. cbn [fst snd] in E1, E2.
  rewrite X. cbn [fst snd]. split; [exact Fb|]. split; [exact Fp|]. split; [lra|]. split; [lra|]. apply pt_eq; cbn [fst snd]; [rewrite E1, Rabs_left, Rmax_right by lra; lra | rewrite E2, Rabs_R0, Rmax_left by lra; lra].
Qed.
