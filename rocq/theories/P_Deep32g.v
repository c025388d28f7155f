(** * Deep overlaps in binary32: the transform types (proofs for C62) *)
From Coq Require Import Reals ZArith Bool Lra Lia List Psatz.
From Flocq Require Import IEEE754.BinarySingleNaN Core Relative.
From Verif Require Import Num NumXR NumB32 Glam Transform2 Shapes2 Gjk Detect2 Spec SpecLink P_Base P_Transform P_Shapes P_Geo P_Gjk P_B32 Props_F32 Props_F32Gjk Props_F32Ball P_F32Box Props_F32Box P_Drift P_Deep Props_Deep Spec32 P_Closed32 P_Deep32 P_Deep32b P_Deep32c P_Deep32d P_Deep32e P_Deep32f.
Import ListNotations.
Local Open Scope R_scope.

Lemma start_dir {T : Type} {TR : Transformation2d b32 T} (t : T) : fin2 (apply_origin t) -> norm (rval (apply_origin t)) <= bpow radix2 22 -> dir_ok (lmd_initial_direction t).
Proof.
  intros F N. unfold lmd_initial_direction. set (o := apply_origin t) in * . destruct (val_of 1 (-23) ltac:(lia) ltac:(lia)) as [Fe Ve]. change (b32_of 1 (-23)) with (@feps b32 _) in Fe, Ve. rewrite Rmult_1_l in Ve.
  destruct (dot32 o o 22 22 ltac:(lia) ltac:(lia) F F N N) as [Fl El]. unfold v2lensq. rewrite (flt_fin _ _ Fl Fe), Ve. destruct (Rltb_spec (val (v2dot o o)) (bpow radix2 (-23))) as [L|L].
  - destruct P_F32Box.fin_f1 as [G1 V1]. split; [split; [exact G1 | reflexivity]|]. assert (E : norm (rval (V2 f1 f0)) = 1). { unfold rval. cbn [vx vy]. rewrite V1. change (val f0) with 0. unfold norm, pdot. cbn [fst snd]. replace (1 * 1 + 0 * 0) with (1 * 1) by ring. apply sqrt_square. lra. }
    rewrite E. split; [apply (bpow_le radix2 (-24) 0); lia | apply (bpow_le radix2 0 59); lia].
  - split; [exact F|]. split; [|eapply Rle_trans; [exact N | apply bpow_le; lia]]. apply Rnot_lt_le. intro K. apply L. apply abs_le2' in El. rewrite <- norm_sq in El. set (n := norm (rval o)) in * . pose proof (norm_nonneg (rval o)) as Pn. fold n in Pn.
    assert (n * n <= bpow radix2 (-24) * bpow radix2 (-24)) by (apply Rmult_le_compat; lra). rewrite <- bpow_plus in H. pose proof u32_pos. pose proof u32_small. assert (0 <= n * n) by nra. assert (u32 * (n * n) <= 1 * (n * n)) by (apply Rmult_le_compat_r; lra).
    assert (tiny <= bpow radix2 (-48)) by (unfold tiny; apply bpow_le; lia). assert (bpow radix2 (-23) = 8 * bpow radix2 (-26)) by (change 8 with (bpow radix2 3); rewrite <- bpow_plus; reflexivity). assert (bpow radix2 (-24 + -24) <= bpow radix2 (-26)) by (apply bpow_le; lia). assert (bpow radix2 (-48) <= bpow radix2 (-26)) by (apply bpow_le; lia). pose proof (bpow_gt_0 radix2 (-26)). lra.
Qed.
Definition eta0 (k rho : R) (pos : pt) : R := 9 * u32 * (k * rho + norm pos) + bpow radix2 (-100).
Lemma tiny_dir n : bpow radix2 (-24) <= n -> 3 * tiny <= u32 / 10 * n.
Proof. intro H. pose proof (tiny_100 n ltac:(eapply Rle_trans; [|exact H]; apply bpow_le; lia)). pose proof u32_pos. pose proof (bpow_gt_0 radix2 (-24)). assert (0 <= u32 * n) by (apply Rmult_le_pos; lra). lra. Qed.
Lemma neg_dir' d : dir_ok d -> fin2 (v2neg d) /\ rval (v2neg d) = pneg (rval d). Proof. intros [F _]. apply neg32, F. Qed.

(** ** scaled points *)
Lemma scale_ok (kx : b32) (p : vec2 b32) rho : fin kx -> 0 < val kx <= 16 -> fin2 p -> norm (rval p) <= rho -> rho <= bpow radix2 25 ->
  fin2 (V2 (fmul kx (vx p)) (fmul kx (vy p))) /\ norm (psub (rval (V2 (fmul kx (vx p)) (fmul kx (vy p)))) (pscale (val kx) (rval p))) <= 142 / 100 * (u32 * (val kx * rho) + tiny).
Proof.
  intros Fk Hk [Fx Fy] N R. assert (Np : norm (rval p) <= bpow radix2 25) by lra. destruct (fin_small2 _ _ Np) as [Sx Sy]. assert (Sk : small (val kx) 4) by (unfold small; rewrite Rabs_pos_eq by lra; cbn; lra).
  destruct (mul32 kx (vx p) 4 25 ltac:(lia) ltac:(lia) Fk Fx Sk Sx) as [Gx Ex]. destruct (mul32 kx (vy p) 4 25 ltac:(lia) ltac:(lia) Fk Fy Sk Sy) as [Gy Ey]. split; [split; assumption|]. rewrite (Rabs_pos_eq (val kx)) in Ex, Ey by lra. pose proof u32_pos.
  destruct (coord_le_norm (rval p)) as [Cx Cy]. cbn [rval fst snd] in Cx, Cy. change (val (vx p), val (vy p)) with (rval p) in Cx, Cy. apply norm_box; cbn [psub pscale rval fst snd vx vy].
  - eapply Rle_trans; [exact Ex|]. apply Rplus_le_compat_r, Rmult_le_compat_l; [lra|]. apply Rmult_le_compat_l; lra.
  - eapply Rle_trans; [exact Ey|]. apply Rplus_le_compat_r, Rmult_le_compat_l; [lra|]. apply Rmult_le_compat_l; lra.
Qed.
Lemma small_bounds k rho pos : 0 < k <= 16 -> 0 <= rho <= bpow radix2 25 -> norm pos <= bpow radix2 22 -> 2 * (k * rho) + norm pos <= bpow radix2 40.
Proof. intros K R N. assert (bpow radix2 25 = 33554432) by (cbn; lra). assert (bpow radix2 22 = 4194304) by (cbn; lra). assert (bpow radix2 40 = 1099511627776) by (cbn; lra). assert (k * rho <= 16 * 33554432) by (apply Rmult_le_compat; lra). lra. Qed.

(** ** translations *)
Lemma add_follows (v p : vec2 b32) rho : fin2 v -> norm (rval v) <= bpow radix2 22 -> 0 <= rho <= bpow radix2 25 -> fin2 p -> norm (rval p) <= rho ->
  fin2 (v2add p v) /\ norm (psub (rval (v2add p v)) (place (rval v) 1 0 1 1 (rval p))) <= eta0 1 rho (rval v).
Proof.
  intros Fv Nv R Fp Np. pose proof (small_bounds 1 rho (rval v) ltac:(lra) R Nv) as SB. pose proof (norm_triangle (rval p) (rval v)) as TR.
  destruct (vadd_ok p v Fp Fv) as [F E]. { eapply Rle_trans; [exact TR|]. apply Rle_trans with (bpow radix2 40); [lra | apply bpow_le; lia]. } split; [exact F|].
  replace (place (rval v) 1 0 1 1 (rval p)) with (padd (rval p) (rval v)) by (apply pt_eq; unfold place, padd; cbn [fst snd]; ring). eapply Rle_trans; [exact E|]. unfold eta0. pose proof u32_pos. pose proof (bpow_gt_0 radix2 (-100)). pose proof (norm_nonneg (rval v)).
  assert (u32 * norm (padd (rval p) (rval v)) <= u32 * (1 * rho + norm (rval v))) by (apply Rmult_le_compat_l; lra). assert (0 <= u32 * (1 * rho + norm (rval v))) by (apply Rmult_le_pos; lra). lra.
Qed.
Lemma id_normal d : dir_ok d -> fin2 (v2neg d) /\ norm (psub (rval (v2neg d)) (rotate 1 (- 0) (pneg (rval d)))) <= 5 * u32 * norm (rval d).
Proof.
  intro H. destruct (neg_dir' d H) as [F E]. split; [exact F|]. rewrite E. replace (psub (pneg (rval d)) (rotate 1 (- 0) (pneg (rval d)))) with origin by (apply pt_eq; unfold rotate, psub, pneg, origin; cbn [fst snd]; ring). rewrite norm_origin. pose proof u32_pos. pose proof (norm_nonneg (rval d)). apply Rmult_le_pos; lra.
Qed.
Lemma vec_follows (v : vec2 b32) rho : fin2 v -> norm (rval v) <= bpow radix2 22 -> 0 <= rho <= bpow radix2 25 -> follows v (rval v) 1 0 1 rho (eta0 1 rho (rval v)) (5 * u32).
Proof. intros Fv Nv R. split; [intros p Fp Np; apply add_follows; assumption | exact id_normal]. Qed.
Lemma translate_follows (v : vec2 b32) rho : fin2 v -> norm (rval v) <= bpow radix2 22 -> 0 <= rho <= bpow radix2 25 -> follows (Translate2d v) (rval v) 1 0 1 rho (eta0 1 rho (rval v)) (5 * u32).
Proof. intros Fv Nv R. split; [intros p Fp Np; apply add_follows; assumption | exact id_normal]. Qed.
Lemma norm_cs0 : norm (1, 0) = 1. Proof. unfold norm, pdot. cbn [fst snd]. replace (1 * 1 + 0 * 0) with (1 * 1) by ring. apply sqrt_square. lra. Qed.
(** ** translation and scale *)
Lemma axis_follows (v : vec2 b32) (kx : b32) rho : fin2 v -> norm (rval v) <= bpow radix2 22 -> 0 <= rho <= bpow radix2 25 -> fin kx -> 0 < val kx <= 16 ->
  follows (AxisTransform2d v kx) (rval v) 1 0 (val kx) rho (eta0 (val kx) rho (rval v)) (5 * u32).
Proof.
  intros Fv Nv R Fk Hk. split; [|exact id_normal]. intros p Fp Np. change (apply (AxisTransform2d v kx) p) with (v2add v (V2 (fmul kx (vx p)) (fmul kx (vy p)))).
  destruct (scale_ok kx p rho Fk Hk Fp Np ltac:(lra)) as [Fq Eq]. set (q := V2 (fmul kx (vx p)) (fmul kx (vy p))) in * . set (k := val kx) in * . pose proof u32_pos as U0. pose proof u32_small as U1. pose proof tiny_pos as T0. pose proof tiny100 as T1. pose proof (norm_nonneg (rval v)) as Pv.
  assert (PK : 0 <= k * rho) by (apply Rmult_le_pos; lra). assert (Nk : norm (pscale k (rval p)) <= k * rho) by (rewrite norm_scale, Rabs_pos_eq by lra; apply Rmult_le_compat_l; lra).
  pose proof (norm_triangle_sub (rval q) (pscale k (rval p))) as TQ. assert (u32 * (k * rho) <= 1 / 100 * (k * rho)) by (apply Rmult_le_compat_r; lra). assert (tiny <= 1 / 100) by (apply Rle_trans with (bpow radix2 (-100)); [lra|]; apply Rle_trans with (bpow radix2 (-10)); [apply bpow_le; lia | cbn; lra]).
  pose proof (small_bounds k rho (rval v) Hk R Nv) as SB. pose proof (norm_triangle (rval v) (rval q)) as TR. assert (UT : u32 * tiny <= 1 * tiny) by (apply Rmult_le_compat_r; lra).
  destruct (vadd_ok v q Fv Fq) as [F E]. { eapply Rle_trans; [exact TR|]. apply Rle_trans with (2 * bpow radix2 40); [|change 2 with (bpow radix2 1); rewrite <- bpow_plus; apply bpow_le; lia]. assert (1 <= bpow radix2 40) by (apply (bpow_le radix2 0 40); lia). lra. }
  split; [exact F|]. replace (psub (rval (v2add v q)) (place (rval v) 1 0 k k (rval p))) with (padd (psub (rval (v2add v q)) (padd (rval v) (rval q))) (psub (rval q) (pscale k (rval p)))) by (apply pt_eq; unfold place, padd, psub, pscale; cbn [fst snd]; ring).
  eapply Rle_trans; [apply norm_triangle|]. unfold eta0. assert (u32 * norm (padd (rval v) (rval q)) <= u32 * (norm (rval v) + (2 * (k * rho) + 2 * tiny))) by (apply Rmult_le_compat_l; lra).
  assert (0 <= u32 * (k * rho)) by (apply Rmult_le_pos; lra). assert (0 <= u32 * norm (rval v)) by (apply Rmult_le_pos; lra). lra.
Qed.
(** ** full transforms with one scale factor *)
Lemma full_follows (v : vec2 b32) (r : vec2 b32) (kx : b32) rho : fin2 v -> norm (rval v) <= bpow radix2 22 -> 0 <= rho <= bpow radix2 25 -> fin kx -> 0 < val kx <= 16 -> fin2 r -> norm (rval r) <= 3 / 2 ->
  follows (Transform2d v (Rotor r) (V2 kx kx)) (rval v) (val (vx r)) (val (vy r)) (val kx) rho (eta0 (val kx) rho (rval v)) (5 * u32).
Proof.
  intros Fv Nv R Fk Hk Fr Nr. pose proof u32_pos as U0. pose proof u32_small as U1. pose proof tiny_pos as T0. pose proof tiny100 as T1. split.
  - intros p Fp Np. change (apply (Transform2d v (Rotor r) (V2 kx kx)) p) with (v2add (rotor_rot (Rotor r) (V2 (fmul kx (vx p)) (fmul kx (vy p)))) v).
    destruct (scale_ok kx p rho Fk Hk Fp Np ltac:(lra)) as [Fq Eq]. set (q := V2 (fmul kx (vx p)) (fmul kx (vy p))) in * . set (k := val kx) in * . pose proof (norm_nonneg (rval v)) as Pv.
    assert (PK : 0 <= k * rho) by (apply Rmult_le_pos; lra). assert (Nk : norm (pscale k (rval p)) <= k * rho) by (rewrite norm_scale, Rabs_pos_eq by lra; apply Rmult_le_compat_l; lra).
    pose proof (norm_triangle_sub (rval q) (pscale k (rval p))) as TQ. assert (u32 * (k * rho) <= 1 / 1000 * (k * rho)) by (apply Rmult_le_compat_r; lra). assert (T2 : tiny <= 1 / 100) by (apply Rle_trans with (bpow radix2 (-100)); [lra|]; apply Rle_trans with (bpow radix2 (-10)); [apply bpow_le; lia | cbn; lra]).
    pose proof (small_bounds k rho (rval v) Hk R Nv) as SB. assert (P40 : 1 <= bpow radix2 40) by (apply (bpow_le radix2 0 40); lia). assert (UT : u32 * tiny <= 1 / 100 * tiny) by (apply Rmult_le_compat_r; lra).
    assert (Nq : norm (rval q) <= 1002 / 1000 * (k * rho) + 2 * tiny) by lra.
    destruct (rot_ok r q Fr Fq ltac:(lra)) as [Fw Ew]. { apply Rle_trans with (2 * bpow radix2 40); [lra|]. change 2 with (bpow radix2 1). rewrite <- bpow_plus. apply bpow_le; lia. }
    set (w := rotor_rot (Rotor r) q) in * . set (nr := norm (rval r)) in * . pose proof (norm_nonneg (rval r)) as Pr. fold nr in Pr. pose proof (norm_nonneg (rval q)) as Pq.
    assert (NRQ : nr * norm (rval q) <= 3 / 2 * (1002 / 1000 * (k * rho) + 2 * tiny)) by (apply Rmult_le_compat; lra).
    pose proof (norm_triangle_sub (rval w) (cmul (rval r) (rval q))) as TW. rewrite norm_cmul in TW. fold nr in TW. assert (EW1 : u32 * (nr * norm (rval q)) <= u32 * (3 / 2 * (1002 / 1000 * (k * rho) + 2 * tiny))) by (apply Rmult_le_compat_l; lra).
    assert (Nw : norm (rval w) <= 16 / 10 * (k * rho) + 10 * tiny) by lra.
    pose proof (norm_triangle (rval w) (rval v)) as TR.
    destruct (vadd_ok w v Fw Fv) as [F E]. { eapply Rle_trans; [exact TR|]. apply Rle_trans with (2 * bpow radix2 40); [lra|]. change 2 with (bpow radix2 1). rewrite <- bpow_plus. apply bpow_le; lia. }
    split; [exact F|].
    replace (psub (rval (v2add w v)) (place (rval v) (val (vx r)) (val (vy r)) k k (rval p))) with (padd (padd (psub (rval (v2add w v)) (padd (rval w) (rval v))) (psub (rval w) (cmul (rval r) (rval q)))) (cmul (rval r) (psub (rval q) (pscale k (rval p))))) by (apply pt_eq; unfold place, padd, psub, pscale, cmul, rval; cbn [fst snd]; ring).
    eapply Rle_trans; [apply norm_triangle|]. pose proof (norm_triangle (psub (rval (v2add w v)) (padd (rval w) (rval v))) (psub (rval w) (cmul (rval r) (rval q)))) as TT. rewrite norm_cmul. fold nr.
    assert (nr * norm (psub (rval q) (pscale k (rval p))) <= 3 / 2 * (142 / 100 * (u32 * (k * rho) + tiny))) by (apply Rmult_le_compat; [exact Pr | apply norm_nonneg | exact Nr | exact Eq]).
    assert (u32 * norm (padd (rval w) (rval v)) <= u32 * (16 / 10 * (k * rho) + 10 * tiny + norm (rval v))) by (apply Rmult_le_compat_l; lra).
    unfold eta0. assert (0 <= u32 * (k * rho)) by (apply Rmult_le_pos; lra). assert (0 <= u32 * norm (rval v)) by (apply Rmult_le_pos; lra). lra.
  - intros d Hd. destruct (neg_dir' d Hd) as [Fn En]. destruct Hd as (Fd & Ld & Ud). change (unapply_normal (Transform2d v (Rotor r) (V2 kx kx)) (v2neg d)) with (rotor_rot (Rotor (V2 (vx r) (fneg (vy r)))) (v2neg d)).
    set (ri := V2 (vx r) (fneg (vy r))). assert (Fi : fin2 ri) by (destruct Fr as [F1 F2]; split; [exact F1 | apply fin_neg; exact F2]). assert (Ei : rval ri = (val (vx r), - val (vy r))) by (unfold rval, ri; cbn [vx vy]; rewrite val_neg; reflexivity).
    assert (Ni : norm (rval ri) = norm (rval r)) by (rewrite Ei; unfold norm, pdot, rval; cbn [fst snd]; f_equal; ring).
    destruct (rot_ok ri (v2neg d) Fi Fn ltac:(lra)) as [F E]. { rewrite En, norm_neg. eapply Rle_trans; [exact Ud | apply bpow_le; lia]. }
    split; [exact F|]. rewrite En, norm_neg, Ni, Ei in E. replace (rotate (val (vx r)) (- val (vy r)) (pneg (rval d))) with (cmul (val (vx r), - val (vy r)) (pneg (rval d))) by (apply pt_eq; unfold rotate, cmul, pneg; cbn [fst snd]; ring).
    eapply Rle_trans; [exact E|]. set (n := norm (rval d)) in * . pose proof (tiny_dir n Ld). pose proof (bpow_gt_0 radix2 (-24)). assert (norm (rval r) * n <= 3 / 2 * n) by (apply Rmult_le_compat_r; lra). assert (u32 * (norm (rval r) * n) <= u32 * (3 / 2 * n)) by (apply Rmult_le_compat_l; lra). assert (0 <= u32 * n) by (apply Rmult_le_pos; lra). lra.
Qed.

(** ** the error budget *)
Lemma budget r rb k pos del : 0 <= r <= 1024 * del -> 0 <= rb -> k * rb <= r -> 1 / 16 <= k <= 16 -> norm pos <= r -> 1 / 60 <= del ->
  slack r + eta0 k (rb + slack rb) pos + k * (3 * (5 * u32) * (rb + slack rb) + 2 * slack rb) <= del / 200.
Proof.
  intros Hr Hb Hkr Hk Hp Hd. unfold eta0, slack. pose proof u32_pos as U0. pose proof u32_small as U1. pose proof (norm_nonneg pos) as Pp. set (h := bpow radix2 (-100)). assert (H0 : 0 < h) by apply bpow_gt_0. assert (H1 : h <= / 1000000000) by (unfold h; apply Rle_trans with (bpow radix2 (-30)); [apply bpow_le; lia | cbn; lra]).
  set (kr := k * rb) in * . assert (PK : 0 <= kr) by (apply Rmult_le_pos; lra). assert (KH : k * h <= 16 * / 1000000000) by (apply Rmult_le_compat; lra). assert (KH0 : 0 <= k * h) by (apply Rmult_le_pos; lra).
  assert (UR : u32 * r <= 1 / 16777216 * (1024 * del)) by (apply Rmult_le_compat; lra). assert (UK : u32 * kr <= u32 * r) by (apply Rmult_le_compat_l; lra). assert (UP : u32 * norm pos <= u32 * r) by (apply Rmult_le_compat_l; lra). assert (UU : u32 * (u32 * kr) <= 1 / 16777216 * (u32 * r)) by (apply Rmult_le_compat; [lra | apply Rmult_le_pos; lra | lra | lra]). assert (UKH : u32 * (k * h) <= 1 / 16777216 * (16 * / 1000000000)) by (apply Rmult_le_compat; lra).
  assert (0 <= u32 * r) by (apply Rmult_le_pos; lra).
  replace (10 * u32 * r + h + (9 * u32 * (k * (rb + (10 * u32 * rb + h)) + norm pos) + h) + k * (3 * (5 * u32) * (rb + (10 * u32 * rb + h)) + 2 * (10 * u32 * rb + h))) with
    (10 * (u32 * r) + 2 * h + 9 * (u32 * kr) + 90 * (u32 * (u32 * kr)) + 9 * (u32 * (k * h)) + 9 * (u32 * norm pos) + 15 * (u32 * kr) + 150 * (u32 * (u32 * kr)) + 15 * (u32 * (k * h)) + 20 * (u32 * kr) + 2 * (k * h)) by (unfold kr; ring).
  lra.
Qed.
Lemma rb_bound r rb k del : 0 <= rb -> k * rb <= r -> 1 / 16 <= k -> r <= 1024 * del -> del <= bpow radix2 9 -> rb <= bpow radix2 24 /\ 0 <= rb + slack rb <= bpow radix2 25.
Proof.
  intros Hb Hkr Hk Hr Hd. assert (bpow radix2 9 = 512) by (cbn; lra). assert (bpow radix2 24 = 16777216) by (cbn; lra). assert (bpow radix2 25 = 33554432) by (cbn; lra). pose proof u32_pos. pose proof u32_small. pose proof (slack_pos rb Hb).
  assert (1 / 16 * rb <= k * rb) by (apply Rmult_le_compat_r; lra). split; [lra|]. split; [lra|]. unfold slack. assert (u32 * rb <= 1 / 100 * rb) by (apply Rmult_le_compat_r; lra). assert (bpow radix2 (-100) <= 1) by (apply (bpow_le radix2 (-100) 0); lia). lra.
Qed.
