(** * C20: what the scalar sdf of Box2d v Ball (box2d/v_ball.rs:18-39) does compute *)
From Coq Require Import Reals Lra Psatz Bool.
From Verif Require Import Num NumXR Glam Transform2 Shapes2 Gjk Detect2 Spec SpecLink P_Base P_Transform P_Shapes P_Geo P_Analytic P_Analytic2 Props_Analytic.
Local Open Scope R_scope.

(** distance of (X, Y) to the quadrant's rectangle *)
Definition D (hx hy X Y : R) : R := norm (Rmax (X - hx) 0, Rmax (Y - hy) 0).

Section Reals.
Variables hx hy r X Y n : R.
Hypothesis Hx : 0 <= hx. Hypothesis Hy : 0 <= hy. Hypothesis Hr : 0 < r. Hypothesis HX : 0 <= X. Hypothesis HY : 0 <= Y.
Hypothesis Hn : 0 < n. Hypothesis N2 : n * n = X * X + Y * Y. Hypothesis Rn : r <= n.
Let k := 1 - r / n.
Lemma k01 : 0 <= k < 1.
Proof.
  assert (0 < r / n) by (apply Rdiv_lt_0_compat; assumption). assert (r / n <= 1); [|unfold k; lra].
  apply Rmult_le_reg_r with n; [exact Hn|]. unfold Rdiv. rewrite Rmult_assoc, Rinv_l by lra. lra.
Qed.
Lemma step h Z : 0 <= h -> 0 <= Z -> 0 <= Rmax (Z - h) 0 - Rmax (k * Z - h) 0 <= (1 - k) * Z.
Proof.
  intros Hh HZ. pose proof k01. assert (0 <= k * Z) by nra. assert (k * Z <= Z) by nra.
  unfold Rmax. destruct (Rle_dec (Z - h) 0), (Rle_dec (k * Z - h) 0); nra.
Qed.
Lemma step_eq h Z : 0 <= h -> 0 < Z -> Rmax (Z - h) 0 - Rmax (k * Z - h) 0 = (1 - k) * Z -> h <= k * Z.
Proof.
  intros Hh HZ. pose proof k01. assert (0 < (1 - k) * Z) by nra.
  unfold Rmax. destruct (Rle_dec (Z - h) 0), (Rle_dec (k * Z - h) 0); lra.
Qed.
Lemma kn : (1 - k) * n = r.
Proof. unfold k. field. lra. Qed.
Lemma norm_nonneg2 a b : 0 <= a -> 0 <= b -> norm (a, b) * norm (a, b) = a * a + b * b /\ 0 <= norm (a, b).
Proof. intros. split; [rewrite norm_sq; reflexivity | apply norm_nonneg]. Qed.
Lemma D_ge : D hx hy X Y - r <= D hx hy (k * X) (k * Y).
Proof.
  unfold D. set (a := Rmax (X - hx) 0). set (b := Rmax (Y - hy) 0). set (a' := Rmax (k * X - hx) 0). set (b' := Rmax (k * Y - hy) 0).
  destruct (step hx X Hx HX) as [A1 A2]. destruct (step hy Y Hy HY) as [B1 B2]. fold a a' in A1, A2. fold b b' in B1, B2.
  pose proof (norm_triangle (a', b') (a - a', b - b')) as T. unfold padd in T; cbn [fst snd] in T.
  replace (a' + (a - a')) with a in T by ring. replace (b' + (b - b')) with b in T by ring.
  assert (Q : norm (a - a', b - b') <= r); [|lra].
  apply norm_le_sq; [lra|]. unfold pdot; cbn [fst snd]. pose proof kn as K.
  assert ((a - a') * (a - a') <= ((1 - k) * X) * ((1 - k) * X)) by (apply Rmult_le_compat; lra).
  assert ((b - b') * (b - b') <= ((1 - k) * Y) * ((1 - k) * Y)) by (apply Rmult_le_compat; lra).
  assert (E : r * r = (1 - k) * (1 - k) * (X * X + Y * Y)) by (rewrite <- K, <- N2; ring). lra.
Qed.
Lemma D_eq_fwd : D hx hy (k * X) (k * Y) = D hx hy X Y - r -> X = 0 \/ Y = 0 \/ X * hy = Y * hx.
Proof.
  intro E. destruct (Req_dec X 0) as [|NX]; [auto|]. destruct (Req_dec Y 0) as [|NY]; [auto|]. right; right.
  unfold D in E. set (a := Rmax (X - hx) 0) in * . set (b := Rmax (Y - hy) 0) in * . set (a' := Rmax (k * X - hx) 0) in * . set (b' := Rmax (k * Y - hy) 0) in * .
  destruct (step hx X Hx HX) as [A1 A2]. destruct (step hy Y Hy HY) as [B1 B2]. fold a a' in A1, A2. fold b b' in B1, B2.
  assert (P1 : 0 <= a') by apply Rmax_r. assert (P2 : 0 <= b') by apply Rmax_r.
  pose proof kn as K. pose proof k01 as K1.
  assert (ER : r * r = (1 - k) * (1 - k) * (X * X + Y * Y)) by (rewrite <- K, <- N2; ring).
  set (p := a - a') in * . set (q := b - b') in * . set (P := (1 - k) * X) in * . set (Q := (1 - k) * Y) in * .
  destruct (norm_nonneg2 a' b' P1 P2) as [S1 S2]. set (m := norm (a', b')) in * .
  assert (M : norm (a, b) = m + r) by lra. pose proof (norm_sq (a, b)) as S3. rewrite M in S3. unfold pdot in S3; cbn [fst snd] in S3.
  replace a with (a' + p) in S3 by (unfold p; ring). replace b with (b' + q) in S3 by (unfold q; ring).
  (* p <= P, q <= Q, P^2+Q^2 = r^2, 2 m r + r^2 = 2 (a' p + b' q) + p^2 + q^2 *)
  assert (ER' : r * r = P * P + Q * Q) by (unfold P, Q; rewrite ER; ring).
  assert (X1 : p * p <= P * P) by (apply Rmult_le_compat; lra). assert (X2 : q * q <= Q * Q) by (apply Rmult_le_compat; lra).
  assert (X3 : a' * p <= a' * P) by (apply Rmult_le_compat_l; lra). assert (X4 : b' * q <= b' * Q) by (apply Rmult_le_compat_l; lra).
  assert (CS : (a' * P + b' * Q) * (a' * P + b' * Q) <= (m * r) * (m * r)).
  { replace ((m * r) * (m * r)) with ((m * m) * (r * r)) by ring. rewrite S1, ER'. pose proof (Rle_0_sqr (a' * Q - b' * P)) as Z. unfold Rsqr in Z. lra. }
  assert (MR : 0 <= m * r) by (apply Rmult_le_pos; lra).
  assert (CS' : a' * P + b' * Q <= m * r) by (apply Rnot_lt_le; intro; assert (m * r * (m * r) < (a' * P + b' * Q) * (a' * P + b' * Q)) by (apply Rmult_le_0_lt_compat; lra); lra).
  assert (EP : p = P) by (assert (p * p = P * P) by lra; assert ((P - p) * (P + p) = 0) by lra; assert (0 < P) by (unfold P; apply Rmult_lt_0_compat; lra); nra).
  assert (EQ : q = Q) by (assert (q * q = Q * Q) by lra; assert ((Q - q) * (Q + q) = 0) by lra; assert (0 < Q) by (unfold Q; apply Rmult_lt_0_compat; lra); nra).
  assert (EC : a' * P + b' * Q = m * r) by lra.
  assert (Z : (a' * Q - b' * P) * (a' * Q - b' * P) = 0).
  { assert ((a' * P + b' * Q) * (a' * P + b' * Q) = (m * m) * (r * r)) by (rewrite EC; ring). rewrite S1, ER' in H. lra. }
  assert (Z' : a' * Q = b' * P) by nra.
  pose proof (step_eq hx X Hx ltac:(lra) EP) as LX. pose proof (step_eq hy Y Hy ltac:(lra) EQ) as LY.
  assert (EA : a' = k * X - hx) by (unfold a'; apply Rmax_left; lra). assert (EB : b' = k * Y - hy) by (unfold b'; apply Rmax_left; lra).
  rewrite EA, EB in Z'. unfold P, Q in Z'. assert (U : (1 - k) * (X * hy - Y * hx) = 0) by lra.
  apply Rmult_integral in U. destruct U; lra.
Qed.
Lemma norm_x0 b : norm (0, b) = Rabs b.
Proof. unfold norm, pdot; cbn [fst snd]. replace (0 * 0 + b * b) with (Rsqr b) by (unfold Rsqr; ring). apply sqrt_Rsqr_abs. Qed.
Lemma D_eq_bwd : r <= D hx hy X Y -> (X = 0 \/ Y = 0 \/ X * hy = Y * hx) -> D hx hy (k * X) (k * Y) = D hx hy X Y - r.
Proof.
  intros O C. pose proof kn as K. pose proof k01 as K1.
  destruct (Req_dec X 0) as [EX|NX].
  - assert (EY : Y = n) by (subst X; nra). unfold D in * . subst X.
    rewrite (Rmax_right (0 - hx) 0) in * by lra. rewrite (Rmax_right (k * 0 - hx) 0) by lra. rewrite norm_x0 in O |- * . rewrite norm_x0.
    unfold Rmax in O |- * . destruct (Rle_dec (Y - hy) 0); [rewrite Rabs_R0 in O; lra|]. rewrite Rabs_pos_eq in O by lra. rewrite (Rabs_pos_eq (Y - hy)) by lra.
    assert (k * Y = Y - r) by (rewrite EY; lra). destruct (Rle_dec (k * Y - hy) 0); [rewrite Rabs_R0; lra | rewrite Rabs_pos_eq; lra].
  - destruct (Req_dec Y 0) as [EY|NY].
    + assert (EX : X = n) by (subst Y; nra). unfold D in * . subst Y.
      rewrite (Rmax_right (0 - hy) 0) in * by lra. rewrite (Rmax_right (k * 0 - hy) 0) by lra. rewrite norm_xaxis in O |- * . rewrite norm_xaxis.
      unfold Rmax in O |- * . destruct (Rle_dec (X - hx) 0); [rewrite Rabs_R0 in O; lra|]. rewrite Rabs_pos_eq in O by lra. rewrite (Rabs_pos_eq (X - hx)) by lra.
      assert (k * X = X - r) by (rewrite EX; lra). destruct (Rle_dec (k * X - hx) 0); [rewrite Rabs_R0; lra | rewrite Rabs_pos_eq; lra].
    + assert (EC : X * hy = Y * hx) by tauto. set (t := hx / X). assert (T1 : hx = t * X) by (unfold t; field; exact NX).
      assert (T2 : hy = t * Y). { apply Rmult_eq_reg_l with X; [|exact NX]. rewrite EC, T1. ring. }
      assert (T0 : 0 <= t) by (unfold t; apply Rmult_le_pos; [exact Hx | apply Rlt_le, Rinv_0_lt_compat; lra]).
      assert (NN : forall u, 0 <= u -> norm (u * X, u * Y) = u * n). { intros u U. apply norm_eq; [apply Rmult_le_pos; lra|]. unfold pdot; cbn [fst snd]. replace (u * n * (u * n)) with (u * u * (n * n)) by ring. rewrite N2. ring. }
      assert (LT : t < 1).
      { apply Rnot_le_lt. intro L. unfold D in O. rewrite !Rmax_right, norm_x0, Rabs_R0 in O by (rewrite ?T1, ?T2; nra). lra. }
      unfold D in O |- * . rewrite (Rmax_left (X - hx)), (Rmax_left (Y - hy)) in * by (rewrite ?T1, ?T2; nra).
      replace (X - hx) with ((1 - t) * X) in * by (rewrite T1; ring). replace (Y - hy) with ((1 - t) * Y) in * by (rewrite T2; ring).
      rewrite NN in O by lra. rewrite (NN (1 - t)) by lra. assert (L : t <= k) by nra.
      rewrite !Rmax_left by (rewrite ?T1, ?T2; nra).
      replace (k * X - hx) with ((k - t) * X) by (rewrite T1; ring). replace (k * Y - hy) with ((k - t) * Y) by (rewrite T2; ring). rewrite NN by lra. lra.
Qed.
Lemma neg_min : D hx hy X Y < r -> k * X - hx < 0 \/ k * Y - hy < 0.
Proof.
  intro O. destruct (Rlt_dec (k * X - hx) 0); [auto|]. destruct (Rlt_dec (k * Y - hy) 0); [auto|]. exfalso.
  pose proof kn as K. pose proof k01 as K1. apply (Rlt_irrefl r). eapply Rle_lt_trans; [|exact O].
  unfold D. assert (0 <= (1 - k) * X) by nra. assert (0 <= (1 - k) * Y) by nra.
  rewrite !Rmax_left by lra. apply Rnot_lt_le. intro L.
  pose proof (norm_nonneg (X - hx, Y - hy)). pose proof (norm_sq (X - hx, Y - hy)) as S. unfold pdot in S; cbn [fst snd] in S.
  assert (norm (X - hx, Y - hy) * norm (X - hx, Y - hy) < r * r) by (apply Rmult_le_0_lt_compat; lra).
  assert ((1 - k) * X * ((1 - k) * X) <= (X - hx) * (X - hx)) by (apply Rmult_le_compat; lra).
  assert ((1 - k) * Y * ((1 - k) * Y) <= (Y - hy) * (Y - hy)) by (apply Rmult_le_compat; lra).
  assert (E : r * r = (1 - k) * (1 - k) * (X * X + Y * Y)) by (rewrite <- K, <- N2; ring). lra.
Qed.
Lemma n_ge_D : D hx hy X Y <= n.
Proof.
  unfold D. apply norm_le_sq; [lra|]. unfold pdot; cbn [fst snd]. rewrite N2.
  assert (forall h Z, 0 <= h -> 0 <= Z -> Rmax (Z - h) 0 * Rmax (Z - h) 0 <= Z * Z).
  { intros h Z Hh HZ. apply Rmult_le_compat; try apply Rmax_r; apply Rmax_lub; lra. }
  pose proof (H hx X Hx HX). pose proof (H hy Y Hy HY). lra.
Qed.
End Reals.

Lemma sd_sign e A B : is_signed_distance e A B -> (overlaps A B <-> e < 0).
Proof.
  intros [[O (v & [S _] & E)]|[O (v & _ & E)]]; (split; [intro Q | intro Q]); try tauto; try (exfalso; pose proof (norm_nonneg v); lra).
  assert (v <> origin). { intro Z. subst v. apply S. destruct O as (d & D0 & O). exists d. split; [exact D0|]. intros w W. destruct (O w W) as (p & P1 & P2).
    exists p. split; [|exact P2]. unfold shift in * . replace (psub (psub p w) origin) with (psub p w) by (apply pt_eq; cbn; ring). exact P1. }
  pose proof (norm_pos v H). lra.
Qed.
Section Model.
Context {T : Type} {TR : Transformation2d XR T}.
Variables (hx hy r c s : R) (v : pt) (rel : T).
Hypothesis Hx : 0 <= hx. Hypothesis Hy : 0 <= hy. Hypothesis Hr : 0 < r.
Hypothesis AC : acts_as rel v c s 1. Hypothesis U : c * c + s * s = 1.
Let A := rect hx hy.
Let B := image (place v c s 1 1) (disc r).
Let X := Rabs (fst v).
Let Y := Rabs (snd v).
Let n := norm v.
Let e0 := let px := X - hx in let py := Y - hy in if Rltb px 0 && Rltb py 0 then Rmax px py else if Rltb px 0 then py else if Rltb py 0 then px else norm (px, py).
Lemma bb_true : is_signed_distance (e0 - r) A B.
Proof.
  apply (same_signed_distance _ _ _ _ (diff_rect_disc hx hy r v c s ltac:(lra) U)). exact (rounded_sdf_exact hx hy r v Hx Hy ltac:(lra)).
Qed.
Lemma e0_D : ~ (X - hx < 0 /\ Y - hy < 0) -> e0 = D hx hy X Y.
Proof.
  intro N. unfold e0, D. cbv zeta. destruct (Rltb_spec (X - hx) 0), (Rltb_spec (Y - hy) 0); cbn [andb].
  - tauto.
  - rewrite Rmax_right, Rmax_left, norm_x0, Rabs_pos_eq by lra. reflexivity.
  - rewrite Rmax_left, Rmax_right, norm_xaxis, Rabs_pos_eq by lra. reflexivity.
  - rewrite !Rmax_left by lra. reflexivity.
Qed.
Lemma over_iff : overlaps A B <-> D hx hy X Y < r.
Proof.
  rewrite (sd_sign _ _ _ bb_true). destruct (Rlt_dec (X - hx) 0) as [LX|LX]; [destruct (Rlt_dec (Y - hy) 0) as [LY|LY]|].
  - unfold e0, D. cbv zeta. rewrite !Rltb_true by assumption. cbn [andb]. rewrite (Rmax_right (X - hx) 0), (Rmax_right (Y - hy) 0), norm_x0, Rabs_R0 by lra.
    assert (Rmax (X - hx) (Y - hy) < 0) by (apply Rmax_lub_lt; assumption). split; intros; lra.
  - rewrite e0_D by tauto. split; intros; lra.
  - rewrite e0_D by tauto. split; intros; lra.
Qed.
Lemma flag_right : fst (box_ball_sdfv false false (pbox hx hy) (pball r) rel) = true <-> overlaps A B.
Proof.
  change (fst (box_ball_sdfv false false (pbox hx hy) (pball r) rel)) with (fst (rounded_point_sdfv false false (prounded hx hy r) rel)).
  destruct (Req_EM_T X hx) as [Q|Q]; [destruct (Rlt_dec Y hy) as [Q'|Q']|].
  - destruct (C17_flag_on_the_line T TR hx hy r v rel Hx Hy Hr (proj1 (proj2 AC)) Q Q') as [F O].
    injection F as F. rewrite F. apply (same_overlaps _ _ _ _ (diff_rect_disc hx hy r v c s ltac:(lra) U)) in O. fold A B in O. tauto.
  - destruct (C17_box_ball_exact T TR hx hy r v c s rel Hx Hy ltac:(lra) AC U ltac:(tauto)) as [(O & w & _ & F & _)|(O & w & _ & F & _)];
    injection F as F; unfold box_ball_sdfv in F; unfold prounded; cbn [halfsize pbox b_radius pball] in F; rewrite F; [tauto | split; [discriminate | tauto]].
  - destruct (C17_box_ball_exact T TR hx hy r v c s rel Hx Hy ltac:(lra) AC U ltac:(tauto)) as [(O & w & _ & F & _)|(O & w & _ & F & _)];
    injection F as F; unfold box_ball_sdfv in F; unfold prounded; cbn [halfsize pbox b_radius pball] in F; rewrite F; [tauto | split; [discriminate | tauto]].
Qed.
Hypothesis NV : v <> origin.
Let k := 1 - r / n.
Lemma n_pos : 0 < n.
Proof. apply norm_pos, NV. Qed.
Lemma n_sq : n * n = X * X + Y * Y.
Proof. unfold n. rewrite norm_sq. unfold pdot, X, Y. rewrite <- !Rabs_mult, !Rabs_pos_eq by nra. ring. Qed.
Lemma facing : extreme_point_t (pball r) rel (v2neg (apply_origin rel)) = inj (pscale k v).
Proof.
  pose proof n_pos as N. destruct AC as (_ & E & _ & _ & S). unfold extreme_point_t, ExtT_Ball. rewrite S, E.
  replace (v2neg (inj v)) with (inj (pscale (-1) v)) by (apply vec_ext; cbn; f_equal; ring).
  rewrite ext_ball by lra. destruct (pt_eq_dec_origin (pscale (-1) v)) as [Q|Q].
  - exfalso. apply NV. unfold pscale in Q. injection Q as Q1 Q2. apply pt_eq; cbn; lra.
  - rewrite norm_scale. replace (Rabs (-1)) with 1 by (rewrite Rabs_left; lra). rewrite Rmult_1_l. fold n.
    apply vec_ext; cbn; f_equal; unfold k; field; lra.
Qed.
Lemma sdf_eq : 0 <= k -> box_ball_sdf (pbox hx hy) (pball r) rel =
  let px := k * X - hx in let py := k * Y - hy in
  if fst (box_ball_sdfv false false (pbox hx hy) (pball r) rel) then XFin (Rmin px py)
  else if Rltb px 0 then XFin py else if Rltb py 0 then XFin px else XFin (norm (px, py)).
Proof.
  intro K. unfold box_ball_sdf. rewrite facing.
  cbn [inj vx vy fst snd halfsize pbox pscale fabs fsub FloatXR xabs xsub fnegsign xsgn].
  rewrite !Rabs_mult, (Rabs_pos_eq k K). fold X Y. cbv zeta.
  destruct (fst (box_ball_sdfv false false (pbox hx hy) (pball r) rel)).
  - unfold fmin. cbn [fisnan FloatXR flt xlt]. destruct (Rltb_spec (k * Y - hy) (k * X - hx)); f_equal; [rewrite Rmin_right; lra | rewrite Rmin_left; lra].
  - destruct (Rltb (k * X - hx) 0); [reflexivity|]. destruct (Rltb (k * Y - hy) 0); [reflexivity|].
    change (V2 (XFin (k * X - hx)) (XFin (k * Y - hy))) with (inj (k * X - hx, k * Y - hy)). apply v2len_inj.
Qed.
End Model.

(** Ball and box do not overlap: the value is never below the gap, and it is the gap exactly when the ball's centre is on
    one of the box's two axes or two diagonals. *)
Theorem C20_box_ball_sdf_outside : forall (T : Type) (TR : Transformation2d XR T) hx hy r v c s (rel : T),
  0 <= hx -> 0 <= hy -> 0 < r -> acts_as rel v c s 1 -> c * c + s * s = 1 ->
  let A := rect hx hy in let B := image (place v c s 1 1) (disc r) in ~ overlaps A B ->
  exists d e, sdf_rel (pbox hx hy) (pball r) rel = XFin d /\ is_signed_distance e A B /\ 0 <= e <= d /\
    (d = e <-> fst v = 0 \/ snd v = 0 \/ Rabs (fst v) * hy = Rabs (snd v) * hx).
Proof.
  intros T TR hx hy r v c s rel Hx Hy Hr AC U A B NO.
  pose proof (over_iff hx hy r c s v Hx Hy Hr U) as OI. fold A B in OI.
  set (X := Rabs (fst v)) in * . set (Y := Rabs (snd v)) in * .
  assert (HX : 0 <= X) by apply Rabs_pos. assert (HY : 0 <= Y) by apply Rabs_pos.
  assert (LD : r <= D hx hy X Y) by (apply Rnot_lt_le; intro; tauto).
  assert (NV : v <> origin).
  { intro Z. unfold D, X, Y in LD. rewrite Z in LD. unfold origin in LD. cbn [fst snd] in LD. rewrite Rabs_R0, !Rmax_right, norm_x0, Rabs_R0 in LD by lra. lra. }
  pose proof (n_pos v NV) as Pn. pose proof (n_sq v) as Sn. fold X Y in Sn. set (n := norm v) in * .
  pose proof (n_ge_D hx hy X Y n Hx Hy HX HY Pn Sn) as ND.
  assert (Rn : r <= n) by lra.
  pose proof (k01 r n Hr Pn Rn) as K. set (k := 1 - r / n) in * .
  assert (DS : sdf_rel (pbox hx hy) (pball r) rel = XFin (D hx hy (k * X) (k * Y))).
  { unfold sdf_rel, Sdf_BoxBall. rewrite (sdf_eq hx hy r c s v rel Hr AC NV) by (fold n k; lra). fold X Y n k. cbv zeta.
    assert (F : fst (box_ball_sdfv false false (pbox hx hy) (pball r) rel) = false).
    { destruct (fst (box_ball_sdfv false false (pbox hx hy) (pball r) rel)) eqn:Q; [|reflexivity]. exfalso. apply NO, (flag_right hx hy r c s v rel Hx Hy Hr AC U), Q. }
    rewrite F.
    assert (NB : ~ (k * X - hx < 0 /\ k * Y - hy < 0)).
    { intros [Q1 Q2]. pose proof (D_ge hx hy r X Y n Hx Hy Hr HX HY Pn Sn Rn) as G. fold k in G.
      assert (L0 : D hx hy (k * X) (k * Y) = 0) by (unfold D; rewrite !Rmax_right, norm_x0, Rabs_R0 by lra; reflexivity).
      (* the facing point would be strictly inside the box: then so would be points nearer to the centre *)
      assert (E : D hx hy X Y = r) by lra.
      destruct (Rle_dec (X - hx) 0) as [a|a]; destruct (Rle_dec (Y - hy) 0) as [b|b].
      - unfold D in E. rewrite !Rmax_right, norm_x0, Rabs_R0 in E by lra. lra.
      - unfold D in E. rewrite Rmax_right, Rmax_left, norm_x0, Rabs_pos_eq in E by lra.
        pose proof (kn r n Pn) as KN. fold k in KN. assert (Y <= n) by nra. nra.
      - unfold D in E. rewrite Rmax_left, Rmax_right, norm_xaxis, Rabs_pos_eq in E by lra.
        pose proof (kn r n Pn) as KN. fold k in KN. assert (X <= n) by nra. nra.
      - unfold D in E. rewrite !Rmax_left in E by lra.
        pose proof (norm_sq (X - hx, Y - hy)) as S. rewrite E in S. unfold pdot in S; cbn [fst snd] in S.
        pose proof (kn r n Pn) as KN. fold k in KN.
        assert (ER : r * r = (1 - k) * (1 - k) * (X * X + Y * Y)) by (rewrite <- KN, <- Sn; ring).
        assert ((X - hx) * (X - hx) < ((1 - k) * X) * ((1 - k) * X)) by (apply Rmult_le_0_lt_compat; lra).
        assert ((Y - hy) * (Y - hy) < ((1 - k) * Y) * ((1 - k) * Y)) by (apply Rmult_le_0_lt_compat; lra). lra. }
    unfold D. destruct (Rltb_spec (k * X - hx) 0), (Rltb_spec (k * Y - hy) 0); try tauto; f_equal.
    - rewrite Rmax_right, Rmax_left, norm_x0, Rabs_pos_eq by lra. reflexivity.
    - rewrite Rmax_left, Rmax_right, norm_xaxis, Rabs_pos_eq by lra. reflexivity.
    - rewrite !Rmax_left by lra. reflexivity. }
  exists (D hx hy (k * X) (k * Y)), (D hx hy X Y - r). split; [exact DS|]. split.
  - assert (NB : ~ (X - hx < 0 /\ Y - hy < 0)).
    { intros [Q1 Q2]. unfold D in LD. rewrite !Rmax_right, norm_x0, Rabs_R0 in LD by lra. lra. }
    pose proof (bb_true hx hy r c s v Hx Hy Hr U) as BT. pose proof (e0_D hx hy v NB) as ED. fold X Y in BT, ED. rewrite ED in BT. exact BT.
  - split; [split; [lra | apply (D_ge hx hy r X Y n); assumption]|].
    assert (Z : forall x, Rabs x = 0 <-> x = 0). { intro x. split; [|intros ->; apply Rabs_R0]. intro Q. destruct (Req_dec x 0); [assumption|]. exfalso. apply (Rabs_no_R0 x); assumption. }
    rewrite <- (Z (fst v)), <- (Z (snd v)). fold X Y. split.
    + apply (D_eq_fwd hx hy r X Y n); assumption.
    + apply (D_eq_bwd hx hy r X Y n); assumption.
Qed.
Print Assumptions C20_box_ball_sdf_outside.
(** Ball and box overlap, and the ball does not cover the box's centre: the value is negative. *)
Theorem C20_box_ball_sdf_inside_sign : forall (T : Type) (TR : Transformation2d XR T) hx hy r v c s (rel : T),
  0 <= hx -> 0 <= hy -> 0 < r -> acts_as rel v c s 1 -> c * c + s * s = 1 -> r <= norm v ->
  overlaps (rect hx hy) (image (place v c s 1 1) (disc r)) ->
  exists d, sdf_rel (pbox hx hy) (pball r) rel = XFin d /\ d < 0.
Proof.
  intros T TR hx hy r v c s rel Hx Hy Hr AC U Rn O.
  assert (NV : v <> origin) by (intro Z; rewrite Z, norm_origin in Rn; lra).
  pose proof (n_pos v NV) as Pn. pose proof (n_sq v) as Sn. pose proof (k01 r _ Hr Pn Rn) as K.
  assert (F : fst (box_ball_sdfv false false (pbox hx hy) (pball r) rel) = true) by (apply (flag_right hx hy r c s v rel Hx Hy Hr AC U), O).
  apply (over_iff hx hy r c s v Hx Hy Hr U) in O.
  eexists. split; [unfold sdf_rel, Sdf_BoxBall; rewrite (sdf_eq hx hy r c s v rel Hr AC NV) by lra; cbv zeta; rewrite F; reflexivity|].
  destruct (neg_min hx hy r _ _ _ Hr (Rabs_pos _) (Rabs_pos _) Pn Sn Rn O) as [L|L]; (eapply Rle_lt_trans; [|exact L]); [apply Rmin_l | apply Rmin_r].
Qed.
Print Assumptions C20_box_ball_sdf_inside_sign.
(** ... and if it does cover the centre even the sign can be wrong: a unit box inside a ball of radius 15 around (3, 4)
    has the "signed distance" +5. *)
Theorem C20_box_ball_sdf_sign_refuted :
  sdf_rel (pbox 1 1) (pball 15) (inj (3, 4)) = XFin 5 /\ overlaps (rect 1 1) (image (place (3, 4) 1 0 1 1) (disc 15)).
Proof.
  assert (NC : norm (3, 4) = 5) by (apply norm_eq; [lra | unfold pdot; cbn; ring]).
  assert (O : overlaps (rect 1 1) (image (place (3, 4) 1 0 1 1) (disc 15))).
  { apply (over_iff 1 1 15 1 0 (3, 4)); try lra. unfold D. cbn [fst snd]. rewrite !Rabs_pos_eq by lra. rewrite !Rmax_left by lra.
    eapply Rle_lt_trans; [apply (proj2 (norm_le_sq (3 - 1, 4 - 1) 5 ltac:(lra)))|lra]. unfold pdot; cbn. lra. }
  split; [|exact O].
  assert (AC : acts_as (inj (3, 4)) (3, 4) 1 0 1) by apply acts_vec2.
  unfold sdf_rel, Sdf_BoxBall, box_ball_sdf. rewrite (facing 15 1 0 (3, 4) (inj (3, 4))); try assumption; try lra; [|intro Q; injection Q; lra].
  assert (F : fst (box_ball_sdfv false false (pbox 1 1) (pball 15) (inj (3, 4))) = true) by (apply (flag_right 1 1 15 1 0 (3, 4)); try assumption; lra).
  rewrite F, NC. unfold fmin. cbn [inj vx vy fst snd halfsize pbox pscale fabs fsub FloatXR xabs xsub fisnan flt xlt].
  rewrite !Rabs_left by lra. rewrite Rltb_false by lra. f_equal. field.
Qed.
Print Assumptions C20_box_ball_sdf_sign_refuted.
(** non-vacuity of the two theorems: the box 2 x 1 (half sizes) and a ball of radius 1 around (6, 3), on the diagonal; and around (2, 1) *)
Example C20_outside_example : exists d, sdf_rel (pbox 2 1) (pball 1) (inj (6, 3)) = XFin d /\ is_signed_distance d (rect 2 1) (image (place (6, 3) 1 0 1 1) (disc 1)).
Proof.
  destruct (C20_box_ball_sdf_outside _ _ 2 1 1 (6, 3) 1 0 (inj (6, 3))) as (d & e & E & S & _ & I); try lra; [apply acts_vec2| |].
  - intro O. apply (over_iff 2 1 1 1 0 (6, 3)) in O; try lra. unfold D in O. cbn [fst snd] in O. rewrite !Rabs_pos_eq, !Rmax_left in O by lra.
    pose proof (norm_x (6 - 2, 3 - 1)) as N. cbn [fst] in N. rewrite Rabs_pos_eq in N; lra.
  - exists d. split; [exact E|]. replace d with e; [exact S|]. symmetry. apply I. right; right. cbn [fst snd]. rewrite !Rabs_pos_eq by lra. lra.
Qed.
Example C20_inside_example : exists d, sdf_rel (pbox 2 1) (pball 1) (inj (2, 1)) = XFin d /\ d < 0.
Proof.
  apply (C20_box_ball_sdf_inside_sign _ _ 2 1 1 (2, 1) 1 0 (inj (2, 1))); try lra; [apply acts_vec2| |].
  - pose proof (norm_x (2, 1)) as N. cbn [fst] in N. rewrite Rabs_pos_eq in N; lra.
  - apply (over_iff 2 1 1 1 0 (2, 1)); try lra. unfold D. cbn [fst snd]. rewrite !Rabs_pos_eq by lra. rewrite !Rmax_right, norm_x0, Rabs_R0 by lra. lra.
Qed.
