(** * C78 in binary32: the vector of Cylinder3d against a point beyond the planes of its faces *)
From Coq Require Import Reals ZArith Lra Lia Psatz Bool.
From Flocq Require Import Core BinarySingleNaN.
From Verif Require Import Num NumXR NumB32 Glam Transform2 Shapes2 Gjk Detect2 Col3 Spec SpecLink P_Base P_Geo P_Geo3 P_3d P_B32 Props_F32 Props_F32Gjk Props_Lerp Props_F32Ball P_F32Box P_Drift Spec32 P_Closed32 Props_Closed32 Props_Approx Props_Sdf32 Props_Ext32 Spec32s P_Space32 Props_Space32 Props_3d Props_3dDefects Props_Cylinder.
Local Open Scope R_scope.

Lemma signum_mul_l (x d : b32) : fin x -> fin d -> exists s, sgn s (val x) /\ fin (fmul (fsignum x) d) /\ val (fmul (fsignum x) d) = s * val d.
Proof.
  intros Fx Fd. destruct (sb_sgn x Fx) as (s & Hs & Hg). exists (P_F32Box.sg s). split; [exact Hg|].
  assert (E : fsignum x = one s) by (apply sb_signum, Hs).
  rewrite E. destruct (one_ok s) as [G V].
  assert (E2 : rnd (val (one s) * val d) = P_F32Box.sg s * val d) by (rewrite V, rnd_sg, rnd_exact; reflexivity).
  destruct (mul_ok (one s) d G Fd) as [K W].
  - rewrite E2, Rabs_mult, P_Closed32.abs_sg, Rmult_1_l. apply val_big.
  - split; [exact K | rewrite W; exact E2].
Qed.
(** the comparison of the squares *)
Lemma sq_compare (p : vec2 b32) (r : b32) : centre_ok p -> radius_ok r ->
  exists c, fle (v2lensq p) (fmul r r) = c /\ (c = true -> norm (rval p) <= val r * (1 + 4 * u32)) /\ (c = false -> val r <= norm (rval p) * (1 + 4 * u32) /\ mid_range p).
Proof.
  intros [Fp Hp] (Fr & Sr & Pr). eexists. split; [reflexivity|]. pose proof u32_pos as Up. pose proof u32_small as Us. pose proof tiny_pos as Tp.
  assert (Q : small (rnd (val r * val r)) 118) by (apply rnd_small; [lia|]; apply (small_mul _ _ 59 59); assumption).
  destruct (mul_ok r r Fr Fr ltac:(eapply small_big; [|exact Q]; lia)) as (F2 & V2).
  destruct Hp as [E|M].
  - assert (Ex : val (vx p) = 0) by exact (f_equal fst E). assert (Ey : val (vy p) = 0) by exact (f_equal snd E). destruct Fp as [Fx Fy].
    assert (K : forall x : b32, fin x -> val x = 0 -> fin (fmul x x) /\ val (fmul x x) = 0).
    { intros x F V. destruct (mul_ok x x F F) as [A B]; [rewrite V, Rmult_0_l, rnd_0, Rabs_R0; apply bpow_gt_0|]. split; [exact A|]. rewrite B, V, Rmult_0_l. apply rnd_0. }
    destruct (K _ Fx Ex) as [A1 B1]. destruct (K _ Fy Ey) as [A2 B2].
    destruct (add_ok _ _ A1 A2) as [A3 B3]; [rewrite B1, B2, Rplus_0_r, rnd_0, Rabs_R0; apply bpow_gt_0|]. rewrite B1, B2, Rplus_0_r, rnd_0 in B3.
    change (fadd (fmul (vx p) (vx p)) (fmul (vy p) (vy p))) with (v2lensq p) in A3, B3. rewrite (fle_fin _ _ A3 F2), B3, V2.
    assert (P0 : 0 <= rnd (val r * val r)) by (rewrite <- rnd_0; apply rnd_le; apply Rmult_le_pos; exact Pr).
    rewrite Rleb_true by exact P0. split; [|discriminate]. intros _. rewrite E, norm_origin. apply Rmult_le_pos; lra.
  - pose proof M as [S Hl]. destruct (dot_ok p p 60 60 ltac:(lia) ltac:(lia) S S) as [D1 D2]. pose proof (rlen_pos p) as Lp.
    assert (Ra : rdot_abs p p = rlen p * rlen p). { rewrite rlen_sq. unfold rdot_abs. rewrite !Rabs_pos_eq by nra. reflexivity. }
    assert (Rd : rdot p p = rlen p * rlen p) by (rewrite rlen_sq; reflexivity).
    rewrite Ra, Rd in D2. change (v2dot p p) with (v2lensq p) in D1, D2. rewrite (fle_fin _ _ D1 F2), V2. rewrite <- rlen_norm.
    set (s := val (v2lensq p)) in * . set (L := rlen p) in * .
    assert (B120 : bpow radix2 (-120) <= L * L). { replace (-120)%Z with (-60 + -60)%Z by reflexivity. rewrite bpow_plus. apply Rmult_le_compat; try apply bpow_ge_0; exact Hl. }
    assert (Tt : tiny <= u32 / 64 * (L * L)).
    { apply Rle_trans with (u32 / 64 * bpow radix2 (-120)); [|apply Rmult_le_compat_l; lra]. unfold tiny, u32.
      replace (-150)%Z with (-30 + -120)%Z by reflexivity. rewrite bpow_plus. apply Rmult_le_compat_r; [apply bpow_ge_0|]. cbn. lra. }
    assert (Lpos : 0 < L) by (eapply Rlt_le_trans; [apply bpow_gt_0 | exact Hl]). assert (LL : 0 < L * L) by nra.
    assert (Sb : Rabs (s - L * L) <= (3 + 3 / 64) * u32 * (L * L)) by nra. apply Rabs_le_inv in Sb.
    destruct (rnd_error (val r * val r)) as (e & t & He & Ht & EQ). rewrite EQ. apply Rabs_le_inv in He. apply Rabs_le_inv in Ht.
    set (x := val r) in * . assert (XX : 0 <= x * x) by (apply Rmult_le_pos; exact Pr).
    assert (Q1 : (1 - u32) * (x * x) <= x * x * (1 + e) <= (1 + u32) * (x * x)) by (split; nra).
    destruct (Rleb_spec s (x * x * (1 + e) + t)) as [C|C]; (split; [intro G | intro G]); try discriminate.
    + assert (A1 : (1 - (3 + 4 / 64) * u32) * (L * L) <= (1 + u32) * (x * x)) by lra.
      assert (A2 : (1 + u32) <= (1 - (3 + 4 / 64) * u32) * ((1 + 4 * u32) * (1 + 4 * u32))) by nra.
      assert (A3 : (1 + u32) * (x * x) <= (1 - (3 + 4 / 64) * u32) * ((x * (1 + 4 * u32)) * (x * (1 + 4 * u32)))).
      { replace ((1 - (3 + 4 / 64) * u32) * ((x * (1 + 4 * u32)) * (x * (1 + 4 * u32)))) with ((1 - (3 + 4 / 64) * u32) * ((1 + 4 * u32) * (1 + 4 * u32)) * (x * x)) by ring. apply Rmult_le_compat_r; assumption. }
      assert (A4 : L * L <= (x * (1 + 4 * u32)) * (x * (1 + 4 * u32))) by (apply Rmult_le_reg_l with (1 - (3 + 4 / 64) * u32); lra).
      assert (0 <= x * (1 + 4 * u32)) by (apply Rmult_le_pos; lra). apply Rsqr_incr_0; unfold Rsqr; lra.
    + apply Rnot_le_lt in C. split; [|exact M].
      assert (A1 : (1 - u32) * (x * x) <= (1 + (3 + 4 / 64) * u32) * (L * L)) by lra.
      assert (A2 : (1 + (3 + 4 / 64) * u32) <= (1 - u32) * ((1 + 4 * u32) * (1 + 4 * u32))) by nra.
      assert (A3 : (1 + (3 + 4 / 64) * u32) * (L * L) <= (1 - u32) * ((L * (1 + 4 * u32)) * (L * (1 + 4 * u32)))).
      { replace ((1 - u32) * ((L * (1 + 4 * u32)) * (L * (1 + 4 * u32)))) with ((1 - u32) * ((1 + 4 * u32) * (1 + 4 * u32)) * (L * L)) by ring. apply Rmult_le_compat_r; lra. }
      assert (A4 : x * x <= (L * (1 + 4 * u32)) * (L * (1 + 4 * u32))) by (apply Rmult_le_reg_l with (1 - u32); lra).
      assert (0 <= L * (1 + 4 * u32)) by (apply Rmult_le_pos; lra). apply Rsqr_incr_0; unfold Rsqr; lra.
Qed.
Lemma norm3_split v : norm3 v <= norm (x3 v, y3 v) + Rabs (z3 v).
Proof.
  apply norm3_le_sq; [pose proof (norm_nonneg (x3 v, y3 v)); pose proof (Rabs_pos (z3 v)); lra|].
  rewrite <- norm3_sq, norm3_parts. pose proof (norm_nonneg (x3 v, y3 v)). pose proof (Rabs_pos (z3 v)).
  assert (Z : Rabs (z3 v) * Rabs (z3 v) = z3 v * z3 v) by (rewrite <- Rabs_mult; apply Rabs_pos_eq; nra). nra.
Qed.

(** A point level with or beyond the plane of a face, above the cylinder or (with a margin of 2^-22) within its radius: the computed vector differs
    from the shortest translation into contact by at most 2^-19 of its length plus the diameter *)
Theorem C78_sdfv_f32 : forall (T : Type) (TR : Transformation3d b32 T) (h r : b32) (rel : T), let o := apply_origin3 rel in
  fin h -> small (val h) 59 -> 0 <= val h -> radius_ok r -> fin (wz o) -> small (val (wz o)) 59 -> centre_ok (V2 (wx o) (wy o)) ->
  val h <= Rabs (val (wz o)) -> (0 <= val (wz o) \/ norm (val (wx o), val (wy o)) * (1 + 4 * u32) < val r) ->
  let v := sdfv_rel3 (Cylinder3d h r) PointS rel in
  exists w, is_min_contact3 w (cylinder3 (2 * val h) (val r)) (single3 (rval3 o)) /\ fin3 v /\ norm3 (sub3 (rval3 v) w) <= 32 * u32 * (norm3 w + 2 * val r).
Proof.
  intros T TR h r rel o Fh Sh Ph Hr Fz Sz Hp HZ HS v. pose proof u32_pos as Up. pose proof u32_small as Us. set (q := rval3 o) in * . set (p := V2 (wx o) (wy o)) in * .
  destruct (sq_compare p r Hp Hr) as (c & Ec & C1 & C2). pose proof Hr as (Fr & Sr & Pr). set (n := norm (rval p)) in * .
  change (norm (val (wx o), val (wy o))) with n in HS.
  assert (Wd : forall x, small x 59 -> small x 60) by (intros x X; eapply small_weak; [|exact X]; lia).
  destruct (edge_ok (wz o) h Fz Fh (Wd _ Sz) (Wd _ Sh)) as (Ze1 & Ze2 & e & He & Ze3). set (z := fsub (fabs (wz o)) h) in * .
  set (FL := flat (2 * val h) q). assert (EF : FL = Rabs (val (wz o)) - val h) by (unfold FL, flat; change (z3 q) with (val (wz o)); field).
  rewrite <- EF in Ze3. assert (PF : 0 <= FL) by lra. set (SD := side (val r) q). assert (ES : SD = n - val r) by reflexivity.
  assert (PZ : 0 <= val z). { rewrite Ze3. apply Rabs_le_inv in He. apply Rmult_le_pos; lra. }
  assert (Zerr : Rabs (val z - FL) <= u32 * FL). { rewrite Ze3. replace (FL * (1 + e) - FL) with (FL * e) by ring. rewrite Rabs_mult, (Rabs_pos_eq FL) by exact PF. rewrite (Rmult_comm u32). apply Rmult_le_compat_l; assumption. }
  assert (EV : v = if c then V3 f0 f0 (fmul (fsignum (wz o)) z) else
     V3 (vx (snd (ball_code r p))) (vy (snd (ball_code r p))) (fmul (fsignum z) z)).
  { unfold v, sdfv_rel3, Sdfv3_CylinderPoint, cylinder_to_ball. cbn [cy_halfheight cy_radius]. fold o. fold p. fold z. rewrite Ec.
    rewrite (flt_fin z f0 Ze1) by reflexivity. change (val (@f0 b32 _)) with 0. rewrite Rltb_false by lra.
    destruct c; [reflexivity|]. unfold ball_point_sdfv, ball_code. cbn [apply_origin Tr_Vec2 b_radius]. destruct (flt f0 (v2len p)); reflexivity. }
  assert (H2 : 0 <= 2 * val h) by lra. destruct (way_in_ok (2 * val h) (val r) q H2 Pr) as (WM & WN). fold SD FL in WN. set (w := way_in (2 * val h) (val r) q) in * .
  assert (WC : is_min_contact3 w (cylinder3 (2 * val h) (val r)) (single3 q)).
  { split; [exact WM|]. intros u U. rewrite WN. apply contact_lower, U. }
  assert (Wx : x3 w = (if Rltb 0 SD then x3 (way_side (val r) q) else 0) /\ y3 w = (if Rltb 0 SD then y3 (way_side (val r) q) else 0) /\ z3 w = (if Rltb 0 FL then Props_3d.sg (val (wz o)) * FL else 0)).
  { destruct (way_side_xy (val r) q Pr) as (_ & _ & X3). unfold w, way_in. fold SD FL. destruct (Rltb 0 SD), (Rltb 0 FL); unfold add3, way_flat; fold FL; change (z3 q) with (val (wz o)); rewrite ?X3; unfold x3, y3, z3; cbn [fst snd]; repeat split; try ring; unfold z3 in X3; rewrite X3; ring. }
  destruct Wx as (W1 & W2 & W3).
  assert (WL : Rmax SD 0 <= norm3 w /\ FL <= norm3 w).
  { rewrite WN. rewrite (Rmax_left FL 0) by lra. pose proof (norm_x (Rmax SD 0, FL)) as A. pose proof (norm_y (Rmax SD 0, FL)) as B. cbn [fst snd] in A, B. pose proof (Rmax_r SD 0). rewrite Rabs_pos_eq in A, B by assumption. split; assumption. }
  destruct WL as [WL1 WL2]. pose proof (Rmax_l SD 0) as M1. pose proof (Rmax_r SD 0) as M2.
  assert (Wz : (if Rltb 0 FL then Props_3d.sg (val (wz o)) * FL else 0) = Props_3d.sg (val (wz o)) * FL). { destruct (Rltb_spec 0 FL); [reflexivity|]. replace FL with 0 by lra. ring. }
  rewrite Wz in W3. clear Wz.
  assert (WXY : norm (x3 w, y3 w) = Rmax SD 0).
  { rewrite W1, W2. destruct (Rltb_spec 0 SD) as [G|G].
    - destruct (way_side_xy (val r) q Pr) as (_ & X2 & _). rewrite X2. fold SD. rewrite Rmax_left, Rabs_pos_eq by lra. reflexivity.
    - rewrite Rmax_right by lra. apply norm_origin. }
  exists w. split; [exact WC|]. rewrite EV. clear EV Ec v. destruct c.
  - specialize (C1 eq_refl). destruct (signum_mul_l (wz o) z Fz Ze1) as (s & (Sg1 & Sg2) & Fs & Vs). split; [repeat split; [exact Fs]|].
    assert (D3 : Rabs (s * val z - Props_3d.sg (val (wz o)) * FL) <= u32 * FL).
    { destruct (Req_dec (val (wz o)) 0) as [Z|NZ].
      - assert (F0 : FL = 0) by (rewrite EF, Z, Rabs_R0 in *; lra). assert (Z0 : val z = 0) by (rewrite Ze3, F0; ring). rewrite Z0, F0, !Rmult_0_r, Rminus_0_r, Rabs_R0. lra.
      - assert (Es : s = Props_3d.sg (val (wz o))). { unfold Props_3d.sg. destruct (Rltb_spec (val (wz o)) 0) as [G|G]; destruct Sg2 as [-> | ->]; try reflexivity; [rewrite Rabs_left in Sg1 by exact G | rewrite Rabs_pos_eq in Sg1 by lra]; lra. }
        rewrite Es. replace (Props_3d.sg (val (wz o)) * val z - Props_3d.sg (val (wz o)) * FL) with (Props_3d.sg (val (wz o)) * (val z - FL)) by ring. rewrite Rabs_mult, abs_sgR, Rmult_1_l. exact Zerr. }
    eapply Rle_trans; [apply norm3_split|]. unfold rval3; cbn [wx wy wz]. rewrite Vs.
    change (val (@f0 b32 _)) with 0. unfold sub3 at 1 2. change (x3 (0 - x3 w, 0 - y3 w, s * val z - z3 w)) with (0 - x3 w). change (y3 (0 - x3 w, 0 - y3 w, s * val z - z3 w)) with (0 - y3 w).
    change (norm (x3 (0, 0, s * val z) - x3 w, y3 (0, 0, s * val z) - y3 w) + Rabs (s * val z - z3 w) <= 32 * u32 * (norm3 w + 2 * val r)).
    replace (x3 (0, 0, s * val z) - x3 w, y3 (0, 0, s * val z) - y3 w) with (pneg (x3 w, y3 w)) by (apply pt_eq; unfold x3, y3; cbn; ring).
    rewrite norm_neg, WXY, W3. assert (Q : Rmax SD 0 <= 4 * u32 * val r) by (apply Rmax_lub; [lra | apply Rmult_le_pos; lra]).
    assert (u32 * FL <= u32 * norm3 w) by (apply Rmult_le_compat_l; lra). assert (0 <= u32 * val r) by (apply Rmult_le_pos; lra). assert (0 <= u32 * norm3 w) by (apply Rmult_le_pos; [lra | apply norm3_nonneg]). lra.
  - destruct (C2 eq_refl) as [C3 MR]. clear C1 C2. assert (SZ : 0 <= val (wz o)).
    { destruct HS as [|HS]; [assumption|]. exfalso. lra. }
    destruct (signum_mul_l z z Ze1 Ze1) as (s & (Sg1 & Sg2) & Fs & Vs).
    assert (Vz : val (fmul (fsignum z) z) = val z). { rewrite Vs. rewrite (Rabs_pos_eq (val z)) in Sg1 by exact PZ. lra. }
    destruct (ball_core p r (val r) MR Fr ltac:(eapply small_weak; [|exact Sr]; lia) Pr ltac:(rewrite Rminus_diag_eq, Rabs_R0 by reflexivity; apply Rmult_le_pos; lra)) as ((B1 & B2) & B3).
    destruct (length_ok p MR) as (Lf & Le). change (rlen p) with n in B3, Le.
    assert (Np : 0 < n) by (eapply Rlt_le_trans; [apply bpow_gt_0 | apply MR]). apply Rabs_le_inv in Le.
    assert (EB : snd (ball_code r p) = v2muls p (fdiv (fsub (v2len p) r) (v2len p))).
    { unfold ball_code. rewrite flt_fin by (assumption || reflexivity). change (val (@f0 b32 _)) with 0. rewrite Rltb_true by nra. reflexivity. }
    rewrite EB. set (b := v2muls p (fdiv (fsub (v2len p) r) (v2len p))) in * . split; [split; [exact B1|]; split; [exact B2 | exact Fs]|].
    eapply Rle_trans; [apply norm3_split|].
    change (norm (val (vx b) - x3 w, val (vy b) - y3 w) + Rabs (val (fmul (fsignum z) z) - z3 w) <= 32 * u32 * (norm3 w + 2 * val r)).
    rewrite Vz, W3. replace (Props_3d.sg (val (wz o))) with 1 by (unfold Props_3d.sg; rewrite Rltb_false by lra; reflexivity). rewrite Rmult_1_l.
    assert (Wp : (x3 (way_side (val r) q), y3 (way_side (val r) q)) = pscale ((n - val r) / n) (rval p)).
    { unfold way_side. change (norm (x3 q, y3 q)) with n. cbv zeta. rewrite Rltb_true by exact Np. apply pt_eq; cbn; unfold q, rval3, x3, y3; cbn [fst snd]; ring. }
    assert (XY : norm (val (vx b) - x3 w, val (vy b) - y3 w) <= 16 * u32 * (n + val r) + (if Rltb 0 SD then 0 else 4 * u32 * n)).
    { destruct (Rltb_spec 0 SD) as [G|G].
      - rewrite W1, W2. replace (val (vx b) - x3 (way_side (val r) q), val (vy b) - y3 (way_side (val r) q)) with (psub (rval b) (x3 (way_side (val r) q), y3 (way_side (val r) q))) by (apply pt_eq; reflexivity).
        rewrite Wp. lra.
      - rewrite W1, W2, !Rminus_0_r. replace (val (vx b), val (vy b)) with (padd (psub (rval b) (pscale ((n - val r) / n) (rval p))) (pscale ((n - val r) / n) (rval p))) by (apply pt_eq; cbn; ring).
        eapply Rle_trans; [apply norm_triangle|]. apply Rplus_le_compat; [exact B3|]. rewrite <- Wp. destruct (way_side_xy (val r) q Pr) as (_ & X2 & _). rewrite X2. fold SD. rewrite Rabs_left1 by lra. lra. }
    assert (u32 * FL <= u32 * norm3 w) by (apply Rmult_le_compat_l; lra). assert (0 <= u32 * val r) by (apply Rmult_le_pos; lra). assert (0 <= u32 * norm3 w) by (apply Rmult_le_pos; [lra | apply norm3_nonneg]).
    destruct (Rltb_spec 0 SD) as [G|G].
    + assert (u32 * (n - val r) <= u32 * norm3 w) by (apply Rmult_le_compat_l; lra). lra.
    + assert (u32 * n <= u32 * val r) by (apply Rmult_le_compat_l; lra). lra.
Qed.
Print Assumptions C78_sdfv_f32.

(** A point inside: the computed vector differs by at most 2^-19 of its length plus the diameter from a way out, through the nearer face or through the
    curved surface *)
Theorem C78_sdfv_f32_inside : forall (T : Type) (TR : Transformation3d b32 T) (h r : b32) (rel : T), let o := apply_origin3 rel in
  fin h -> small (val h) 59 -> radius_ok r -> fin (wz o) -> small (val (wz o)) 59 -> centre_ok (V2 (wx o) (wy o)) ->
  overlaps3 (cylinder3 (2 * val h) (val r)) (single3 (rval3 o)) ->
  let v := sdfv_rel3 (Cylinder3d h r) PointS rel in
  exists w, separates3 w (cylinder3 (2 * val h) (val r)) (single3 (rval3 o)) /\
    (norm3 w = val h - Rabs (val (wz o)) \/ norm3 w = val r - norm (val (wx o), val (wy o))) /\
    fin3 v /\ norm3 (sub3 (rval3 v) w) <= 32 * u32 * (norm3 w + 2 * val r).
Proof.
  intros T TR h r rel o Fh Sh Hr Fz Sz Hp OV v. pose proof u32_pos as Up. pose proof u32_small as Us. apply cyl_overlaps in OV. destruct OV as [OF OS].
  set (q := rval3 o) in * . set (p := V2 (wx o) (wy o)) in * . pose proof Hr as (Fr & Sr & Pr). set (n := norm (rval p)) in * .
  change (norm (val (wx o), val (wy o))) with n.
  assert (Wd : forall x, small x 59 -> small x 60) by (intros x X; eapply small_weak; [|exact X]; lia).
  destruct (edge_ok (wz o) h Fz Fh (Wd _ Sz) (Wd _ Sh)) as (Ze1 & Ze2 & e & He & Ze3). set (z := fsub (fabs (wz o)) h) in * .
  set (FL := flat (2 * val h) q) in * . assert (EF : FL = Rabs (val (wz o)) - val h) by (unfold FL, flat; change (z3 q) with (val (wz o)); field).
  rewrite <- EF in Ze3. set (SD := side (val r) q) in * . assert (ES : SD = n - val r) by reflexivity.
  assert (PZ : val z < 0). { rewrite Ze3. apply Rabs_le_inv in He. assert (0 < (- FL) * (1 + e)) by (apply Rmult_lt_0_compat; lra). lra. }
  assert (Zerr : Rabs (val z - FL) <= u32 * (- FL)). { rewrite Ze3. replace (FL * (1 + e) - FL) with (FL * e) by ring. rewrite Rabs_mult, (Rabs_left FL) by exact OF. rewrite (Rmult_comm u32). apply Rmult_le_compat_l; lra. }
  assert (EV : exists c : bool, v = if c then V3 f0 f0 (fmul (fsignum (wz o)) z) else V3 (vx (snd (ball_code r p))) (vy (snd (ball_code r p))) f0).
  { eexists. unfold v, sdfv_rel3, Sdfv3_CylinderPoint, cylinder_to_ball. cbn [cy_halfheight cy_radius]. fold o. fold p. fold z.
    rewrite (flt_fin z f0 Ze1) by reflexivity. change (val (@f0 b32 _)) with 0. rewrite Rltb_true by exact PZ.
    unfold ball_point_sdfv, ball_code. cbn [apply_origin Tr_Vec2 b_radius]. destruct (flt f0 (v2len p)); reflexivity. }
  destruct EV as (c & EV). rewrite EV. clear EV v. assert (R0 : 0 <= u32 * val r) by (apply Rmult_le_pos; lra). destruct c.
  - destruct (signum_mul_l (wz o) z Fz Ze1) as (s & (Sg1 & Sg2) & Fs & Vs). set (w := (0, 0, s * FL)). exists w.
    assert (AS : Rabs s = 1) by (destruct Sg2 as [-> | ->]; [apply Rabs_R1 | rewrite Rabs_left; lra]).
    assert (Nw : norm3 w = - FL) by (unfold w; rewrite norm3_axis_z, Rabs_mult, AS, Rabs_left by exact OF; ring).
    split; [|split; [left; rewrite Nw, EF; ring|split; [repeat split; [exact Fs]|]]].
    + apply cyl_separates. unfold flat at 1. change (z3 (sub3 q w)) with (val (wz o) - s * FL). replace (val (wz o) - s * FL) with (s * val h).
      * rewrite Rabs_mult, AS. pose proof (Rle_abs (val h)). lra.
      * rewrite EF. rewrite Sg1 at 1. ring.
    + eapply Rle_trans; [apply norm3_split|]. change (norm (0 - 0, 0 - 0) + Rabs (val (fmul (fsignum (wz o)) z) - s * FL) <= 32 * u32 * (norm3 w + 2 * val r)).
      rewrite Rminus_0_r. change (norm (0, 0)) with (norm origin). rewrite norm_origin, Vs, Nw. replace (s * val z - s * FL) with (s * (val z - FL)) by ring. rewrite Rabs_mult, AS.
      assert (0 <= u32 * - FL) by (apply Rmult_le_pos; lra). lra.
  - exists (way_side (val r) q). split; [apply way_side_separates, Pr|]. assert (Nw : norm3 (way_side (val r) q) = val r - n) by (rewrite way_side_norm by exact Pr; fold SD; rewrite Rabs_left by exact OS; lra).
    split; [right; exact Nw|]. pose proof (norm_nonneg (rval p)) as Nn. fold n in Nn. destruct (way_side_xy (val r) q Pr) as (_ & _ & X3).
    assert (Z0 : val (@f0 b32 _) = 0) by reflexivity.
    assert (K : fin2 (snd (ball_code r p)) /\ norm (psub (rval (snd (ball_code r p))) (x3 (way_side (val r) q), y3 (way_side (val r) q))) <= 16 * u32 * (n + val r)).
    { destruct Hp as [Fp [E|MR]].
      - destruct (zero_len p Fp E) as [L1 L2]. assert (EB : snd (ball_code r p) = v2smul r v2X). { unfold ball_code. rewrite flt_fin by (assumption || reflexivity). change (val (@f0 b32 _)) with 0. rewrite L2, Rltb_false by lra. reflexivity. }
        rewrite EB. assert (N0 : n = 0) by (unfold n; rewrite E; apply norm_origin). destruct (mul_one_r true r Fr) as [A1 A2]. cbn [one] in A1, A2. unfold P_F32Box.sg in A2.
        assert (Fz0 : fin (@f0 b32 _)) by reflexivity. destruct (mul_ok r f0 Fr Fz0) as [B1 B2]; [change (val (@f0 b32 _)) with 0; rewrite Rmult_0_r, rnd_0, Rabs_R0; apply bpow_gt_0|].
        change (val (@f0 b32 _)) with 0 in B2. rewrite Rmult_0_r, rnd_0 in B2. split; [split; assumption|].
        unfold way_side. change (norm (x3 q, y3 q)) with n. cbv zeta. rewrite Rltb_false by lra. change (x3 (val r, 0, 0)) with (val r). change (y3 (val r, 0, 0)) with 0.
        replace (psub (rval (v2smul r v2X)) (val r, 0)) with origin; [rewrite norm_origin; apply Rmult_le_pos; lra|]. apply pt_eq; cbn [fst snd psub rval v2smul v2X vx vy origin].
        + change (0 = val (fmul r f1) - val r). rewrite A2. ring.
        + change (0 = val (fmul r f0) - 0). rewrite B2. ring.
      - destruct (ball_core p r (val r) MR Fr ltac:(eapply small_weak; [|exact Sr]; lia) Pr ltac:(rewrite Rminus_diag_eq, Rabs_R0 by reflexivity; apply Rmult_le_pos; lra)) as (B1 & B3).
        destruct (length_ok p MR) as (Lf & Le). change (rlen p) with n in B3, Le.
        assert (Np : 0 < n) by (eapply Rlt_le_trans; [apply bpow_gt_0 | apply MR]). apply Rabs_le_inv in Le.
        assert (EB : snd (ball_code r p) = v2muls p (fdiv (fsub (v2len p) r) (v2len p))).
        { unfold ball_code. rewrite flt_fin by (assumption || reflexivity). change (val (@f0 b32 _)) with 0. rewrite Rltb_true by nra. reflexivity. }
        rewrite EB. split; [exact B1|].
        replace (x3 (way_side (val r) q), y3 (way_side (val r) q)) with (pscale ((n - val r) / n) (rval p)); [exact B3|].
        unfold way_side. change (norm (x3 q, y3 q)) with n. cbv zeta. rewrite Rltb_true by exact Np. apply pt_eq; cbn; unfold q, rval3, x3, y3; cbn [fst snd]; ring. }
    destruct K as [[K1 K2] K3]. split; [split; [exact K1|]; split; [exact K2 | reflexivity]|].
    eapply Rle_trans; [apply norm3_split|]. set (b := snd (ball_code r p)) in * .
    change (norm (psub (rval b) (x3 (way_side (val r) q), y3 (way_side (val r) q))) + Rabs (val (@f0 b32 _) - z3 (way_side (val r) q)) <= 32 * u32 * (norm3 (way_side (val r) q) + 2 * val r)).
    rewrite X3, Z0, Rminus_0_r, Rabs_R0, Nw. assert (u32 * n <= u32 * val r) by (apply Rmult_le_compat_l; lra). lra.
Qed.
Print Assumptions C78_sdfv_f32_inside.

(** ** The hypotheses are met *)
Example C78_f32_case : exists (h r : b32) (above inside : vec3 b32),
  (fin h /\ small (val h) 59 /\ 0 <= val h /\ radius_ok r) /\
  (fin (wz above) /\ small (val (wz above)) 59 /\ centre_ok (V2 (wx above) (wy above)) /\ val h <= Rabs (val (wz above)) /\ 0 <= val (wz above) /\ val r < norm (val (wx above), val (wy above))) /\
  (fin (wz inside) /\ small (val (wz inside)) 59 /\ centre_ok (V2 (wx inside) (wy inside)) /\ overlaps3 (cylinder3 (2 * val h) (val r)) (single3 (rval3 inside))).
Proof.
  exists (b32_of 2 0), (b32_of 3 0), (V3 (b32_of 4 0) (b32_of 1 0) (b32_of 5 0)), (V3 (b32_of 1 0) (b32_of 0 0) (b32_of (-1) 0)).
  destruct (case3_num 2 0 ltac:(lia) ltac:(lia)) as (H1 & H2 & H3). destruct (case3_num 3 0 ltac:(lia) ltac:(lia)) as (R1 & R2 & R3).
  destruct (case3_num 4 0 ltac:(lia) ltac:(lia)) as (X1 & X2 & X3). destruct (case3_num 1 0 ltac:(lia) ltac:(lia)) as (Y1 & Y2 & Y3).
  destruct (case3_num 5 0 ltac:(lia) ltac:(lia)) as (Z1 & Z2 & Z3). destruct (case3_num 0 0 ltac:(lia) ltac:(lia)) as (O1 & O2 & O3). destruct (case3_num (-1) 0 ltac:(lia) ltac:(lia)) as (N1 & N2 & N3).
  change (bpow radix2 0) with 1 in * . rewrite Rmult_1_r in * .
  assert (W : forall x j, small x 58 -> (58 <= j)%Z -> small x j) by (intros x j X J; eapply small_weak; [|exact X]; exact J).
  assert (M : forall a b : b32, fin a -> fin b -> small (val a) 58 -> small (val b) 58 -> 1 <= val a -> centre_ok (V2 a b)).
  { intros a b Fa Fb Sa Sb A. split; [split; assumption|]. right. split; [split; [split; assumption|]; split; apply W; (assumption || lia)|].
    rewrite rlen_norm. apply Rle_trans with 1; [apply Rle_trans with (bpow radix2 0); [apply bpow_le; lia | cbn; lra]|].
    pose proof (norm_x (rval (V2 a b))) as K. cbn [rval fst vx] in K. rewrite Rabs_pos_eq in K by lra. lra. }
  cbn [wx wy wz]. split; [|split].
  - split; [exact H1|]. split; [apply W; [exact H3 | lia]|]. split; [lra|]. split; [exact R1|]. split; [apply W; [exact R3 | lia] | lra].
  - split; [exact Z1|]. split; [apply W; [exact Z3 | lia]|]. split; [apply M; (assumption || lra)|]. split; [rewrite Rabs_pos_eq; lra|]. split; [lra|].
    rewrite R2, X2, Y2. pose proof (norm_x (4, 1)) as K. cbn [fst] in K. rewrite Rabs_pos_eq in K by lra. lra.
  - split; [exact N1|]. split; [apply W; [exact N3 | lia]|]. split; [apply M; (assumption || lra)|]. apply cyl_overlaps. unfold flat, side, rval3, x3, y3, z3; cbn [wx wy wz fst snd].
    rewrite H2, R2, N2, Y2, O2. rewrite Rabs_left, norm_xaxis, Rabs_R1 by lra. lra.
Qed.
