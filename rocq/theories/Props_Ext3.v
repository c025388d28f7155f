(** * C69: extreme points of 3D shapes, sums, covers and the cylinder's flag in f32 *)
From Coq Require Import Reals ZArith Lra Lia Psatz Bool.
From Flocq Require Import Core BinarySingleNaN.
From Verif Require Import Num NumXR NumB32 Glam Transform2 Shapes2 Gjk Detect2 Col3 Spec SpecLink P_Base P_Geo P_Geo3 P_3d P_B32 Props_F32 Props_F32Gjk Props_Lerp Props_F32Ball P_F32Box P_Drift Spec32 P_Closed32 Props_Closed32 Props_Approx Props_Sdf32 Props_Ext32 Spec32s P_Space32 Props_Space32 P_Quat32.
Local Open Scope R_scope.

(** ** Vocabulary *)
(** p is within eps of A and no point of A lies further than p in direction d by more than eps *)
Definition nearly_farthest3 (eps : R) (A : pset3) (d p : pt3) : Prop :=
  (exists q, A q /\ norm3 (sub3 p q) <= eps) /\ forall q, A q -> dot3 d q <= dot3 d p + eps * norm3 d.
(** a direction whose length is between 2^-24 and 2^59 *)
Definition usual_direction3 (d : vec3 b32) : Prop := fin3 d /\ bpow radix2 (-24) <= norm3 (rval3 d) <= bpow radix2 59.

(** ** Boxes and points: no error at all *)
Lemma face_val (d h : b32) : fin d -> fin h -> fin (if flt f0 d then h else fneg h) /\ val (if flt f0 d then h else fneg h) = (if Rltb 0 (val d) then val h else - val h).
Proof.
  intros F H. assert (F0 : fin (f0 : b32)) by reflexivity. rewrite (flt_fin f0 d F0 F). change (val f0) with 0. destruct (Rltb 0 (val d)); [split; [exact H | reflexivity]|]. split; [apply fin_neg, H | apply val_neg].
Qed.
Lemma face_best d h q : 0 <= h -> - h <= q <= h -> d * q <= d * (if Rltb 0 d then h else - h).
Proof. intros H Q. destruct (Rltb_spec 0 d) as [P|P]; nra. Qed.
Lemma face_in d h : 0 <= h -> - h <= (if Rltb 0 d then h else - h) <= h.
Proof. intro H. destruct (Rltb 0 d); lra. Qed.
Theorem C69_box : forall (b : box3d b32) (d : vec3 b32), let h := halfsize3 b in fin3 h -> 0 <= val (wx h) -> 0 <= val (wy h) -> 0 <= val (wz h) -> fin3 d ->
  let p := extreme_point3 b d in fin3 p /\ is_farthest3 (solid_box h) (rval3 d) (rval3 p).
Proof.
  intros b d h (H1 & H2 & H3) P1 P2 P3 (D1 & D2 & D3) p.
  destruct (face_val (wx d) (wx h) D1 H1) as (X1 & X2). destruct (face_val (wy d) (wy h) D2 H2) as (Y1 & Y2). destruct (face_val (wz d) (wz h) D3 H3) as (Z1 & Z2).
  split; [repeat split; assumption|].
  assert (E : rval3 p = (if Rltb 0 (val (wx d)) then val (wx h) else - val (wx h), if Rltb 0 (val (wy d)) then val (wy h) else - val (wy h), if Rltb 0 (val (wz d)) then val (wz h) else - val (wz h))).
  { rewrite <- X2, <- Y2, <- Z2. reflexivity. }
  rewrite E. unfold is_farthest3, solid_box, box3, dot3, rval3, x3, y3, z3; cbn [fst snd]. split.
  - repeat split; apply face_in; assumption.
  - intros [[a b'] c] (Q1 & Q2 & Q3). unfold x3, y3, z3 in * ; cbn [fst snd] in * .
    pose proof (face_best (val (wx d)) _ a P1 Q1). pose proof (face_best (val (wy d)) _ b' P2 Q2). pose proof (face_best (val (wz d)) _ c P3 Q3). lra.
Qed.
Print Assumptions C69_box.
Theorem C69_point : forall d : vec3 b32, rval3 (extreme_point3 PointS d) = (0, 0, 0) /\ fin3 (extreme_point3 PointS d).
Proof. intro d. split; [reflexivity | repeat split]. Qed.
Print Assumptions C69_point.

(** ** Balls *)
Section Ball3.
Variables (r : b32) (d : vec3 b32).
Hypotheses (Fr : fin r) (Hr : 0 <= val r <= bpow radix2 59) (Hd : usual_direction3 d).
Let L := norm3 (rval3 d).
Lemma L_pos : 0 < L. Proof. destruct Hd as (_ & H & _). pose proof (bpow_gt_0 radix2 (-24)). unfold L. lra. Qed.
Lemma d_small : small3 d 60.
Proof.
  destruct Hd as (F & _ & H). destruct (coord_le_norm3 (rval3 d)) as (X & Y & Z). assert (bpow radix2 59 <= bpow radix2 60) by (apply bpow_le; lia).
  split; [exact F|]. unfold small. repeat split; (apply Rle_trans with (norm3 (rval3 d)); [assumption | lra]).
Qed.
Lemma inv_L : bpow radix2 (-59) <= / L <= bpow radix2 24.
Proof.
  destruct Hd as (_ & H1 & H2). fold L in H1, H2. pose proof L_pos. split.
  - change (-59)%Z with (- (59))%Z. rewrite bpow_opp. apply Rinv_le; assumption.
  - replace (bpow radix2 24) with (/ bpow radix2 (-24)) by (rewrite <- bpow_opp; reflexivity). apply Rinv_le; [apply bpow_gt_0 | exact H1].
Qed.
Lemma rcp_ok : app (52 / 10) 1 (/ L) (fdiv f1 (v3len d)) (/ L).
Proof.
  destruct (length3_ok d d_small) as (FL & EL). { apply Rle_trans with (bpow radix2 (-24)); [apply bpow_le; lia | apply Hd]. }
  fold L in EL. pose proof L_pos as LP. pose proof inv_L as I. pose proof u32_pos as U. pose proof u32_small as US. destruct one_val as (F1 & V1). set (l := val (v3len d)) in * .
  assert (UL : u32 * L <= 1 / 16777216 * L) by (apply Rmult_le_compat_r; lra). apply abs_le2' in EL.
  assert (LL : (1 - 4 * u32) * L <= l <= (1 + 4 * u32) * L) by lra. assert (l0 : 0 < l) by lra. assert (IP : 0 < / L) by (apply Rinv_0_lt_compat, LP).
  assert (Q : Rabs (/ l - / L) <= 41 / 10 * u32 * / L).
  { replace (/ l - / L) with ((L - l) / l * / L) by (field; lra). rewrite Rabs_mult, (Rabs_pos_eq (/ L)) by lra. apply Rmult_le_compat_r; [lra|].
    unfold Rdiv. rewrite Rabs_mult, (Rabs_pos_eq (/ l)) by (left; apply Rinv_0_lt_compat, l0). apply (Rmult_le_reg_r l); [exact l0|]. rewrite Rmult_assoc, Rinv_l, Rmult_1_r by lra.
    apply Rle_trans with (4 * u32 * L); [apply Rabs_le; lra|]. apply Rle_trans with (41 / 10 * u32 * ((1 - 4 * u32) * L)); [|apply Rmult_le_compat_l; lra].
    replace (41 / 10 * u32 * ((1 - 4 * u32) * L)) with (u32 * L * (41 / 10 * (1 - 4 * u32))) by ring. replace (4 * u32 * L) with (u32 * L * 4) by ring. apply Rmult_le_compat_l; [apply Rmult_le_pos; lra | lra]. }
  assert (IL : / l <= 2 * / L). { apply abs_le2' in Q. assert (41 / 10 * u32 * / L <= 1 * / L) by (apply Rmult_le_compat_r; lra). lra. }
  assert (ILP : 0 < / l) by (apply Rinv_0_lt_compat, l0).
  assert (B : Rabs (rnd (val f1 / l)) < big).
  { rewrite V1. unfold Rdiv; rewrite Rmult_1_l. apply below_big. rewrite Rabs_pos_eq by lra. apply Rle_trans with (1 := IL). apply Rle_trans with (bpow radix2 25); [|apply bpow_le; lia]. change 25%Z with (1 + 24)%Z. rewrite bpow_plus. change (bpow radix2 1) with 2. lra. }
  assert (LN : val (v3len d) <> 0) by (fold l; lra).
  destruct (div_ok f1 (v3len d) F1 LN B) as (FD & VD). split; [exact FD|]. fold l in VD. rewrite VD, V1. unfold Rdiv; rewrite Rmult_1_l. split; [|rewrite Rabs_pos_eq; lra].
  replace (rnd (/ l) - / L) with ((rnd (/ l) - / l) + (/ l - / L)) by ring. apply Rle_trans with (1 := Rabs_triang _ _).
  pose proof (rnd_near (/ l)) as R0. rewrite (Rabs_pos_eq (/ l)) in R0 by lra.
  assert (T : tiny <= u32 / 100 * / L) by (apply bpow_small_u; apply Rle_trans with (2 := proj1 I); apply bpow_le; lia).
  assert (u32 * / l <= u32 * (101 / 100 * / L)). { apply Rmult_le_compat_l; [lra|]. apply abs_le2' in Q. assert (41 / 10 * u32 * / L <= 1 / 100 * / L) by (apply Rmult_le_compat_r; lra). lra. }
  assert (0 <= u32 * / L) by (apply Rmult_le_pos; lra). lra.
Qed.
Lemma norm_branch : v3normalize_or_zero d = v3muls d (fdiv f1 (v3len d)).
Proof.
  destruct rcp_ok as (F & E & _). unfold v3normalize_or_zero. pose proof L_pos as LP. assert (IP : 0 < / L) by (apply Rinv_0_lt_compat, LP). pose proof u32_pos as U. pose proof u32_small as US.
  assert (P : 0 < val (fdiv f1 (v3len d))). { apply abs_le2' in E. assert (52 / 10 * u32 * / L <= 1 / 2 * / L) by (apply Rmult_le_compat_r; lra). lra. }
  assert (F0 : fin (f0 : b32)) by reflexivity. rewrite (flt_fin f0 _ F0 F). change (val f0) with 0. rewrite Rltb_true by exact P.
  assert (FF : fisfinite (fdiv f1 (v3len d)) = true). { unfold fisfinite. rewrite (fin_nan _ F), (fin_inf _ F). reflexivity. }
  rewrite FF. reflexivity.
Qed.
Let s := val r + bpow radix2 (-60).
Lemma s_range : bpow radix2 (-60) <= s <= bpow radix2 100.
Proof. pose proof (bpow_gt_0 radix2 (-60)). unfold s. split; [lra|]. assert (bpow radix2 (-60) <= bpow radix2 59) by (apply bpow_le; lia). apply Rle_trans with (bpow radix2 60); [|apply bpow_le; lia]. replace (bpow radix2 60) with (2 * bpow radix2 59) by (change 60%Z with (1 + 59)%Z; rewrite bpow_plus; reflexivity). lra. Qed.
Lemma ball_comp a : fin a -> Rabs (val a) <= L -> fin (fmul r (fmul a (fdiv f1 (v3len d)))) /\ Rabs (val (fmul r (fmul a (fdiv f1 (v3len d)))) - val r * (val a * / L)) <= 73 / 10 * u32 * s.
Proof.
  intros F A. pose proof L_pos as LP. assert (IP : 0 < / L) by (apply Rinv_0_lt_compat, LP). pose proof (bpow_gt_0 radix2 (-60)) as B60.
  assert (H1 : app (625 / 100) 1 1 (fmul a (fdiv f1 (v3len d))) (val a * / L)).
  { eapply (app_mul 0 1 L _ _ _ _ (/ L)); [apply app_exact; [exact F | lra] | exact rcp_ok | field; lra | lra | lra | lra | lra | lra | lra | | lra | lra].
    split; [apply Rle_trans with (bpow radix2 0); [apply bpow_le; lia | cbn; lra] | apply Rle_trans with (bpow radix2 0); [cbn; lra | apply bpow_le; lia]]. }
  assert (H2 : app (73 / 10) 1 s (fmul r (fmul a (fdiv f1 (v3len d)))) (val r * (val a * / L))).
  { pose proof s_range. eapply (app_mul 0 1 s _ _ _ _ 1); [apply app_exact; [exact Fr | unfold s; rewrite Rabs_pos_eq; lra] | exact H1 | ring | lra | lra | lra | lra | lra | lra | exact s_range | lra | lra]. }
  destruct H2 as (G & E & _). split; assumption.
Qed.
Lemma ball3_ext : fin3 (extreme_point3 (Ball r) d) /\ norm3 (sub3 (rval3 (extreme_point3 (Ball r) d)) (scale3 (val r / L) (rval3 d))) <= 15 * u32 * s.
Proof.
  destruct (coord_le_norm3 (rval3 d)) as (X & Y & Z). destruct Hd as ((Fx & Fy & Fz) & _). fold L in X, Y, Z.
  destruct (ball_comp (wx d) Fx X) as (X1 & X2). destruct (ball_comp (wy d) Fy Y) as (Y1 & Y2). destruct (ball_comp (wz d) Fz Z) as (Z1 & Z2).
  unfold extreme_point3, Ext3_Ball. rewrite norm_branch. cbn [b_radius]. split; [repeat split; assumption|]. pose proof s_range as S. pose proof (bpow_gt_0 radix2 (-60)). pose proof u32_pos as U.
  assert (P : 0 <= u32 * s) by (apply Rmult_le_pos; lra).
  apply Rle_trans with (0 * norm3 (0, 0, 0) + 2 * (73 / 10 * u32 * s)); [|lra].
  apply comp_norm; [lra | lra | | |]; rewrite Rmult_0_l, Rplus_0_l; unfold sub3, scale3, rval3, v3smul, v3muls, x3, y3, z3; cbn [fst snd wx wy wz].
  - replace (val r / L * val (wx d)) with (val r * (val (wx d) * / L)) by (unfold Rdiv; ring). exact X2.
  - replace (val r / L * val (wy d)) with (val r * (val (wy d) * / L)) by (unfold Rdiv; ring). exact Y2.
  - replace (val r / L * val (wz d)) with (val r * (val (wz d) * / L)) by (unfold Rdiv; ring). exact Z2.
Qed.
End Ball3.
Lemma near_farthest3 (A : pset3) d p q eps : is_farthest3 A d q -> norm3 (sub3 p q) <= eps -> nearly_farthest3 eps A d p.
Proof.
  intros (I & M) N. split; [exists q; split; assumption|]. intros z Hz. specialize (M z Hz).
  pose proof (cauchy3 d (sub3 q p)) as C. assert (E : norm3 (sub3 q p) = norm3 (sub3 p q)).
  { rewrite <- norm3_neg. f_equal. apply pt3_eq; unfold neg3, sub3, x3, y3, z3; cbn [fst snd]; ring. }
  rewrite E in C. assert (norm3 d * norm3 (sub3 p q) <= norm3 d * eps) by (apply Rmult_le_compat_l; [apply norm3_nonneg | exact N]).
  replace (dot3 d (sub3 q p)) with (dot3 d q - dot3 d p) in C by (unfold dot3, sub3, x3, y3, z3; cbn [fst snd]; ring). lra.
Qed.
Lemma true_ball3 r d : 0 <= r -> 0 < norm3 d -> is_farthest3 (ball3 r) d (scale3 (r / norm3 d) d).
Proof.
  intros R0 L. assert (IP : 0 < / norm3 d) by (apply Rinv_0_lt_compat, L). split.
  - unfold ball3. rewrite norm3_scale, Rabs_pos_eq by (apply Rmult_le_pos; lra). right. field. lra.
  - intros q Q. unfold ball3 in Q. apply Rle_trans with (1 := cauchy3 d q). apply Rle_trans with (norm3 d * r); [apply Rmult_le_compat_l; lra|].
    right. replace (dot3 d (scale3 (r / norm3 d) d)) with (r / norm3 d * dot3 d d) by (unfold dot3, scale3, x3, y3, z3; cbn [fst snd]; ring). rewrite <- norm3_sq. field. lra.
Qed.
Theorem C69_ball : forall (r : b32) (d : vec3 b32), fin r -> 0 <= val r <= bpow radix2 59 -> usual_direction3 d ->
  let p := extreme_point3 (Ball r) d in let e := 15 * u32 * (val r + bpow radix2 (-60)) in
  fin3 p /\ nearly_farthest3 e (ball3 (val r)) (rval3 d) (rval3 p) /\ norm3 (sub3 (rval3 p) (scale3 (val r / norm3 (rval3 d)) (rval3 d))) <= e.
Proof.
  intros r d F R0 D p e. destruct (ball3_ext r d F R0 D) as (A & B). split; [exact A|]. split; [|exact B]. eapply near_farthest3; [|exact B]. apply true_ball3; [lra|]. apply (L_pos d D).
Qed.
Print Assumptions C69_ball.
(** the zero direction: the centre is returned *)
Theorem C69_ball_zero : forall r : b32, fin r -> let p := extreme_point3 (Ball r) (v3zero : vec3 b32) in fin3 p /\ rval3 p = (0, 0, 0).
Proof.
  intros r F p. assert (E : p = v3smul r v3zero) by reflexivity. assert (F0 : fin (f0 : b32)) by reflexivity.
  destruct (mul_ok r f0 F F0) as (A & B). { change (val f0) with 0. rewrite Rmult_0_r, rnd_0, Rabs_R0. apply bpow_gt_0. }
  change (val f0) with 0 in B. rewrite Rmult_0_r, rnd_0 in B. rewrite E. unfold v3smul, v3zero; cbn [wx wy wz]. split; [repeat split; exact A|]. unfold rval3; cbn [wx wy wz]. rewrite B. reflexivity.
Qed.
Print Assumptions C69_ball_zero.
(** a direction so short that its squared length underflows to zero: the centre is returned as well *)
Lemma rnd_tiny x : Rabs x <= bpow radix2 (-151) -> rnd x = 0.
Proof.
  intro H. destruct (Req_dec x 0) as [->|N]; [apply rnd_0|]. unfold rnd. destruct (mag radix2 x) as (ex & Hex). specialize (Hex N).
  assert (L : (ex <= -150)%Z). { assert (Q : bpow radix2 (ex - 1) < bpow radix2 (-150)) by (eapply Rle_lt_trans; [apply Hex|]; eapply Rle_lt_trans; [exact H | apply bpow_lt; lia]). apply lt_bpow in Q. lia. }
  apply (round_N_small radix2 _ _ x ex Hex). unfold SpecFloat.fexp, SpecFloat.emin. lia.
Qed.
Theorem C69_ball_tiny : forall (r : b32) (d : vec3 b32), fin r -> small3 d (-76) -> let p := extreme_point3 (Ball r) d in fin3 p /\ rval3 p = (0, 0, 0).
Proof.
  intros r d F ((F1 & F2 & F3) & S1 & S2 & S3) p.
  assert (K : forall x : b32, fin x -> small (val x) (-76) -> fin (fmul x x) /\ val (fmul x x) = 0).
  { intros x Fx Sx. assert (T : rnd (val x * val x) = 0).
    { apply rnd_tiny. rewrite Rabs_mult. apply Rle_trans with (bpow radix2 (-76) * bpow radix2 (-76)); [apply Rmult_le_compat; try apply Rabs_pos; exact Sx|]. rewrite <- bpow_plus. apply bpow_le. lia. }
    destruct (mul_ok x x Fx Fx) as [A B]; [rewrite T, Rabs_R0; apply bpow_gt_0|]. split; [exact A | rewrite B; exact T]. }
  destruct (K _ F1 S1) as [A1 B1]. destruct (K _ F2 S2) as [A2 B2]. destruct (K _ F3 S3) as [A3 B3].
  destruct (zero_sum _ _ A1 A2 B1 B2) as [A4 B4]. destruct (zero_sum _ _ A4 A3 B4 B3) as [A5 B5].
  assert (Q : v3normalize_or_zero d = v3zero).
  { unfold v3normalize_or_zero.
    assert (Z : fisfinite (fdiv f1 (v3len d)) = false).
    { unfold v3len. change (v3dot d d) with (fadd (fadd (fmul (wx d) (wx d)) (fmul (wy d) (wy d))) (fmul (wz d) (wz d))). set (w := fadd (fadd (fmul (wx d) (wx d)) (fmul (wy d) (wy d))) (fmul (wz d) (wz d))) in * . clearbody w. clear - A5 B5. unfold fin, val in * . destruct w as [sw| | |sw mw ew Bw]; try discriminate; [destruct sw; reflexivity|].
      exfalso. cbn in B5. apply eq_0_F2R in B5. destruct sw; discriminate. }
    rewrite Z. reflexivity. }
  assert (E : p = v3smul r v3zero) by (unfold p, extreme_point3, Ext3_Ball; rewrite Q; reflexivity). assert (F0 : fin (f0 : b32)) by reflexivity.
  destruct (mul_ok r f0 F F0) as (A & B). { change (val f0) with 0. rewrite Rmult_0_r, rnd_0, Rabs_R0. apply bpow_gt_0. }
  change (val f0) with 0 in B. rewrite Rmult_0_r, rnd_0 in B. rewrite E. unfold v3smul, v3zero; cbn [wx wy wz]. split; [repeat split; exact A|]. unfold rval3; cbn [wx wy wz]. rewrite B. reflexivity.
Qed.
Print Assumptions C69_ball_tiny.
Example C69_tiny_case : let d := V3 (b32_of 3 (-80)) (b32_of (-5) (-80)) (b32_of 1 (-90)) in small3 d (-76) /\ rval3 d <> (0, 0, 0).
Proof.
  destruct (val_of 3 (-80) ltac:(lia) ltac:(lia)) as (F1 & V1). destruct (val_of (-5) (-80) ltac:(lia) ltac:(lia)) as (F2 & V2'). destruct (val_of 1 (-90) ltac:(lia) ltac:(lia)) as (F3 & V3').
  assert (K : forall m e, (-90 <= e <= -80)%Z -> (Z.abs m <= 16)%Z -> small (IZR m * bpow radix2 e) (-76)).
  { intros m e E M. unfold small. rewrite Rabs_mult, (Rabs_pos_eq (bpow radix2 e)) by apply bpow_ge_0. replace (-76)%Z with (4 + -80)%Z by reflexivity. rewrite bpow_plus.
    apply Rmult_le_compat; [apply Rabs_pos | apply bpow_ge_0 | | apply bpow_le; lia]. rewrite <- abs_IZR. replace (bpow radix2 4) with (IZR 16) by (cbn; lra). apply IZR_le, M. }
  split.
  - split; [repeat split; assumption|]. cbn [wx wy wz]. rewrite V1, V2', V3'. repeat split; apply K; lia.
  - intro E. apply (f_equal x3) in E. unfold rval3, x3 in E; cbn [wx fst] in E. rewrite V1 in E. pose proof (bpow_gt_0 radix2 (-80)). lra.
Qed.


(** ** Cylinders *)
Lemma norm3_flat x y : norm3 (x, y, 0) = norm (x, y).
Proof. unfold norm3, norm. f_equal. unfold dot3, pdot, x3, y3, z3; cbn [fst snd]. ring. Qed.
Lemma flat_le (p : pt3) : norm (x3 p, y3 p) <= norm3 p.
Proof. rewrite <- norm3_flat. apply norm3_le_norm. unfold dot3, x3, y3, z3; cbn [fst snd]. pose proof (Rle_0_sqr (snd p)). unfold Rsqr in * . lra. Qed.
(** direction of usual length in the xy plane, or exactly vertical *)
Theorem C69_cylinder : forall (h r : b32) (d : vec3 b32), fin h -> 0 <= val h -> fin r -> 0 <= val r <= bpow radix2 24 -> fin3 d ->
  usual_direction (V2 (wx d) (wy d)) \/ (val (wx d) = 0 /\ val (wy d) = 0) ->
  let p := extreme_point3 (Cylinder3d h r) d in fin3 p /\ nearly_farthest3 (10 * u32 * val r + bpow radix2 (-100)) (cylinder3 (2 * val h) (val r)) (rval3 d) (rval3 p).
Proof.
  intros h r d Fh Hh Fr Hr (F1 & F2 & F3) D p. set (d2 := V2 (wx d) (wy d)) in * . set (e := 10 * u32 * val r + bpow radix2 (-100)).
  destruct (face_val (wz d) h F3 Fh) as (Z1 & Z2). set (z := if flt f0 (wz d) then h else fneg h) in * .
  assert (P : p = V3 (vx (extreme_point (Ball r) d2)) (vy (extreme_point (Ball r) d2)) z) by reflexivity. pose proof (bpow_gt_0 radix2 (-100)) as B1. pose proof u32_pos as U.
  assert (E0 : 0 <= e) by (unfold e; assert (0 <= 10 * u32 * val r) by (apply Rmult_le_pos; lra); lra).
  assert (X : fin2 (extreme_point (Ball r) d2) /\ nearly_farthest e (disc (val r)) (rval d2) (rval (extreme_point (Ball r) d2))).
  { destruct D as [D|(X0 & Y0)]; [destruct (C66_ball r d2 Fr Hr D) as (A & B & _); split; assumption|].
    assert (F0 : fin (f0 : b32)) by reflexivity.
    assert (N : v2normalize_or_zero d2 = v2zero).
    { destruct (zero_sq (wx d) F1 X0) as (A1 & A2). destruct (zero_sq (wy d) F2 Y0) as (B1' & B2). destruct (zero_sum _ _ A1 B1' A2 B2) as (C1 & C2).
      unfold v2normalize_or_zero, v2lenrecip, v2len. change (v2dot d2 d2) with (fadd (fmul (wx d) (wx d)) (fmul (wy d) (wy d))).
      assert (Q : fisfinite (fdiv f1 (fsqrt (fadd (fmul (wx d) (wx d)) (fmul (wy d) (wy d))))) = false).
      { set (w := fadd (fmul (wx d) (wx d)) (fmul (wy d) (wy d))) in * . clearbody w. clear - C1 C2. unfold fin, val in * . destruct w as [sw| | |sw mw ew Bw]; try discriminate; [destruct sw; reflexivity|].
        exfalso. cbn in C2. apply eq_0_F2R in C2. destruct sw; discriminate. }
      rewrite Q. reflexivity. }
    assert (E : extreme_point (Ball r) d2 = v2smul r v2zero) by (unfold extreme_point, Ext_Ball; rewrite N; reflexivity).
    destruct (mul_ok r f0 Fr F0) as (A & B). { change (val f0) with 0. rewrite Rmult_0_r, rnd_0, Rabs_R0. apply bpow_gt_0. }
    change (val f0) with 0 in B. rewrite Rmult_0_r, rnd_0 in B. rewrite E. unfold v2smul, v2zero; cbn [vx vy]. split; [split; exact A|].
    assert (RV : rval (V2 (fmul r f0) (fmul r f0)) = (0, 0)) by (unfold rval; cbn [vx vy]; rewrite B; reflexivity). rewrite RV.
    split; [exists (0, 0); split|].
    - unfold disc. replace (norm (0, 0)) with 0; [lra|]. unfold norm, pdot; cbn [fst snd]. symmetry. replace (0 * 0 + 0 * 0) with 0 by ring. apply sqrt_0.
    - replace (psub (0, 0) (0, 0)) with ((0, 0) : pt) by (unfold psub; cbn [fst snd]; f_equal; ring). replace (norm (0, 0)) with 0; [exact E0|]. unfold norm, pdot; cbn [fst snd]. symmetry. replace (0 * 0 + 0 * 0) with 0 by ring. apply sqrt_0.
    - intros q _. unfold pdot, rval, d2; cbn [vx vy fst snd]. rewrite X0, Y0. pose proof (norm_nonneg (0, 0)). assert (0 <= e * norm (0, 0)) by (apply Rmult_le_pos; assumption). lra. }
  destruct X as ((A1 & A2) & (q & Q1 & Q2) & M). set (b := extreme_point (Ball r) d2) in * . split; [rewrite P; repeat split; assumption|].
  assert (RP : rval3 p = (fst (rval b), snd (rval b), if Rltb 0 (val (wz d)) then val h else - val h)) by (rewrite P, <- Z2; reflexivity). rewrite RP.
  pose proof (face_in (val (wz d)) (val h) Hh) as FI. set (zz := if Rltb 0 (val (wz d)) then val h else - val h) in * . split.
  - exists (fst q, snd q, zz). split.
    + unfold cylinder3, x3, y3, z3; cbn [fst snd]. split; [rewrite <- surjective_pairing; exact Q1 | replace (2 * val h / 2) with (val h) by field; exact FI].
    + apply Rle_trans with (2 := Q2). right. unfold sub3, x3, y3, z3; cbn [fst snd]. replace (zz - zz) with 0 by ring. rewrite norm3_flat. reflexivity.
  - intros [[x y] w] (C1 & C2). unfold x3, y3, z3 in C1, C2; cbn [fst snd] in C1, C2. replace (2 * val h / 2) with (val h) in C2 by field.
    pose proof (M (x, y) C1) as M1. pose proof (face_best (val (wz d)) (val h) w Hh C2) as M2. fold zz in M2.
    assert (M3 : e * norm (rval d2) <= e * norm3 (rval3 d)) by (apply Rmult_le_compat_l; [exact E0 | exact (flat_le (rval3 d))]).
    unfold pdot in M1; cbn [fst snd] in M1. unfold dot3, rval3, x3, y3, z3; cbn [fst snd]. change (fst (rval d2)) with (val (wx d)) in M1. change (snd (rval d2)) with (val (wy d)) in M1. change (norm3 (val (wx d), val (wy d), val (wz d))) with (norm3 (rval3 d)). lra.
Qed.
Print Assumptions C69_cylinder.

(** the flag of Cylinder v Point: exact in z; in the plane, right unless the point is within 4 roundings of the curved surface; on the axis always true *)
Theorem C69_cylinder_flag : forall (T : Type) (TR : Transformation3d b32 T) (h r : b32) (rel : T), fin h -> fin r -> 0 <= val h -> let o := apply_origin3 rel in fin3 o ->
  let c := collides_rel3 (Cylinder3d h r) PointS rel in let xy := norm (val (wx o), val (wy o)) in
  (val h < Rabs (val (wz o)) -> c = false) /\ (Rabs (val (wz o)) <= val h ->
    (mid_range (V2 (wx o) (wy o)) -> (xy * (1 + 4 * u32) < val r -> c = true) /\ (val r <= xy * (1 - 4 * u32) -> c = false)) /\ (val (wx o) = 0 -> val (wy o) = 0 -> c = true)).
Proof.
  intros T TR h r rel Fh Fr Hh o (F1 & F2 & F3) c xy.
  assert (E : c = if (flt (wz o) (fneg h)) || (flt h (wz o)) then false else fst (ball_point_sdfv (TR := Tr_Vec2) false false (Ball r) (V2 (wx o) (wy o)))) by reflexivity.
  assert (Fn : fin (fneg h)) by (apply fin_neg, Fh). rewrite (flt_fin _ _ F3 Fn), (flt_fin _ _ Fh F3), val_neg in E.
  split.
  - intro H. rewrite E. destruct (Rltb_spec (val (wz o)) (- val h)); [reflexivity|]. destruct (Rltb_spec (val h) (val (wz o))); [reflexivity|]. exfalso. apply (Rlt_not_le _ _ H). apply Rabs_le. lra.
  - intro H. apply abs_le2' in H. rewrite (Rltb_false (val (wz o)) (- val h)) in E by lra. rewrite (Rltb_false (val h) (val (wz o))) in E by lra. cbn [orb] in E. rewrite E. split.
    + intro M. destruct (C52_ball_point_f32 (vec2 b32) Tr_Vec2 r (V2 (wx o) (wy o)) Fr M) as (b & B & B1 & B2).
      assert (EB : fst (ball_point_sdfv (TR := Tr_Vec2) false false (Ball r) (V2 (wx o) (wy o))) = b). { change (Ok (fst (ball_point_sdfv (TR := Tr_Vec2) false false (Ball r) (V2 (wx o) (wy o)))) = Ok b) in B. congruence. }
      rewrite EB. split; assumption.
    + intros X0 Y0. destruct (zero_sq (wx o) F1 X0) as (A1 & A2). destruct (zero_sq (wy o) F2 Y0) as (B1' & B2). destruct (zero_sum _ _ A1 B1' A2 B2) as (C1 & C2).
      unfold ball_point_sdfv. cbn [apply_origin Tr_Vec2]. change (v2len (V2 (wx o) (wy o))) with (fsqrt (fadd (fmul (wx o) (wx o)) (fmul (wy o) (wy o)))).
      assert (Q : flt (f0 : b32) (fsqrt (fadd (fmul (wx o) (wx o)) (fmul (wy o) (wy o)))) = false).
      { set (w := fadd (fmul (wx o) (wx o)) (fmul (wy o) (wy o))) in * . clearbody w. clear - C1 C2. unfold fin, val in * . destruct w as [sw| | |sw mw ew Bw]; try discriminate; [destruct sw; reflexivity|].
        exfalso. cbn in C2. apply eq_0_F2R in C2. destruct sw; discriminate. }
      rewrite Q. reflexivity.
Qed.
Print Assumptions C69_cylinder_flag.

(** ** Sums and covers *)
(** the sum of two boxes has the sums of the half sizes, each rounded once *)
Theorem C69_minkowski_sum : forall a b : box3d b32, half3_ok (halfsize3 a) -> half3_ok (halfsize3 b) ->
  let s := halfsize3 (box3_minkowski_sum a b) in let near x y := Rabs (val x - y) <= u32 * y in
  fin3 s /\ near (wx s) (val (wx (halfsize3 a)) + val (wx (halfsize3 b))) /\ near (wy s) (val (wy (halfsize3 a)) + val (wy (halfsize3 b))) /\ near (wz s) (val (wz (halfsize3 a)) + val (wz (halfsize3 b))) /\ included3 (box3 ((1 - u32) * (val (wx (halfsize3 a)) + val (wx (halfsize3 b)))) ((1 - u32) * (val (wy (halfsize3 a)) + val (wy (halfsize3 b)))) ((1 - u32) * (val (wz (halfsize3 a)) + val (wz (halfsize3 b))))) (solid_box s).
Proof.
  intros a b (((A1 & A2 & A3) & S1 & S2 & S3) & P1 & P2 & P3) (((B1 & B2 & B3) & T1 & T2 & T3) & Q1 & Q2 & Q3) s near.
  assert (K : forall x y : b32, fin x -> fin y -> small (val x) 59 -> small (val y) 59 -> 0 <= val x -> 0 <= val y -> fin (fadd x y) /\ Rabs (val (fadd x y) - (val x + val y)) <= u32 * (val x + val y)).
  { intros x y Fx Fy Sx Sy Px Py. assert (B : Rabs (rnd (val x + val y)) < big) by (apply (small_big _ 60); [lia|]; apply rnd_small; [lia|]; apply (small_add _ _ 59); assumption).
    destruct (add_ok x y Fx Fy B) as (F & V). split; [exact F|]. rewrite V. destruct (rnd_error_add x y) as (e & E & ->). replace ((val x + val y) * (1 + e) - (val x + val y)) with (e * (val x + val y)) by ring.
    rewrite Rabs_mult, (Rabs_pos_eq (val x + val y)) by lra. apply Rmult_le_compat_r; lra. }
  destruct (K _ _ A1 B1 S1 T1 P1 Q1) as (X1 & X2). destruct (K _ _ A2 B2 S2 T2 P2 Q2) as (Y1 & Y2). destruct (K _ _ A3 B3 S3 T3 P3 Q3) as (Z1 & Z2).
  split; [repeat split; assumption|]. split; [exact X2|]. split; [exact Y2|]. split; [exact Z2|].
  apply abs_le2' in X2. apply abs_le2' in Y2. apply abs_le2' in Z2. change (fadd (wx (halfsize3 a)) (wx (halfsize3 b))) with (wx s) in X2. change (fadd (wy (halfsize3 a)) (wy (halfsize3 b))) with (wy s) in Y2. change (fadd (wz (halfsize3 a)) (wz (halfsize3 b))) with (wz s) in Z2.
  intros [[x y] z] (C1 & C2 & C3). unfold solid_box, box3, x3, y3, z3 in * ; cbn [fst snd] in * . lra.
Qed.
Print Assumptions C69_minkowski_sum.
(** cover computes exact maxima in x and y and leaves z alone: the covered box contains the old one, and the point whenever the point's |z| fits *)
Theorem C69_cover : forall (b : box3d b32) (p : vec3 b32), let h := halfsize3 b in fin3 h -> fin3 p -> 0 <= val (wx h) -> 0 <= val (wy h) -> 0 <= val (wz h) ->
  let k := halfsize3 (box3_cover b p) in fin3 k /\ included3 (solid_box h) (solid_box k) /\ (solid_box k (rval3 p) <-> Rabs (val (wz p)) <= val (wz h)) /\ forall kx ky, included3 (solid_box h) (box3 kx ky (val (wz h))) -> Rabs (val (wx p)) <= kx -> Rabs (val (wy p)) <= ky -> included3 (solid_box k) (box3 kx ky (val (wz h))).
Proof.
  intros b p h (H1 & H2 & H3) (F1 & F2 & F3) P1 P2 P3 k.
  assert (G1 : fin (fabs (wx p))) by (apply fin_abs, F1). assert (G2 : fin (fabs (wy p))) by (apply fin_abs, F2).
  destruct (fmax_fin32 (wx h) (fabs (wx p)) H1 G1) as (X1 & X2). destruct (fmax_fin32 (wy h) (fabs (wy p)) H2 G2) as (Y1 & Y2). rewrite val_abs in X2, Y2.
  change (fmax (wx h) (fabs (wx p))) with (wx k) in X1, X2. change (fmax (wy h) (fabs (wy p))) with (wy k) in Y1, Y2.
  assert (Z : wz k = wz h) by reflexivity. split; [split; [exact X1|]; split; [exact Y1 | rewrite Z; exact H3]|].
  pose proof (Rmax_l (val (wx h)) (Rabs (val (wx p)))). pose proof (Rmax_r (val (wx h)) (Rabs (val (wx p)))). pose proof (Rmax_l (val (wy h)) (Rabs (val (wy p)))). pose proof (Rmax_r (val (wy h)) (Rabs (val (wy p)))).
  unfold solid_box. rewrite Z, X2, Y2. split; [|split].
  - intros [[x y] z] (C1 & C2 & C3). unfold box3, x3, y3, z3 in * ; cbn [fst snd] in * . lra.
  - unfold box3, rval3, x3, y3, z3; cbn [fst snd]. pose proof (Rabs_pos (val (wx p))). split; [intros (_ & _ & C); apply Rabs_le; exact C|]. intro C. apply abs_le2' in C. split; [apply abs_le2'; lra|]. split; [apply abs_le2'; lra | exact C].
  - intros kx ky I Kx Ky. assert (J : box3 kx ky (val (wz h)) (val (wx h), val (wy h), val (wz h))). { apply I. unfold box3, x3, y3, z3; cbn [fst snd]. lra. }
    unfold box3, x3, y3, z3 in J; cbn [fst snd] in J. assert (Rmax (val (wx h)) (Rabs (val (wx p))) <= kx) by (apply Rmax_lub; lra). assert (Rmax (val (wy h)) (Rabs (val (wy p))) <= ky) by (apply Rmax_lub; lra).
    intros [[x y] z] (C1 & C2 & C3). unfold box3, x3, y3, z3 in * ; cbn [fst snd] in * . lra.
Qed.
Print Assumptions C69_cover.

(** ** The hypotheses are met *)
Example C69_case : usual_direction3 case3_b /\ usual_direction (V2 (wx case3_b) (wy case3_b)) /\ (fin (b32_of 5 0) /\ 0 <= val (b32_of 5 0) <= bpow radix2 24) /\ (fin3 case3_h /\ 0 <= val (wx case3_h) /\ 0 <= val (wy case3_h) /\ 0 <= val (wz case3_h)) /\ half3_ok case3_h /\ fin3 case3_a.
Proof.
  destruct (case3_num 3 0 ltac:(lia) ltac:(lia)) as (X1 & X2 & _). destruct (case3_num 1 0 ltac:(lia) ltac:(lia)) as (Y1 & Y2 & _). destruct (case3_num 7 (-1) ltac:(lia) ltac:(lia)) as (Z1 & Z2 & _).
  assert (B : rval3 case3_b = (3, 1, 7 / 2)). { unfold rval3, case3_b; cbn [wx wy wz]. rewrite X2, Y2, Z2. change (bpow radix2 0) with 1. change (bpow radix2 (-1)) with (/ 2). rewrite !Rmult_1_r. reflexivity. }
  assert (B2 : rval (V2 (wx case3_b) (wy case3_b)) = (3, 1)). { unfold rval, case3_b; cbn [wx wy vx vy]. rewrite X2, Y2. change (bpow radix2 0) with 1. rewrite !Rmult_1_r. reflexivity. }
  assert (W : forall x, 1 <= x <= 16 -> bpow radix2 (-24) <= x <= bpow radix2 59).
  { intros x X. split; [apply Rle_trans with (bpow radix2 0); [apply bpow_le; lia | cbn; lra] | apply Rle_trans with (bpow radix2 4); [cbn; lra | apply bpow_le; lia]]. }
  split. { split; [repeat split; assumption|]. apply W. rewrite B. split.
    - destruct (coord_le_norm3 (3, 1, 7 / 2)) as (X & _). unfold x3 in X; cbn [fst] in X. rewrite Rabs_pos_eq in X; lra.
    - apply norm3_le_sq; [lra|]. unfold dot3, x3, y3, z3; cbn [fst snd]. lra. }
  split. { split; [split; assumption|]. apply W. rewrite B2. unfold norm, pdot; cbn [fst snd]. replace (3 * 3 + 1 * 1) with 10 by ring. split.
    - apply Rle_trans with (sqrt (1 * 1)); [rewrite sqrt_square; lra | apply sqrt_le_1_alt; lra].
    - apply Rle_trans with (sqrt (16 * 16)); [apply sqrt_le_1_alt; lra | rewrite sqrt_square; lra]. }
  split. { destruct (case3_num 5 0 ltac:(lia) ltac:(lia)) as (F & V & _). split; [exact F|]. rewrite V. change (bpow radix2 0) with 1. split; [lra|]. apply Rle_trans with (bpow radix2 3); [cbn; lra | apply bpow_le; lia]. }
  destruct C67_box_case as (H & A & _). split; [|split; [exact H | apply A]]. destruct H as ((F & _) & P). split; [exact F | exact P].
Qed.
