(** * C78 in binary32, continued: the scalar distance of Cylinder3d against a point *)
From Coq Require Import Reals ZArith Lra Lia Psatz Bool.
From Flocq Require Import Core BinarySingleNaN.
From Verif Require Import Num NumXR NumB32 Glam Transform2 Shapes2 Gjk Detect2 Col3 Spec SpecLink P_Base P_Geo P_Geo3 P_3d P_B32 Props_F32 Props_F32Gjk Props_Lerp Props_F32Ball P_F32Box P_Drift Spec32 P_Closed32 Props_Closed32 Props_Approx Props_Sdf32 Props_Ext32 Spec32s P_Space32 Props_Space32 Props_3d Props_3dDefects Props_Ext3 Props_Cylinder Props_Cylinder32.
Local Open Scope R_scope.

(** comparing the square of a rounded height with the rounded square of the distance from the axis *)
Lemma height_compare (p : vec2 b32) (z : b32) f e : small2 p 60 -> fin z -> small (val z) 61 -> Rabs e <= u32 -> val z = f * (1 + e) ->
  bpow radix2 (-60) <= norm (rval p) \/ bpow radix2 (-60) <= Rabs f ->
  fin (v2lensq p) /\ fin (fmul z z) /\
  (norm (rval p) * (1 + 8 * u32) < Rabs f -> val (v2lensq p) < val (fmul z z)) /\
  (Rabs f * (1 + 8 * u32) < norm (rval p) -> val (fmul z z) < val (v2lensq p)).
Proof.
  intros S Fz Sz He Ez B. pose proof u32_pos as Up. pose proof u32_small as Us. pose proof tiny_pos as Tp.
  destruct (dot_ok p p 60 60 ltac:(lia) ltac:(lia) S S) as [D1 D2].
  assert (Ra : rdot_abs p p = rdot p p). { unfold rdot_abs, rdot. rewrite !Rabs_pos_eq by nra. reflexivity. }
  set (n := norm (rval p)) in * . assert (Rd : rdot p p = n * n) by (unfold n; rewrite norm_sq; reflexivity).
  rewrite Ra, Rd in D2. change (v2dot p p) with (v2lensq p) in D1, D2. set (s := val (v2lensq p)) in * .
  assert (Q : small (rnd (val z * val z)) 122) by (apply rnd_small; [lia|]; apply (small_mul _ _ 61 61); assumption).
  destruct (mul_ok z z Fz Fz ltac:(eapply small_big; [|exact Q]; lia)) as (F2 & V2).
  split; [exact D1|]. split; [exact F2|]. rewrite V2. fold s. destruct (rnd_error (val z * val z)) as (e1 & t & He1 & Ht & EQ). rewrite EQ, Ez.
  set (g := Rabs f) in * . assert (G0 : 0 <= g) by apply Rabs_pos. assert (N0 : 0 <= n) by apply norm_nonneg.
  assert (FF : f * f = g * g) by (unfold g; rewrite <- Rabs_mult; symmetry; apply Rabs_pos_eq; nra).
  apply Rabs_le_inv in D2. apply Rabs_le_inv in He. apply Rabs_le_inv in He1. apply Rabs_le_inv in Ht.
  assert (K : (1 - 4 * u32) <= (1 + e) * (1 + e) * (1 + e1) <= 1 + 4 * u32).
  { assert (A : (1 - u32) * (1 - u32) <= (1 + e) * (1 + e) <= (1 + u32) * (1 + u32)) by (split; apply Rmult_le_compat; lra). split.
    - apply Rle_trans with ((1 - u32) * (1 - u32) * (1 - u32)); [nra | apply Rmult_le_compat; try lra; apply Rmult_le_pos; lra].
    - apply Rle_trans with ((1 + u32) * (1 + u32) * (1 + u32)); [apply Rmult_le_compat; try lra; apply Rmult_le_pos; lra | nra]. }
  replace (f * (1 + e) * (f * (1 + e)) * (1 + e1) + t) with (g * g * ((1 + e) * (1 + e) * (1 + e1)) + t) by (rewrite <- FF; ring).
  set (k := (1 + e) * (1 + e) * (1 + e1)) in * . clearbody k.
  assert (T : forall x, bpow radix2 (-60) <= x -> 4 * tiny <= u32 * (x * x)).
  { intros x X. apply Rle_trans with (u32 * bpow radix2 (-120)).
    - unfold tiny, u32. replace (-150)%Z with (-30 + -120)%Z by reflexivity. rewrite bpow_plus. rewrite <- Rmult_assoc. apply Rmult_le_compat_r; [apply bpow_ge_0|]. cbn. lra.
    - apply Rmult_le_compat_l; [lra|]. replace (-120)%Z with (-60 + -60)%Z by reflexivity. rewrite bpow_plus. apply Rmult_le_compat; try apply bpow_ge_0; exact X. }
  assert (GG : g * g * (1 - 4 * u32) <= g * g * k <= g * g * (1 + 4 * u32)) by (split; apply Rmult_le_compat_l; nra).
  assert (BP : 0 < bpow radix2 (-60)) by apply bpow_gt_0.
  split; intro H.
  - assert (NG : n <= g) by nra. assert (Bg : bpow radix2 (-60) <= g) by (destruct B; lra). specialize (T g Bg).
    assert (Gp : 0 < g * g) by nra.
    assert (A : n * n * (1 + 16 * u32) <= g * g). { apply Rle_trans with ((n * (1 + 8 * u32)) * (n * (1 + 8 * u32))); [nra|]. assert (0 <= n * (1 + 8 * u32)) by (apply Rmult_le_pos; lra). apply Rmult_le_compat; lra. }
    assert (A2 : n * n <= g * g) by nra. assert (A3 : u32 * (n * n) <= u32 * (g * g)) by (apply Rmult_le_compat_l; lra).
    assert (A4 : (1 + 16 * u32) * (n * n) <= g * g) by lra.
    assert (A5 : n * n * (1 + 3 * u32) <= g * g * (1 - 6 * u32)).
    { apply Rle_trans with (g * g * (1 - 6 * u32) * 1); [|lra]. assert (X : (1 + 3 * u32) <= (1 - 6 * u32) * (1 + 16 * u32)) by nra.
      apply Rle_trans with (n * n * ((1 - 6 * u32) * (1 + 16 * u32))); [apply Rmult_le_compat_l; nra|]. replace (n * n * ((1 - 6 * u32) * (1 + 16 * u32))) with ((1 - 6 * u32) * ((1 + 16 * u32) * (n * n))) by ring.
      replace (g * g * (1 - 6 * u32) * 1) with ((1 - 6 * u32) * (g * g)) by ring. apply Rmult_le_compat_l; lra. }
    assert (0 < u32 * (g * g)) by (apply Rmult_lt_0_compat; assumption). lra.
  - assert (NG : g <= n) by nra. assert (Bn : bpow radix2 (-60) <= n) by (destruct B; lra). specialize (T n Bn).
    assert (Np : 0 < n * n) by nra.
    assert (A : g * g * (1 + 16 * u32) <= n * n). { apply Rle_trans with ((g * (1 + 8 * u32)) * (g * (1 + 8 * u32))); [nra|]. assert (0 <= g * (1 + 8 * u32)) by (apply Rmult_le_pos; lra). apply Rmult_le_compat; lra. }
    assert (A5 : g * g * (1 + 4 * u32) <= n * n * (1 - 6 * u32)).
    { assert (X : (1 + 4 * u32) <= (1 - 6 * u32) * (1 + 16 * u32)) by nra.
      apply Rle_trans with (g * g * ((1 - 6 * u32) * (1 + 16 * u32))); [apply Rmult_le_compat_l; nra|]. replace (g * g * ((1 - 6 * u32) * (1 + 16 * u32))) with ((1 - 6 * u32) * (g * g * (1 + 16 * u32))) by ring.
      replace (n * n * (1 - 6 * u32)) with ((1 - 6 * u32) * (n * n)) by ring. apply Rmult_le_compat_l; lra. }
    assert (0 < u32 * (n * n)) by (apply Rmult_lt_0_compat; assumption). lra.
Qed.

(** The computed distance is nearly the signed distance wherever (with a margin of 2^-21 in the comparison, which picks the plane of the nearer face when it is
    farther than the axis) the picked surface is the right one: f is how far the point is beyond that plane, n how far from the axis *)
Theorem C78_sdf_f32 : forall (T : Type) (TR : Transformation3d b32 T) (h r : b32) (rel : T), let o := apply_origin3 rel in
  fin h -> small (val h) 59 -> 0 <= val h -> radius_ok r -> fin (wz o) -> small (val (wz o)) 59 -> small2 (V2 (wx o) (wy o)) 59 ->
  let n := norm (val (wx o), val (wy o)) in let f := Rabs (val (wz o)) - val h in
  bpow radix2 (-60) <= n \/ bpow radix2 (-60) <= Rabs f ->
  (n * (1 + 8 * u32) < Rabs f /\ n - val r <= f /\ n <= val r) \/ (Rabs f * (1 + 8 * u32) < n /\ f <= n - val r /\ f <= 0) ->
  let x := sdf_rel3 (Cylinder3d h r) PointS rel in
  fin x /\ exists d, is_signed_distance3 d (cylinder3 (2 * val h) (val r)) (single3 (rval3 o)) /\ Rabs (val x - d) <= 8 * u32 * (Rabs d + 2 * val r) + bpow radix2 (-57).
Proof.
  intros T TR h r rel o Fh Sh Ph (Fr & Sr & Pr) Fz Sz Sp n f B C x. pose proof u32_pos as Up. pose proof u32_small as Us. pose proof (bpow_gt_0 radix2 (-57)) as B57.
  set (q := rval3 o) in * . set (p := V2 (wx o) (wy o)) in * .
  assert (Wd : forall y, small y 59 -> small y 60) by (intros y Y; eapply small_weak; [|exact Y]; lia).
  destruct (edge_ok (wz o) h Fz Fh (Wd _ Sz) (Wd _ Sh)) as (Ze1 & Ze2 & e & He & Ze3). set (z := fsub (fabs (wz o)) h) in * . fold f in Ze3.
  assert (EF : flat (2 * val h) q = f) by (unfold flat, f; change (z3 q) with (val (wz o)); field). assert (ES : side (val r) q = n - val r) by reflexivity.
  assert (Sz' : small (val z) 61). { rewrite Ze2. apply rnd_small; [lia|]. apply (small_add _ _ 60); [apply small_abs, Wd, Sz | apply small_opp, Wd, Sh]. }
  destruct (height_compare p z f e (Props_Sdf32.wide p Sp) Ze1 Sz' He Ze3 B) as (G1 & G2 & H1 & H2). change (norm (rval p)) with n in H1, H2.
  assert (EX : x = if flt (v2lensq p) (fmul z z) then z else fsub (v2len p) r) by reflexivity.
  assert (NN : 0 <= n) by apply norm_nonneg. assert (R2 : 0 <= u32 * val r) by (apply Rmult_le_pos; lra).
  assert (N2 : forall a, norm (0, a) = Rabs a) by apply norm_yaxis. assert (N1 : forall a, norm (a, 0) = Rabs a) by apply norm_xaxis.
  assert (P2 : 0 <= 2 * val h) by lra.
  rewrite EX, (flt_fin _ _ G1 G2). destruct C as [(C1 & C2 & C3) | (C1 & C2 & C3)].
  - rewrite (Rltb_true _ _ (H1 C1)). split; [exact Ze1|]. exists f. split.
    + apply cyl_distance_ok; [assumption..|]. unfold cyl_distance. rewrite EF, ES. destruct (Rltb_spec f 0) as [F|F]; [destruct (Rltb_spec (n - val r) 0) as [S|S]|]; cbn [andb].
      * rewrite Rmax_left by lra. reflexivity.
      * lra.
      * rewrite Rmax_right by lra. rewrite Rmax_left by lra. rewrite N2, Rabs_pos_eq by lra. reflexivity.
    + rewrite Ze3. replace (f * (1 + e) - f) with (f * e) by ring. rewrite Rabs_mult. pose proof (Rabs_pos f). assert (Rabs f * Rabs e <= Rabs f * u32) by (apply Rmult_le_compat_l; lra).
      assert (0 <= u32 * Rabs f) by (apply Rmult_le_pos; lra). lra.
  - rewrite (Rltb_false _ _ (Rlt_le _ _ (H2 C1))). destruct (len_less p r (val r) Sp Fr (Wd _ Sr) Pr ltac:(rewrite Rminus_diag_eq, Rabs_R0 by reflexivity; apply Rmult_le_pos; lra)) as [F E]. split; [exact F|].
    change (norm (rval p)) with n in E. exists (n - val r). split; [|exact E]. apply cyl_distance_ok; [assumption..|]. unfold cyl_distance. rewrite EF, ES.
    destruct (Rltb_spec f 0) as [G|G]; [destruct (Rltb_spec (n - val r) 0) as [S|S]|]; cbn [andb].
    + rewrite Rmax_right by lra. reflexivity.
    + rewrite (Rmax_right f 0) by lra. rewrite Rmax_left by lra. rewrite N1, Rabs_pos_eq by lra. reflexivity.
    + rewrite (Rmax_right f 0) by lra. rewrite Rmax_left by lra. rewrite N1, Rabs_pos_eq by lra. reflexivity.
Qed.
Print Assumptions C78_sdf_f32.

(** the radial vector, nearly the way through the curved surface *)
Lemma ball_way (p : vec2 b32) (r : b32) (q : pt3) : centre_ok p -> radius_ok r -> (x3 q, y3 q) = rval p -> norm (rval p) < val r -> let b := snd (ball_code r p) in
  fin2 b /\ norm (psub (rval b) (x3 (way_side (val r) q), y3 (way_side (val r) q))) <= 16 * u32 * (norm (rval p) + val r).
Proof.
  intros Hp (Fr & Sr & Pr) Eq Lt b. unfold b; clear b. pose proof u32_pos as Up. pose proof u32_small as Us. unfold way_side. rewrite Eq. set (n := norm (rval p)) in * .
  assert (Qx : x3 q = val (vx p)) by exact (f_equal fst Eq). assert (Qy : y3 q = val (vy p)) by exact (f_equal snd Eq). rewrite Qx, Qy. cbv zeta.
  destruct Hp as [Fp [E|MR]].
  - destruct (zero_len p Fp E) as [L1 L2]. assert (EB : snd (ball_code r p) = v2smul r v2X). { unfold ball_code. rewrite flt_fin by (assumption || reflexivity). change (val (@f0 b32 _)) with 0. rewrite L2, Rltb_false by lra. reflexivity. }
    rewrite EB. assert (N0 : n = 0) by (unfold n; rewrite E; apply norm_origin). destruct (mul_one_r true r Fr) as [A1 A2]. cbn [one] in A1, A2. unfold P_F32Box.sg in A2.
    assert (Fz0 : fin (@f0 b32 _)) by reflexivity. destruct (mul_ok r f0 Fr Fz0) as [B1 B2]; [change (val (@f0 b32 _)) with 0; rewrite Rmult_0_r, rnd_0, Rabs_R0; apply bpow_gt_0|].
    change (val (@f0 b32 _)) with 0 in B2. rewrite Rmult_0_r, rnd_0 in B2. split; [split; assumption|].
    rewrite Rltb_false by lra. change (x3 (val r, 0, 0)) with (val r). change (y3 (val r, 0, 0)) with 0.
    replace (psub (rval (v2smul r v2X)) (val r, 0)) with origin; [rewrite norm_origin; assert (0 <= u32 * (n + val r)) by (apply Rmult_le_pos; lra); lra|]. apply pt_eq; cbn [fst snd psub rval v2smul v2X vx vy origin].
    + change (0 = val (fmul r f1) - val r). rewrite A2. ring.
    + change (0 = val (fmul r f0) - 0). rewrite B2. ring.
  - destruct (ball_core p r (val r) MR Fr ltac:(eapply small_weak; [|exact Sr]; lia) Pr ltac:(rewrite Rminus_diag_eq, Rabs_R0 by reflexivity; apply Rmult_le_pos; lra)) as (B1 & B3).
    destruct (length_ok p MR) as (Lf & Le). change (rlen p) with n in B3, Le.
    assert (Np : 0 < n) by (eapply Rlt_le_trans; [apply bpow_gt_0 | apply MR]). apply Rabs_le_inv in Le.
    assert (EB : snd (ball_code r p) = v2muls p (fdiv (fsub (v2len p) r) (v2len p))).
    { unfold ball_code. rewrite flt_fin by (assumption || reflexivity). change (val (@f0 b32 _)) with 0. rewrite Rltb_true by nra. reflexivity. }
    rewrite EB. split; [exact B1|]. rewrite Rltb_true by exact Np. unfold x3, y3; cbn [fst snd].
    replace (val (vx p) * ((n - val r) / n), val (vy p) * ((n - val r) / n)) with (pscale ((n - val r) / n) (rval p)); [exact B3|]. apply pt_eq; cbn; ring.
Qed.

(** penetrates, of a point inside (by a margin of 2^-22 of its distance from the axis): farther from the middle plane than from the axis, the vector is nearly
    the way out through the curved surface; nearer to the middle plane, it is not a way out at all, unless the point is in that plane *)
Theorem C78_penetrates_f32 : forall (T : Type) (TR : Transformation3d b32 T) (h r : b32) (rel : T), let o := apply_origin3 rel in
  fin h -> radius_ok r -> fin (wz o) -> small (val (wz o)) 59 -> centre_ok (V2 (wx o) (wy o)) ->
  let n := norm (val (wx o), val (wy o)) in let a := Rabs (val (wz o)) in
  bpow radix2 (-60) <= n \/ bpow radix2 (-60) <= a -> n * (1 + 4 * u32) < val r -> a < val h ->
  (n * (1 + 8 * u32) < a -> exists v w, penetrates_rel3 (Cylinder3d h r) PointS rel = Some v /\ fin3 v /\
     separates3 w (cylinder3 (2 * val h) (val r)) (single3 (rval3 o)) /\ norm3 w = val r - n /\ norm3 (sub3 (rval3 v) w) <= 32 * u32 * (norm3 w + 2 * val r)) /\
  (a * (1 + 8 * u32) < n -> val (wz o) <> 0 -> exists v, penetrates_rel3 (Cylinder3d h r) PointS rel = Some v /\ fin3 v /\
     ~ separates3 (rval3 v) (cylinder3 (2 * val h) (val r)) (single3 (rval3 o))).
Proof.
  intros T TR h r rel o Fh Hr Fz Sz Hp n a B Hn Ha. pose proof u32_pos as Up. pose proof u32_small as Us. pose proof Hr as (Fr & Sr & Pr).
  set (q := rval3 o) in * . set (p := V2 (wx o) (wy o)) in * . assert (NN : 0 <= n) by apply norm_nonneg. assert (A0 : 0 <= a) by apply Rabs_pos.
  assert (Nr : n < val r) by nra. assert (SD : side (val r) q = n - val r) by reflexivity. assert (R0 : 0 <= u32 * val r) by (apply Rmult_le_pos; lra).
  pose proof Hp as [[Fx Fy] Hp2].
  assert (CT : collides_rel3 (Cylinder3d h r) PointS rel = true).
  { destruct (C69_cylinder_flag T TR h r rel Fh Fr ltac:(lra) ltac:(repeat split; assumption)) as [_ K]. fold o p n in K. destruct (K ltac:(fold a; lra)) as [K1 K2]. clear K.
    destruct Hp2 as [E|M]; [apply K2; [exact (f_equal fst E) | exact (f_equal snd E)] | apply (K1 M), Hn]. }
  assert (BT : fst (ball_code r p) = true).
  { revert CT. unfold collides_rel3, Col3_CylinderPoint. destruct (_ || _); [discriminate|]. unfold ball_point_sdfv, ball_code. cbn [apply_origin Tr_Vec2 cylinder_to_ball b_radius cy_radius]. fold o. fold p. destruct (flt f0 (v2len p)); cbn [fst]; auto. }
  assert (S60 : small2 p 60).
  { destruct Hp2 as [E|M]; [|apply M]. assert (Ex : val (vx p) = 0) by exact (f_equal fst E). assert (Ey : val (vy p) = 0) by exact (f_equal snd E).
    split; [split; assumption|]. unfold small. rewrite Ex, Ey, Rabs_R0. split; apply bpow_ge_0. }
  destruct (height_compare p (wz o) (val (wz o)) 0 S60 Fz ltac:(eapply small_weak; [|exact Sz]; lia) ltac:(rewrite Rabs_R0; lra) ltac:(ring) B) as (G1 & G2 & H1 & H2).
  change (norm (rval p)) with n in H1, H2. fold a in H1, H2.
  assert (EV : penetrates_rel3 (Cylinder3d h r) PointS rel = if flt (fmul (wz o) (wz o)) (v2lensq p) then Some (V3 f0 f0 (fmul (fsignum (wz o)) h))
     else Some (V3 (vx (snd (ball_code r p))) (vy (snd (ball_code r p))) f0)).
  { unfold penetrates_rel3, Pen3_CylinderPoint. rewrite CT. fold o. fold p. destruct (flt (fmul (wz o) (wz o)) (v2lensq p)); [reflexivity|].
    revert BT. unfold ball_point_sdfv, ball_code. cbn [apply_origin Tr_Vec2 cylinder_to_ball b_radius cy_radius]. destruct (flt f0 (v2len p)); cbn [fst snd]; [intros ->; reflexivity | reflexivity]. }
  rewrite EV, (flt_fin _ _ G2 G1). split.
  - intro L. rewrite Rltb_false by (apply Rlt_le, H1, L). destruct (ball_way p r q Hp Hr eq_refl Nr) as (K1 & K2). cbv zeta in K1, K2. set (b := snd (ball_code r p)) in * .
    exists (V3 (vx b) (vy b) f0), (way_side (val r) q). destruct (way_side_xy (val r) q Pr) as (_ & _ & X3).
    assert (Nw : norm3 (way_side (val r) q) = val r - n) by (rewrite way_side_norm by exact Pr; rewrite SD, Rabs_left by lra; ring).
    split; [reflexivity|]. split; [destruct K1; repeat split; assumption|]. split; [apply way_side_separates, Pr|]. split; [exact Nw|].
    eapply Rle_trans; [apply norm3_split|].
    change (norm (psub (rval b) (x3 (way_side (val r) q), y3 (way_side (val r) q))) + Rabs (val (@f0 b32 _) - z3 (way_side (val r) q)) <= 32 * u32 * (norm3 (way_side (val r) q) + 2 * val r)).
    change (norm (rval p)) with n in K2. change (val (@f0 b32 _)) with 0. rewrite X3, Rminus_0_r, Rabs_R0, Nw. assert (u32 * n <= u32 * val r) by (apply Rmult_le_compat_l; lra). lra.
  - intros L NZ. rewrite Rltb_true by (apply H2, L). destruct (signum_mul_l (wz o) h Fz Fh) as (s & (Sg1 & Sg2) & Fs & Vs). fold a in Sg1.
    exists (V3 f0 f0 (fmul (fsignum (wz o)) h)). split; [reflexivity|]. split; [repeat split; exact Fs|]. intro Se. apply cyl_separates in Se. apply Se. clear Se.
    assert (Ap : 0 < a) by (apply Rabs_pos_lt, NZ). assert (AS : Rabs s = 1) by (destruct Sg2 as [-> | ->]; [apply Rabs_R1 | rewrite Rabs_left; lra]). split.
    + unfold flat. change (Rabs (val (wz o) - val (fmul (fsignum (wz o)) h)) - 2 * val h / 2 < 0). rewrite Vs.
      replace (val (wz o) - s * val h) with (s * (a - val h)); [rewrite Rabs_mult, AS, Rabs_left by lra; lra|]. rewrite Sg1. destruct Sg2 as [-> | ->]; ring.
    + unfold side. change (norm (val (wx o) - 0, val (wy o) - 0) - val r < 0). rewrite !Rminus_0_r. fold n. lra.
Qed.
Print Assumptions C78_penetrates_f32.

(** sdfv, of a point inside: where the surface it picks is the nearer one (the comparison decided by a margin of 2^-21), nearly a shortest way out *)
Theorem C78_sdfv_f32_shortest : forall (T : Type) (TR : Transformation3d b32 T) (h r : b32) (rel : T), let o := apply_origin3 rel in
  fin h -> small (val h) 59 -> radius_ok r -> fin (wz o) -> small (val (wz o)) 59 -> centre_ok (V2 (wx o) (wy o)) ->
  overlaps3 (cylinder3 (2 * val h) (val r)) (single3 (rval3 o)) ->
  let n := norm (val (wx o), val (wy o)) in let f := Rabs (val (wz o)) - val h in
  bpow radix2 (-60) <= n \/ bpow radix2 (-60) <= Rabs f ->
  (n * (1 + 8 * u32) < Rabs f /\ n - val r <= f) \/ (Rabs f * (1 + 8 * u32) < n /\ f <= n - val r) ->
  let v := sdfv_rel3 (Cylinder3d h r) PointS rel in
  exists w, is_min_separation3 w (cylinder3 (2 * val h) (val r)) (single3 (rval3 o)) /\ fin3 v /\ norm3 (sub3 (rval3 v) w) <= 32 * u32 * (norm3 w + 2 * val r).
Proof.
  intros T TR h r rel o Fh Sh Hr Fz Sz Hp OV n f B C v. pose proof u32_pos as Up. pose proof u32_small as Us. apply cyl_overlaps in OV. destruct OV as [OF OS].
  set (q := rval3 o) in * . set (p := V2 (wx o) (wy o)) in * . pose proof Hr as (Fr & Sr & Pr).
  assert (Wd : forall x, small x 59 -> small x 60) by (intros x X; eapply small_weak; [|exact X]; lia).
  destruct (edge_ok (wz o) h Fz Fh (Wd _ Sz) (Wd _ Sh)) as (Ze1 & Ze2 & e & He & Ze3). set (z := fsub (fabs (wz o)) h) in * . fold f in Ze3.
  assert (EF : flat (2 * val h) q = f) by (unfold flat, f; change (z3 q) with (val (wz o)); field). assert (ES : side (val r) q = n - val r) by reflexivity. rewrite EF in OF. rewrite ES in OS.
  assert (Sz' : small (val z) 61). { rewrite Ze2. apply rnd_small; [lia|]. apply (small_add _ _ 60); [apply small_abs, Wd, Sz | apply small_opp, Wd, Sh]. }
  assert (S60 : small2 p 60).
  { destruct Hp as [[Fx Fy] [E|M]]; [|apply M]. assert (Ex : val (vx p) = 0) by exact (f_equal fst E). assert (Ey : val (vy p) = 0) by exact (f_equal snd E).
    split; [split; assumption|]. unfold small. rewrite Ex, Ey, Rabs_R0. split; apply bpow_ge_0. }
  destruct (height_compare p z f e S60 Ze1 Sz' He Ze3 B) as (G1 & G2 & H1 & H2). change (norm (rval p)) with n in H1, H2.
  assert (R0 : 0 <= u32 * val r) by (apply Rmult_le_pos; lra).
  assert (PZ : val z < 0). { rewrite Ze3. apply Rabs_le_inv in He. assert (0 < (- f) * (1 + e)) by (apply Rmult_lt_0_compat; lra). lra. }
  assert (EV : v = if flt (v2lensq p) (fmul z z) then V3 f0 f0 (fmul (fsignum (wz o)) z) else V3 (vx (snd (ball_code r p))) (vy (snd (ball_code r p))) f0).
  { unfold v, sdfv_rel3, Sdfv3_CylinderPoint, cylinder_to_ball. cbn [cy_halfheight cy_radius]. fold o. fold p. fold z.
    rewrite (flt_fin z f0 Ze1) by reflexivity. change (val (@f0 b32 _)) with 0. rewrite Rltb_true by exact PZ.
    unfold ball_point_sdfv, ball_code. cbn [apply_origin Tr_Vec2 b_radius]. destruct (flt f0 (v2len p)); reflexivity. }
  rewrite EV, (flt_fin _ _ G1 G2). clear EV v. destruct C as [[C1 C2]|[C1 C2]].
  - rewrite (Rltb_true _ _ (H1 C1)). destruct (signum_mul_l (wz o) z Fz Ze1) as (s & (Sg1 & Sg2) & Fs & Vs). set (w := (0, 0, s * f)). exists w.
    assert (AS : Rabs s = 1) by (destruct Sg2 as [-> | ->]; [apply Rabs_R1 | rewrite Rabs_left; lra]).
    assert (Nw : norm3 w = - f) by (unfold w; rewrite norm3_axis_z, Rabs_mult, AS, Rabs_left by exact OF; ring).
    split; [split|split; [repeat split; exact Fs|]].
    + apply cyl_separates. unfold flat at 1. change (z3 (sub3 q w)) with (val (wz o) - s * f). replace (val (wz o) - s * f) with (s * val h).
      * rewrite Rabs_mult, AS. pose proof (Rle_abs (val h)). lra.
      * unfold f. rewrite Sg1 at 1. destruct Sg2 as [-> | ->]; ring.
    + intros w' W'. apply sep_lower in W'. rewrite EF, ES, Rmin_left in W' by lra. lra.
    + eapply Rle_trans; [apply norm3_split|]. change (norm (0 - 0, 0 - 0) + Rabs (val (fmul (fsignum (wz o)) z) - s * f) <= 32 * u32 * (norm3 w + 2 * val r)).
      rewrite Rminus_0_r. change (norm (0, 0)) with (norm origin). rewrite norm_origin, Vs, Nw, Ze3. replace (s * (f * (1 + e)) - s * f) with (s * (f * e)) by ring. rewrite !Rabs_mult, AS, (Rabs_left f) by exact OF.
      assert (- f * Rabs e <= - f * u32) by (apply Rmult_le_compat_l; lra). assert (0 <= u32 * - f) by (apply Rmult_le_pos; lra). lra.
  - rewrite (Rltb_false _ _ (Rlt_le _ _ (H2 C1))). assert (Nr : n < val r) by lra. destruct (ball_way p r q Hp Hr eq_refl Nr) as (K1 & K2). cbv zeta in K1, K2. set (b := snd (ball_code r p)) in * .
    exists (way_side (val r) q). destruct (way_side_xy (val r) q Pr) as (_ & _ & X3).
    assert (Nw : norm3 (way_side (val r) q) = val r - n) by (rewrite way_side_norm by exact Pr; rewrite ES, Rabs_left by lra; ring).
    split; [split; [apply way_side_separates, Pr|]|].
    + intros w' W'. apply sep_lower in W'. rewrite EF, ES, Rmin_right in W' by lra. lra.
    + split; [destruct K1; repeat split; assumption|]. eapply Rle_trans; [apply norm3_split|].
      change (norm (psub (rval b) (x3 (way_side (val r) q), y3 (way_side (val r) q))) + Rabs (val (@f0 b32 _) - z3 (way_side (val r) q)) <= 32 * u32 * (norm3 (way_side (val r) q) + 2 * val r)).
      change (norm (rval p)) with n in K2. change (val (@f0 b32 _)) with 0. rewrite X3, Rminus_0_r, Rabs_R0, Nw. assert (u32 * n <= u32 * val r) by (apply Rmult_le_compat_l; lra). lra.
Qed.
Print Assumptions C78_sdfv_f32_shortest.

(** ** The hypotheses are met *)
Example C78_sdf_f32_case : exists (h r : b32) (above beside deep flat_one near_face near_wall : vec3 b32),
  let n (o : vec3 b32) := norm (val (wx o), val (wy o)) in let a (o : vec3 b32) := Rabs (val (wz o)) in
  let ok (o : vec3 b32) := fin (wz o) /\ small (val (wz o)) 59 /\ small2 (V2 (wx o) (wy o)) 59 /\ centre_ok (V2 (wx o) (wy o)) /\ bpow radix2 (-60) <= n o in
  (fin h /\ small (val h) 59 /\ 0 <= val h /\ radius_ok r) /\ ok above /\ ok beside /\ ok deep /\ ok flat_one /\ ok near_face /\ ok near_wall /\
  (n above * (1 + 8 * u32) < Rabs (a above - val h) /\ n above - val r <= a above - val h /\ n above <= val r) /\
  (Rabs (a beside - val h) * (1 + 8 * u32) < n beside /\ a beside - val h <= n beside - val r /\ a beside - val h <= 0) /\
  (n deep * (1 + 4 * u32) < val r /\ a deep < val h /\ n deep * (1 + 8 * u32) < a deep) /\
  (n flat_one * (1 + 4 * u32) < val r /\ a flat_one < val h /\ a flat_one * (1 + 8 * u32) < n flat_one /\ val (wz flat_one) <> 0) /\
  (overlaps3 (cylinder3 (2 * val h) (val r)) (single3 (rval3 near_face)) /\ n near_face * (1 + 8 * u32) < Rabs (a near_face - val h) /\ n near_face - val r <= a near_face - val h) /\
  (overlaps3 (cylinder3 (2 * val h) (val r)) (single3 (rval3 near_wall)) /\ Rabs (a near_wall - val h) * (1 + 8 * u32) < n near_wall /\ a near_wall - val h <= n near_wall - val r).
Proof.
  set (k := fun m : Z => b32_of m 0).
  assert (K : forall m, (Z.abs m <= 8)%Z -> fin (k m) /\ val (k m) = IZR m /\ small (val (k m)) 58).
  { intros m Hm. destruct (case3_num m 0 ltac:(lia) ltac:(lia)) as (A & B & C). change (bpow radix2 0) with 1 in B. rewrite Rmult_1_r in B. repeat split; assumption. }
  assert (W : forall x j, small x 58 -> (58 <= j)%Z -> small x j) by (intros x j X J; eapply small_weak; [|exact X]; exact J).
  pose proof u32_pos as Up. pose proof u32_small as Us.
  assert (OK : forall m l, (Z.abs m <= 8)%Z -> (Z.abs l <= 8)%Z -> 1 <= IZR m -> let o := V3 (k m) (k 0%Z) (k l) in
    (fin (wz o) /\ small (val (wz o)) 59 /\ small2 (V2 (wx o) (wy o)) 59 /\ centre_ok (V2 (wx o) (wy o)) /\ bpow radix2 (-60) <= norm (val (wx o), val (wy o))) /\
    norm (val (wx o), val (wy o)) = IZR m /\ val (wz o) = IZR l).
  { intros m l Hm Hl M. cbv zeta. cbn [wx wy wz]. destruct (K m Hm) as (A1 & A2 & A3). destruct (K l Hl) as (B1 & B2 & B3). destruct (K 0%Z ltac:(lia)) as (C1 & C2 & C3).
    assert (N : norm (val (k m), val (k 0%Z)) = IZR m) by (rewrite A2, C2, norm_xaxis, Rabs_pos_eq by lra; reflexivity).
    assert (S : forall j, (58 <= j)%Z -> small2 (V2 (k m) (k 0%Z)) j) by (intros j J; split; [split; assumption|]; split; apply W; assumption).
    assert (L : bpow radix2 (-60) <= IZR m) by (apply Rle_trans with (bpow radix2 0); [apply bpow_le; lia | cbn; lra]).
    rewrite N. split; [|split; [reflexivity | exact B2]]. split; [exact B1|]. split; [apply W; [exact B3 | lia]|]. split; [apply S; lia|]. split; [|exact L].
    split; [split; assumption|]. right. split; [apply S; lia|]. rewrite rlen_norm. change (bpow radix2 (-60) <= norm (val (k m), val (k 0%Z))). rewrite N. exact L. }
  destruct (OK 1%Z 7%Z ltac:(lia) ltac:(lia) ltac:(lra)) as (A & An & Az). destruct (OK 5%Z 1%Z ltac:(lia) ltac:(lia) ltac:(lra)) as (B & Bn & Bz).
  destruct (OK 1%Z 3%Z ltac:(lia) ltac:(lia) ltac:(lra)) as (C & Cn & Cz). destruct (OK 2%Z 1%Z ltac:(lia) ltac:(lia) ltac:(lra)) as (D & Dn & Dz).
  destruct (OK 1%Z 2%Z ltac:(lia) ltac:(lia) ltac:(lra)) as (E & En & Ez). destruct (OK 2%Z 3%Z ltac:(lia) ltac:(lia) ltac:(lra)) as (G & Gn & Gz).
  destruct (K 4%Z ltac:(lia)) as (H1 & H2 & H3). destruct (K 3%Z ltac:(lia)) as (R1 & R2 & R3).
  exists (k 4%Z), (k 3%Z), (V3 (k 1%Z) (k 0%Z) (k 7%Z)), (V3 (k 5%Z) (k 0%Z) (k 1%Z)), (V3 (k 1%Z) (k 0%Z) (k 3%Z)), (V3 (k 2%Z) (k 0%Z) (k 1%Z)), (V3 (k 1%Z) (k 0%Z) (k 2%Z)), (V3 (k 2%Z) (k 0%Z) (k 3%Z)).
  cbv beta zeta in A, An, Az, B, Bn, Bz, C, Cn, Cz, D, Dn, Dz, E, En, Ez, G, Gn, Gz |- * .
  assert (OV : forall o : vec3 b32, Rabs (val (wz o)) < 4 -> norm (val (wx o), val (wy o)) < 3 -> overlaps3 (cylinder3 (2 * val (k 4%Z)) (val (k 3%Z))) (single3 (rval3 o))).
  { intros o O1 O2. apply cyl_overlaps. rewrite H2, R2. split; [unfold flat; change (Rabs (val (wz o)) - 2 * 4 / 2 < 0); lra | unfold side; change (norm (val (wx o), val (wy o)) - 3 < 0); lra]. }
  assert (O1 := OV (V3 (k 1%Z) (k 0%Z) (k 2%Z)) ltac:(rewrite Ez, Rabs_pos_eq; lra) ltac:(rewrite En; lra)).
  assert (O2 := OV (V3 (k 2%Z) (k 0%Z) (k 3%Z)) ltac:(rewrite Gz, Rabs_pos_eq; lra) ltac:(rewrite Gn; lra)). clear OV. rewrite H2, R2 in O1, O2.
  rewrite An, Az, Bn, Bz, Cn, Cz, Dn, Dz, En, Ez, Gn, Gz, H2, R2. rewrite An, Az in A. rewrite Bn, Bz in B. rewrite Cn, Cz in C. rewrite Dn, Dz in D. rewrite En, Ez in E. rewrite Gn, Gz in G.
  rewrite (Rabs_pos_eq 7), (Rabs_pos_eq 1), (Rabs_pos_eq 3), (Rabs_pos_eq 2) by lra. replace (2 - 4) with (Ropp 2) by ring. replace (3 - 4) with (Ropp 1) by ring. replace (7 - 4) with 3 by ring. replace (1 - 4) with (Ropp 3) by ring. rewrite !Rabs_Ropp, (Rabs_pos_eq 3), (Rabs_pos_eq 2), (Rabs_pos_eq 1) by lra.
  split; [|split; [exact A|split; [exact B|split; [exact C|split; [exact D|split; [exact E|split; [exact G|]]]]]]].
  - split; [exact H1|]. split; [unfold small; rewrite Rabs_pos_eq by lra; apply Rle_trans with (bpow radix2 2); [cbn; lra | apply bpow_le; lia]|]. split; [lra|]. split; [exact R1|]. split; [rewrite R2; unfold small; rewrite Rabs_pos_eq by lra; apply Rle_trans with (bpow radix2 2); [cbn; lra | apply bpow_le; lia] | lra].
  - repeat split; try lra; first [exact O1 | exact O2].
Qed.
