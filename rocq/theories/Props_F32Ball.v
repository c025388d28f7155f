(** * C52: Ball v Point and Ball v Ball in binary32; C44 in binary32 *)
From Coq Require Import Reals ZArith Bool Lra Lia List Psatz.
From Flocq Require Import IEEE754.BinarySingleNaN Core Relative.
From Verif Require Import Num NumXR NumB32 Glam Transform2 Shapes2 Gjk Detect2 Misc Tilemap P_B32 Props_F32 Props_Lerp.
Import ListNotations.
Local Open Scope R_scope.

(** true length of the vector with these f32 coordinates *)
Definition rlen (p : vec2 b32) : R := sqrt (val (vx p) * val (vx p) + val (vy p) * val (vy p)).
(** coordinates at most 2^60, length at least 2^-60 *)
Definition mid_range (p : vec2 b32) : Prop := small2 p 60 /\ bpow radix2 (-60) <= rlen p.

Lemma rlen_sq p : rlen p * rlen p = val (vx p) * val (vx p) + val (vy p) * val (vy p).
Proof. unfold rlen. apply sqrt_sqrt. nra. Qed.
Lemma rlen_pos p : 0 <= rlen p. Proof. apply sqrt_pos. Qed.
Lemma length_ok p : mid_range p -> fin (v2len p) /\ Rabs (val (v2len p) - rlen p) <= 4 * u32 * rlen p.
Proof.
  intros [S Hl]. destruct (dot_ok p p 60 60 ltac:(lia) ltac:(lia) S S) as [D1 D2]. unfold v2len.
  pose proof u32_pos as Up. pose proof u32_small as Us. pose proof tiny_pos as Tp. pose proof (rlen_pos p) as Lp.
  assert (Ra : rdot_abs p p = rlen p * rlen p).
  { rewrite rlen_sq. unfold rdot_abs. rewrite !Rabs_pos_eq by nra. reflexivity. }
  assert (Rd : rdot p p = rlen p * rlen p) by (rewrite rlen_sq; reflexivity).
  rewrite Ra, Rd in D2. set (s := val (v2dot p p)) in * . set (L := rlen p) in * .
  assert (B120 : bpow radix2 (-120) <= L * L). { replace (-120)%Z with (-60 + -60)%Z by reflexivity. rewrite bpow_plus. apply Rmult_le_compat; try apply bpow_ge_0; exact Hl. }
  assert (Tt : tiny <= u32 / 64 * (L * L)).
  { apply Rle_trans with (u32 / 64 * bpow radix2 (-120)); [|apply Rmult_le_compat_l; lra]. unfold tiny, u32.
    replace (-150)%Z with (-30 + -120)%Z by reflexivity. rewrite bpow_plus. apply Rmult_le_compat_r; [apply bpow_ge_0|]. cbn. lra. }
  assert (Sb : Rabs (s - L * L) <= (3 + 3 / 64) * u32 * (L * L)) by nra.
  apply Rabs_le_inv in Sb.
  assert (Lpos : 0 < L) by (eapply Rlt_le_trans; [apply bpow_gt_0 | exact Hl]).
  assert (Sp : 0 < s) by nra.
  assert (Hs : forall q, fin q -> 0 < val q -> fin (fsqrt q) /\ val (fsqrt q) = rnd (sqrt (val q))).
  { intros q Fq Pq. destruct (Bsqrt_correct 24 128 _ _ mode_NE q) as (Q1 & Q2 & _). split; [|exact Q1]. unfold fin. cbn. rewrite Q2.
    destruct q as [sg|sg| |sg m e b]; try discriminate; [reflexivity|]. destruct sg; [|reflexivity]. exfalso. apply (Rlt_not_le _ _ Pq). apply F2R_le_0. cbn. lia. }
  destruct (Hs _ D1 Sp) as [R1 R2]. fold s in R2. split; [exact R1|]. rewrite R2.
  destruct (rnd_error (sqrt s)) as (e & t & He & Ht & ->).
  assert (Sq : Rabs (sqrt s - L) <= (1 + 1 / 2 + 1 / 20) * u32 * L).
  { assert (0 <= sqrt s) by apply sqrt_pos. pose proof (sqrt_sqrt s ltac:(lra)) as Q.
    set (k := (1 + 1 / 2 + 1 / 20) * u32). assert (Hk : 0 < k < 1 / 100) by (unfold k; lra).
    assert (K1 : (1 - k) * (1 - k) <= 1 - (3 + 3 / 64) * u32) by (unfold k; nra). assert (K2 : 1 + (3 + 3 / 64) * u32 <= (1 + k) * (1 + k)) by (unfold k; nra).
    assert (LL : 0 < L * L) by nra.
    assert (M1 : ((1 - k) * (1 - k)) * (L * L) <= s) by nra. assert (M2 : s <= ((1 + k) * (1 + k)) * (L * L)) by nra.
    apply Rabs_le. split.
    - assert ((1 - k) * L <= sqrt s); [|lra]. apply Rsqr_incr_0; [unfold Rsqr; nra | nra | assumption].
    - assert (sqrt s <= (1 + k) * L); [|lra]. apply Rsqr_incr_0; [unfold Rsqr; nra | assumption | nra]. }
  assert (T2 : tiny <= u32 / 100 * L).
  { apply Rle_trans with (u32 / 100 * bpow radix2 (-60)); [|apply Rmult_le_compat_l; lra]. unfold tiny, u32.
    replace (-150)%Z with (-90 + -60)%Z by reflexivity. rewrite bpow_plus. apply Rmult_le_compat_r; [apply bpow_ge_0|].
    apply Rle_trans with (bpow radix2 (-40)); [apply bpow_le; lia|]. cbn. lra. }
  apply Rabs_le_inv in Sq. apply Rabs_le_inv in He. apply Rabs_le_inv in Ht. apply Rabs_le.
  assert (0 <= sqrt s <= 2 * L) by (split; [apply sqrt_pos | nra]). nra.
Qed.

(** the flag is right except when the distance is within 2^-22 (relative) of the radius *)
Theorem C52_ball_point_f32 : forall (T : Type) (TR : Transformation2d b32 T) (r : b32) (rel : T),
  fin r -> mid_range (apply_origin rel) ->
  exists c, collides_rel (F:=b32) (Ball r) PointS rel = Ok c /\
  (rlen (apply_origin rel) * (1 + 4 * u32) < val r -> c = true) /\
  (val r <= rlen (apply_origin rel) * (1 - 4 * u32) -> c = false).
Proof.
  intros T TR r rel Fr M. destruct (length_ok _ M) as [L1 L2]. destruct M as [S Hl]. set (p := apply_origin rel) in * .
  apply Rabs_le_inv in L2. pose proof u32_small as Us. pose proof u32_pos as Up.
  assert (Lp : 0 < rlen p) by (eapply Rlt_le_trans; [apply bpow_gt_0 | exact Hl]).
  eexists. split; [reflexivity|]. unfold ball_point_sdfv. cbn [b_radius]. fold p.
  assert (Z : flt f0 (v2len p) = true). { rewrite flt_fin by (assumption || reflexivity). apply Rltb_true. change (val f0) with 0. nra. }
  rewrite Z. cbn [fst]. rewrite flt_fin by assumption. split; intro H; [apply Rltb_true | apply Rltb_false]; lra.
Qed.
Print Assumptions C52_ball_point_f32.
Theorem C52_ball_ball_f32 : forall (T : Type) (TR : Transformation2d b32 T) (r1 r2 : b32) (rel : T),
  fin r1 -> fin r2 -> 0 <= val r1 -> 0 <= val r2 -> small (val r1) 60 -> small (val r2) 60 -> mid_range (apply_origin rel) ->
  exists c, collides_rel (F:=b32) (Ball r1) (Ball r2) rel = Ok c /\
  (rlen (apply_origin rel) * (1 + 6 * u32) < val r1 + val r2 -> c = true) /\
  (val r1 + val r2 <= rlen (apply_origin rel) * (1 - 6 * u32) -> c = false).
Proof.
  intros T TR r1 r2 rel F1 F2 P1 P2 S1 S2 M. destruct (length_ok _ M) as [L1 L2]. destruct M as [S Hl]. set (p := apply_origin rel) in * .
  apply Rabs_le_inv in L2. pose proof u32_small as Us. pose proof u32_pos as Up.
  assert (Lp : 0 < rlen p) by (eapply Rlt_le_trans; [apply bpow_gt_0 | exact Hl]).
  assert (Sm : small (rnd (val r1 + val r2)) 61) by (apply rnd_small; [lia|]; apply (small_add _ _ 60); assumption).
  destruct (add_ok r1 r2 F1 F2 ltac:(eapply small_big; [|exact Sm]; lia)) as [A1 A2].
  destruct (rnd_error_add r1 r2) as (e & He & Ee). rewrite Ee in A2. apply Rabs_le_inv in He.
  eexists. split; [reflexivity|]. unfold ball_ball_sdfv. cbn [b_radius]. fold p.
  assert (Z : flt f0 (v2len p) = true). { rewrite flt_fin by (assumption || reflexivity). apply Rltb_true. change (val f0) with 0. nra. }
  rewrite Z. cbn [fst]. rewrite flt_fin by assumption. rewrite A2. split; intro H; [apply Rltb_true | apply Rltb_false]; nra.
Qed.
Print Assumptions C52_ball_ball_f32.
(** the scalar distance is within a relative rounding error of the true one *)
Theorem C52_ball_point_sdf_f32 : forall (T : Type) (TR : Transformation2d b32 T) (r : b32) (rel : T),
  fin r -> small (val r) 60 -> mid_range (apply_origin rel) ->
  fin (sdf_rel (F:=b32) (Ball r) PointS rel) /\
  Rabs (val (sdf_rel (F:=b32) (Ball r) PointS rel) - (rlen (apply_origin rel) - val r)) <= 6 * u32 * (rlen (apply_origin rel) + Rabs (val r)).
Proof.
  intros T TR r rel Fr Sr M. destruct (length_ok _ M) as [L1 L2]. destruct M as [S Hl]. change (sdf_rel (F:=b32) (Ball r) PointS rel) with (fsub (v2len (apply_origin rel)) r). set (p := apply_origin rel) in * .
  apply Rabs_le_inv in L2. pose proof u32_small as Us. pose proof u32_pos as Up. pose proof (rlen_pos p) as Lp.
  assert (Ls : small (rlen p) 61).
  { unfold small. rewrite Rabs_pos_eq by exact Lp. destruct S as [_ [Sx Sy]]. unfold small in * . set (B := bpow radix2 60) in * .
    replace (bpow radix2 61) with (B * 2) by (unfold B; replace 61%Z with (60 + 1)%Z by reflexivity; rewrite bpow_plus; reflexivity).
    assert (0 < B) by apply bpow_gt_0. apply Rabs_le_inv in Sx. apply Rabs_le_inv in Sy. pose proof (rlen_sq p). nra. }
  assert (Lc : small (val (v2len p)) 62).
  { unfold small in * . rewrite Rabs_pos_eq in Ls by exact Lp. replace 62%Z with (61 + 1)%Z by reflexivity. rewrite bpow_plus. replace (bpow radix2 1) with 2 by reflexivity.
    apply Rabs_le. nra. }
  assert (Sm : small (rnd (val (v2len p) - val r)) 63).
  { apply rnd_small; [lia|]. apply (small_add _ _ 62); [exact Lc|]. apply small_opp. eapply small_weak; [|exact Sr]. lia. }
  destruct (sub_ok _ r L1 Fr ltac:(eapply small_big; [|exact Sm]; lia)) as [A1 A2]. split; [exact A1|].
  destruct (rnd_error_add (v2len p) (fneg r)) as (e & He & Ee). rewrite val_neg in Ee.
  rewrite A2. replace (val (v2len p) - val r) with (val (v2len p) + - val r) by ring. rewrite Ee. apply Rabs_le_inv in He.
  set (l := val (v2len p)) in * . set (L := rlen p) in * . pose proof (Rabs_pos (val r)) as Ar. pose proof (Rle_abs (val r)) as A3. pose proof (Rle_abs (- val r)) as A4. rewrite Rabs_Ropp in A4.
  replace ((l + - val r) * (1 + e) - (L - val r)) with ((l - L) + (l - val r) * e) by ring.
  assert (Rabs ((l - val r) * e) <= (2 * L + Rabs (val r)) * u32).
  { rewrite Rabs_mult. apply Rmult_le_compat; try apply Rabs_pos; [|apply Rabs_le; lra]. apply Rabs_le. nra. }
  apply Rabs_le_inv in H. apply Rabs_le. nra.
Qed.
Print Assumptions C52_ball_point_sdf_f32.
Example mid_range_met : mid_range (V2 (b32_of 3 0) (b32_of 4 0)).
Proof.
  assert (Vx : val (b32_of 3 0) = 3) by (rewrite (proj2 (val_of 3 0 ltac:(lia) ltac:(lia))); cbn; lra).
  assert (Vy : val (b32_of 4 0) = 4) by (rewrite (proj2 (val_of 4 0 ltac:(lia) ltac:(lia))); cbn; lra).
  assert (B : 8 <= bpow radix2 60). { change 8 with (bpow radix2 3). apply bpow_le. lia. }
  split.
  - split; [split; reflexivity|]. unfold small. cbn [vx vy]. rewrite Vx, Vy. split; rewrite Rabs_pos_eq; lra.
  - unfold rlen. cbn [vx vy]. rewrite Vx, Vy. replace (3 * 3 + 4 * 4) with (5 * 5) by ring. rewrite sqrt_square by lra.
    apply Rle_trans with (bpow radix2 0); [apply bpow_le; lia|]. cbn. lra.
Qed.
(** below that scale the squares underflow: a point 2^-76 away from the centre of a ball of radius 2^-100 is reported inside *)
Theorem C52_underflow_refuted : exists (r : b32) (rel : vec2 b32), fin2 rel /\ val r = bpow radix2 (-100) /\ rlen rel = bpow radix2 (-76) /\
  collides_rel (F:=b32) (Ball r) PointS rel = Ok true.
Proof.
  exists (b32_of 1 (-100)), (V2 (b32_of 1 (-76)) f0). split; [split; reflexivity|].
  assert (V : forall e, (-149 <= e)%Z -> (e <= 0)%Z -> val (b32_of 1 e) = bpow radix2 e).
  { intros e He Hu. unfold val, b32_of. pose proof (binary_normalize_correct 24 128 _ _ mode_NE 1 e false) as C. cbv zeta in C.
    assert (E : F2R (Defs.Float radix2 1 e) = bpow radix2 e) by (unfold F2R; cbn; ring).
    assert (R0 : round radix2 (SpecFloat.fexp 24 128) (round_mode mode_NE) (F2R (Defs.Float radix2 1 e)) = bpow radix2 e).
    { rewrite E. pose proof (rnd_dyadic 1 e ltac:(lia) He) as X. rewrite Rmult_1_l in X. exact X. }
    rewrite R0, Rlt_bool_true in C; [exact (proj1 C)|]. rewrite Rabs_pos_eq by apply bpow_ge_0. apply bpow_lt. lia. }
  split; [apply V; lia|]. split; [|vm_compute; reflexivity].
  unfold rlen. cbn [vx vy]. rewrite V by lia. change (val f0) with 0. rewrite Rmult_0_r, Rplus_0_r. apply sqrt_square, bpow_ge_0.
Qed.
Print Assumptions C52_underflow_refuted.

(** ** C44 in f32: tile -> world -> tile *)
Definition rounds32 (round : b32 -> Z) : Prop := forall x (z : Z), fin x -> val x = IZR z -> round x = z.
Theorem C44_tile_world_tile_f32 : forall round, rounds32 round -> forall q : Z * Z, (Z.abs (fst q) <= 2 ^ 24)%Z -> (Z.abs (snd q) <= 2 ^ 24)%Z ->
  world_to_tile_pos round (tile_to_world_pos (F:=b32) q) = q.
Proof.
  intros round Hr [zx zy] H1 H2. cbn [fst snd] in * .
  assert (V : forall z, (Z.abs z <= 2 ^ 24)%Z -> fin (fofZ z) /\ val (@fofZ b32 _ z) = IZR z).
  { intros z Hz. unfold val, fin. cbn [fofZ FloatB32]. unfold b32_of. pose proof (binary_normalize_correct 24 128 _ _ mode_NE z 0 false) as C. cbv zeta in C.
    assert (E : F2R (Defs.Float radix2 z 0) = IZR z * bpow radix2 0) by reflexivity.
    assert (R0 : round_mode mode_NE = ZnearestE) by reflexivity.
    assert (R1 : Generic_fmt.round radix2 (SpecFloat.fexp 24 128) (round_mode mode_NE) (F2R (Defs.Float radix2 z 0)) = IZR z).
    { rewrite E. pose proof (rnd_dyadic z 0 Hz ltac:(lia)) as X. unfold rnd in X. rewrite R0, X. cbn. ring. }
    rewrite R1, Rlt_bool_true in C; [split; [exact (proj1 (proj2 C)) | exact (proj1 C)]|].
    rewrite <- abs_IZR. change (bpow radix2 128) with (IZR (2 ^ 128)). apply IZR_lt. lia. }
  unfold world_to_tile_pos, tile_to_world_pos. cbn [fst snd vx vy].
  destruct (V zx H1), (V zy H2). f_equal; apply Hr; assumption.
Qed.
Print Assumptions C44_tile_world_tile_f32.
(** tile 2^24+1 has the same world position as tile 2^24 *)
Theorem C44_far_tiles_refuted : tile_to_world_pos (F:=b32) (2 ^ 24 + 1, 0)%Z = tile_to_world_pos (F:=b32) (2 ^ 24, 0)%Z.
Proof. unfold tile_to_world_pos. cbn [fst snd]. f_equal. apply B2SF_inj. vm_compute. reflexivity. Qed.
Print Assumptions C44_far_tiles_refuted.
