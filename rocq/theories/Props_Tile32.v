(** * C65: the tile map in f32: tile coordinates, broad phase and simple_resolve

    C44 and C45 are about exact arithmetic. Here every number is an f32: world positions and half sizes are binary32 numbers and the code's additions,
    subtractions and conversions round. *)
From Coq Require Import Reals ZArith Bool Lra Lia List Psatz.
From Flocq Require Import IEEE754.BinarySingleNaN Core Relative.
From Verif Require Import Num NumXR NumB32 Glam Transform2 Shapes2 Gjk Detect2 Publisher Rect Tilemap Spec SpecLink P_Base P_Transform P_Shapes P_Geo P_Gjk P_B32
  Props_F32 Props_F32Gjk Props_F32Ball P_F32Box Props_F32Box P_Drift P_Deep P_Scene Props_Gjk Props_Deep Props_Util Props_Tilemap Props_TileGeo Props_Resolve
  Spec32 Props_Drift P_Closed32 Props_Closed32 P_Deep32e Props_Deep32 P_Gap32c Props_Gap32 P_Grid32 Props_Grid32 Props_Grid32v Props_Grid32s.
Import ListNotations.
Local Open Scope R_scope.

(** ** Vocabulary *)
(** all that is assumed of round_to_i32: up to a billion it returns an integer nearest to the number (ties either way) *)
Definition nearest32 (round : b32 -> Z) : Prop := forall x, fin x -> Rabs (val x) <= bpow radix2 30 -> Rabs (IZR (round x) - val x) <= 1 / 2.
(** f32::round (half away from zero) followed by [as i32] (saturating, NaN to 0) *)
Definition round_half_away (x : b32) : Z :=
  match x with
  | B754_nan => 0
  | B754_infinity s => if s then - 2 ^ 31 else 2 ^ 31 - 1
  | _ => Z.max (- 2 ^ 31) (Z.min (2 ^ 31 - 1) (ZnearestA (val x)))
  end.
Lemma half_away x : fin x -> Rabs (val x) <= bpow radix2 30 -> round_half_away x = ZnearestA (val x).
Proof.
  intros F B. assert (E : bpow radix2 30 = 1073741824) by (cbn; lra). rewrite E in B. apply Rabs_le_iff in B.
  assert (N : (- 2 ^ 31 <= ZnearestA (val x) <= 2 ^ 31 - 1)%Z).
  { pose proof (Znearest_half (Zle_bool 0) (val x)) as H. apply Rabs_le_iff in H. split; apply le_IZR; [change (IZR (- 2 ^ 31)) with (-2147483648) | change (IZR (2 ^ 31 - 1)) with 2147483647]; lra. }
  unfold round_half_away. destruct x; try discriminate F; lia.
Qed.
Example rounding32_met : nearest32 round_half_away.
Proof.
  intros x F B. rewrite (half_away x F B). pose proof (Znearest_half (Zle_bool 0) (val x)) as H. rewrite Rabs_minus_sym. lra.
Qed.

(** ** Tile coordinates *)
Lemma ofZ_ok z : (Z.abs z <= 2 ^ 24)%Z -> fin (fofZ z : b32) /\ val (fofZ z : b32) = IZR z.
Proof. intro B. destruct (val_of z 0 B ltac:(lia)) as [F V]. split; [exact F|]. change (fofZ z : b32) with (b32_of z 0). rewrite V. cbn. ring. Qed.
Lemma int_abs z n : (Z.abs z <= n)%Z -> Rabs (IZR z) <= IZR n.
Proof. intro B. rewrite <- abs_IZR. apply IZR_le, B. Qed.
Lemma near_int round x z : nearest32 round -> fin x -> Rabs (val x) <= bpow radix2 30 -> Rabs (val x - IZR z) < 1 / 2 -> round x = z.
Proof.
  intros H F B N. specialize (H x F B). apply Rabs_le_iff in H. apply Rabs_def2 in N.
  assert (-1 < round x - z < 1)%Z; [|lia]. split; apply lt_IZR; rewrite minus_IZR; lra.
Qed.
(** a world position lies in the square of its tile: nothing is rounded here *)
Theorem C65_position_in_tile : forall round, nearest32 round -> forall p : vec2 b32, fin2 p -> Rabs (val (vx p)) <= bpow radix2 30 -> Rabs (val (vy p)) <= bpow radix2 30 ->
  tile_square (world_to_tile_pos round p) (rval p).
Proof.
  intros round H p [Fx Fy] X Y. pose proof (H _ Fx X) as Hx. pose proof (H _ Fy Y) as Hy. apply Rabs_le_iff in Hx, Hy.
  unfold tile_square, shift, rect, tile_centre, rval; cbn. lra.
Qed.
Print Assumptions C65_position_in_tile.
(** Tilemap v Point is exact *)
Theorem C65_point_query : forall dec round, nearest32 round -> forall (T : Type) (TR : Transformation2d b32 T) m (t : T) q,
  let v := apply_origin t in fin2 v -> Rabs (val (vx v)) <= bpow radix2 30 -> Rabs (val (vy v)) <= bpow radix2 30 ->
  Rabs (val (vx v) - IZR (fst q)) < 1 / 2 -> Rabs (val (vy v) - IZR (snd q)) < 1 / 2 -> forall P,
  fst (tilemap_point_sdfv (F:=b32) dec round P m t) = true <-> get_tile dec m q <> 0%Z.
Proof.
  intros dec round H T TR m t q v [Fx Fy] X Y Qx Qy P. unfold tilemap_point_sdfv. fold v. cbn [fst].
  assert (world_to_tile_pos round v = q) as ->.
  { destruct q as [x y]. unfold world_to_tile_pos. f_equal; apply (near_int round _ _ H); assumption. }
  destruct (Z.eqb_spec (get_tile dec m q) 0); cbn; split; congruence.
Qed.
Print Assumptions C65_point_query.
Example point_query32_met : let v := V2 (b32_of 13 (-2)) (b32_of (-9) (-3)) in fin2 v /\ Rabs (val (vx v)) <= bpow radix2 30 /\ Rabs (val (vy v)) <= bpow radix2 30 /\
  Rabs (val (vx v) - IZR 3) < 1 / 2 /\ Rabs (val (vy v) - IZR (-1)) < 1 / 2.
Proof.
  cbn [vx vy]. destruct (val_of 13 (-2) ltac:(lia) ltac:(lia)) as [F1 V1]. destruct (val_of (-9) (-3) ltac:(lia) ltac:(lia)) as [F2 V2]. rewrite V1, V2.
  split; [split; assumption|]. cbn. repeat split; try (unfold Rabs; destruct Rcase_abs; lra).
Qed.

(** ** Broad phase *)
Lemma offset_sub p q k : fin p -> fin q -> (k <= 27)%Z -> (0 <= k)%Z -> Rabs (val q - val p) <= bpow radix2 k ->
  fin (fsub q p) /\ Rabs (val (fsub q p)) <= bpow radix2 k /\ Rabs (val (fsub q p) - (val q - val p)) <= u32 * Rabs (val q - val p).
Proof.
  intros Fp Fq K1 K0 B. pose proof (rnd_abs_hi k (val q - val p) ltac:(lia) B) as L.
  destruct (sub_ok q p Fq Fp) as [K V]; [eapply Rle_lt_trans; [exact L | apply bpow_big; lia]|]. split; [exact K|]. rewrite V. split; [exact L|].
  destruct (rnd_error_sub q p) as (e & He & X). rewrite X. replace ((val q - val p) * (1 + e) - (val q - val p)) with (e * (val q - val p)) by ring.
  rewrite Rabs_mult. apply Rmult_le_compat_r; [apply Rabs_pos | exact He].
Qed.
Lemma offset_add p q k : fin p -> fin q -> (k <= 27)%Z -> (0 <= k)%Z -> Rabs (val p + val q) <= bpow radix2 k ->
  fin (fadd p q) /\ Rabs (val (fadd p q)) <= bpow radix2 k /\ Rabs (val (fadd p q) - (val p + val q)) <= u32 * Rabs (val p + val q).
Proof.
  intros Fp Fq K1 K0 B. pose proof (rnd_abs_hi k (val p + val q) ltac:(lia) B) as L.
  destruct (add_ok p q Fp Fq) as [K V]; [eapply Rle_lt_trans; [exact L | apply bpow_big; lia]|]. split; [exact K|]. rewrite V. split; [exact L|].
  destruct (rnd_error_add p q) as (e & He & X). rewrite X. replace ((val p + val q) * (1 + e) - (val p + val q)) with (e * (val p + val q)) by ring.
  rewrite Rabs_mult. apply Rmult_le_compat_r; [apply Rabs_pos | exact He].
Qed.
Lemma sum_ok p h : fin p -> fin h -> 0 <= val h -> Rabs (val p) + val h <= bpow radix2 23 ->
  (fin (fsub p h) /\ Rabs (val (fsub p h)) <= bpow radix2 23 /\ Rabs (val (fsub p h) - (val p - val h)) <= u32 * (Rabs (val p) + val h)) /\
  (fin (fadd p h) /\ Rabs (val (fadd p h)) <= bpow radix2 23 /\ Rabs (val (fadd p h) - (val p + val h)) <= u32 * (Rabs (val p) + val h)).
Proof.
  intros Fp Fh H B.
  assert (A1 : Rabs (val p - val h) <= Rabs (val p) + val h) by (unfold Rabs; destruct (Rcase_abs (val p - val h)), (Rcase_abs (val p)); lra).
  assert (A2 : Rabs (val p + val h) <= Rabs (val p) + val h) by (unfold Rabs; destruct (Rcase_abs (val p + val h)), (Rcase_abs (val p)); lra).
  destruct (offset_sub h p 23 Fh Fp ltac:(lia) ltac:(lia) (Rle_trans _ _ _ A1 B)) as (F1 & L1 & N1).
  destruct (offset_add p h 23 Fp Fh ltac:(lia) ltac:(lia) (Rle_trans _ _ _ A2 B)) as (F2 & L2 & N2).
  pose proof u32_pos.
  split; (split; [assumption|]; split; [assumption|]); (eapply Rle_trans; [eassumption|]; apply Rmult_le_compat_l; [lra | assumption]).
Qed.
(** how far pos -+ halfsize can be off on one axis *)
Definition slop (p h : b32) : R := u32 * (Rabs (val p) + val h).
(** positions and sizes of up to eight million tiles *)
Definition in_world (b : box2d b32) (pos : vec2 b32) : Prop :=
  fin2 pos /\ fin2 (halfsize b) /\ 0 <= val (vx (halfsize b)) /\ 0 <= val (vy (halfsize b)) /\
  Rabs (val (vx pos)) + val (vx (halfsize b)) <= bpow radix2 23 /\ Rabs (val (vy pos)) + val (vy (halfsize b)) <= bpow radix2 23.
Lemma axis_bounds round p h : nearest32 round -> fin p -> fin h -> 0 <= val h -> Rabs (val p) + val h <= bpow radix2 23 ->
  val p - val h - slop p h - 1 / 2 <= IZR (round (fsub p h)) <= val p - val h + slop p h + 1 / 2 /\
  val p + val h - slop p h - 1 / 2 <= IZR (round (fadd p h)) <= val p + val h + slop p h + 1 / 2.
Proof.
  intros R0 Fp Fh H B. destruct (sum_ok p h Fp Fh H B) as ((F1 & B1 & N1) & (F2 & B2 & N2)). assert (E : bpow radix2 23 <= bpow radix2 30) by (apply bpow_le; lia).
  pose proof (R0 _ F1 ltac:(lra)) as Q1. pose proof (R0 _ F2 ltac:(lra)) as Q2. fold (slop p h) in N1, N2. apply Rabs_le_iff in N1, N2, Q1, Q2. lra.
Qed.
Lemma int_le a b : IZR a < IZR b + 1 -> (a <= b)%Z.
Proof. intro H. assert (a < b + 1)%Z; [|lia]. apply lt_IZR. rewrite plus_IZR. exact H. Qed.
Lemma abs_lt_iff a b : Rabs a < b -> - b < a < b.
Proof. intro H. apply Rabs_def2 in H. lra. Qed.
(** The broad phase returns every tile whose square the box enters by more than the rounding error, and no tile that the box misses by more than it. *)
Theorem C65_quantize : forall round, nearest32 round -> forall b pos q, in_world b pos ->
  let hx := val (vx (halfsize b)) in let hy := val (vy (halfsize b)) in
  let sx := slop (vx pos) (vx (halfsize b)) in let sy := slop (vy pos) (vy (halfsize b)) in
  (Rabs (IZR (fst q) - val (vx pos)) < hx + 1 / 2 - sx -> Rabs (IZR (snd q) - val (vy pos)) < hy + 1 / 2 - sy -> inside (quantize round b pos) q) /\
  (inside (quantize round b pos) q -> Rabs (IZR (fst q) - val (vx pos)) <= hx + 1 / 2 + sx /\ Rabs (IZR (snd q) - val (vy pos)) <= hy + 1 / 2 + sy).
Proof.
  intros round H b pos [x y] ([Px Py] & [Hx Hy] & X0 & Y0 & X1 & Y1) hx hy sx sy. cbn [fst snd].
  destruct (axis_bounds round _ _ H Px Hx X0 X1) as [AX1 AX2]. destruct (axis_bounds round _ _ H Py Hy Y0 Y1) as [AY1 AY2]. fold hx hy sx sy in AX1, AX2, AY1, AY2.
  unfold quantize, world_to_tile_pos, inside; cbn [rmin rmax fst snd vx vy v2sub v2add]. split.
  - intros A B. apply abs_lt_iff in A, B. repeat split; apply int_le; lra.
  - intros [[A1 A2] [B1 B2]]. apply IZR_le in A1, A2, B1, B2. split; apply Rabs_le_iff; lra.
Qed.
Print Assumptions C65_quantize.
(** In whole tiles and half tiles nothing is rounded away, and the broad phase is the exact one of C44 *)
Definition half_tiles (x : b32) : Prop := exists n : Z, val x = IZR n / 2.
Lemma exact_half p h : fin p -> fin h -> half_tiles p -> half_tiles h -> 0 <= val h -> Rabs (val p) + val h <= bpow radix2 23 ->
  (fin (fsub p h) /\ val (fsub p h) = val p - val h) /\ (fin (fadd p h) /\ val (fadd p h) = val p + val h).
Proof.
  intros Fp Fh [n N] [m M] H B. destruct (sum_ok p h Fp Fh H B) as ((F1 & _ & _) & (F2 & _ & _)).
  assert (E : bpow radix2 23 = 8388608) by (cbn; lra). rewrite E in B.
  assert (K : forall z : Z, Rabs (IZR z / 2) <= 8388608 -> rnd (IZR z / 2) = IZR z / 2).
  { intros z Hz. replace (IZR z / 2) with (IZR z * bpow radix2 (-1)) by (cbn; lra). apply rnd_dyadic; [|lia]. apply le_IZR. rewrite abs_IZR.
    change (IZR (2 ^ 24)) with 16777216. unfold Rdiv in Hz. rewrite Rabs_mult, (Rabs_right (/ 2)) in Hz by lra. lra. }
  assert (A1 : Rabs (val p - val h) <= 8388608) by (revert B; unfold Rabs; destruct (Rcase_abs (val p - val h)), (Rcase_abs (val p)); lra).
  assert (A2 : Rabs (val p + val h) <= 8388608) by (revert B; unfold Rabs; destruct (Rcase_abs (val p + val h)), (Rcase_abs (val p)); lra).
  assert (D : val p - val h = IZR (n - m) / 2) by (rewrite minus_IZR; lra). assert (S : val p + val h = IZR (n + m) / 2) by (rewrite plus_IZR; lra).
  assert (G : 8388608 < big) by (rewrite <- E; apply bpow_big; lia).
  rewrite D in A1. rewrite S in A2. pose proof (K _ A1) as K1. pose proof (K _ A2) as K2.
  destruct (sub_ok p h Fp Fh) as [_ V1]; [rewrite D, K1; lra|]. destruct (add_ok p h Fp Fh) as [_ V2]; [rewrite S, K2; lra|].
  split; (split; [assumption|]); [rewrite V1, D; exact K1 | rewrite V2, S; exact K2].
Qed.
Theorem C65_quantize_half_tiles : forall round, nearest32 round -> forall b pos q, in_world b pos ->
  half_tiles (vx pos) -> half_tiles (vy pos) -> half_tiles (vx (halfsize b)) -> half_tiles (vy (halfsize b)) ->
  let A := shift (rval pos) (rect (val (vx (halfsize b))) (val (vy (halfsize b)))) in
  (overlaps A (tile_square q) -> inside (quantize round b pos) q) /\ (inside (quantize round b pos) q -> meets A (tile_square q)).
Proof.
  intros round H b pos q ([Px Py] & [Hx Hy] & X0 & Y0 & X1 & Y1) GX GY HX HY A.
  destruct (exact_half _ _ Px Hx GX HX X0 X1) as ((F1 & V1) & (F2 & V2)). destruct (exact_half _ _ Py Hy GY HY Y0 Y1) as ((F3 & V3) & (F4 & V4)).
  set (hx := val (vx (halfsize b))) in * . set (hy := val (vy (halfsize b))) in * .
  set (px := val (vx pos)) in * . set (py := val (vy pos)) in * .
  assert (E : bpow radix2 23 = 8388608) by (cbn; lra). assert (E30 : bpow radix2 30 = 1073741824) by (cbn; lra). rewrite E in X1, Y1.
  assert (P : forall p h, 0 <= h -> Rabs p + h <= 8388608 -> Rabs (p - h) <= bpow radix2 30 /\ Rabs (p + h) <= bpow radix2 30).
  { intros p h Hh B. rewrite E30. split; revert B; unfold Rabs; destruct (Rcase_abs p); [destruct (Rcase_abs (p - h)) | destruct (Rcase_abs (p - h)) | destruct (Rcase_abs (p + h)) | destruct (Rcase_abs (p + h))]; lra. }
  destruct (P px hx X0 X1) as [P1 P2]. destruct (P py hy Y0 Y1) as [P3 P4].
  rewrite <- V1 in P1. rewrite <- V2 in P2. rewrite <- V3 in P3. rewrite <- V4 in P4.
  pose proof (H _ F1 P1) as N1. pose proof (H _ F2 P2) as N2. pose proof (H _ F3 P3) as N3. pose proof (H _ F4 P4) as N4. rewrite V1 in N1. rewrite V2 in N2. rewrite V3 in N3. rewrite V4 in N4.
  apply Rabs_le_iff in N1, N2, N3, N4.
  unfold quantize, world_to_tile_pos, inside; cbn [rmin rmax fst snd vx vy v2sub v2add]. split.
  - intro O. apply overlap_axes in O. destruct O as (e & He & O).
    assert (Hxs : IZR (fst q) - 1 / 2 < px + hx /\ px - hx < IZR (fst q) + 1 / 2).
    { destruct (O (e, 0)) as ([u v] & Q1 & Q2); [rewrite norm_xaxis, Rabs_right; lra|]. destruct (O (- e, 0)) as ([u' v'] & Q1' & Q2'); [rewrite norm_xaxis, Rabs_left; lra|].
      unfold A, tile_square, shift, rect, tile_centre, rval in *; cbn in * . fold px py in Q1, Q1'. lra. }
    assert (Hys : IZR (snd q) - 1 / 2 < py + hy /\ py - hy < IZR (snd q) + 1 / 2).
    { destruct (O (0, e)) as ([u v] & Q1 & Q2); [rewrite norm_yaxis, Rabs_right; lra|]. destruct (O (0, - e)) as ([u' v'] & Q1' & Q2'); [rewrite norm_yaxis, Rabs_left; lra|].
      unfold A, tile_square, shift, rect, tile_centre, rval in *; cbn in * . fold px py in Q1, Q1'. lra. }
    repeat split; apply int_le; lra.
  - intros [[A1 A2] [B1 B2]]. apply IZR_le in A1, A2, B1, B2.
    assert (G : forall c z h, 0 <= h -> - (h + 1 / 2) <= z - c <= h + 1 / 2 -> exists u, - h <= u - c <= h /\ - (1 / 2) <= u - z <= 1 / 2).
    { intros c z h Hh B. destruct (Rle_dec z (c - h)); [exists (c - h); lra|]. destruct (Rle_dec z (c + h)); [exists z; lra | exists (c + h); lra]. }
    destruct (G px (IZR (fst q)) hx X0 ltac:(lra)) as (u & U1 & U2). destruct (G py (IZR (snd q)) hy Y0 ltac:(lra)) as (v & W1 & W2).
    exists (u, v). unfold A, tile_square, shift, rect, tile_centre, rval; cbn. fold px py. lra.
Qed.
Print Assumptions C65_quantize_half_tiles.
(** In general it is not exact: a tile the box enters by less than the rounding error can be left out. *)
Definition shallow_box : box2d b32 := Box2d (V2 (b32_of 8193 (-16)) (b32_of 1 (-1))).
Definition shallow_pos : vec2 b32 := V2 (b32_of 8005 (-3)) (b32_of 0 0).
Lemma shallow_vals : fin2 shallow_pos /\ fin2 (halfsize shallow_box) /\ val (vx shallow_pos) = 8005 / 8 /\ val (vy shallow_pos) = 0 /\
  val (vx (halfsize shallow_box)) = 8193 / 65536 /\ val (vy (halfsize shallow_box)) = 1 / 2.
Proof.
  unfold shallow_pos, shallow_box; cbn [vx vy halfsize].
  destruct (val_of 8193 (-16) ltac:(lia) ltac:(lia)) as [F1 V1]. destruct (val_of 1 (-1) ltac:(lia) ltac:(lia)) as [F2 V2].
  destruct (val_of 8005 (-3) ltac:(lia) ltac:(lia)) as [F3 V3]. destruct (val_of 0 0 ltac:(lia) ltac:(lia)) as [F4 V4]. rewrite V1, V2, V3, V4.
  split; [split; assumption|]. split; [split; assumption|]. cbn. lra.
Qed.
Lemma away_half : ZnearestA (2001 / 2) = 1001%Z.
Proof.
  unfold Znearest. rewrite (Zfloor_imp 1000) by (cbn; lra). rewrite Rcompare_Eq by lra. cbn. apply Zceil_imp. cbn. lra.
Qed.
Theorem C65_quantize_covers_refuted : exists b pos q, in_world b pos /\
  overlaps (shift (rval pos) (rect (val (vx (halfsize b))) (val (vy (halfsize b))))) (tile_square q) /\ ~ inside (quantize round_half_away b pos) q.
Proof.
  exists shallow_box, shallow_pos, (1000, 0)%Z. destruct shallow_vals as (Fp & Fh & V1 & V2 & V3 & V4). split; [|split].
  - unfold in_world. rewrite V1, V2, V3, V4. split; [exact Fp|]. split; [exact Fh|]. cbn. rewrite Rabs_R0, Rabs_right by lra. repeat split; lra.
  - rewrite V3, V4. exists (1 / 131072). split; [lra|]. intros w Hw. exists (1000 + 1 / 2 - 1 / 131072, 0).
    destruct (coord_le_norm w) as [N1 N2]. assert (M1 : Rabs (fst w) <= 1 / 131072) by lra. assert (M2 : Rabs (snd w) <= 1 / 131072) by lra. apply Rabs_le_iff in M1, M2.
    unfold shift, tile_square, shift, rect, rval, tile_centre, psub; cbn [fst snd]. rewrite V1, V2. lra.
  - intros [[A _] _]. revert A. unfold quantize, world_to_tile_pos; cbn [rmin rmax fst snd v2sub vx].
    assert (E : fsub (vx shallow_pos) (vx (halfsize shallow_box)) = b32_of 2001 (-1)) by (apply B2SF_inj; vm_compute; reflexivity). rewrite E.
    destruct (val_of 2001 (-1) ltac:(lia) ltac:(lia)) as [F V]. rewrite half_away; [|exact F | rewrite V; cbn; rewrite Rabs_right; lra].
    rewrite V. replace (2001 * bpow radix2 (-1)) with (2001 / 2) by (cbn; lra). rewrite away_half. lia.
Qed.
Print Assumptions C65_quantize_covers_refuted.

(** ** simple_resolve *)
Section Steps32.
Context {A : Type} {SD : SdfvCommonRel2d b32 A (box2d b32) (vec2 b32)}.
Lemma all_skip32 (col : A) pos ts : (forall t, In t ts -> resolve_step col pos t = Ok pos) -> resolve_all col pos ts = Ok pos.
Proof. induction ts as [|t ts IH]; intro H; cbn [resolve_all]; [reflexivity|]. rewrite (H t (or_introl eq_refl)). cbn. apply IH. intros. apply H. right. assumption. Qed.
Lemma skip_app32 (col : A) pos ts us : (forall t, In t ts -> resolve_step col pos t = Ok pos) -> resolve_all col pos (ts ++ us) = resolve_all col pos us.
Proof. induction ts as [|t ts IH]; intro H; cbn [app resolve_all]; [reflexivity|]. rewrite (H t (or_introl eq_refl)). cbn. apply IH. intros. apply H. right. assumption. Qed.
Lemma empty_step32 (col : A) pos q t : ~ (0 < t)%Z -> resolve_step col pos (q, t) = Ok pos.
Proof. intro N. unfold resolve_step. cbn [snd]. rewrite (proj2 (Z.ltb_ge 0 t)) by lia. reflexivity. Qed.
Lemma solid_step32 (col : A) pos q t : (0 < t)%Z -> resolve_step col pos (q, t) =
  bind (penetrates_rel (F:=b32) col (box_with_halfdims fhalf fhalf) (v2sub (tile_to_world_pos q) pos)) (fun e => match e with Some error => Ok (v2add pos error) | None => Ok pos end).
Proof. intro N. unfold resolve_step. cbn [snd fst]. rewrite (proj2 (Z.ltb_lt 0 t) N). reflexivity. Qed.
(** bodies that no solid tile of the rectangle reports are not moved *)
Lemma quiet_unmoved dec (m : tilemap) (col : A) r pos dx dy :
  (forall q, inside r q -> (0 < get_tile dec m q)%Z -> penetrates_rel (F:=b32) col (box_with_halfdims fhalf fhalf) (v2sub (tile_to_world_pos q) pos) = Ok None) ->
  resolve_all col pos (tiles_in_rect dec m r dx dy) = Ok pos.
Proof.
  intro Q. destruct (C45_visit_order b32 _ dec m r dx dy) as (l & -> & I & _). apply all_skip32. intros t It. apply in_map_iff in It. destruct It as (q & <- & Iq). apply I in Iq.
  destruct (Z_lt_dec 0 (get_tile dec m q)) as [P|P]; [|apply empty_step32, P]. rewrite solid_step32 by exact P. rewrite (Q q Iq P). reflexivity.
Qed.
End Steps32.
Lemma half_val : fin (fhalf : b32) /\ val (fhalf : b32) = 1 / 2.
Proof. split; [reflexivity|]. change (fhalf : b32) with (b32_of 1 (-1)). destruct (val_of 1 (-1) ltac:(lia) ltac:(lia)) as [_ V]. rewrite V. cbn. lra. Qed.
(** the tile of a rectangle entry, one axis: its world coordinate is exact and the offset has one rounding *)
Lemma tile_axis p h z : fin p -> fin h -> 0 <= val h -> Rabs (val p) + val h <= bpow radix2 23 -> Rabs (IZR z - val p) <= val h + 1 / 2 + slop p h ->
  let r := fsub (fofZ z) p in
  fin r /\ slop p h <= 1 / 2 /\ Rabs (val r - (IZR z - val p)) <= u32 * Rabs (IZR z - val p) /\ Rabs (val r) <= bpow radix2 24.
Proof.
  intros Fp Fh H B N r. assert (E : bpow radix2 23 = 8388608) by (cbn; lra). assert (E24 : bpow radix2 24 = 16777216) by (cbn; lra). rewrite E in B. pose proof u32_pos as U0.
  assert (S : slop p h <= 1 / 2). { unfold slop. pose proof u32_small. pose proof (Rmult_le_compat_r (Rabs (val p) + val h) u32 (1 / 16777216) ltac:(pose proof (Rabs_pos (val p)); lra) ltac:(lra)). lra. }
  assert (Z1 : Rabs (IZR z) <= 8388609). { replace (IZR z) with ((IZR z - val p) + val p) by ring. eapply Rle_trans; [apply Rabs_triang|]. lra. }
  assert (Z2 : (Z.abs z <= 2 ^ 24)%Z). { apply le_IZR. rewrite abs_IZR. change (IZR (2 ^ 24)) with 16777216. lra. }
  destruct (ofZ_ok z Z2) as [Fz Vz]. pose proof (Rabs_pos (val p)).
  destruct (offset_sub p (fofZ z) 24 Fp Fz ltac:(lia) ltac:(lia)) as (F & L & D); [rewrite Vz, E24; lra|]. rewrite Vz in D. repeat split; assumption.
Qed.
Definition margin (hx hy : R) : R := (1 + hx + hy) / 16384.
Lemma gap_axis h (d r : R) : 0 <= val h -> Rabs (r - d) <= u32 * Rabs d -> Rabs d <= val h + 1 + 1 / 2 -> val h + 1 / 2 + (1 + val h) / 16384 < Rabs d ->
  gap_by micro20 2 h fhalf 1 r.
Proof.
  intros H D U G. destruct half_val as [_ HV]. unfold gap_by, total. rewrite HV. replace (micro20 * (bpow radix2 (2 * 2) + Rabs r)) with ((16 + Rabs r) / 1048576) by (unfold micro20; cbn; lra).
  pose proof u32_small. pose proof (Rabs_pos d). assert (K : u32 * Rabs d <= 1 / 16777216 * Rabs d) by (apply Rmult_le_compat_r; lra).
  assert (L : Rabs d - 1 / 16777216 * Rabs d <= Rabs r <= Rabs d + 1 / 16777216 * Rabs d).
  { pose proof (Rabs_triang_inv d r) as T1. pose proof (Rabs_triang_inv r d) as T2. rewrite (Rabs_minus_sym d r) in T1. lra. }
  lra.
Qed.
Theorem C65_clear_box_unmoved : forall dec round, nearest32 round -> forall m b pos dir, in_world b pos ->
  let hx := val (vx (halfsize b)) in let hy := val (vy (halfsize b)) in let g := (1 + hx + hy) / 16384 in
  (forall q, (0 < get_tile dec m q)%Z -> ~ meets (shift (rval pos) (rect (hx + g) (hy + g))) (tile_square q)) ->
  simple_resolve_box (F:=b32) dec round m b pos dir = Ok pos.
Proof.
  intros dec round H m b pos dir W hx hy g C. unfold simple_resolve_box. apply quiet_unmoved. intros q I P.
  destruct (proj2 (C65_quantize round H b pos q W) I) as [RX RY]. destruct W as ([Px Py] & [Hx Hy] & X0 & Y0 & X1 & Y1).
  destruct (tile_axis _ _ (fst q) Px Hx X0 X1 RX) as (Kx & Sx & Dx & Lx). destruct (tile_axis _ _ (snd q) Py Hy Y0 Y1 RY) as (Ky & Sy & Dy & Ly).
  fold hx in RX, X0. fold hy in RY, Y0. assert (E : bpow radix2 23 = 8388608) by (cbn; lra). assert (E24 : bpow radix2 24 = 16777216) by (cbn; lra). assert (E27 : bpow radix2 27 = 134217728) by (cbn; lra).
  set (dx := IZR (fst q) - val (vx pos)) in * . set (dy := IZR (snd q) - val (vy pos)) in * .
  assert (G : hx + g + 1 / 2 < Rabs dx \/ hy + g + 1 / 2 < Rabs dy).
  { destruct (Rlt_le_dec (hx + g + 1 / 2) (Rabs dx)) as [L|L]; [left; exact L|]. destruct (Rlt_le_dec (hy + g + 1 / 2) (Rabs dy)) as [M|M]; [right; exact M|]. exfalso.
    apply (C q P). apply Rabs_le_iff in L, M.
    assert (K : forall c z h, 0 <= h -> - (h + 1 / 2) <= z - c <= h + 1 / 2 -> exists u, - h <= u - c <= h /\ - (1 / 2) <= u - z <= 1 / 2).
    { intros c z h Hh B. destruct (Rle_dec z (c - h)); [exists (c - h); lra|]. destruct (Rle_dec z (c + h)); [exists z; lra | exists (c + h); lra]. }
    assert (0 <= g) by (unfold g; lra). unfold dx in L. unfold dy in M.
    destruct (K (val (vx pos)) (IZR (fst q)) (hx + g) ltac:(lra) ltac:(lra)) as (u & U1 & U2). destruct (K (val (vy pos)) (IZR (snd q)) (hy + g) ltac:(lra) ltac:(lra)) as (v & W1 & W2).
    exists (u, v). unfold tile_square, shift, rect, tile_centre, rval; cbn. lra. }
  assert (G0 : (1 + hx) / 16384 <= g /\ (1 + hy) / 16384 <= g) by (unfold g; lra).
  destruct half_val as [HF HV]. set (rel := v2sub (tile_to_world_pos q) pos). pose proof u32_small as US.
  assert (TH : forall h d r, 0 <= val h -> Rabs (r - d) <= u32 * Rabs d -> Rabs d <= val h + 1 + 1 / 2 -> thick micro20 2 h fhalf 1 r).
  { intros h d r Hh D U. unfold thick, total. rewrite HV. replace (bpow radix2 (-(2)) + micro20 * Rabs r) with (1 / 4 + Rabs r / 1048576) by (unfold micro20; cbn; lra).
    pose proof (Rabs_pos d). assert (K : u32 * Rabs d <= 1 / 16777216 * Rabs d) by (apply Rmult_le_compat_r; lra). pose proof (Rabs_triang_inv r d). lra. }
  assert (US2 : forall h r, fin h -> 0 <= val h <= 8388608 -> Rabs r <= bpow radix2 24 -> usable h fhalf 1 r).
  { intros h r Fh Bh L. unfold usable, total. rewrite HV, E27. rewrite E24 in L. repeat split; try assumption; lra. }
  pose proof (Rabs_pos (val (vx pos))). pose proof (Rabs_pos (val (vy pos))). fold hx hy in X1, Y1.
  assert (G2 : gap_by micro20 2 (vx (halfsize b)) fhalf 1 (val (vx rel)) \/ gap_by micro20 2 (vy (halfsize b)) fhalf 1 (val (vy rel))).
  { destruct G as [G|G]; [left; apply (gap_axis _ dx) | right; apply (gap_axis _ dy)]; try assumption; try (fold hx); try (fold hy); lra. }
  pose proof (C56_boxes_miss (vec2 b32) _ b (box_with_halfdims fhalf fhalf) rel 1 2 (unrotated_vec2 rel) (conj Kx Ky)
    (US2 (vx (halfsize b)) (val (vx rel)) Hx ltac:(fold hx; lra) Lx) (US2 (vy (halfsize b)) (val (vy rel)) Hy ltac:(fold hy; lra) Ly) ltac:(lia)
    (TH (vx (halfsize b)) dx (val (vx rel)) X0 Dx ltac:(fold hx; lra)) (TH (vy (halfsize b)) dy (val (vy rel)) Y0 Dy ltac:(fold hy; lra)) G2) as [M _].
  exact (proj1 (proj2 M)).
Qed.
Print Assumptions C65_clear_box_unmoved.
Lemma norm_le_sum p : norm p <= Rabs (fst p) + Rabs (snd p).
Proof.
  replace p with (padd (fst p, 0) (0, snd p)) by (apply pt_eq; cbn; ring). eapply Rle_trans; [apply norm_triangle|]. rewrite norm_xaxis, norm_yaxis. cbn. rewrite Rplus_0_r, Rplus_0_l. lra.
Qed.
(** a ball whose distance from every solid tile is at least a 25th of its radius plus one *)
Theorem C65_clear_ball_unmoved : forall dec round, nearest32 round -> forall m (r : b32) pos dir, fin2 pos -> fin r -> 0 <= val r <= 1000 ->
  Rabs (val (vx pos)) <= 1000000 -> Rabs (val (vy pos)) <= 1000000 ->
  (forall q, (0 < get_tile dec m q)%Z -> apart_by ((val r + 1) / 25) (shift (rval pos) (disc (val r))) (tile_square q)) ->
  simple_resolve_ball (F:=b32) dec round m (Ball r) pos dir = Ok pos.
Proof.
  intros dec round H m r pos dir Fp Fr Hr BX BY C. unfold simple_resolve_ball. change (symmetric_bounding_box (Ball r)) with (Box2d (V2 r r)). apply quiet_unmoved. intros q I P.
  assert (E : bpow radix2 23 = 8388608) by (cbn; lra).
  assert (W : in_world (Box2d (V2 r r)) pos).
  { unfold in_world; cbn [halfsize vx vy]. rewrite E. split; [exact Fp|]. split; [split; exact Fr|]. repeat split; lra. }
  destruct (proj2 (C65_quantize round H _ pos q W) I) as [RX RY]. cbn [halfsize vx vy] in RX, RY.
  destruct Fp as [Px Py]. 
  destruct (tile_axis _ _ (fst q) Px Fr (proj1 Hr) ltac:(rewrite E; lra) RX) as (Kx & _ & Dx & Lx). destruct (tile_axis _ _ (snd q) Py Fr (proj1 Hr) ltac:(rewrite E; lra) RY) as (Ky & _ & Dy & Ly).
  assert (SX : slop (vx pos) r <= 6 / 100 /\ slop (vy pos) r <= 6 / 100).
  { unfold slop. pose proof u32_small. pose proof u32_pos. split; (eapply Rle_trans; [apply Rmult_le_compat; [lra | pose proof (Rabs_pos (val (vx pos))); pose proof (Rabs_pos (val (vy pos))); lra | eassumption|]|]; [apply Rle_trans with 1001000; [lra|apply Rle_refl] | lra]). }
  set (rel := v2sub (tile_to_world_pos q) pos). change (fsub (fofZ (fst q)) (vx pos)) with (vx rel) in * . change (fsub (fofZ (snd q)) (vy pos)) with (vy rel) in * . clearbody rel.
  set (dx := IZR (fst q) - val (vx pos)) in * . set (dy := IZR (snd q) - val (vy pos)) in * . pose proof u32_small as US. pose proof u32_pos as U0.
  assert (Ux : Rabs (val (vx rel) - dx) <= (val r + 1) / 10000). { eapply Rle_trans; [exact Dx|]. pose proof (Rmult_le_compat_r (Rabs dx) u32 _ (Rabs_pos _) US). lra. }
  assert (Uy : Rabs (val (vy rel) - dy) <= (val r + 1) / 10000). { eapply Rle_trans; [exact Dy|]. pose proof (Rmult_le_compat_r (Rabs dy) u32 _ (Rabs_pos _) US). lra. }
  assert (NR : norm (psub (rval rel) (dx, dy)) <= (val r + 1) / 5000).
  { eapply Rle_trans; [apply norm_le_sum|]. unfold psub, rval; cbn [fst snd]. lra. }
  assert (Nd : norm (dx, dy) <= 142 / 100 * (val r + 56 / 100)) by (apply norm_box; cbn [fst snd]; lra).
  assert (Nrel : norm (rval rel) <= 142 / 100 * (val r + 56 / 100) + (val r + 1) / 5000). { pose proof (norm_triangle_sub (rval rel) (dx, dy)). lra. }
  destruct half_val as [HF HV].
  assert (TP : forall y, image (place (rval rel) 1 0 1 1) (points_of (SBox (box_with_halfdims fhalf fhalf))) y -> exists y', rect (1 / 2) (1 / 2) y' /\ y = padd (rval rel) y').
  { intros y (y' & Y & ->). exists y'. split; [|apply pt_eq; cbn; ring]. unfold points_of in Y; cbn [halfsize box_with_halfdims vx vy] in Y. rewrite HV in Y. exact Y. }
  assert (NY : forall y', rect (1 / 2) (1 / 2) y' -> norm y' <= 71 / 100).
  { intros y' [Y1 Y2]. eapply Rle_trans; [apply (norm_box y' (1 / 2)); apply Rabs_le_iff; lra | lra]. }
  assert (GS : gap_scene (SBall (Ball r)) (SBox (box_with_halfdims fhalf fhalf)) (rval rel) 1 0 1 ((val r + 1) * 10 / 255) (145 / 100 * (val r + 56 / 100) + val r + 71 / 100 + (val r + 1) / 5000)).
  { unfold gap_scene. split; [split; [exact Fr | exact (proj1 Hr)]|]. split; [unfold sound32; cbn [halfsize box_with_halfdims vx vy]; split; [split; exact HF|]; rewrite HV; lra|]. split; [|split; [lra|]].
    - exists (2 * (val r + 1)), (71 / 100). split; [|split; [|repeat split; lra]].
      + intros x X. unfold points_of, disc in * . cbn [b_radius] in X. lra.
      + intros x X. unfold points_of in X; cbn [halfsize box_with_halfdims vx vy] in X. rewrite HV in X. apply NY, X.
    - split; [|split; [|lra]].
      + intros x y X Y. destruct (TP y Y) as (y' & Y' & ->). cbn [points_of b_radius] in X.
        specialize (C q P (padd x (rval pos)) (padd y' (tile_centre q))).
        assert (C1 : (val r + 1) / 25 <= norm (psub (padd x (rval pos)) (padd y' (tile_centre q)))).
        { apply C; unfold tile_square, shift.
          - replace (psub (padd x (rval pos)) (rval pos)) with x by (apply pt_eq; cbn; ring). exact X.
          - replace (psub (padd y' (tile_centre q)) (tile_centre q)) with y' by (apply pt_eq; cbn; ring). exact Y'. }
        replace (psub (padd x (rval pos)) (padd y' (tile_centre q))) with (padd (psub x (padd (rval rel) y')) (psub (rval rel) (dx, dy))) in C1.
        * pose proof (norm_triangle (psub x (padd (rval rel) y')) (psub (rval rel) (dx, dy))). lra.
        * apply pt_eq; unfold dx, dy; cbn; ring.
      + intros x y X Y. destruct (TP y Y) as (y' & Y' & ->). cbn [points_of b_radius] in X. unfold disc in X. pose proof (NY y' Y').
        assert (norm (psub x (padd (rval rel) y')) <= norm x + norm (padd (rval rel) y')).
        { replace (psub x (padd (rval rel) y')) with (padd x (pneg (padd (rval rel) y'))) by (apply pt_eq; cbn; ring). eapply Rle_trans; [apply norm_triangle|]. rewrite norm_neg. lra. }
        pose proof (norm_triangle (rval rel) y'). lra. }
  destruct (C63_translation _ _ rel _ _ (conj Kx Ky) GS) as [[_ N] _]. exact N.
Qed.
Print Assumptions C65_clear_ball_unmoved.

(** *** one overlapping tile *)
Lemma diff_moved A B p c w : same_set (minkowski_diff (shift w (shift p A)) (shift c B)) (minkowski_diff (shift w A) (shift (psub c p) B)).
Proof.
  intro d. split.
  - intros (a & b & Ha & Hb & ->). exists (psub a p), (psub b p). unfold shift in * . split; [|split].
    + replace (psub (psub a p) w) with (psub (psub a w) p) by (apply pt_eq; cbn; ring). exact Ha.
    + replace (psub (psub b p) (psub c p)) with (psub b c) by (apply pt_eq; cbn; ring). exact Hb.
    + apply pt_eq; cbn; ring.
  - intros (a & b & Ha & Hb & ->). exists (padd a p), (padd b p). unfold shift in * . split; [|split].
    + replace (psub (psub (padd a p) w) p) with (psub a w) by (apply pt_eq; cbn; ring). exact Ha.
    + replace (psub (padd b p) c) with (psub b (psub c p)) by (apply pt_eq; cbn; ring). exact Hb.
    + apply pt_eq; cbn; ring.
Qed.
Lemma overlaps_moved A B p c w : overlaps (shift w (shift p A)) (shift c B) <-> overlaps (shift w A) (shift (psub c p) B).
Proof. split; apply same_overlaps; [intro d; exact (iff_sym (diff_moved A B p c w d)) | intro d; exact (diff_moved A B p c w d)]. Qed.
Lemma resolves_moved A B p c w : resolves A (shift (psub c p) B) w -> resolves (shift p A) (shift c B) w.
Proof.
  intros [S M]. split.
  - intro O. apply S. apply overlaps_moved, O.
  - intros u Su. apply M. intro O. apply Su. apply overlaps_moved, O.
Qed.
Lemma steps_bound e N x : on_steps e N x -> fin x /\ Rabs (val x) <= IZR N * bpow radix2 e.
Proof.
  intros (F & m & B & V). split; [exact F|]. rewrite V, Rabs_mult, (Rabs_right (bpow radix2 e)) by (apply Rle_ge, bpow_ge_0). apply Rmult_le_compat_r; [apply bpow_ge_0 | apply int_abs, B].
Qed.
(** the offset of a tile from a position on the grid is exact *)
Lemma offset_steps e N p z : (-7 <= e <= -1)%Z -> on_steps e (2 ^ 22) p -> (0 <= N <= 32)%Z -> Rabs (IZR z - val p) <= IZR N * bpow radix2 e ->
  on_steps e N (fsub (fofZ z) p) /\ val (fsub (fofZ z) p) = IZR z - val p.
Proof.
  intros He Hp HN B. destruct (steps_bound _ _ _ Hp) as [Fp Bp]. destruct Hp as (_ & k & Bk & Vk).
  assert (E : 0 < bpow radix2 e <= 1 / 2). { split; [apply bpow_gt_0|]. replace (1 / 2) with (bpow radix2 (-1)) by (cbn; lra). apply bpow_le. lia. }
  assert (Z1 : Rabs (IZR z) <= 4194336).
  { replace (IZR z) with ((IZR z - val p) + val p) by ring. eapply Rle_trans; [apply Rabs_triang|].
    assert (IZR N * bpow radix2 e <= 32 * (1 / 2)) by (apply Rmult_le_compat; [apply IZR_le; lia | lra | apply IZR_le; lia | lra]).
    assert (IZR (2 ^ 22) * bpow radix2 e <= 4194304 * (1 / 2)) by (apply Rmult_le_compat; [apply IZR_le; lia | lra | apply IZR_le; lia | lra]). lra. }
  assert (Z2 : (Z.abs z <= 2 ^ 24)%Z). { apply le_IZR. rewrite abs_IZR. change (IZR (2 ^ 24)) with 16777216. lra. }
  destruct (ofZ_ok z Z2) as [Fz Vz].
  assert (D : IZR z - val p = IZR (z * 2 ^ (- e) - k) * bpow radix2 e).
  { rewrite minus_IZR, mult_IZR, Vk. change 2%Z with (radix_val radix2). rewrite IZR_Zpower by lia. rewrite Rmult_minus_distr_r, Rmult_assoc, <- bpow_plus. replace (- e + e)%Z with 0%Z by lia. cbn [bpow]. ring. }
  set (n := (z * 2 ^ (- e) - k)%Z) in * . assert (Bn : (Z.abs n <= N)%Z).
  { apply le_IZR. rewrite abs_IZR. rewrite D, Rabs_mult, (Rabs_right (bpow radix2 e)) in B by lra. apply Rmult_le_reg_r with (bpow radix2 e); [lra | exact B]. }
  assert (R1 : rnd (val (fofZ z : b32) - val p) = IZR n * bpow radix2 e) by (rewrite Vz, D; apply rnd_dyadic; lia).
  destruct (sub_ok (fofZ z) p Fz Fp) as [F V].
  { rewrite R1, <- D. eapply Rle_lt_trans; [exact B|]. apply Rle_lt_trans with (bpow radix2 4); [|apply bpow_big; lia].
    assert (IZR N * bpow radix2 e <= 32 * (1 / 2)) by (apply Rmult_le_compat; [apply IZR_le; lia | lra | apply IZR_le; lia | lra]). cbn; lra. }
  rewrite R1 in V. split; [split; [exact F|]; exists n; split; assumption | rewrite V, D; reflexivity].
Qed.
(** A box with its position and half sizes on a grid of 1/2, 1/4, ..., 1/128 of a tile that overlaps one solid tile of its rectangle is moved out of that tile by the
    shortest way, up to 2%, up to 1/65536 of a grid step and up to the rounding of the new position. *)
Theorem C65_single_tile_resolved : forall dec round, nearest32 round -> forall m (e N : Z) (b : box2d b32) pos dir q, (-7 <= e <= -1)%Z ->
  steps2 e N (halfsize b) -> 0 <= val (vx (halfsize b)) -> 0 <= val (vy (halfsize b)) -> steps2 e (2 ^ 22) pos -> (2 * N + 2 ^ (- e) <= 32)%Z ->
  let A := shift (rval pos) (rect (val (vx (halfsize b))) (val (vy (halfsize b)))) in
  (0 < get_tile dec m q)%Z -> overlaps A (tile_square q) ->
  (forall q', (0 < get_tile dec m q')%Z -> inside (quantize round b pos) q' -> q' = q) ->
  exists pos' w, simple_resolve_box (F:=b32) dec round m b pos dir = Ok pos' /\ fin2 pos' /\ resolves A (tile_square q) w /\
    Rabs (val (vx pos') - (val (vx pos) + fst w)) <= bpow radix2 (e - 16) + u32 * (Rabs (val (vx pos)) + 67) /\
    Rabs (val (vy pos') - (val (vy pos) + snd w)) <= bpow radix2 (e - 16) + u32 * (Rabs (val (vy pos)) + 67).
Proof.
  intros dec round H m e N b pos dir q He Hh X0 Y0 Hp HN A P O U.
  pose proof (bpow_gt_0 radix2 e) as E0.
  assert (E1 : bpow radix2 e <= 1 / 2). { replace (1 / 2) with (bpow radix2 (-1)) by (cbn; lra). apply bpow_le. lia. }
  assert (EE : IZR (2 ^ (- e)) * bpow radix2 e = 1). { change 2%Z with (radix_val radix2). rewrite IZR_Zpower by lia. rewrite <- bpow_plus. replace (- e + e)%Z with 0%Z by lia. reflexivity. }
  assert (T2 : exists t, (2 ^ (- e) = 2 * t)%Z /\ (1 <= t)%Z). { exists (2 ^ (- e - 1))%Z. split; [rewrite <- Z.pow_succ_r by lia; f_equal; lia | pose proof (Z.pow_pos_nonneg 2 (- e - 1) ltac:(lia) ltac:(lia)); lia]. }
  destruct T2 as (t & Ht & Ht1). rewrite Ht in EE, HN. rewrite mult_IZR in EE.
  destruct Hh as [Hx Hy]. destruct Hp as [Px Py]. destruct (steps_bound _ _ _ Hx) as [Fhx Bhx]. destruct (steps_bound _ _ _ Hy) as [Fhy Bhy]. destruct (steps_bound _ _ _ Px) as [Fpx Bpx]. destruct (steps_bound _ _ _ Py) as [Fpy Bpy].
  assert (N0 : (0 <= N)%Z) by (destruct Hx as (_ & k & Bk & _); lia).
  set (hx := val (vx (halfsize b))) in * . set (hy := val (vy (halfsize b))) in * . set (px := val (vx pos)) in * . set (py := val (vy pos)) in * .
  rewrite Rabs_right in Bhx, Bhy by lra.
  assert (NB : IZR N * bpow radix2 e <= 8). { assert (K : (N <= 16)%Z) by lia. apply IZR_le in K. pose proof (Rmult_le_compat_r _ _ _ (Rlt_le _ _ E0) K). lra. }
  assert (PB : IZR (2 ^ 22) * bpow radix2 e <= 2097152). { change (IZR (2 ^ 22)) with 4194304. lra. }
  assert (E23 : bpow radix2 23 = 8388608) by (cbn; lra).
  assert (Ox : Rabs (IZR (fst q) - px) < hx + 1 / 2 /\ Rabs (IZR (snd q) - py) < hy + 1 / 2).
  { apply overlap_axes in O. destruct O as (d & Hd & O). split; apply Rabs_def1.
    - destruct (O (- d, 0)) as ([u v] & Q1 & Q2); [rewrite norm_xaxis, Rabs_left; lra|]. unfold A, tile_square, shift, rect, tile_centre, rval, psub in *; cbn [fst snd] in * . fold px py in Q1. lra.
    - destruct (O (d, 0)) as ([u v] & Q1 & Q2); [rewrite norm_xaxis, Rabs_right; lra|]. unfold A, tile_square, shift, rect, tile_centre, rval, psub in *; cbn [fst snd] in * . fold px py in Q1. lra.
    - destruct (O (0, - d)) as ([u v] & Q1 & Q2); [rewrite norm_yaxis, Rabs_left; lra|]. unfold A, tile_square, shift, rect, tile_centre, rval, psub in *; cbn [fst snd] in * . fold px py in Q1. lra.
    - destruct (O (0, d)) as ([u v] & Q1 & Q2); [rewrite norm_yaxis, Rabs_right; lra|]. unfold A, tile_square, shift, rect, tile_centre, rval, psub in *; cbn [fst snd] in * . fold px py in Q1. lra. }
  destruct Ox as [Ox Oy]. assert (NT : IZR (N + t) * bpow radix2 e = IZR N * bpow radix2 e + 1 / 2) by (rewrite plus_IZR; lra).
  destruct (offset_steps e (N + t) _ (fst q) He Px ltac:(lia) ltac:(fold px; rewrite NT; lra)) as [Sx Vx]. destruct (offset_steps e (N + t) _ (snd q) He Py ltac:(lia) ltac:(fold py; rewrite NT; lra)) as [Sy Vy].
  assert (ST : forall h d, on_steps e N h -> on_steps e (N + t) d -> 0 <= val h -> Rabs (val d) < val h + 1 / 2 -> Rabs (val d) <= val h + 1 / 2 - bpow radix2 e).
  { intros h d (_ & k & _ & Vk) (_ & n & _ & Vn) H0 L. 
    assert (An : Rabs (val d) = IZR (Z.abs n) * bpow radix2 e) by (rewrite Vn, Rabs_mult, (Rabs_right (bpow radix2 e)), <- abs_IZR; [reflexivity | lra]). rewrite An in L |- * . rewrite Vk in L |- * .
    assert (K : (Z.abs n < k + t)%Z). { apply lt_IZR. rewrite plus_IZR. apply Rmult_lt_reg_r with (bpow radix2 e); [exact E0 | lra]. }
    assert (K2 : (Z.abs n <= k + t - 1)%Z) by lia. apply IZR_le in K2. rewrite minus_IZR, plus_IZR in K2. pose proof (Rmult_le_compat_r _ _ _ (Rlt_le _ _ E0) K2). lra. }
  pose proof (ST _ _ Hx Sx X0 ltac:(rewrite Vx; fold px hx; exact Ox)) as Mx. pose proof (ST _ _ Hy Sy Y0 ltac:(rewrite Vy; fold py hy; exact Oy)) as My. rewrite Vx in Mx. rewrite Vy in My. fold px hx in Mx. fold py hy in My.
  assert (E7 : 1 / 128 <= bpow radix2 e). { replace (1 / 128) with (bpow radix2 (-7)) by (cbn; lra). apply bpow_le. lia. }
  pose proof u32_small as US. pose proof u32_pos as U0.
  assert (SL : forall p h, fin p -> Rabs (val p) <= IZR (2 ^ 22) * bpow radix2 e -> 0 <= val h <= 8 -> slop p h < bpow radix2 e).
  { intros p h _ Bp Bh. unfold slop. change (IZR (2 ^ 22)) with 4194304 in Bp. pose proof (Rmult_le_compat_r (Rabs (val p) + val h) _ _ ltac:(pose proof (Rabs_pos (val p)); lra) US). lra. }
  pose proof (SL _ (vx (halfsize b)) Fpx Bpx ltac:(fold hx; lra)) as Lx. pose proof (SL _ (vy (halfsize b)) Fpy Bpy ltac:(fold hy; lra)) as Ly.
  assert (W : in_world b pos). { unfold in_world. rewrite E23. fold hx hy px py. split; [split; assumption|]. split; [split; assumption|]. repeat split; lra. }
  assert (Iq : inside (quantize round b pos) q) by (apply (proj1 (C65_quantize round H b pos q W)); fold hx hy px py; lra).
  destruct half_val as [HF HV]. set (rel := v2sub (tile_to_world_pos q) pos).
  assert (RR : rval rel = psub (tile_centre q) (rval pos)) by (apply pt_eq; [exact Vx | exact Vy]).
  assert (GT : grid_shape e t (SBox (Box2d (V2 fhalf fhalf))) (rect (1 / 2) (1 / 2)) 4).
  { replace (rect (1 / 2) (1 / 2)) with (rect (val (vx (V2 fhalf fhalf : vec2 b32))) (val (vy (V2 fhalf fhalf : vec2 b32)))) by (cbn [vx vy]; rewrite HV; reflexivity).
    assert (SH : on_steps e t (fhalf : b32)) by (split; [exact HF|]; exists t; split; [lia | rewrite HV; lra]).
    apply grid_box; [split; exact SH | |]; cbn [vx vy]; rewrite HV; lra. }
  assert (GA : grid_shape e N (SBox b) (rect hx hy) 4). { destruct b as [h]. cbn [halfsize] in * . apply grid_box; [split; assumption | exact X0 | exact Y0]. }
  assert (O' : overlaps (rect hx hy) (shift (rval rel) (rect (1 / 2) (1 / 2)))).
  { rewrite RR. apply overlaps_0. apply overlaps_moved. apply overlaps_0 in O. exact O. }
  destruct (C59_shapes_penetration e N t (N + t) (SBox b) (SBox (Box2d (V2 fhalf fhalf))) (rect hx hy) (rect (1 / 2) (1 / 2)) 4 4 rel ltac:(lia) GA GT (conj Sx Sy) ltac:(lia) ltac:(lia) O') as [[_ G] _].
  destruct G as [(v & w & E & (Fv & Wx & Wy) & Rs) _]. rewrite RR in Rs. apply resolves_moved in Rs.
  change (penetrates_rel (F:=b32) b (box_with_halfdims fhalf fhalf) rel = Ok (Some v)) in E.
  assert (NW : norm w <= 66).
  { destruct Rs as [_ M]. specialize (M (64, 0)). rewrite norm_xaxis, (Rabs_right 64) in M by lra. assert (norm w <= 102 / 100 * 64); [|lra]. apply M.
    intro O2. apply overlap_axes in O2. destruct O2 as (d & Hd & O2). destruct (O2 (0, 0)) as ([u y] & Q1 & Q2); [rewrite norm_xaxis, Rabs_R0; lra|].
    apply Rabs_def2 in Ox. unfold shift, rect, tile_centre, rval, psub in Q1, Q2; cbn [fst snd] in Q1, Q2. fold px py in Q1. lra. }
  destruct (coord_le_norm w) as [W1 W2].
  assert (E16 : 0 <= bpow radix2 (e - 16) <= 1). { split; [apply bpow_ge_0|]. change 1 with (bpow radix2 0). apply bpow_le. lia. }
  assert (F1 : forall p x z, fin p -> fin x -> Rabs (val p) <= 2097152 -> Rabs z <= 66 -> Rabs (val x - z) <= bpow radix2 (e - 16) ->
    fin (fadd p x) /\ Rabs (val (fadd p x) - (val p + z)) <= bpow radix2 (e - 16) + u32 * (Rabs (val p) + 67)).
  { intros p x z Fp Fx Bp Bz Dx. assert (Bx : Rabs (val x) <= 67). { replace (val x) with ((val x - z) + z) by ring. eapply Rle_trans; [apply Rabs_triang|]. lra. }
    pose proof (Rabs_triang (val p) (val x)) as T. assert (E22 : bpow radix2 22 = 4194304) by (cbn; lra).
    destruct (offset_add p x 22 Fp Fx ltac:(lia) ltac:(lia) ltac:(rewrite E22; lra)) as (F & _ & D). split; [exact F|].
    replace (val (fadd p x) - (val p + z)) with ((val (fadd p x) - (val p + val x)) + (val x - z)) by ring. eapply Rle_trans; [apply Rabs_triang|].
    pose proof (Rmult_le_compat_l u32 (Rabs (val p + val x)) (Rabs (val p) + 67) ltac:(lra) ltac:(lra)). lra. }
  destruct (F1 _ _ (fst w) Fpx (proj1 Fv) ltac:(fold px; lra) ltac:(lra) Wx) as [K1 D1]. destruct (F1 _ _ (snd w) Fpy (proj2 Fv) ltac:(fold py; lra) ltac:(lra) Wy) as [K2 D2].
  exists (v2add pos v), w. split; [|split; [split; assumption | split; [exact Rs | split; assumption]]].
  unfold simple_resolve_box. destruct (C45_visit_order b32 _ dec m (quantize round b pos) (vx dir) (vy dir)) as (l & -> & I & ND & _).
  apply I in Iq. destruct (in_split _ _ Iq) as (l1 & l2 & ->). rewrite map_app. cbn [map].
  assert (Sk : forall (ps : vec2 b32) q', In q' (l1 ++ l2) -> resolve_step b ps (q', get_tile dec m q') = Ok ps).
  { intros ps q' I'. apply empty_step32. intro P'. assert (q' = q).
    { apply U; [exact P'|]. apply I. apply in_or_app. apply in_app_or in I'. cbn. tauto. }
    subst q'. apply NoDup_remove_2 in ND. contradiction. }
  rewrite skip_app32.
  - cbn [resolve_all]. rewrite solid_step32 by exact P. fold rel. rewrite E. cbn [bind]. apply all_skip32.
    intros x It. apply in_map_iff in It. destruct It as (q' & <- & I'). apply Sk, in_or_app. right. exact I'.
  - intros x It. apply in_map_iff in It. destruct It as (q' & <- & I'). apply Sk, in_or_app. left. exact I'.
Qed.
Print Assumptions C65_single_tile_resolved.

(** ** Cases: one solid tile at the origin; a box of half size (1/4, 1/4) and a ball of radius 1 *)
Definition quarter_box : box2d b32 := Box2d (V2 (b32_of 1 (-2)) (b32_of 1 (-2))).
Definition at_eighths (x y : Z) : vec2 b32 := V2 (b32_of x (-3)) (b32_of y (-3)).
Lemma eighths_val x y : (Z.abs x <= 2 ^ 24)%Z -> (Z.abs y <= 2 ^ 24)%Z -> fin2 (at_eighths x y) /\ val (vx (at_eighths x y)) = IZR x / 8 /\ val (vy (at_eighths x y)) = IZR y / 8.
Proof.
  intros X Y. unfold at_eighths; cbn [vx vy]. destruct (val_of x (-3) X ltac:(lia)) as [F1 V1]. destruct (val_of y (-3) Y ltac:(lia)) as [F2 V2]. rewrite V1, V2.
  split; [split; assumption|]. cbn. lra.
Qed.
Lemma quarter_val : fin2 (halfsize quarter_box) /\ val (vx (halfsize quarter_box)) = 1 / 4 /\ val (vy (halfsize quarter_box)) = 1 / 4.
Proof.
  unfold quarter_box; cbn [halfsize vx vy]. destruct (val_of 1 (-2) ltac:(lia) ltac:(lia)) as [F V]. rewrite V. split; [split; assumption|]. cbn. lra.
Qed.
Lemma quarter_world x y : (Z.abs x <= 2 ^ 24)%Z -> (Z.abs y <= 2 ^ 24)%Z -> in_world quarter_box (at_eighths x y).
Proof.
  intros X Y. destruct (eighths_val x y X Y) as (F & V1 & V2). destruct quarter_val as (G & W1 & W2). unfold in_world. rewrite V1, V2, W1, W2.
  split; [exact F|]. split; [exact G|]. pose proof (int_abs _ _ X) as A. pose proof (int_abs _ _ Y) as B. change (IZR (2 ^ 24)) with 16777216 in A, B. assert (E : bpow radix2 23 = 8388608) by (cbn; lra). rewrite E.
  unfold Rdiv. rewrite !Rabs_mult, (Rabs_right (/ 8)) by lra. repeat split; lra.
Qed.
Example C65_case_quantize : in_world quarter_box (at_eighths 4 1) /\ inside (quantize round_half_away quarter_box (at_eighths 4 1)) (0, 0)%Z.
Proof.
  split; [apply quarter_world; lia|]. apply (proj1 (C65_quantize _ rounding32_met quarter_box (at_eighths 4 1) (0, 0)%Z (quarter_world 4 1 ltac:(lia) ltac:(lia)))).
  - unfold slop. destruct (eighths_val 4 1 ltac:(lia) ltac:(lia)) as (_ & V1 & V2). destruct quarter_val as (_ & W1 & W2). rewrite V1, W1. cbn [fst]. rewrite Rabs_left, Rabs_right by lra. pose proof u32_small. pose proof u32_pos. lra.
  - unfold slop. destruct (eighths_val 4 1 ltac:(lia) ltac:(lia)) as (_ & V1 & V2). destruct quarter_val as (_ & W1 & W2). rewrite V2, W2. cbn [snd]. rewrite Rabs_left, Rabs_right by lra. pose proof u32_small. pose proof u32_pos. lra.
Qed.
Example C65_case_clear : forall round dir, nearest32 round ->
  simple_resolve_box (F:=b32) euclid_decompose round one_tile quarter_box (at_eighths 7 1) dir = Ok (at_eighths 7 1) /\
  simple_resolve_ball (F:=b32) euclid_decompose round one_tile (Ball (b32_of 1 0)) (at_eighths 13 1) dir = Ok (at_eighths 13 1).
Proof.
  intros round d H. split.
  - apply (C65_clear_box_unmoved euclid_decompose round H one_tile quarter_box (at_eighths 7 1) d (quarter_world 7 1 ltac:(lia) ltac:(lia))).
    intros q P ([u v] & Q1 & Q2). apply one_tile_spec in P. subst q. destruct (eighths_val 7 1 ltac:(lia) ltac:(lia)) as (_ & V1 & V2). destruct quarter_val as (_ & W1 & W2).
    unfold tile_square, shift, rect, tile_centre, rval, psub in Q1, Q2; cbn [fst snd] in Q1, Q2. rewrite V1, V2, W1, W2 in Q1. lra.
  - destruct (eighths_val 13 1 ltac:(lia) ltac:(lia)) as (F & V1 & V2). destruct (val_of 1 0 ltac:(lia) ltac:(lia)) as [FR VR]. assert (VR1 : val (b32_of 1 0) = 1) by (rewrite VR; cbn; ring).
    apply (C65_clear_ball_unmoved euclid_decompose round H one_tile (b32_of 1 0) (at_eighths 13 1) d F FR); try (rewrite ?V1, ?V2, ?VR1; first [lra | rewrite Rabs_right; lra]).
    intros q P x y X Y. apply one_tile_spec in P. subst q. rewrite VR1 in * . unfold shift, disc in X. unfold tile_square, shift, rect, tile_centre in Y.
    assert (EX : fst (rval (at_eighths 13 1)) = 13 / 8) by exact V1.
    destruct (coord_le_norm (psub x (rval (at_eighths 13 1)))) as [C1 _]. destruct (coord_le_norm (psub x y)) as [C2 _].
    assert (C3 : Rabs (fst x - 13 / 8) <= 1). { replace (fst x - 13 / 8) with (fst (psub x (rval (at_eighths 13 1)))) by (unfold psub; cbn [fst]; rewrite EX; reflexivity). lra. }
    apply Rabs_le_iff in C3. destruct Y as [Y _]. unfold psub in Y; cbn [fst] in Y. pose proof (Rle_abs (fst (psub x y))) as C4. unfold psub in C4 at 1; cbn [fst] in C4. lra.
Qed.
Example C65_case_single : forall round dir, nearest32 round -> exists pos' w,
  simple_resolve_box (F:=b32) euclid_decompose round one_tile quarter_box (at_eighths 4 1) dir = Ok pos' /\ fin2 pos' /\
  resolves (shift (rval (at_eighths 4 1)) (rect (1 / 4) (1 / 4))) (tile_square (0, 0)%Z) w.
Proof.
  intros round d H. destruct (eighths_val 4 1 ltac:(lia) ltac:(lia)) as (F & V1 & V2). destruct quarter_val as (G & W1 & W2).
  assert (E3 : bpow radix2 (-3) = 1 / 8) by (cbn; lra).
  destruct (C65_single_tile_resolved euclid_decompose round H one_tile (-3) 2 quarter_box (at_eighths 4 1) d (0, 0)%Z) as (p & w & E1 & E2 & E4 & _).
  - lia.
  - split; (split; [apply G|]; exists 2%Z; split; [lia|]); rewrite ?W1, ?W2, E3; lra.
  - rewrite W1; lra.
  - rewrite W2; lra.
  - split; (split; [apply F|]); [exists 4%Z | exists 1%Z]; (split; [lia|]); rewrite ?V1, ?V2, E3; lra.
  - lia.
  - vm_compute. reflexivity.
  - rewrite W1, W2. apply tile_overlap; try lra. unfold rval; cbn [fst snd]. rewrite V1, V2. split; apply Rabs_def1; cbn [tile_centre fst snd]; lra.
  - intros q P _. apply one_tile_spec, P.
  - exists p, w. rewrite W1, W2 in E4. auto.
Qed.
Example C65_case_half_tiles : let b := Box2d (V2 fhalf fhalf) in let pos := at_eighths 4 8 in
  in_world b pos /\ half_tiles (vx pos) /\ half_tiles (vy pos) /\ half_tiles (vx (halfsize b)) /\ half_tiles (vy (halfsize b)) /\
  inside (quantize round_half_away b pos) (1, 1)%Z.
Proof.
  cbn zeta. destruct (eighths_val 4 8 ltac:(lia) ltac:(lia)) as (F & VX & VY). destruct half_val as [HF HV]. assert (E : bpow radix2 23 = 8388608) by (cbn; lra).
  assert (W : in_world (Box2d (V2 fhalf fhalf)) (at_eighths 4 8)).
  { unfold in_world; cbn [halfsize]. change (vx (V2 fhalf fhalf)) with (fhalf : b32). change (vy (V2 fhalf fhalf)) with (fhalf : b32). rewrite VX, VY, HV, E, !Rabs_right by lra. split; [exact F|]. split; [split; exact HF|]. repeat split; lra. }
  assert (G : half_tiles (vx (at_eighths 4 8)) /\ half_tiles (vy (at_eighths 4 8)) /\ half_tiles (fhalf : b32)).
  { split; [exists 1%Z; rewrite VX; lra|]. split; [exists 2%Z; rewrite VY; lra | exists 1%Z; rewrite HV; lra]. }
  destruct G as (G1 & G2 & G3). split; [exact W|]. split; [exact G1|]. split; [exact G2|]. split; [exact G3|]. split; [exact G3|].
  apply (proj1 (C65_quantize_half_tiles _ rounding32_met _ _ (1, 1)%Z W G1 G2 G3 G3)). cbn [halfsize]. change (vx (V2 fhalf fhalf)) with (fhalf : b32). change (vy (V2 fhalf fhalf)) with (fhalf : b32). rewrite HV.
  apply tile_overlap; try lra. unfold rval; cbn [fst snd]. rewrite VX, VY. split; apply Rabs_def1; lra.
Qed.
