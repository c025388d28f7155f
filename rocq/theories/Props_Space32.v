(** * C67: 3D boxes and balls against a point, in f32 *)
From Coq Require Import Reals ZArith Lra Lia Psatz Bool List.
From Flocq Require Import Core BinarySingleNaN.
From Verif Require Import Num NumXR NumB32 Glam Transform2 Shapes2 Gjk Detect2 Col3 Spec SpecLink P_Base P_Geo P_Geo3 P_3d P_B32 Props_F32 Props_F32Gjk Props_Lerp Props_F32Ball P_F32Box P_Drift Spec32 P_Closed32 Props_Closed32 Props_Approx Props_Sdf32 Spec32s P_Space32.
Local Open Scope R_scope.

(** Box3d v Point, for every placement type T, about the relative position c the placement yields: the flag is exactly right, penetrates reports the same vector
    as sdfv, and that vector is a true answer up to one rounding. Coordinates and half sizes up to 2^59. *)
Theorem C67_box_point : forall (T : Type) (TR : Transformation3d b32 T) (h : vec3 b32) (rel : T), half3_ok h -> small3 (apply_origin3 rel) 59 ->
  let c := rval3 (apply_origin3 rel) in
  (collides_rel3 (Box3d h) PointS rel = true <-> overlaps3 (solid_box h) (single3 c)) /\
  penetrates_rel3 (Box3d h) PointS rel = (if collides_rel3 (Box3d h) PointS rel then Some (sdfv_rel3 (Box3d h) PointS rel) else None) /\
  fin3 (sdfv_rel3 (Box3d h) PointS rel) /\
  exists w, true_answer3 (solid_box h) (single3 c) w /\ norm3 (sub3 (rval3 (sdfv_rel3 (Box3d h) PointS rel)) w) <= u32 * norm3 w.
Proof. intros T TR h rel H P c. apply box3_core; assumption. Qed.
Print Assumptions C67_box_point.
(** the flag needs no size restriction: it is exact for all finite f32 values *)
Theorem C67_box_flag : forall (T : Type) (TR : Transformation3d b32 T) (h : vec3 b32) (rel : T), fin3 h -> fin3 (apply_origin3 rel) ->
  (collides_rel3 (Box3d h) PointS rel = true <-> overlaps3 (solid_box h) (single3 (rval3 (apply_origin3 rel)))).
Proof.
  intros T TR h rel H P. rewrite (box3_collides h rel H P). unfold solid_box. rewrite box3_inside. change (x3 (rval3 (apply_origin3 rel))) with (val (wx (apply_origin3 rel))). change (y3 (rval3 (apply_origin3 rel))) with (val (wy (apply_origin3 rel))). change (z3 (rval3 (apply_origin3 rel))) with (val (wz (apply_origin3 rel))).
  destruct (Rltb_spec (Rabs (val (wx (apply_origin3 rel)))) (val (wx h))), (Rltb_spec (Rabs (val (wy (apply_origin3 rel)))) (val (wy h))), (Rltb_spec (Rabs (val (wz (apply_origin3 rel)))) (val (wz h))); cbn; intuition congruence.
Qed.
Print Assumptions C67_box_flag.
(** The scalar, wherever it is right in exact arithmetic (C48_box3_point_sdf_refuted: not above or below the box): negative exactly inside, and within
    6 * 2^-24 of the distance plus 2^-59. *)
Theorem C67_box_sdf : forall (T : Type) (TR : Transformation3d b32 T) (h : vec3 b32) (rel : T), half3_ok h -> small3 (apply_origin3 rel) 59 ->
  let c := rval3 (apply_origin3 rel) in
  ~ (Rabs (x3 c) < val (wx h) /\ Rabs (y3 c) < val (wy h) /\ val (wz h) <= Rabs (z3 c)) ->
  let x := sdf_rel3 (Box3d h) PointS rel in
  fin x /\ (val x < 0 <-> overlaps3 (solid_box h) (single3 c)) /\
  exists d, is_signed_distance3 d (solid_box h) (single3 c) /\ Rabs (val x - d) <= 6 * u32 * Rabs d + bpow radix2 (-59).
Proof. intros T TR h rel H P c N. apply box3_sdf_core; assumption. Qed.
Print Assumptions C67_box_sdf.

(** Ball v Point: the vector is within 2^-20 (depth or gap + twice the radius) of the true answer, the flag is right unless the depth or gap is no larger than
    that, and penetrates reports the same vector as sdfv when the point is at the centre or at least 2^-22 away from it *)
Theorem C67_ball_point : forall (T : Type) (TR : Transformation3d b32 T) (r : b32) (rel : T), radius3_ok r -> centre3_ok (apply_origin3 rel) ->
  let c := rval3 (apply_origin3 rel) in let v := sdfv_rel3 (Ball r) PointS rel in
  fin3 v /\
  (exists w, true_answer3 (ball3 (val r)) (single3 c) w /\ norm3 (sub3 (rval3 v) w) <= 16 * u32 * (norm3 w + 2 * val r) /\
     (16 * u32 * (norm3 w + 2 * val r) < norm3 w -> (collides_rel3 (Ball r) PointS rel = true <-> overlaps3 (ball3 (val r)) (single3 c)))) /\
  (norm3 c = 0 \/ bpow radix2 (-22) <= norm3 c ->
     match penetrates_rel3 (Ball r) PointS rel with
     | Some u => collides_rel3 (Ball r) PointS rel = true /\ fin3 u /\ rval3 u = rval3 v
     | None => collides_rel3 (Ball r) PointS rel = false
     end).
Proof.
  intros T TR r rel Hr Hp c v. destruct (ball3_vector r rel Hp Hr) as [V1 V2]. fold c in V2. destruct (ball3_true_ok (val r) c (proj2 (proj2 (proj1 Hr)))) as (A & N & _).
  split; [exact V1|]. split; [|exact (ball3_pen r rel Hp Hr)]. exists (ball3_true (val r) c). split; [exact A|]. split; [exact V2|]. rewrite N. exact (ball3_flag r rel Hp Hr).
Qed.
Print Assumptions C67_ball_point.
Theorem C67_ball_sdf : forall (T : Type) (TR : Transformation3d b32 T) (r : b32) (rel : T), radius_ok r -> small3 (apply_origin3 rel) 59 ->
  let x := sdf_rel3 (Ball r) PointS rel in
  fin x /\ exists d, is_signed_distance3 d (ball3 (val r)) (single3 (rval3 (apply_origin3 rel))) /\ Rabs (val x - d) <= 8 * u32 * (Rabs d + 2 * val r) + bpow radix2 (-57).
Proof.
  intros T TR r rel Hr Hp x. destruct (ball3_sdf r rel Hp Hr) as [F E]. split; [exact F|].
  destruct (ball3_true_ok (val r) (rval3 (apply_origin3 rel)) (proj2 (proj2 Hr))) as (_ & _ & D). eexists. split; [exact D | exact E].
Qed.
Print Assumptions C67_ball_sdf.

(** ** In the world: positions given by Vec3 or Translate3d *)
(** c is where b is, seen from a, up to one rounding per coordinate *)
Definition seen_near (a b : vec3 b32) (c : pt3) : Prop :=
  Rabs (x3 c - (val (wx b) - val (wx a))) <= u32 * Rabs (val (wx b) - val (wx a)) /\
  Rabs (y3 c - (val (wy b) - val (wy a))) <= u32 * Rabs (val (wy b) - val (wy a)) /\
  Rabs (z3 c - (val (wz b) - val (wz a))) <= u32 * Rabs (val (wz b) - val (wz a)).
Lemma delta_comp (x y : b32) : fin x -> fin y -> small (val x) 58 -> small (val y) 58 ->
  fin (fadd y (fneg x)) /\ val (fadd y (fneg x)) = rnd (val y - val x) /\ small (val (fadd y (fneg x))) 59 /\ Rabs (val (fadd y (fneg x)) - (val y - val x)) <= u32 * Rabs (val y - val x).
Proof.
  intros F G S S'. assert (Fn : fin (fneg x)) by (apply fin_neg, F).
  assert (Sm : small (rnd (val y + val (fneg x))) 59) by (apply rnd_small; [lia|]; apply (small_add _ _ 58); [exact S' | rewrite val_neg; apply small_opp, S]).
  destruct (add_ok y (fneg x) G Fn ltac:(eapply small_big; [|exact Sm]; lia)) as [A B]. split; [exact A|]. split; [rewrite B, val_neg; reflexivity|]. split; [rewrite B; exact Sm|].
  destruct (rnd_error_add y (fneg x)) as (e & He & Ee). rewrite B, Ee, val_neg. apply (fac_rel _ _ e He). ring.
Qed.
Lemma delta3_ok (a b : vec3 b32) : small3 a 58 -> small3 b 58 -> let d := v3add b (v3neg a) in small3 d 59 /\ seen_near a b (rval3 d) /\
  val (wx d) = rnd (val (wx b) - val (wx a)) /\ val (wy d) = rnd (val (wy b) - val (wy a)) /\ val (wz d) = rnd (val (wz b) - val (wz a)).
Proof.
  intros ((A1 & A2 & A3) & S1 & S2 & S3) ((B1 & B2 & B3) & R1 & R2 & R3) d.
  destruct (delta_comp _ _ A1 B1 S1 R1) as (X1 & X2 & X3 & X4). destruct (delta_comp _ _ A2 B2 S2 R2) as (Y1 & Y2 & Y3 & Y4). destruct (delta_comp _ _ A3 B3 S3 R3) as (Z1 & Z2 & Z3 & Z4).
  split; [repeat split; assumption|]. split; [repeat split; assumption|]. repeat split; assumption.
Qed.
Lemma val_rnd (x : b32) : rnd (val x) = val x. Proof. apply rnd_exact. Qed.
Lemma inside_rnd t (h : b32) : Rabs (rnd t) < val h -> Rabs t < val h.
Proof.
  intro H. apply Rnot_le_lt. intro K. apply (Rlt_not_le _ _ H). rewrite <- (val_rnd h).
  destruct (Rle_or_lt 0 t) as [P|P].
  - rewrite (Rabs_pos_eq t P) in K. eapply Rle_trans; [apply rnd_le, K | apply Rle_abs].
  - rewrite (Rabs_left t P) in K. rewrite <- Rabs_Ropp, <- rnd_opp. eapply Rle_trans; [apply rnd_le, K | apply Rle_abs].
Qed.
(** A reported collision of a box with a point is real: the point lies strictly inside the box, with no rounding allowance. And a point inside by more than one
    rounding of the difference of the positions is reported. *)
Theorem C67_box_world : forall (h : vec3 b32) (a b : vec3 b32), half3_ok h -> small3 a 58 -> small3 b 58 ->
  let true_c := sub3 (rval3 b) (rval3 a) in let k := 1 - u32 in
  collides3 (Box3d h) (Translate3d a) PointS (Translate3d b) = collides3 (Box3d h) a PointS b /\
  penetrates3 (Box3d h) (Translate3d a) PointS (Translate3d b) = penetrates3 (Box3d h) a PointS b /\
  (collides3 (Box3d h) a PointS b = true -> overlaps3 (solid_box h) (single3 true_c)) /\
  (overlaps3 (box3 (k * val (wx h)) (k * val (wy h)) (k * val (wz h))) (single3 true_c) -> collides3 (Box3d h) a PointS b = true) /\
  (exists c, seen_near a b c /\
     match penetrates3 (Box3d h) a PointS b with
     | Some v => collides3 (Box3d h) a PointS b = true /\ fin3 v /\ exists w, true_answer3 (solid_box h) (single3 c) w /\ norm3 (sub3 (rval3 v) w) <= u32 * norm3 w
     | None => collides3 (Box3d h) a PointS b = false
     end).
Proof.
  intros h a b H A B tc k. destruct (delta3_ok a b A B) as (S & N & Ex & Ey & Ez). set (d := v3add b (v3neg a)) in * .
  assert (O : apply_origin3 (delta_transform a b) = d) by reflexivity.
  split; [reflexivity|]. split; [reflexivity|]. pose proof (C67_box_point _ _ h (delta_transform a b) H ltac:(rewrite O; exact S)) as (I & P & F & W). rewrite O in I, W.
  assert (I' : collides3 (Box3d h) a PointS b = true <-> Rabs (val (wx d)) < val (wx h) /\ Rabs (val (wy d)) < val (wy h) /\ Rabs (val (wz d)) < val (wz h)).
  { unfold collides3. rewrite I. unfold solid_box. rewrite box3_inside. reflexivity. }
  split; [|split].
  - intro C. apply I' in C. destruct C as (C1 & C2 & C3). unfold solid_box. rewrite box3_inside. rewrite Ex in C1. rewrite Ey in C2. rewrite Ez in C3. repeat split; apply inside_rnd; assumption.
  - intro C. rewrite box3_inside in C. destruct C as (C1 & C2 & C3). apply I'. destruct N as (N1 & N2 & N3). pose proof u32_pos as Up. pose proof u32_small as Us.
    change (x3 tc) with (val (wx b) - val (wx a)) in C1. change (y3 tc) with (val (wy b) - val (wy a)) in C2. change (z3 tc) with (val (wz b) - val (wz a)) in C3.
    change (x3 (rval3 d)) with (val (wx d)) in N1. change (y3 (rval3 d)) with (val (wy d)) in N2. change (z3 (rval3 d)) with (val (wz d)) in N3.
    assert (K : forall t x hh, Rabs (x - t) <= u32 * Rabs t -> Rabs t < k * hh -> Rabs x < hh).
    { intros t x hh Q Z. assert (Rabs x <= Rabs t + Rabs (x - t)) by (replace x with (t + (x - t)) at 1 by ring; apply Rabs_triang). pose proof (Rabs_pos t). unfold k in Z. assert (0 < hh) by nra.
      assert ((1 + u32) * Rabs t < (1 + u32) * ((1 - u32) * hh)) by (apply Rmult_lt_compat_l; lra). assert ((1 + u32) * ((1 - u32) * hh) <= hh) by nra. lra. }
    repeat split; eapply K; eassumption.
  - exists (rval3 d). split; [exact N|]. unfold penetrates3. rewrite P. fold (collides3 (Box3d h) a PointS b). destruct (collides3 (Box3d h) a PointS b); [|reflexivity]. split; [reflexivity|]. split; [exact F | exact W].
Qed.
Print Assumptions C67_box_world.
Theorem C67_ball_world : forall (r : b32) (a b : vec3 b32), radius3_ok r -> small3 a 58 -> small3 b 58 ->
  exists c, seen_near a b c /\ (c = (0, 0, 0) \/ bpow radix2 (-22) <= norm3 c ->
  collides3 (Ball r) (Translate3d a) PointS (Translate3d b) = collides3 (Ball r) a PointS b /\
  exists w, true_answer3 (ball3 (val r)) (single3 c) w /\
  (16 * u32 * (norm3 w + 2 * val r) < norm3 w -> (collides3 (Ball r) a PointS b = true <-> overlaps3 (ball3 (val r)) (single3 c))) /\
  match penetrates3 (Ball r) a PointS b with
  | Some v => collides3 (Ball r) a PointS b = true /\ fin3 v /\ norm3 (sub3 (rval3 v) w) <= 16 * u32 * (norm3 w + 2 * val r)
  | None => collides3 (Ball r) a PointS b = false
  end).
Proof.
  intros r a b H A B. destruct (delta3_ok a b A B) as (S & N & _). set (d := v3add b (v3neg a)) in * . exists (rval3 d). split; [exact N|]. intro C. split; [reflexivity|].
  assert (O : apply_origin3 (delta_transform a b) = d) by reflexivity.
  assert (CO : centre3_ok (apply_origin3 (delta_transform a b))).
  { rewrite O. split; [exact S|]. destruct C as [C|C]; [left; exact C | right]. eapply Rle_trans; [|exact C]. apply bpow_le. lia. }
  pose proof (C67_ball_point _ _ r (delta_transform a b) H CO) as (F & (w & W1 & W2 & W3) & P). rewrite O in W1, W3, P. exists w. split; [exact W1|]. split; [exact W3|].
  assert (C' : norm3 (rval3 d) = 0 \/ bpow radix2 (-22) <= norm3 (rval3 d)) by (destruct C as [C|C]; [left; rewrite C, norm3_axis_x; apply Rabs_R0 | right; exact C]).
  specialize (P C'). unfold penetrates3, collides3. destruct (penetrates_rel3 (Ball r) PointS (delta_transform a b)) as [u|]; [|exact P]. destruct P as (P1 & P2 & P3). split; [exact P1|]. split; [exact P2|]. rewrite P3. exact W2.
Qed.
Print Assumptions C67_ball_world.

(** ** The hypotheses are met *)
Lemma case3_num m e : (Z.abs m <= 2 ^ 3)%Z -> (-1 <= e <= 0)%Z -> fin (b32_of m e) /\ val (b32_of m e) = IZR m * bpow radix2 e /\ small (val (b32_of m e)) 58.
Proof.
  intros M E. destruct (val_of m e ltac:(lia) ltac:(lia)) as [F V]. split; [exact F|]. split; [exact V|]. rewrite V. unfold small. rewrite Rabs_mult, (Rabs_pos_eq (bpow radix2 e)) by apply bpow_ge_0.
  replace 58%Z with (3 + 55)%Z by reflexivity. rewrite bpow_plus. apply Rmult_le_compat; [apply Rabs_pos | apply bpow_ge_0 | | apply bpow_le; lia]. rewrite <- abs_IZR. replace (bpow radix2 3) with (IZR (2 ^ 3)) by reflexivity. apply IZR_le. exact M.
Qed.
Definition case3_h : vec3 b32 := V3 (b32_of 3 0) (b32_of 5 0) (b32_of 1 (-1)).
Definition case3_a : vec3 b32 := V3 (b32_of 1 0) (b32_of (-3) 0) (b32_of 7 (-1)).
Definition case3_b : vec3 b32 := V3 (b32_of 3 0) (b32_of 1 0) (b32_of 7 (-1)).
Definition case3_far : vec3 b32 := V3 (b32_of 5 0) (b32_of 1 0) (b32_of 7 (-1)).
Lemma case3_small (a b c : Z) e1 e2 e3 : (Z.abs a <= 2 ^ 3)%Z -> (Z.abs b <= 2 ^ 3)%Z -> (Z.abs c <= 2 ^ 3)%Z -> (-1 <= e1 <= 0)%Z -> (-1 <= e2 <= 0)%Z -> (-1 <= e3 <= 0)%Z -> small3 (V3 (b32_of a e1) (b32_of b e2) (b32_of c e3)) 58.
Proof. intros A B C E1 E2 E3. destruct (case3_num a e1 A E1) as (F1 & _ & S1). destruct (case3_num b e2 B E2) as (F2 & _ & S2). destruct (case3_num c e3 C E3) as (F3 & _ & S3). repeat split; assumption. Qed.
Lemma case3_pos m e : (0 <= m <= 8)%Z -> (-1 <= e <= 0)%Z -> 0 <= val (b32_of m e).
Proof. intros M E. destruct (case3_num m e ltac:(lia) E) as (_ & -> & _). apply Rmult_le_pos; [apply IZR_le; lia | apply bpow_ge_0]. Qed.
Example C67_box_case : half3_ok case3_h /\ small3 case3_a 58 /\ small3 case3_b 58 /\
  collides3 (Box3d case3_h) case3_a PointS case3_b = true /\ collides3 (Box3d case3_h) case3_a PointS case3_far = false.
Proof.
  split. { split; [eapply small3_wide; [|apply case3_small; lia]; lia|]. split; [apply case3_pos; lia|]. split; apply case3_pos; lia. }
  split; [apply case3_small; lia|]. split; [apply case3_small; lia|]. split; vm_compute; reflexivity.
Qed.
Example C67_ball_case : radius3_ok (b32_of 5 0) /\ centre3_ok case3_b /\ bpow radix2 (-22) <= norm3 (rval3 case3_b) /\
  collides_rel3 (Ball (b32_of 5 0)) PointS case3_b = true /\ collides_rel3 (Ball (b32_of 1 0)) PointS case3_b = false.
Proof.
  assert (N : bpow radix2 (-22) <= norm3 (rval3 case3_b)).
  { destruct (coord_le_norm3 (rval3 case3_b)) as (X & _). eapply Rle_trans; [|exact X]. change (x3 (rval3 case3_b)) with (val (b32_of 3 0)). destruct (case3_num 3 0 ltac:(lia) ltac:(lia)) as (_ & -> & _). rewrite Rabs_pos_eq by (cbn; lra). cbn. lra. }
  split. { destruct (case3_num 5 0 ltac:(lia) ltac:(lia)) as (F & V & S). split; [split; [exact F|]; split; [eapply small_weak; [|exact S]; lia | apply case3_pos; lia]|]. right. rewrite V. apply Rle_trans with (bpow radix2 0); [apply bpow_le; lia | cbn; lra]. }
  split. { split; [eapply small3_wide; [|apply case3_small; lia]; lia|]. right. eapply Rle_trans; [|exact N]. apply bpow_le. lia. }
  split; [exact N|]. split; vm_compute; reflexivity.
Qed.
(** the region excluded by C67_box_sdf leaves points on every other side *)
Example C67_sdf_case : let c := rval3 case3_far in ~ (Rabs (x3 c) < val (wx case3_h) /\ Rabs (y3 c) < val (wy case3_h) /\ val (wz case3_h) <= Rabs (z3 c)).
Proof.
  cbv zeta. intros (X & _). change (x3 (rval3 case3_far)) with (val (b32_of 5 0)) in X. change (wx case3_h) with (b32_of 3 0) in X.
  destruct (case3_num 5 0 ltac:(lia) ltac:(lia)) as (_ & V & _). destruct (case3_num 3 0 ltac:(lia) ltac:(lia)) as (_ & W & _). rewrite V, W in X. rewrite Rabs_pos_eq in X by (cbn; lra). cbn in X. lra.
Qed.
