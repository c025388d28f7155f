(** * C63: a clear gap is never reported as a collision by collides and penetrates in f32

    Shape2d values (balls, boxes, convex polygons), the second one turned, shifted and drawn k times as large, all numbers rounded to f32. *)
From Coq Require Import Reals ZArith Bool Lra Lia List Psatz.
From Flocq Require Import IEEE754.BinarySingleNaN Core Relative.
From Verif Require Import Num NumXR NumB32 Glam Transform2 Shapes2 Gjk Detect2 Spec SpecLink P_Base P_Transform P_Shapes P_Geo P_Gjk P_B32 Props_F32 Props_F32Gjk Props_F32Ball P_F32Box Props_F32Box P_Drift P_Deep P_Scene Props_Gjk Props_Deep Spec32 Props_Drift P_Closed32 Props_Closed32 P_Deep32 P_Deep32b P_Deep32c P_Deep32d P_Deep32e P_Deep32f P_Deep32g Props_Deep32 P_Gap32 P_Gap32b P_Gap32c.
Import ListNotations.
Local Open Scope R_scope.

(** The bodies.  [a] lies within [r] of its own origin, so does [b] drawn [k] times as large, and the origins are at most [r] apart; any two points
    of the two bodies are at least [g] and at most [D] apart; g is between 1/60 and 512, at least r/1024 and at least D/63. *)
Definition gap_scene (a b : shape2d b32) (pos : pt) (c s k g D : R) : Prop :=
  sound32 a /\ sound32 b /\
  (exists r rb, included (points_of a) (disc r) /\ included (points_of b) (disc rb) /\ k * rb <= r /\ norm pos <= r /\ r <= 1024 * g) /\
  1 / 60 <= g <= 512 /\
  apart_by g (points_of a) (image (place pos c s k k) (points_of b)) /\
  span D (points_of a) (image (place pos c s k k) (points_of b)) /\ D <= 63 * g.
(** what the two queries answer *)
Definition no_alarm {A B T : Type} {SD : SdfvCommonRel2d b32 A B T} (a : A) (b : B) (rel : T) : Prop :=
  collides_rel (F:=b32) a b rel = Ok false /\ penetrates_rel (F:=b32) a b rel = Ok None.
Definition no_alarm_world {A B T : Type} {SD : SdfvCommonRel2d b32 A B T} {TR : Transformation2d b32 T} {I : Invertible T} {C : Composable T}
  (a : collider2d A T) (b : collider2d B T) : Prop := collides (F:=b32) a b = Ok false /\ penetrates (F:=b32) a b = Ok None.

Section Rel.
Context {T : Type} {TR : Transformation2d b32 T}.
Lemma quiet_of (a b : shape2d b32) (t : T) : (forall P, gjk (lmd_extreme_point a b t) P false (lmd_initial_direction t) = Ok (false, v2nan)) -> no_alarm a b t.
Proof.
  intro H. assert (E : forall P, sdfv_common_rel (F:=b32) P false a b t = Ok (false, v2nan)) by exact H.
  unfold no_alarm, collides_rel, penetrates_rel. rewrite !E. split; reflexivity.
Qed.
Lemma rel_gap (a b : shape2d b32) (t : T) (pos : pt) (c s k g D : R) : gap_scene a b pos c s k g D ->
  1 / 16 <= k <= 16 -> 1 / 2 <= norm (c, s) -> norm (c, s) <= 3 / 2 -> (fin2 (apply_origin t) /\ norm (psub (rval (apply_origin t)) pos) <= 1) ->
  (forall rho, norm pos <= bpow radix2 20 -> 0 <= rho <= bpow radix2 25 -> follows t pos c s k rho (eta0 k rho pos) (5 * u32)) ->
  no_alarm a b t.
Proof.
  intros (Sa & Sb & (r & rb & Ia & Ib & Hkr & Hp & Hr) & [D1 D2] & Hgap & Hspan & D63) Hk N1 N2 [Fo No] Hf. pose proof (disc_radius a r Sa Ia) as P0. pose proof (disc_radius b rb Sb Ib) as Pb.
  assert (E9 : bpow radix2 9 = 512) by (cbn; lra). assert (E20 : bpow radix2 20 = 1048576) by (cbn; lra). assert (E22 : bpow radix2 22 = 4194304) by (cbn; lra). assert (E24 : bpow radix2 24 = 16777216) by (cbn; lra). assert (E11 : bpow radix2 11 = 2048) by (cbn; lra).
  destruct (rb_bound r rb k g Pb Hkr ltac:(lra) Hr ltac:(lra)) as [B1 B2]. specialize (Hf (rb + slack rb) ltac:(lra) B2).
  pose proof (budget r rb k pos g ltac:(lra) Pb Hkr Hk Hp ltac:(lra)) as HE. pose proof u32_pos as U0. pose proof u32_small as U1.
  assert (SD : dir_ok (lmd_initial_direction t)). { apply start_dir; [exact Fo|]. pose proof (norm_triangle_sub (rval (apply_origin t)) pos). lra. }
  assert (HE' : slack r + eta0 k (rb + slack rb) pos + k * (2 * slack rb) <= g / 200).
  { eapply Rle_trans; [|exact HE]. apply Rplus_le_compat_l, Rmult_le_compat_l; [lra|]. assert (0 <= 3 * (5 * u32) * (rb + slack rb)) by (apply Rmult_le_pos; lra). lra. }
  apply quiet_of. intro P. apply (pair_gap a b t pos c s k r rb (eta0 k (rb + slack rb) pos) (5 * u32) g D); try assumption; try lra.
Qed.
End Rel.

(** turned by a rotor of length between 1/2 and 3/2, and drawn between 1/16 and 16 times as large *)
Theorem C63_transform : forall (a b : shape2d b32) (v rot : vec2 b32) (k : b32) (g D : R),
  fin2 v -> fin2 rot -> 1 / 2 <= norm (rval rot) <= 3 / 2 -> fin k -> 1 / 16 <= val k <= 16 ->
  gap_scene a b (rval v) (val (vx rot)) (val (vy rot)) (val k) g D ->
  no_alarm a b (Transform2d v (Rotor rot) (V2 k k)).
Proof.
  intros a b v rot k g D Fv Fr [N1 N2] Fk Hk S. apply (rel_gap a b (Transform2d v (Rotor rot) (V2 k k)) (rval v) (val (vx rot)) (val (vy rot)) (val k) g D S Hk); [exact N1 | exact N2 | split; [exact Fv | apply self_near]|].
  intros rho Nv Hrho. apply full_follows; try assumption; [apply bp_20_22, Nv | lra].
Qed.
Print Assumptions C63_transform.
(** shifted and drawn k times as large, without turning *)
Theorem C63_axis : forall (a b : shape2d b32) (v : vec2 b32) (k : b32) (g D : R), fin2 v -> fin k -> 1 / 16 <= val k <= 16 ->
  gap_scene a b (rval v) 1 0 (val k) g D -> no_alarm a b (AxisTransform2d v k).
Proof.
  intros a b v k g D Fv Fk Hk S. apply (rel_gap a b (AxisTransform2d v k) (rval v) 1 0 (val k) g D S Hk); [rewrite norm_cs0; lra | rewrite norm_cs0; lra | split; [exact Fv | apply self_near]|].
  intros rho Nv Hrho. apply axis_follows; try assumption; [apply bp_20_22, Nv | lra].
Qed.
Print Assumptions C63_axis.
(** only shifted *)
Theorem C63_translation : forall (a b : shape2d b32) (v : vec2 b32) (g D : R), fin2 v ->
  gap_scene a b (rval v) 1 0 1 g D -> no_alarm a b v /\ no_alarm a b (Translate2d v).
Proof.
  intros a b v g D Fv S. split.
  - apply (rel_gap a b v (rval v) 1 0 1 g D S); [lra | rewrite norm_cs0; lra | rewrite norm_cs0; lra | split; [exact Fv | apply self_near]|]. intros rho Nv Hrho. apply vec_follows; try assumption; apply bp_20_22, Nv.
  - apply (rel_gap a b (Translate2d v) (rval v) 1 0 1 g D S); [lra | rewrite norm_cs0; lra | rewrite norm_cs0; lra | split; [exact Fv | apply self_near]|]. intros rho Nv Hrho. apply translate_follows; try assumption; apply bp_20_22, Nv.
Qed.
Print Assumptions C63_translation.

(** ** The verdict does not depend on whether the shapes are given directly or inside Shape2d *)
Lemma same_quiet {T X Y X' Y' : Type} {S1 : SdfvCommonRel2d b32 X Y T} {S2 : SdfvCommonRel2d b32 X' Y' T} (x : X) (y : Y) (x' : X') (y' : Y') (t : T) :
  (forall P D, sdfv_common_rel (F:=b32) P D x y t = sdfv_common_rel (F:=b32) P D x' y' t) -> no_alarm x' y' t -> no_alarm x y t.
Proof. intro E. unfold no_alarm, collides_rel, penetrates_rel. rewrite !E. exact (fun H => H). Qed.
Theorem C63_pairs : forall (T : Type) (TR : Transformation2d b32 T) (x y : box2d b32) (p q : poly2d b32) (r : ball b32) (t : T),
  (no_alarm (SBox x) (SBox y) t -> no_alarm x y t) /\ (no_alarm (SBox x) (SPoly p) t -> no_alarm x p t) /\
  (no_alarm (SPoly p) (SBox x) t -> no_alarm p x t) /\ (no_alarm (SPoly p) (SPoly q) t -> no_alarm p q t) /\
  (no_alarm (SBall r) (SBox x) t -> no_alarm r x t).
Proof.
  intros T TR x y p q r t. repeat apply conj; apply same_quiet; intros P D; destruct (C27_pairs_share_search b32 _ T TR P D x y p q r t) as (E1 & E2 & E3 & E4 & E5); [exact E1 | exact E2 | exact E3 | exact E4 | exact E5].
Qed.
Print Assumptions C63_pairs.

(** ** Colliders in the world *)
(** Two colliders whose transforms were built by composing and inverting translations and rotations.  [fa] and [fb] are the exact motions.  Both
    shapes lie within [r] of their own origins.  The gap is 200 times the rounding errors of the two transforms, their difference and the
    shapes' sizes. *)
Theorem C63_colliders : forall d ma mb fa ga fb (a b : shape2d b32) r g D, 0 <= d -> moves d ma fa -> moves d mb fb -> (forall p, fa (ga p) = p) ->
  let m := Then (Back ma) mb in let q := growth d ^ S (weight m) - 1 in
  q <= 1 / 2000 -> q * (reach m + 8 * r + 1) <= g / 200 ->
  sound32 a -> sound32 b -> included (points_of a) (disc r) -> included (points_of b) (disc r) -> 1 / 60 <= g <= 512 ->
  apart_by g (image fa (points_of a)) (image fb (points_of b)) -> span D (image fa (points_of a)) (image fb (points_of b)) -> D <= 63 * g ->
  no_alarm_world (Collider2d a (build ma)) (Collider2d b (build mb)).
Proof.
  intros d ma mb fa ga fb a b r g D Hd Ma Mb Inv m q Q1 HQ Sa Sb Ia Ib [D1 D2] Hgap Hspan D63.
  assert (M : moves d m (fun p => ga (fb p))) by (apply moves_then; [apply moves_back with (f := fa); assumption | exact Mb]).
  assert (SP : forall x, (1 <= steps x)%nat) by (intro x; destruct x; cbn [steps]; lia).
  assert (WL : (8 <= weight m)%nat). { unfold weight, m. cbn [nesting steps]. pose proof (SP ma). pose proof (SP mb). nia. }
  pose proof (q_low m d Hd WL) as QL. fold q in QL. pose proof (disc_radius a r Sa Ia) as P0. pose proof u32_pos as U0. pose proof u32_small as U1. pose proof (reach_bot m) as RB. pose proof bot_pos as PB.
  assert (X1 : 72 * u32 * (reach m + 8 * r + 1) <= 512 / 200) by (eapply Rle_trans; [apply Rmult_le_compat_r; [lra | exact QL] | lra]).
  assert (UE : u32 = 1 / 16777216) by (unfold u32; cbn; lra). rewrite UE in X1. assert (E20 : bpow radix2 20 = 1048576) by (cbn; lra). assert (E22 : bpow radix2 22 = 4194304) by (cbn; lra). assert (E24 : bpow radix2 24 = 16777216) by (cbn; lra). assert (E25 : bpow radix2 25 = 33554432) by (cbn; lra). assert (E11 : bpow radix2 11 = 2048) by (cbn; lra).
  assert (Rc : reach m <= bpow radix2 20) by lra. assert (Rr : r <= bpow radix2 20) by lra.
  assert (Wa : growth d ^ weight ma <= 2). { apply Rle_trans with (growth d ^ S (weight m)); [|unfold q in Q1; lra]. apply pow_mono; [apply growth_ge, Hd|]. unfold weight, m. cbn [nesting steps]. nia. }
  assert (Ra : reach ma <= bpow radix2 100). { apply Rle_trans with (bpow radix2 20); [|apply bpow_le; lia]. unfold m in Rc. cbn [reach] in Rc. pose proof (reach_bot mb). lra. }
  pose proof (isometry d ma fa Hd Ma Wa Ra) as IS.
  destruct (chain_follows d m _ Hd M Q1 ltac:(lra)) as (c & s & P & FP & N & Fo & Eo & NP & Hf). fold q in Eo, Hf. clearbody q.
  assert (SL : slack r <= 14 / 100 * (q * r) + bpow radix2 (-100)). { unfold slack. assert (0 <= u32 * r) by (apply Rmult_le_pos; lra). assert (72 * u32 * r <= q * r) by (apply Rmult_le_compat_r; lra). lra. }
  pose proof (slack_pos r P0) as PS. assert (B100 : bpow radix2 (-100) <= u32 / 100) by (unfold u32; apply Rle_trans with (bpow radix2 (-40)); [apply bpow_le; lia | cbn; lra]).
  assert (PQ : 0 < q) by lra. assert (QR : 0 <= q * r) by (apply Rmult_le_pos; lra). assert (QR1 : q * r <= r / 2000) by (apply Rle_trans with (1 / 2000 * r); [apply Rmult_le_compat_r; lra | lra]).
  assert (SR : r + slack r <= 101 / 100 * r + 1 / 100) by lra.
  specialize (Hf (r + slack r) ltac:(lra)).
  unfold no_alarm_world, collides, penetrates. cbn zeta. change (no_alarm (c_shape (Collider2d a (build ma))) (c_shape (Collider2d b (build mb))) (delta_transform (c_transform (Collider2d a (build ma))) (c_transform (Collider2d b (build mb))))).
  change (delta_transform (c_transform (Collider2d a (build ma))) (c_transform (Collider2d b (build mb)))) with (build m). cbn [c_shape].
  assert (SD : dir_ok (lmd_initial_direction (build m))). { apply start_dir; [exact Fo|]. change (apply_origin (build m)) with (t_pos (build m)). pose proof (norm_triangle_sub (rval (t_pos (build m))) P). assert (q * reach m <= 1 * reach m) by (apply Rmult_le_compat_r; lra). lra. }
  assert (IB : forall X, image (place P c s 1 1) (points_of b) X -> image fb (points_of b) (fa X)). { intros X (z & Hz & ->). exists z. split; [exact Hz|]. rewrite <- FP, Inv. reflexivity. }
  assert (Hg2 : apart_by g (points_of a) (image (place P c s 1 1) (points_of b))). { intros p X Hp HX. rewrite <- IS. apply Hgap; [exists p; auto | apply IB, HX]. }
  assert (Hs2 : span D (points_of a) (image (place P c s 1 1) (points_of b))). { intros p X Hp HX. rewrite <- IS. apply Hspan; [exists p; auto | apply IB, HX]. }
  assert (HE : slack r + q * (reach m + (r + slack r) + bpow radix2 (-100)) + 1 * (2 * slack r) <= g / 200).
  { eapply Rle_trans; [|exact HQ]. assert (QS : q * slack r <= q * (r / 100 + 1 / 1000)) by (apply Rmult_le_compat_l; lra). assert (QB : q * bpow radix2 (-100) <= q * (1 / 1000)) by (apply Rmult_le_compat_l; lra). lra. }
  apply quiet_of. intro PP. apply (pair_gap a b (build m) P c s 1 r r (q * (reach m + (r + slack r) + bpow radix2 (-100))) (2 * q) g D); try assumption; try lra.
Qed.
Print Assumptions C63_colliders.

(** ** Cases that meet the hypotheses *)
(** a 2 by 2 box, and a 4 by 2 box turned by Rotor2d::from_angle(PI / 2) whose centre is at (3, 0) *)
Definition near_box : shape2d b32 := SBox (Box2d (V2 (b32_of 1 0) (b32_of 1 0))).
Definition far_box : shape2d b32 := SBox (Box2d (V2 (b32_of 2 0) (b32_of 1 0))).
Definition quarter : vec2 b32 := V2 (b32_of (-12303662) (-48)) (b32_of 1 0).
Definition three : vec2 b32 := V2 (b32_of 3 0) (b32_of 0 0).
Definition unit32 : b32 := b32_of 1 0.
Example C63_case_turned : fin2 three /\ fin2 quarter /\ 1 / 2 <= norm (rval quarter) <= 3 / 2 /\ fin unit32 /\ 1 / 16 <= val unit32 <= 16 /\
  gap_scene near_box far_box (rval three) (val (vx quarter)) (val (vy quarter)) (val unit32) (99 / 100) 7.
Proof.
  destruct (case_int 1 ltac:(cbn [In]; tauto)) as [F1 V1]. destruct (case_int 0 ltac:(cbn [In]; tauto)) as [F0 V0]. destruct (case_int 2 ltac:(cbn [In]; tauto)) as [F2 V2']. destruct (val_of 3 0 ltac:(lia) ltac:(lia)) as [F3 V3]. cbn [bpow] in V3. rewrite Rmult_1_r in V3.
  destruct (val_of (-12303662) (-48) ltac:(lia) ltac:(lia)) as [Fc Vc].
  assert (Cc : - (1 / 1000000) <= val (b32_of (-12303662) (-48)) <= 0). { rewrite Vc. assert (E : bpow radix2 (-48) = / 281474976710656) by (cbn; lra). rewrite E. lra. }
  unfold three, quarter, unit32, near_box, far_box. set (c := val (b32_of (-12303662) (-48))) in * . unfold rval. cbn [vx vy]. fold c. clearbody c. rewrite V1, V0, V3.
  assert (NR : 1 / 2 <= norm (c, 1) <= 101 / 100). { unfold norm, pdot. cbn [fst snd]. assert (Q : (1/2) * (1/2) <= c * c + 1 * 1 <= 101 / 100 * (101 / 100)) by (split; nra). split; [rewrite <- (sqrt_square (1/2)) by lra | rewrite <- (sqrt_square (101/100)) by lra]; apply sqrt_le_1_alt; lra. }
  split; [split; assumption|]. split; [split; assumption|]. split; [lra|]. split; [exact F1|]. split; [lra|].
  assert (N3 : norm (3, 0) = 3) by (unfold norm, pdot; cbn [fst snd]; replace (3 * 3 + 0 * 0) with (3 * 3) by ring; apply sqrt_square; lra).
  assert (IA : included (rect 1 1) (disc (15 / 10))) by (apply rect_disc; lra). assert (IB : included (rect 2 1) (disc (225 / 100))) by (apply rect_disc; lra).
  unfold gap_scene. cbn [points_of sound32 halfsize vx vy]. rewrite V1, V2'.
  split; [split; [split; assumption | lra]|]. split; [split; [split; assumption | lra]|].
  split; [exists 3, (225 / 100); repeat split; [intros p Hp; specialize (IA p Hp); unfold disc in * ; lra | exact IB | lra | rewrite N3; lra | lra]|]. split; [lra|].
  split. { intros [x y] X Hp ([u w] & Hz & ->). destruct (coord_le_norm (psub (x, y) (place (3, 0) c 1 1 1 (u, w)))) as [Cx _]. eapply Rle_trans; [|exact Cx]. unfold rect in Hp, Hz. unfold psub, place. cbn [fst snd] in * .
    assert (c * u <= 2 / 1000000 /\ - (2 / 1000000) <= c * u) by (assert (0 <= (- c) * (2 - u)) by (apply Rmult_le_pos; lra); assert (0 <= (- c) * (u + 2)) by (apply Rmult_le_pos; lra); split; lra). rewrite Rabs_left1; lra. }
  split; [|lra]. intros p z Hp Hz. assert (SP : span (15 / 10 + 225 / 100 * (101 / 100) + norm (psub origin (3, 0))) (rect 1 1) (image (place (3, 0) c 1 1 1) (rect 2 1))).
  - apply span_discs; [intros u Hu; rewrite sub_origin; apply IA, Hu|]. intros u (w & Hw & ->). replace (psub (place (3, 0) c 1 1 1 w) (3, 0)) with (rotate c 1 w) by (apply pt_eq; unfold place, psub, rotate; cbn [fst snd]; ring).
    rewrite rotate_norm. pose proof (IB w Hw) as K. unfold disc in K. assert (norm (c, 1) * norm w <= 101 / 100 * (225 / 100)) by (apply Rmult_le_compat; try lra; apply norm_nonneg). lra.
  - eapply Rle_trans; [apply SP; assumption|]. replace (psub origin (3, 0)) with (pneg (3, 0)) by (apply pt_eq; cbn; ring). rewrite norm_neg, N3. lra.
Qed.
Example C63_turned_quiet : no_alarm near_box far_box (Transform2d three (Rotor quarter) (V2 unit32 unit32)).
Proof. destruct C63_case_turned as (H1 & H2 & H3 & H4 & H5 & H6). exact (C63_transform _ _ _ _ _ _ _ H1 H2 H3 H4 H5 H6). Qed.
(** distance_to is not as reliable: for these very boxes, 0.99 apart, it reports an overlap, and so does it for the boxes outside Shape2d *)
Theorem C63_distance_refuted : exists (a b : box2d b32) (v rot : vec2 b32) (k : b32) (g D : R),
  fin2 v /\ fin2 rot /\ 1 / 2 <= norm (rval rot) <= 3 / 2 /\ fin k /\ 1 / 16 <= val k <= 16 /\
  gap_scene (SBox a) (SBox b) (rval v) (val (vx rot)) (val (vy rot)) (val k) g D /\
  distance_to_rel (F:=b32) (SBox a) (SBox b) (Transform2d v (Rotor rot) (V2 k k)) = Ok None /\
  distance_to_rel (F:=b32) a b (Transform2d v (Rotor rot) (V2 k k)) = Ok None /\
  collides_rel (F:=b32) a b (Transform2d v (Rotor rot) (V2 k k)) = Ok false.
Proof.
  exists (Box2d (V2 (b32_of 1 0) (b32_of 1 0))), (Box2d (V2 (b32_of 2 0) (b32_of 1 0))), three, quarter, unit32, (99 / 100), 7.
  destruct C63_case_turned as (H1 & H2 & H3 & H4 & H5 & H6). do 6 (split; [assumption|]). split; [vm_compute; reflexivity|]. split; vm_compute; reflexivity.
Qed.
Print Assumptions C63_distance_refuted.
(** the colliders of C61's example with smaller shapes: a 2 by 2 box, and a ball of radius 1 whose centre belongs at (3, 4) in the box's frame *)
Example C63_case_colliders : exists fa ga fb, let m := Then (Back case_self) case_other in let q := growth (/ 2 ^ 22) ^ S (weight m) - 1 in
  moves (/ 2 ^ 22) case_self fa /\ moves (/ 2 ^ 22) case_other fb /\ (forall p, fa (ga p) = p) /\ q <= 1 / 2000 /\ q * (reach m + 8 * (3 / 2) + 1) <= 5 / 2 / 200 /\
  sound32 near_box /\ sound32 case_ball /\ included (points_of near_box) (disc (3 / 2)) /\ included (points_of case_ball) (disc (3 / 2)) /\
  apart_by (5 / 2) (image fa (points_of near_box)) (image fb (points_of case_ball)) /\ span 8 (image fa (points_of near_box)) (image fb (points_of case_ball)).
Proof.
  destruct C61_case_colliders as (fa & ga & fb & Ma & Mb & Inv & W & Rc & E0 & _). exists fa, ga, fb. intros m q. fold m in W, Rc.
  destruct (case_int 1 ltac:(cbn [In]; tauto)) as [F1 V1].
  assert (H22 : 0 <= / 2 ^ 22 <= / 2 ^ 22) by (split; [apply Rlt_le, Rinv_0_lt_compat; cbn; lra | lra]).
  assert (W16 : (S (weight m) <= 2 ^ 5)%nat) by (vm_compute; lia). assert (W17 : (2 ^ 5 <= 2 ^ 17)%nat) by (apply Nat.pow_le_mono_r; lia).
  destruct (growth_linear (/ 2 ^ 22) (S (weight m)) H22 ltac:(etransitivity; [exact W16|]; etransitivity; [exact W17|]; apply Nat.le_add_r)) as [L _]. fold q in L.
  assert (Wm : INR (S (weight m)) <= 32) by (apply le_INR in W16; rewrite pow_INR in W16; cbn [INR] in W16; eapply Rle_trans; [exact W16 | right; ring]).
  assert (Q : q <= 32 / 2 ^ 20) by (eapply Rle_trans; [exact L|]; apply Rmult_le_compat_r; [apply Rlt_le, Rinv_0_lt_compat; cbn; lra | exact Wm]).
  assert (Q' : q <= 1 / 32768) by (eapply Rle_trans; [exact Q | cbn; lra]). assert (Q0 : 0 <= q) by (pose proof (growth_ge (/ 2 ^ 22) (proj1 H22)) as (_ & _ & G); pose proof (pow_R1_Rle _ (S (weight m)) G); unfold q; lra).
  destruct (val_of 3 0 ltac:(lia) ltac:(lia)) as [F3 V3]. destruct (val_of 4 0 ltac:(lia) ltac:(lia)) as [F4 V4]. cbn [bpow] in V3, V4.
  assert (N5 : norm (rval (t_pos case_t)) = 5). { unfold norm, pdot, rval. cbn [fst snd case_t t_pos vx vy]. rewrite V3, V4. replace (3 * 1 * (3 * 1) + 4 * 1 * (4 * 1)) with (5 * 5) by ring. apply sqrt_square. lra. }
  assert (Rm : 0 <= reach m <= 16). { split; [apply Rle_trans with (bpow radix2 (-100)); [apply bpow_ge_0 | apply reach_bot]|]. assert (bpow radix2 (-100) <= bpow radix2 (-4)) by (apply bpow_le; lia). assert (bpow radix2 (-4) = / 16) by (cbn; lra). cbn [reach m case_self case_other]. rewrite N5. lra. }
  assert (Rab : bpow radix2 58 <= bpow radix2 100) by (apply bpow_le; lia).
  assert (Ra : reach case_self <= bpow radix2 100) by (unfold m in Rc; cbn [reach] in Rc; pose proof (reach_bot case_other); pose proof bot_pos; lra).
  assert (Rb : reach case_other <= bpow radix2 100) by (unfold m in Rc; cbn [reach] in Rc; pose proof (reach_bot case_self); pose proof bot_pos; unfold case_self in * ; cbn [reach] in * ; lra).
  assert (G1 : 1 <= growth (/ 2 ^ 22)) by (apply growth_ge; lra).
  assert (Wa : growth (/ 2 ^ 22) ^ weight case_self <= 2) by (eapply Rle_trans; [apply (pow_mono _ _ (weight m) G1); vm_compute; lia | exact W]).
  assert (Wb : growth (/ 2 ^ 22) ^ weight case_other <= 2) by (eapply Rle_trans; [apply (pow_mono _ _ (weight m) G1); vm_compute; lia | exact W]).
  pose proof (isometry _ _ _ (proj1 H22) Ma Wa Ra) as Ia. pose proof (isometry _ _ _ (proj1 H22) Mb Wb Rb) as Ib.
  assert (N34 : norm (3, 4) = 5) by (unfold norm, pdot; cbn [fst snd]; replace (3 * 3 + 4 * 4) with (5 * 5) by ring; apply sqrt_square; lra).
  assert (IA : included (rect 1 1) (disc (3 / 2))) by (apply rect_disc; lra).
  unfold near_box, case_ball. cbn [sound32 points_of halfsize b_radius vx vy]. rewrite V1.
  split; [exact Ma|]. split; [exact Mb|]. split; [exact Inv|]. split; [lra|]. split; [apply Rle_trans with (1 / 32768 * (16 + 8 * (3 / 2) + 1)); [apply Rmult_le_compat; lra | lra]|].
  split; [split; [split; assumption | lra]|]. split; [split; [exact F1 | lra]|]. split; [exact IA|]. split; [intros p Hp; unfold disc in * ; lra|].
  assert (EX : fb origin = fa (3, 4)) by (rewrite <- E0, Inv; reflexivity).
  assert (DA : forall u, rect 1 1 u -> norm (psub (fa u) (fa origin)) <= 3 / 2) by (intros u Hu; rewrite Ia, sub_origin; exact (IA u Hu)).
  assert (DB : forall u, disc 1 u -> norm (psub (fb u) (fb origin)) <= 1) by (intros u Hu; rewrite Ib, sub_origin; exact Hu).
  assert (DC : norm (psub (fa origin) (fb origin)) = 5) by (rewrite EX, Ia; replace (psub origin (3, 4)) with (pneg (3, 4)) by (apply pt_eq; cbn; ring); rewrite norm_neg; exact N34).
  split; intros p z (u & Hu & ->) (w & Hw & ->); specialize (DA u Hu); specialize (DB w Hw).
  - replace (psub (fa origin) (fb origin)) with (padd (pneg (psub (fa u) (fa origin))) (padd (psub (fa u) (fb w)) (psub (fb w) (fb origin)))) in DC by (apply pt_eq; cbn; ring).
    pose proof (norm_triangle (pneg (psub (fa u) (fa origin))) (padd (psub (fa u) (fb w)) (psub (fb w) (fb origin)))) as T1. pose proof (norm_triangle (psub (fa u) (fb w)) (psub (fb w) (fb origin))) as T2. rewrite norm_neg in T1. lra.
  - replace (psub (fa u) (fb w)) with (padd (psub (fa u) (fa origin)) (padd (psub (fa origin) (fb origin)) (pneg (psub (fb w) (fb origin))))) by (apply pt_eq; cbn; ring).
    pose proof (norm_triangle (psub (fa u) (fa origin)) (padd (psub (fa origin) (fb origin)) (pneg (psub (fb w) (fb origin))))) as T1. pose proof (norm_triangle (psub (fa origin) (fb origin)) (pneg (psub (fb w) (fb origin)))) as T2. rewrite norm_neg in T2. lra.
Qed.
