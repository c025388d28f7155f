(** * C49: Point v Ball and Point v Box in 3D, with the point as the first shape. *)
From Coq Require Import Reals Lra Psatz Bool.
From Verif Require Import Num NumXR Glam Transform2 Shapes2 Gjk Detect2 Col3 Spec SpecLink P_Base P_Transform P_Geo3 P_3d Props_3dTransform Props_3d Props_3dDefects Props_3dWorld.
Local Open Scope R_scope.

(** [t] moves points by a motion that keeps all distances *)
Definition rigid3 {T : Type} {TR : Transformation3d XR T} (t : T) : Prop := exists f : pt3 -> pt3,
  (forall p, apply3 t (inj3 p) = inj3 (f p)) /\ apply_origin3 t = inj3 (f (0, 0, 0)) /\ (forall p q, norm3 (sub3 (f p) (f q)) = norm3 (sub3 p q)) /\
  forall q, exists p, f p = q.
(** the points of the body [A] placed by [tb], as seen from the frame of [ta] *)
Definition seen_from {T : Type} {TR : Transformation3d XR T} (ta tb : T) (A : pset3) : pset3 :=
  fun p => exists b, A b /\ apply3 tb (inj3 b) = apply3 ta (inj3 p).

Lemma ball3_symmetric r : symmetric3 (ball3 r).
Proof. intros p H. unfold ball3 in * . rewrite norm3_neg. exact H. Qed.
Lemma box3_symmetric hx hy hz : symmetric3 (box3 hx hy hz).
Proof. intros p (X & Y & Z). unfold box3, neg3, x3, y3, z3 in * ; cbn [fst snd] in * . lra. Qed.
Lemma mirror_signed d A q : symmetric3 A -> is_signed_distance3 d A (single3 q) -> is_signed_distance3 d (single3 (0, 0, 0)) (shift3 q A).
Proof.
  intros S H.
  assert (O : overlaps3 (single3 (0, 0, 0)) (shift3 q A) <-> overlaps3 A (single3 q)).
  { rewrite (overlaps3_0 (single3 _)), (overlaps3_0 A). apply mirror_overlaps, S. }
  destruct H as [[OV (v & [M1 M2] & E)] | [NO (v & [M1 M2] & E)]].
  - left. split; [apply O, OV|]. exists v. split; [|exact E]. split.
    + unfold separates3. rewrite mirror_overlaps by exact S. exact M1.
    + intros w W. apply M2. unfold separates3 in W |- * . rewrite mirror_overlaps in W by exact S. exact W.
  - right. split; [rewrite O; exact NO|]. exists v. split; [|exact E]. split.
    + apply mirror_meets; assumption.
    + intros w W. apply M2. apply mirror_meets; assumption.
Qed.
Lemma meets3_ext_r A B B' : same_set3 B B' -> (meets3 A B <-> meets3 A B').
Proof. intro H. unfold meets3. split; intros [p [X Y]]; exists p; split; auto; apply H; exact Y. Qed.
Lemma overlaps3_ext_r A B B' : same_set3 B B' -> (overlaps3 A B <-> overlaps3 A B').
Proof. intro H. unfold overlaps3. split; intros [e [E W]]; exists e; (split; [exact E|]); intros w L; specialize (W w L); apply (meets3_ext_r _ _ _ H); exact W. Qed.
Lemma answers3_ext A B B' c p s : same_set3 B B' -> answers3 A B c p s -> answers3 A B' c p s.
Proof.
  intros E [[O (v & [M1 M2] & Q)] | [O (v & [M1 M2] & Q)]]; [left | right]; (split; [rewrite <- (overlaps3_ext_r _ _ _ E); exact O|]); exists v; (split; [|exact Q]).
  - split; [unfold separates3; rewrite <- (overlaps3_ext_r _ _ _ E); exact M1|]. intros w W. apply M2. unfold separates3 in * . rewrite (overlaps3_ext_r _ _ _ E). exact W.
  - split; [apply (meets3_ext_r _ _ _ E); exact M1|]. intros w W. apply M2. apply (meets3_ext_r _ _ _ E). exact W.
Qed.
Lemma signed3_ext A B B' d : same_set3 B B' -> is_signed_distance3 d A B -> is_signed_distance3 d A B'.
Proof.
  intros E [[O (v & [M1 M2] & Q)] | [O (v & [M1 M2] & Q)]]; [left | right]; (split; [rewrite <- (overlaps3_ext_r _ _ _ E); exact O|]); exists v; (split; [|exact Q]).
  - split; [unfold separates3; rewrite <- (overlaps3_ext_r _ _ _ E); exact M1|]. intros w W. apply M2. unfold separates3 in * . rewrite (overlaps3_ext_r _ _ _ E). exact W.
  - split; [apply (meets3_ext_r _ _ _ E); exact M1|]. intros w W. apply M2. apply (meets3_ext_r _ _ _ E). exact W.
Qed.

Lemma rigid_seen {T : Type} {TR : Transformation3d XR T} (ta tb : T) r q : rigid3 ta -> rigid3 tb -> seen_at ta tb q ->
  same_set3 (shift3 q (ball3 r)) (seen_from ta tb (ball3 r)).
Proof.
  intros (f & Af & Of & Nf & Sf) (g & Ag & Og & Ng & Sg) S p. unfold seen_at in S. rewrite Af, Og in S. apply inj3_inj in S.
  unfold shift3, ball3, seen_from. split.
  - intro H. destruct (Sg (f p)) as (b & B). exists b. split; [|rewrite Ag, Af, B; reflexivity].
    replace (norm3 b) with (norm3 (sub3 p q)); [exact H|]. rewrite <- Nf, S, <- B, Ng. f_equal. apply pt3_eq; unfold sub3, x3, y3, z3; cbn; ring.
  - intros (b & H & E). rewrite Ag, Af in E. apply inj3_inj in E.
    replace (norm3 (sub3 p q)) with (norm3 b); [exact H|]. rewrite <- (Nf p q), S, <- E, Ng. f_equal. apply pt3_eq; unfold sub3, x3, y3, z3; cbn; ring.
Qed.

(** Point v Ball (the point first): when both placements are rigid, the answers are right about the ball as seen from the point.
    [0 < |q| < f32::EPSILON] is left out for penetrates: C48_ball3_penetrates_tiny_refuted. *)
Definition point_v_ball_right {T : Type} {TR : Transformation3d XR T} {I : Invertible T} {C : Composable T} (r : R) (ta tb : T) : Prop :=
  exists q, seen_at ta tb q /\
  (norm3 q = 0 \/ / 2 ^ 23 <= norm3 q ->
    answers3 (single3 (0, 0, 0)) (seen_from ta tb (ball3 r)) (collides3 PointS ta (pball r) tb) (penetrates3 PointS ta (pball r) tb)
      (sdfv_rel3 PointS (pball r) (delta_transform ta tb))) /\
  (collides3 PointS ta (pball r) tb = true <-> overlaps3 (single3 (0, 0, 0)) (seen_from ta tb (ball3 r))) /\
  exists d, sdf_rel3 PointS (pball r) (delta_transform ta tb) = XFin d /\ is_signed_distance3 d (single3 (0, 0, 0)) (seen_from ta tb (ball3 r)).
Lemma point_ball_world {T : Type} {TR : Transformation3d XR T} {I : Invertible T} {C : Composable T} (ta tb : T) r : 0 <= r ->
  rigid3 ta -> rigid3 tb -> sees ta tb -> point_v_ball_right r ta tb.
Proof.
  intros R0 Ga Gb (q & E & S). exists q. split; [exact S|]. pose proof (rigid_seen ta tb r q Ga Gb S) as X.
  destruct (C48_ball3_point_exact r q R0 T TR _ E) as (A & P & d & D1 & D2 & _).
  pose proof (mirror_answers _ _ _ _ _ (ball3_symmetric r) A) as M.
  split; [|split].
  - intro N. apply (answers3_ext _ _ _ _ _ _ X). unfold collides3, penetrates3. unfold penetrates_rel3, Pen3_PointBall. rewrite (P N). exact M.
  - unfold collides3. rewrite <- (overlaps3_ext_r _ _ _ X). change (collides_rel3 PointS (pball r) (delta_transform ta tb)) with (collides_rel3 (pball r) PointS (delta_transform ta tb)).
    destruct M as [[O (v & _ & -> & _)] | [O (v & _ & -> & _)]]; split; intro H; try discriminate; try reflexivity; try assumption. contradiction.
  - exists d. split; [exact D1|]. apply (signed3_ext _ _ _ _ X), mirror_signed; [apply ball3_symmetric | exact D2].
Qed.
Lemma rigid_translation v : rigid3 (inj3 v) /\ rigid3 (Translate3d (inj3 v)).
Proof.
  assert (H : forall p q, norm3 (sub3 (add3 p v) (add3 q v)) = norm3 (sub3 p q)) by (intros; f_equal; apply pt3_eq; unfold sub3, add3, x3, y3, z3; cbn; ring).
  assert (K : forall q, exists p, add3 p v = q) by (intro q; exists (sub3 q v); apply pt3_eq; unfold sub3, add3, x3, y3, z3; cbn; ring).
  split; exists (fun p => add3 p v); (split; [intro p; apply vec3_ext; cbn; f_equal; v3; ring|]); (split; [apply vec3_ext; cbn; f_equal; v3; ring|]); split; assumption.
Qed.
Lemma rq_rigid x y z w v : unit_quat x y z w -> (forall p q, norm3 (sub3 (add3 (rq x y z w p) v) (add3 (rq x y z w q) v)) = norm3 (sub3 p q)) /\
  (forall q, exists p, add3 (rq x y z w p) v = q).
Proof.
  intro U. split.
  - intros p q. rewrite <- (rq_norm x y z w (sub3 p q) U). f_equal.
    replace (sub3 p q) with (add3 p (scale3 (-1) q)) by (apply pt3_eq; unfold sub3, add3, scale3, x3, y3, z3; cbn; ring).
    rewrite rq_add, rq_scale. apply pt3_eq; unfold sub3, add3, scale3, x3, y3, z3; cbn; ring.
  - intro q. exists (rq (- x) (- y) (- z) w (sub3 q v)).
    destruct (rq_inv x y z w (sub3 q v) U) as [_ K]. rewrite K.
    apply pt3_eq; unfold sub3, add3, x3, y3, z3; cbn; ring.
Qed.
Lemma rigid_iso v x y z w : unit_quat x y z w -> rigid3 (iso3 v (quat_of x y z w) 1).
Proof.
  intro U. destruct (rq_rigid x y z w v U) as [N S]. exists (fun p => add3 (rq x y z w p) v). split; [|split; [|split; assumption]].
  - intro p. cbn [apply3 Tr3_Isotropic3d iso_rot iso_scale iso_pos iso3]. rewrite v3smul_fin, qrot_fin, v3add_fin. f_equal. f_equal.
    replace (scale3 1 p) with p by (apply pt3_eq; w3; ring). reflexivity.
  - cbn [apply_origin3 Tr3_Isotropic3d iso_pos iso3]. f_equal. apply pt3_eq; v3; ring.
Qed.
Lemma rigid_t3 v x y z w : unit_quat x y z w -> rigid3 (t3 v (quat_of x y z w) (1, 1, 1)).
Proof.
  intro U. destruct (rq_rigid x y z w v U) as [N S]. exists (fun p => add3 (rq x y z w p) v). split; [|split; [|split; assumption]].
  - intro p. rewrite apply_t3. replace (mul3 (1, 1, 1) p) with p by (apply pt3_eq; w3; ring). reflexivity.
  - cbn [apply_origin3 Tr3_Transform3d t3_pos t3]. f_equal. apply pt3_eq; v3; ring.
Qed.
Theorem C49_point_v_ball_world : forall u v x y z w x' y' z' w' r, unit_quat x y z w -> unit_quat x' y' z' w' -> 0 <= r ->
  point_v_ball_right r (inj3 u) (inj3 v) /\
  point_v_ball_right r (Translate3d (inj3 u)) (Translate3d (inj3 v)) /\
  point_v_ball_right r (iso3 u (quat_of x y z w) 1) (iso3 v (quat_of x' y' z' w') 1) /\
  point_v_ball_right r (t3 u (quat_of x y z w) (1, 1, 1)) (t3 v (quat_of x' y' z' w') (1, 1, 1)) /\
  point_v_ball_right r (bevy_of_t3 (t3 u (quat_of x y z w) (1, 1, 1))) (bevy_of_t3 (t3 v (quat_of x' y' z' w') (1, 1, 1))).
Proof.
  intros u v x y z w x' y' z' w' r U U' R0. destruct (sees_translations u v) as [S1 S2].
  destruct (rigid_translation u) as [A1 A2], (rigid_translation v) as [B1 B2].
  pose proof (sees_isotropic u x y z w 1 v x' y' z' w' 1 U ltac:(lra)) as S3. pose proof (sees_transform3d u x y z w 1 v x' y' z' w' (1, 1, 1) U ltac:(lra)) as S4.
  pose proof (rigid_t3 u x y z w U) as A4. pose proof (rigid_t3 v x' y' z' w' U') as B4.
  split; [|split; [|split; [|split]]]; apply point_ball_world; try assumption; try (apply rigid_iso; assumption); try exact S4; try exact A4; exact B4.
Qed.
Print Assumptions C49_point_v_ball_world.
(** The scalar distance of Point v Box, for translations (the point within the footprint of the box but above or below it:
    C48_box3_point_sdf_refuted). *)
Theorem C49_point_v_translated_box_sdf : forall hx hy hz q, 0 <= hx -> 0 <= hy -> 0 <= hz ->
  ~ (Rabs (x3 q) < hx /\ Rabs (y3 q) < hy /\ hz <= Rabs (z3 q)) ->
  exists d, sdf_rel3 PointS (mbox3 hx hy hz) (inj3 q) = XFin d /\ sdf_rel3 PointS (mbox3 hx hy hz) (Translate3d (inj3 q)) = XFin d /\
    is_signed_distance3 d (single3 (0, 0, 0)) (shift3 q (box3 hx hy hz)).
Proof.
  intros hx hy hz q X Y Z N. destruct (C48_box3_point_sdf hx hy hz q X Y Z N _ Tr3_Vec3 (inj3 q) eq_refl) as (d & E & D & _).
  exists d. split; [exact E|]. split; [exact E|]. apply mirror_signed; [apply box3_symmetric | exact D].
Qed.
Print Assumptions C49_point_v_translated_box_sdf.
(** A scaled ball is taken at its unscaled size: a unit ball doubled in size and centred 3/2 from the point contains the point in its
    interior, but no query reports it. *)
Definition doubled : isotropic3d XR := iso3 (3/2, 0, 0) (quat_of 0 0 0 1) 2.
Theorem C49_point_v_scaled_ball_refuted :
  let here := iso3 (0, 0, 0) (quat_of 0 0 0 1) 1 in
  overlaps3 (single3 (0, 0, 0)) (seen_from here doubled (ball3 1)) /\
  collides3 PointS here (pball 1) doubled = false /\ penetrates3 PointS here (pball 1) doubled = None.
Proof.
  intro here. assert (U : unit_quat 0 0 0 1) by (unfold unit_quat; lra).
  assert (O : apply_origin3 (delta_transform here doubled) = inj3 (3/2, 0, 0)).
  { destruct (sees_isotropic (0, 0, 0) 0 0 0 1 1 (3/2, 0, 0) 0 0 0 1 2 U ltac:(lra)) as (q & E & Q). fold here doubled in E, Q. rewrite E. f_equal.
    unfold seen_at, here in Q. cbn [apply3 Tr3_Isotropic3d iso_rot iso_scale iso_pos iso3] in Q. rewrite v3smul_fin, qrot_fin, v3add_fin in Q. apply inj3_inj in Q.
    apply pt3_eq; [apply (f_equal x3) in Q | apply (f_equal y3) in Q | apply (f_equal z3) in Q]; revert Q; v3; intro Q; lra. }
  assert (NC : collides_rel3 (pball 1) PointS (delta_transform here doubled) = false).
  { unfold collides_rel3, Col3_BallPoint. rewrite O. unfold inj3, x3, y3, z3, v3lensq, v3dot; cbn. apply Rltb_false. lra. }
  split; [|split].
  - exists (1/2). split; [lra|]. intros e He. exists e. split; [unfold shift3, single3; apply pt3_eq; v3; ring|].
    exists (scale3 (1/2) (sub3 e (3/2, 0, 0))). split.
    + unfold ball3. rewrite norm3_scale, Rabs_pos_eq by lra.
      replace (sub3 e (3/2, 0, 0)) with (add3 e (neg3 (3/2, 0, 0))) by (apply pt3_eq; v3; ring).
      pose proof (norm3_triangle e (neg3 (3/2, 0, 0))) as Tr. rewrite norm3_neg, norm3_axis_x, Rabs_pos_eq in Tr by lra. lra.
    + unfold doubled, here. cbn [apply3 Tr3_Isotropic3d iso_rot iso_scale iso_pos iso3]. rewrite !v3smul_fin, !qrot_fin, !v3add_fin. f_equal. apply pt3_eq; v3; field.
  - exact NC.
  - unfold penetrates3, penetrates_rel3, Pen3_PointBall, penetrates_rel3, Pen3_BallPoint. rewrite NC. reflexivity.
Qed.
Print Assumptions C49_point_v_scaled_ball_refuted.
(** a case: a ball of radius 2 turned about z, centred 1 to the left of the point *)
Example C49_point_ball_case : unit_quat 0 0 (3/5) (4/5) /\ unit_quat 0 0 0 1 /\
  collides3 PointS (t3 (0, 0, 0) (quat_of 0 0 (3/5) (4/5)) (1, 1, 1)) (pball 2) (t3 (-1, 0, 0) (quat_of 0 0 0 1) (1, 1, 1)) = true.
Proof.
  split; [unfold unit_quat; lra|]. split; [unfold unit_quat; lra|].
  unfold collides3, collides_rel3, Col3_PointBall, collides_rel3, Col3_BallPoint. cbn. rewrite Reqb_false by lra. cbn. apply Rltb_true. lra.
Qed.
