(** * C48: the 3D queries in the world, for every placement; the conversions between bevy's Transform and Transform3d; constructors. *)
From Coq Require Import Reals Lra Psatz Bool.
From Verif Require Import Num NumXR Glam Transform2 Shapes2 Gjk Detect2 Col3 Spec SpecLink P_Base P_Transform P_Geo3 P_3d Props_3dTransform Props_3d.
Local Open Scope R_scope.

(** [q] is where b's origin is, in the frame of a *)
Definition seen_at {T : Type} {TR : Transformation3d XR T} (ta tb : T) (q : pt3) : Prop := apply3 ta (inj3 q) = apply_origin3 tb.
(** collides, penetrates and the underlying signed distance vector of a v b are right about the shape A of a and the single point q *)
Definition world_right {A T : Type} {TR : Transformation3d XR T} {I : Invertible T} {C : Composable T}
  {CR : CollidesRel3d XR A point_shape} {PR : PenetratesRel3d XR A point_shape} {VR : SdfvRel3d XR A point_shape}
  (a : A) (shape : pset3) (ta tb : T) : Prop :=
  exists q, seen_at ta tb q /\
  answers3 shape (single3 q) (collides3 a ta PointS tb) (penetrates3 a ta PointS tb) (sdfv_rel3 a PointS (delta_transform ta tb)).
(** placements under which points can be seen from a *)
Definition sees {T : Type} {TR : Transformation3d XR T} {I : Invertible T} {C : Composable T} (ta tb : T) : Prop :=
  exists q, apply_origin3 (delta_transform ta tb) = inj3 q /\ seen_at ta tb q.

Lemma sees_translations u v : sees (inj3 u) (inj3 v) /\ sees (Translate3d (inj3 u)) (Translate3d (inj3 v)).
Proof. split; exists (sub3 v u); unfold seen_at; split; apply vec3_ext; cbn; f_equal; v3; ring. Qed.
Lemma sees_by_inverse {T : Type} {TR : Transformation3d XR T} {I : Invertible T} {C : Composable T} (ta tb : T) (q : pt3) :
  apply_origin3 (delta_transform ta tb) = apply3 (inverse ta) (apply_origin3 tb) -> apply3 ta (inj3 q) = apply_origin3 tb ->
  apply3 (inverse ta) (apply3 ta (inj3 q)) = inj3 q -> sees ta tb.
Proof. intros E S V. exists q. split; [|exact S]. rewrite E, <- S. exact V. Qed.
Lemma sees_isotropic v x y z w k v' x' y' z' w' k' : unit_quat x y z w -> k <> 0 ->
  sees (iso3 v (quat_of x y z w) k) (iso3 v' (quat_of x' y' z' w') k').
Proof.
  intros U K. set (a := iso3 v (quat_of x y z w) k). set (b := iso3 v' (quat_of x' y' z' w') k').
  assert (UN : unapply3 a (inj3 v') = inj3 (scale3 (1 / k) (rq (- x) (- y) (- z) w (sub3 v' v)))).
  { unfold a. cbn [unapply3 Tr3_Isotropic3d iso_rot iso_scale iso_pos iso3]. rewrite qinv_fin, v3sub_fin, qrot_fin, v3divs_fin by exact K. reflexivity. }
  pose proof (C47_isotropic v x y z w k v' x' y' z' w' k' U K v') as H. cbv zeta in H. destruct H as (_ & _ & _ & AU & _). fold a in AU. rewrite UN in AU.
  eapply (sees_by_inverse a b); [reflexivity | exact AU|].
  destruct (C47_isotropic v x y z w k v' x' y' z' w' k' U K (scale3 (1 / k) (rq (- x) (- y) (- z) w (sub3 v' v)))) as (_ & _ & _ & _ & V & _). exact V.
Qed.
Lemma sees_transform3d v x y z w k v' x' y' z' w' s' : unit_quat x y z w -> k <> 0 ->
  sees (t3 v (quat_of x y z w) (k, k, k)) (t3 v' (quat_of x' y' z' w') s').
Proof.
  intros U K. set (a := t3 v (quat_of x y z w) (k, k, k)). set (b := t3 v' (quat_of x' y' z' w') s').
  pose proof (unapply_t3 v x y z w (k, k, k) v' K K K) as UN. fold a in UN.
  destruct (C47_transform3d v x y z w (k, k, k) v' x' y' z' w' s' U K K K) as [H1 H2]. destruct (H1 v') as (_ & _ & _ & AU). fold a in AU. rewrite UN in AU.
  destruct (H2 eq_refl eq_refl (div3 (rq (- x) (- y) (- z) w (sub3 v' v)) (k, k, k))) as [V _].
  eapply (sees_by_inverse a b); [reflexivity | exact AU | exact V].
Qed.

Lemma box_world {T : Type} {TR : Transformation3d XR T} {I : Invertible T} {C : Composable T} (ta tb : T) hx hy hz : 0 <= hx -> 0 <= hy -> 0 <= hz ->
  sees ta tb -> world_right (box3_with_halfdims (XFin hx) (XFin hy) (XFin hz)) (box3 hx hy hz) ta tb.
Proof. intros X Y Z (q & E & S). exists q. split; [exact S|]. apply (C48_box3_point_exact hx hy hz q X Y Z T TR _ E). Qed.
Lemma ball_world {T : Type} {TR : Transformation3d XR T} {I : Invertible T} {C : Composable T} (ta tb : T) r : 0 <= r -> sees ta tb ->
  exists q, seen_at ta tb q /\ (norm3 q = 0 \/ / 2 ^ 23 <= norm3 q -> world_right (pball r) (ball3 r) ta tb).
Proof.
  intros H (q & E & S). exists q. split; [exact S|]. intro N. exists q. split; [exact S|].
  destruct (C48_ball3_point_exact r q H T TR _ E) as (A & P & _). unfold collides3, penetrates3. rewrite (P N). exact A.
Qed.

(** Box3d (built by with_halfdims) and Ball v Point: under every placement type the answers are right about the point as seen
    from the first shape; the vectors are in the frame of the first shape. (A ball and a point closer than f32::EPSILON to its
    centre but not at it: C48_ball3_penetrates_tiny_refuted.) *)
Theorem C48_world : forall u v x y z w k x' y' z' w' s hx hy hz r, unit_quat x y z w -> k <> 0 -> 0 <= hx -> 0 <= hy -> 0 <= hz -> 0 <= r ->
  let box := box3_with_halfdims (XFin hx) (XFin hy) (XFin hz) in
  let right_about {T : Type} {TR : Transformation3d XR T} {I : Invertible T} {C : Composable T} (ta tb : T) :=
    world_right box (box3 hx hy hz) ta tb /\
    exists q, seen_at ta tb q /\ (norm3 q = 0 \/ / 2 ^ 23 <= norm3 q -> world_right (pball r) (ball3 r) ta tb) in
  right_about (inj3 u) (inj3 v) /\
  right_about (Translate3d (inj3 u)) (Translate3d (inj3 v)) /\
  right_about (iso3 u (quat_of x y z w) k) (iso3 v (quat_of x' y' z' w') (x3 s)) /\
  right_about (t3 u (quat_of x y z w) (k, k, k)) (t3 v (quat_of x' y' z' w') s) /\
  right_about (bevy_of_t3 (t3 u (quat_of x y z w) (k, k, k))) (bevy_of_t3 (t3 v (quat_of x' y' z' w') s)).
Proof.
  intros u v x y z w k x' y' z' w' s hx hy hz r U K X Y Z R0. cbv zeta.
  destruct (sees_translations u v) as [S1 S2]. pose proof (sees_isotropic u x y z w k v x' y' z' w' (x3 s) U K) as S3.
  pose proof (sees_transform3d u x y z w k v x' y' z' w' s U K) as S4.
  assert (S5 : sees (bevy_of_t3 (t3 u (quat_of x y z w) (k, k, k))) (bevy_of_t3 (t3 v (quat_of x' y' z' w') s))) by exact S4.
  repeat split; try (apply box_world; assumption); apply ball_world; assumption.
Qed.
Print Assumptions C48_world.
(** From<Transform> for Transform3d and back: nothing is lost, and the two types act, invert and compose alike. *)
Theorem C47_bevy_transform3d : forall (F : Type) (FL : Float F) (t u : bevy_transform F) (s : transform3d F) (p : vec3 F),
  bevy_of_t3 (t3_of_bevy t) = t /\ t3_of_bevy (bevy_of_t3 s) = s /\
  apply3 (t3_of_bevy t) p = apply3 t p /\ unapply3 (t3_of_bevy t) p = unapply3 t p /\ apply_origin3 (t3_of_bevy t) = apply_origin3 t /\
  t3_of_bevy (inverse t) = inverse (t3_of_bevy t) /\ t3_of_bevy (compose t u) = compose (t3_of_bevy t) (t3_of_bevy u).
Proof. intros F FL [] [] [] p. repeat split. Qed.
Print Assumptions C47_bevy_transform3d.

(** the hypotheses are met by a turned, doubled box at (1,2,3); a point at (3,4,3) is seen at (31/25, -17/25, 0): inside a box of half
    size (2,1,1), outside one of half size (1,1,1) *)
Example C48_world_case :
  let ta := t3 (1, 2, 3) (quat_of 0 0 (3/5) (4/5)) (2, 2, 2) in let tb := t3 (3, 4, 3) (quat_of 0 0 0 1) (1, 1, 1) in
  unit_quat 0 0 (3/5) (4/5) /\ seen_at ta tb (31/25, -17/25, 0) /\
  collides3 (box3_with_halfdims (XFin 2) (XFin 1) (XFin 1)) ta PointS tb = true /\
  collides3 (box3_with_halfdims (XFin 1) (XFin 1) (XFin 1)) ta PointS tb = false.
Proof.
  intros ta tb. assert (U : unit_quat 0 0 (3/5) (4/5)) by (unfold unit_quat; lra).
  assert (S : seen_at ta tb (31/25, -17/25, 0)).
  { unfold seen_at, ta, tb. rewrite apply_t3. cbn [apply_origin3 Tr3_Transform3d t3_pos t3]. f_equal. apply pt3_eq; v3; w3; cbn; field. }
  split; [exact U|]. split; [exact S|].
  assert (O : apply_origin3 (delta_transform ta tb) = inj3 (31/25, -17/25, 0)).
  { destruct (sees_transform3d (1, 2, 3) 0 0 (3/5) (4/5) 2 (3, 4, 3) 0 0 0 1 (1, 1, 1) U ltac:(lra)) as (q & E & Q). fold ta tb in E, Q. rewrite E. f_equal.
    unfold seen_at in S, Q. rewrite <- Q in S.
    destruct (C47_transform3d (1, 2, 3) 0 0 (3/5) (4/5) (2, 2, 2) (3, 4, 3) 0 0 0 1 (1, 1, 1) U ltac:(unfold x3; cbn; lra) ltac:(unfold y3; cbn; lra) ltac:(unfold z3; cbn; lra)) as [H _].
    pose proof (H q) as (_ & _ & A & _). pose proof (H (31/25, -17/25, 0)) as (_ & _ & B & _). fold ta in A, B. rewrite <- S, B in A.
    apply (f_equal (fun v => (wx v, wy v, wz v))) in A. destruct q as [[q1 q2] q3]. unfold inj3, x3, y3, z3 in A. cbn in A. congruence. }
  change (box3_with_halfdims (XFin 2) (XFin 1) (XFin 1)) with (mbox3 2 1 1). change (box3_with_halfdims (XFin 1) (XFin 1) (XFin 1)) with (mbox3 1 1 1).
  unfold collides3. rewrite !(box3_collides_b _ _ _ _ _ O). unfold x3, y3, z3; cbn [fst snd].
  rewrite Rabs_pos_eq, Rabs_left, Rabs_R0 by lra. rewrite (Rltb_true (31 / 25) 2), (Rltb_false (31 / 25) 1), !Rltb_true by lra. split; reflexivity.
Qed.
