(** * Property theorems C01, C03-C10 (transformations, exact arithmetic). *)
From Coq Require Import Reals Lra.
From Verif Require Import Num NumXR Glam Transform2 Angle Spec SpecLink P_Base P_Transform.
Local Open Scope R_scope.

(** C01: translations (Vec2, Translate2d, IdentityTransform). *)
Theorem C01_vec2_translations : forall a b : pt,
  (forall p, apply (inj a) (inj p) = inj (padd p a) /\
             apply_origin (inj a) = inj a /\
             unapply (inj a) (apply (inj a) (inj p)) = inj p /\
             apply (inj a) (unapply (inj a) (inj p)) = inj p /\
             apply (inverse (inj a)) (apply (inj a) (inj p)) = inj p /\
             apply (compose (inj a) (inj b)) (inj p) = apply (inj a) (apply (inj b) (inj p)) /\
             apply_normal (inj a) (inj p) = inj p /\ unapply_normal (inj a) (inj p) = inj p) /\
  scaling_factor (inj a) = XFin 1 /\
  (forall d, (forall p, apply (inj a) (apply (inj d) (inj p)) = apply (inj b) (inj p)) <-> inj d = delta_transform (inj a) (inj b)).
Proof. exact vec2_laws. Qed.
Print Assumptions C01_vec2_translations.
Example C01_case : apply (inj (1, 2)) (inj (3, 4)) = inj (4, 6) /\ delta_transform (inj (1, 2)) (inj (4, -1)) = inj (3, -3).
Proof. split; apply vec_ext; cbn; f_equal; ring. Qed.

Theorem C01_translate2d : forall a b : pt,
  (forall p, apply (Translate2d (inj a)) (inj p) = inj (padd p a) /\
             apply_origin (Translate2d (inj a)) = inj a /\
             unapply (Translate2d (inj a)) (apply (Translate2d (inj a)) (inj p)) = inj p /\
             apply (Translate2d (inj a)) (unapply (Translate2d (inj a)) (inj p)) = inj p /\
             apply (inverse (Translate2d (inj a))) (apply (Translate2d (inj a)) (inj p)) = inj p /\
             apply (compose (Translate2d (inj a)) (Translate2d (inj b))) (inj p)
               = apply (Translate2d (inj a)) (apply (Translate2d (inj b)) (inj p)) /\
             apply_normal (Translate2d (inj a)) (inj p) = inj p /\ unapply_normal (Translate2d (inj a)) (inj p) = inj p) /\
  scaling_factor (Translate2d (inj a)) = XFin 1 /\
  (forall d, (forall p, apply (Translate2d (inj a)) (apply (Translate2d (inj d)) (inj p)) = apply (Translate2d (inj b)) (inj p))
     <-> Translate2d (inj d) = delta_transform (Translate2d (inj a)) (Translate2d (inj b))).
Proof. exact translate_laws. Qed.
Print Assumptions C01_translate2d.

Theorem C01_identity : forall p : vec2 XR,
  apply IdT p = p /\ unapply IdT p = p /\ apply_normal IdT p = p /\ unapply_normal IdT p = p /\
  apply_origin IdT = inj origin /\ scaling_factor IdT = XFin 1.
Proof. exact identity_laws. Qed.
Print Assumptions C01_identity.

(** C03: AxisTransform2d. unapply and compose are right; the documented inverse law holds exactly when
    the scale is one or the position is zero, hence fails in general. *)
Theorem C03_axis_unapply_compose : forall v k v' k', k <> 0 -> forall p,
  unapply (ax v k) (apply (ax v k) (inj p)) = inj p /\
  apply (ax v k) (unapply (ax v k) (inj p)) = inj p /\
  apply (compose (ax v k) (ax v' k')) (inj p) = apply (ax v k) (apply (ax v' k') (inj p)) /\
  apply (ax v k) (inj p) = inj (place v 1 0 k k p).
Proof. exact axis_unapply_compose. Qed.
Print Assumptions C03_axis_unapply_compose.
Example C03_case : unapply (ax (1, 2) 3) (apply (ax (1, 2) 3) (inj (4, 5))) = inj (4, 5) /\ apply (ax (1, 2) 3) (inj (4, 5)) = inj (13, 17).
Proof.
  assert (K : (3 : R) <> 0) by lra. destruct (C03_axis_unapply_compose (1, 2) 3 (0, 0) 1 K (4, 5)) as (E & _ & _ & P).
  split; [exact E|]. rewrite P. apply vec_ext; cbn; f_equal; ring.
Qed.
Theorem C03_axis_inverse_iff : forall v k, k <> 0 ->
  (forall p, apply (inverse (ax v k)) (apply (ax v k) (inj p)) = inj p) <-> (k = 1 \/ v = origin).
Proof. exact axis_inverse_iff. Qed.
Print Assumptions C03_axis_inverse_iff.
Example C03_iff_case : ~ (forall p, apply (inverse (ax (1, 2) 3)) (apply (ax (1, 2) 3) (inj p)) = inj p) /\
  (forall p, apply (inverse (ax (1, 2) 1)) (apply (ax (1, 2) 1) (inj p)) = inj p).
Proof.
  split.
  - intro H. apply C03_axis_inverse_iff in H; [|lra]. destruct H as [H|H]; [lra | injection H; lra].
  - apply C03_axis_inverse_iff; [lra | left; reflexivity].
Qed.
Theorem C03_axis_inverse_refuted :
  ~ (forall v k p, k <> 0 -> apply (inverse (ax v k)) (apply (ax v k) (inj p)) = inj p).
Proof.
  intro H. destruct (proj1 (C03_axis_inverse_iff (1, 0) 2 ltac:(lra))) as [E|E].
  - intro p. apply H; lra.
  - lra.
  - injection E; lra.
Qed.
Print Assumptions C03_axis_inverse_refuted.

(** C04 *)
Theorem C04_transform2d_apply_unapply : forall v c s sx sy, c * c + s * s = 1 -> sx <> 0 -> sy <> 0 -> forall p,
  apply (t2 v c s sx sy) (inj p) = inj (place v c s sx sy p) /\
  apply_origin (t2 v c s sx sy) = apply (t2 v c s sx sy) (inj origin) /\
  unapply (t2 v c s sx sy) (apply (t2 v c s sx sy) (inj p)) = inj p /\
  apply (t2 v c s sx sy) (unapply (t2 v c s sx sy) (inj p)) = inj p.
Proof. exact t2_apply_unapply. Qed.
Print Assumptions C04_transform2d_apply_unapply.
Example C04_case : apply (t2 (1, 2) (3/5) (4/5) 5 10) (inj (1, 1)) = inj (-4, 12) /\ unapply (t2 (1, 2) (3/5) (4/5) 5 10) (inj (-4, 12)) = inj (1, 1).
Proof.
  destruct (C04_transform2d_apply_unapply (1, 2) (3/5) (4/5) 5 10 ltac:(lra) ltac:(lra) ltac:(lra) (1, 1)) as (A & _ & B & _).
  replace (place (1, 2) (3/5) (4/5) 5 10 (1, 1)) with ((-4, 12) : pt) in A by (apply pt_eq; cbn; field). rewrite A in B. split; assumption.
Qed.

(** C05: the composition law holds exactly when a scales uniformly, or b does not rotate (up to 180 degrees),
    or b collapses everything. *)
Theorem C05_transform2d_compose_iff : forall v c s sx sy v' c' s' sx' sy', c * c + s * s = 1 ->
  (forall p, apply (compose (t2 v c s sx sy) (t2 v' c' s' sx' sy')) (inj p)
             = apply (t2 v c s sx sy) (apply (t2 v' c' s' sx' sy') (inj p)))
  <-> (sx = sy \/ s' = 0 \/ (sx' = 0 /\ sy' = 0)).
Proof. exact t2_compose_iff. Qed.
Print Assumptions C05_transform2d_compose_iff.
Example C05_case :
  (forall p, apply (compose (t2 (1, 2) (3/5) (4/5) 2 2) (t2 (0, 1) (4/5) (3/5) 1 7)) (inj p) = apply (t2 (1, 2) (3/5) (4/5) 2 2) (apply (t2 (0, 1) (4/5) (3/5) 1 7) (inj p))) /\
  ~ (forall p, apply (compose (t2 (1, 2) (3/5) (4/5) 2 3) (t2 (0, 1) (4/5) (3/5) 1 7)) (inj p) = apply (t2 (1, 2) (3/5) (4/5) 2 3) (apply (t2 (0, 1) (4/5) (3/5) 1 7) (inj p))).
Proof.
  split.
  - apply C05_transform2d_compose_iff; [lra | left; reflexivity].
  - intro H. apply C05_transform2d_compose_iff in H; lra.
Qed.

(** C06: the documented inverse law holds exactly for uniform scale or rotation by 0 or 180 degrees. *)
Theorem C06_transform2d_inverse_iff : forall v c s sx sy, c * c + s * s = 1 -> sx <> 0 -> sy <> 0 ->
  (forall p, apply (inverse (t2 v c s sx sy)) (apply (t2 v c s sx sy) (inj p)) = inj p)
  <-> (sx = sy \/ s = 0).
Proof. exact t2_inverse_iff. Qed.
Print Assumptions C06_transform2d_inverse_iff.
Example C06_case : forall p, apply (inverse (t2 (1, 2) (3/5) (4/5) 2 2)) (apply (t2 (1, 2) (3/5) (4/5) 2 2) (inj p)) = inj p.
Proof. apply C06_transform2d_inverse_iff; lra. Qed.
Theorem C06_transform2d_inverse_refuted :
  exists v c s sx sy p, c * c + s * s = 1 /\ sx <> 0 /\ sy <> 0 /\
  apply (inverse (t2 v c s sx sy)) (apply (t2 v c s sx sy) (inj p)) <> inj p.
Proof.
  exists origin, 0, 1, 1, 2, (1, 0).
  assert (H1 : (1 : R) <> 0) by lra. assert (H2 : (2 : R) <> 0) by lra.
  repeat split; try lra.
  rewrite (inverse_t2 _ _ _ _ _ H1 H2), !apply_t2. intro E. apply inj_inj in E.
  apply (f_equal fst) in E. cbn in E. lra.
Qed.
Print Assumptions C06_transform2d_inverse_refuted.

(** C07 *)
Theorem C07_delta_transform_is_relative_pose : forall v c s sx sy v' c' s' sx' sy',
  c * c + s * s = 1 -> sx <> 0 -> sy <> 0 -> sx = sy \/ (s = 0 /\ s' = 0) -> forall p,
  apply (t2 v c s sx sy) (apply (delta_transform (t2 v c s sx sy) (t2 v' c' s' sx' sy')) (inj p))
  = apply (t2 v' c' s' sx' sy') (inj p).
Proof. exact t2_delta. Qed.
Print Assumptions C07_delta_transform_is_relative_pose.
Example C07_case : apply (t2 (1, 2) (3/5) (4/5) 2 2) (apply (delta_transform (t2 (1, 2) (3/5) (4/5) 2 2) (t2 (5, -1) (4/5) (3/5) 1 7)) (inj (1, 1))) = inj (5 + 4/5 - 21/5, -1 + 3/5 + 28/5).
Proof.
  rewrite C07_delta_transform_is_relative_pose by lra. apply vec_ext; cbn; f_equal; field.
Qed.

(** C08 *)
Theorem C08_rotor_angles : forall a b,
  rotor_from_angle (XFin a) = rotor (cos a) (sin a) /\
  cos a * cos a + sin a * sin a = 1 /\
  rotor_mul (rotor_from_angle (XFin a)) (rotor_from_angle (XFin b)) = rotor_from_angle (XFin (a + b)) /\
  rotor_inverse (rotor_from_angle (XFin a)) = rotor_from_angle (XFin (- a)) /\
  rotor_from_angle (XFin 0) = rotor_identity.
Proof. exact rotor_angles. Qed.
Print Assumptions C08_rotor_angles.
Theorem C08_rotor_isometries : forall c s c' s', c * c + s * s = 1 -> forall v w,
  rotor_rot (rotor c s) (inj v) = inj (rotate c s v) /\
  rotor_rot (rotor_mul (rotor c s) (rotor c' s')) (inj v) = rotor_rot (rotor c s) (rotor_rot (rotor c' s') (inj v)) /\
  rotor_mul (rotor_inverse (rotor c s)) (rotor c s) = rotor_identity /\
  rotor_rot rotor_identity (inj v) = inj v /\
  norm (rotate c s v) = norm v /\ pdot (rotate c s v) (rotate c s w) = pdot v w /\
  pcross (rotate c s v) (rotate c s w) = pcross v w.
Proof. exact rotor_group. Qed.
Print Assumptions C08_rotor_isometries.
Example C08_case : rotor_rot (rotor (3/5) (4/5)) (inj (5, 10)) = inj (-5, 10) /\ norm (-5, 10) = norm (5, 10).
Proof.
  destruct (C08_rotor_isometries (3/5) (4/5) 1 0 ltac:(lra) (5, 10) (0, 0)) as (A & _ & _ & _ & N & _).
  replace (rotate (3/5) (4/5) (5, 10)) with ((-5, 10) : pt) in A, N by (apply pt_eq; cbn; field). split; assumption.
Qed.
Theorem C08_rotor_angle_roundtrip : forall c s, c * c + s * s = 1 ->
  rotor_from_angle (rotor_angle (rotor c s)) = rotor c s /\
  exists v, rotor_angle (rotor c s) = XFin v /\ - PI < v <= PI.
Proof.
  intros c s H. split; [exact (rotor_angle_roundtrip c s H)|]. eexists; split; [reflexivity|].
  apply (rotor_angle_range c s). reflexivity.
Qed.
Print Assumptions C08_rotor_angle_roundtrip.
Example C08_roundtrip_case : rotor_from_angle (rotor_angle (rotor (-3/5) (-4/5))) = rotor (-3/5) (-4/5).
Proof. apply C08_rotor_angle_roundtrip. lra. Qed.

(** C09: a quaternion rotating by t about z (of any length) gives the rotor of angle t; every quaternion
    (0,0,z,w) acts as its sandwich product; but 'ignore rotation outside of the XY plane' fails: the rotor of
    a unit quaternion is a rotation only if w = 0 or there is no tilt. *)
Theorem C09_from_quaternion_planar : forall k t, k <> 0 ->
  rotor_from_quaternion (quat_of 0 0 (k * sin (t / 2)) (k * cos (t / 2))) = rotor_from_angle (XFin t).
Proof. exact rotor_from_quat_planar. Qed.
Print Assumptions C09_from_quaternion_planar.
Theorem C09_from_quaternion_sandwich : forall z w p, z * z + w * w <> 0 ->
  let n := z * z + w * w in
  rotor_rot (rotor_from_quaternion (quat_of 0 0 z w)) (inj p)
  = inj (((w * w - z * z) * fst p - 2 * w * z * snd p) / n, ((w * w - z * z) * snd p + 2 * w * z * fst p) / n).
Proof. exact rotor_from_quat_sandwich. Qed.
Print Assumptions C09_from_quaternion_sandwich.
(** the quaternion (0, 0, 1, 2), about z, of length sqrt 5 *)
Example C09_case : rotor_rot (rotor_from_quaternion (quat_of 0 0 1 2)) (inj (5, 10)) = inj (-5, 10).
Proof. rewrite (C09_from_quaternion_sandwich 1 2 (5, 10)) by lra. cbv zeta. apply vec_ext; cbn; f_equal; field. Qed.
Theorem C09_from_quaternion_unit_iff : forall x y z w, x * x + y * y + z * z + w * w = 1 ->
  exists c s, rotor_from_quaternion (quat_of x y z w) = rotor c s /\
  (c * c + s * s = 1 <-> w = 0 \/ (x = 0 /\ y = 0)).
Proof. exact rotor_from_quat_unit_iff. Qed.
Print Assumptions C09_from_quaternion_unit_iff.
(** a tilted unit quaternion gives a non-unit rotor, one about z a unit rotor *)
Example C09_unit_case :
  (exists c s, rotor_from_quaternion (quat_of (1/2) (1/2) (1/2) (1/2)) = rotor c s /\ c * c + s * s <> 1) /\
  (exists c s, rotor_from_quaternion (quat_of 0 0 (3/5) (4/5)) = rotor c s /\ c * c + s * s = 1).
Proof.
  split.
  - destruct (C09_from_quaternion_unit_iff (1/2) (1/2) (1/2) (1/2) ltac:(lra)) as (c & s & E & I). exists c, s. split; [exact E|]. intro H. apply I in H. lra.
  - destruct (C09_from_quaternion_unit_iff 0 0 (3/5) (4/5) ltac:(lra)) as (c & s & E & I). exists c, s. split; [exact E|]. apply I. right. split; reflexivity.
Qed.

(** C10 *)
Theorem C10_normals_are_rotated : forall v c s sx sy, c * c + s * s = 1 -> forall n m : pt,
  apply_normal (t2 v c s sx sy) (inj n) = inj (rotate c s n) /\
  unapply_normal (t2 v c s sx sy) (inj n) = inj (rotate c (- s) n) /\
  rotate c (- s) (rotate c s n) = n /\ rotate c s (rotate c (- s) n) = n /\
  norm (rotate c s n) = norm n /\ pdot (rotate c s n) (rotate c s m) = pdot n m /\
  pdot (rotate c s n) m = pdot n (rotate c (- s) m).
Proof. exact t2_normals. Qed.
Print Assumptions C10_normals_are_rotated.
Example C10_case : apply_normal (t2 (1, 2) (3/5) (4/5) 2 3) (inj (5, 10)) = inj (-5, 10).
Proof. destruct (C10_normals_are_rotated (1, 2) (3/5) (4/5) 2 3 ltac:(lra) (5, 10) (0, 0)) as (A & _). rewrite A. apply vec_ext; cbn; f_equal; field. Qed.

(** The hypotheses are met by a genuine rotation (3-4-5) with scale, and by a tilted quaternion. *)
Example hyps_transform_met : (3/5) * (3/5) + (4/5) * (4/5) = 1 /\ (2 : R) <> 0 /\ (1/2) * (1/2) + (1/2) * (1/2) + (1/2) * (1/2) + (1/2) * (1/2) = 1.
Proof. repeat split; lra. Qed.
Example place_nontrivial : place (1, 2) (3/5) (4/5) 5 5 (1, 1) = (0, 9).
Proof. unfold place; cbn; f_equal; field. Qed.
