(** * Property theorems C47 (3D transformations) and C53 (bevy transforms in 2D queries). *)
From Coq Require Import Reals Lra Psatz Bool.
From Verif Require Import Num NumXR Glam Transform2 Shapes2 Gjk Detect2 Col3 Spec SpecLink P_Base P_Transform P_Geo3 P_3d.
Local Open Scope R_scope.

Definition unit_quat (x y z w : R) : Prop := x * x + y * y + z * z + w * w = 1.
Definition ax3 (v : pt3) (k : R) : axis_transform3d XR := AxisTransform3d (inj3 v) (XFin k).
Definition iso3 (v : pt3) (q : quat XR) (k : R) : isotropic3d XR := Isotropic3d (inj3 v) q (XFin k).
Definition t3 (v : pt3) (q : quat XR) (s : pt3) : transform3d XR := Transform3d (inj3 v) q (inj3 s).

(** Vec3, Translate3d and IdentityTransform. *)
Theorem C47_translations : forall a b : pt3,
  (forall p, apply3 (inj3 a) (inj3 p) = inj3 (add3 p a) /\ apply_origin3 (inj3 a) = inj3 a /\
     unapply3 (inj3 a) (apply3 (inj3 a) (inj3 p)) = inj3 p /\ apply3 (inj3 a) (unapply3 (inj3 a) (inj3 p)) = inj3 p /\
     apply3 (inverse (inj3 a)) (apply3 (inj3 a) (inj3 p)) = inj3 p /\
     apply3 (compose (inj3 a) (inj3 b)) (inj3 p) = apply3 (inj3 a) (apply3 (inj3 b) (inj3 p)) /\
     apply3 (inj3 a) (apply3 (delta_transform (inj3 a) (inj3 b)) (inj3 p)) = apply3 (inj3 b) (inj3 p)) /\
  (forall p, let ta := Translate3d (inj3 a) in let tb := Translate3d (inj3 b) in
     apply3 ta (inj3 p) = inj3 (add3 p a) /\ apply_origin3 ta = inj3 a /\
     unapply3 ta (apply3 ta (inj3 p)) = inj3 p /\ apply3 ta (unapply3 ta (inj3 p)) = inj3 p /\
     apply3 (inverse ta) (apply3 ta (inj3 p)) = inj3 p /\
     apply3 (compose ta tb) (inj3 p) = apply3 ta (apply3 tb (inj3 p)) /\
     apply3 ta (apply3 (delta_transform ta tb) (inj3 p)) = apply3 tb (inj3 p)) /\
  (forall p : vec3 XR, apply3 IdT p = p /\ unapply3 IdT p = p /\ apply_origin3 IdT = inj3 (0, 0, 0)).
Proof.
  intros a b. split; [|split].
  - intro p. repeat split; apply vec3_ext; cbn; f_equal; v3; ring.
  - intros p ta tb. repeat split; apply vec3_ext; cbn; f_equal; v3; ring.
  - intro p. repeat split.
Qed.
Print Assumptions C47_translations.

(** AxisTransform3d: unapply and compose are right, the inverse law holds exactly for scale one or position zero. *)
Theorem C47_axis : forall v k v' k', k <> 0 ->
  (forall p, apply3 (ax3 v k) (inj3 p) = inj3 (add3 v (scale3 k p)) /\
     unapply3 (ax3 v k) (apply3 (ax3 v k) (inj3 p)) = inj3 p /\
     apply3 (ax3 v k) (unapply3 (ax3 v k) (inj3 p)) = inj3 p /\
     apply3 (compose (ax3 v k) (ax3 v' k')) (inj3 p) = apply3 (ax3 v k) (apply3 (ax3 v' k') (inj3 p))) /\
  ((forall p, apply3 (inverse (ax3 v k)) (apply3 (ax3 v k) (inj3 p)) = inj3 p) <-> (k = 1 \/ v = (0, 0, 0))).
Proof.
  intros v k v' k' K. split.
  - intro p. split; [reflexivity|]. split; [|split].
    + apply vec3_ext; cbn; rewrite (Reqb_false k 0 K); f_equal; v3; field; exact K.
    + apply vec3_ext; cbn; rewrite (Reqb_false k 0 K); f_equal; v3; field; exact K.
    + apply vec3_ext; cbn; f_equal; v3; ring.
  - assert (E : forall p, apply3 (inverse (ax3 v k)) (apply3 (ax3 v k) (inj3 p)) = inj3 (add3 p (scale3 (1 / k - 1) v))).
    { intro p. apply vec3_ext; cbn; rewrite (Reqb_false k 0 K); cbn; f_equal; v3; field; exact K. }
    split.
    + intro H. specialize (H (0, 0, 0)). rewrite E in H. apply inj3_inj in H.
      destruct (Req_dec k 1) as [|N]; [left; assumption|right].
      assert (J : 1 / k - 1 <> 0).
      { intro Z. apply N. apply (f_equal (fun r => r * k)) in Z. rewrite Rmult_0_l in Z.
        replace ((1 / k - 1) * k) with (1 - k) in Z by (field; exact K). lra. }
      destruct v as [[a b] c]. unfold add3, scale3, x3, y3, z3 in H; cbn [fst snd] in H.
      injection H; intros Hc Hb Ha.
      apply pt3_eq; v3; [clear - Ha J | clear - Hb J | clear - Hc J];
        match goal with H : _ = 0 |- ?a = 0 => destruct (Rmult_integral (1 / k - 1) a); [lra | contradiction | assumption] end.
    + intros [-> | ->] p; rewrite E; f_equal; apply pt3_eq; v3; field; try exact K.
Qed.
Print Assumptions C47_axis.

(** The rotation a quaternion performs: about the unit axis u by the angle t (Rodrigues' formula). *)
Theorem C47_quaternion_rotation : forall u t p, dot3 u u = 1 ->
  qrot (quat_of (sin (t / 2) * x3 u) (sin (t / 2) * y3 u) (sin (t / 2) * z3 u) (cos (t / 2))) (inj3 p)
    = inj3 (rotate3 u t p) /\
  unit_quat (sin (t / 2) * x3 u) (sin (t / 2) * y3 u) (sin (t / 2) * z3 u) (cos (t / 2)).
Proof.
  intros u t p U. split.
  - rewrite qrot_fin, rq_rodrigues by exact U. reflexivity.
  - unfold unit_quat. pose proof (sin2_cos2 (t / 2)) as Q. unfold Rsqr in Q.
    unfold dot3 in U. replace 1 with (sin (t / 2) * sin (t / 2) * (x3 u * x3 u + y3 u * y3 u + z3 u * z3 u) + cos (t / 2) * cos (t / 2)).
    + ring.
    + rewrite U. lra.
Qed.
Print Assumptions C47_quaternion_rotation.

(** Isotropic3d: every law, for every unit quaternion and non-zero scale. *)
Theorem C47_isotropic : forall v x y z w k v' x' y' z' w' k', unit_quat x y z w -> k <> 0 ->
  let a := iso3 v (quat_of x y z w) k in let b := iso3 v' (quat_of x' y' z' w') k' in
  forall p,
  (exists r, qrot (quat_of x y z w) (inj3 p) = inj3 r /\ norm3 r = norm3 p /\ apply3 a (inj3 p) = inj3 (add3 (scale3 k r) v)) /\
  apply_origin3 a = apply3 a (inj3 (0, 0, 0)) /\
  unapply3 a (apply3 a (inj3 p)) = inj3 p /\
  apply3 a (unapply3 a (inj3 p)) = inj3 p /\
  apply3 (inverse a) (apply3 a (inj3 p)) = inj3 p /\
  apply3 (compose a b) (inj3 p) = apply3 a (apply3 b (inj3 p)) /\
  apply3 a (apply3 (delta_transform a b) (inj3 p)) = apply3 b (inj3 p).
Proof.
  intros v x y z w k v' x' y' z' w' k' U K a b p. unfold unit_quat in U.
  assert (AP : forall v x y z w k p, apply3 (iso3 v (quat_of x y z w) k) (inj3 p) = inj3 (add3 (scale3 k (rq x y z w p)) v)).
  { intros. cbn [apply3 Tr3_Isotropic3d iso_rot iso_scale iso_pos iso3]. rewrite v3smul_fin, qrot_fin, v3add_fin, rq_scale. reflexivity. }
  assert (UN : forall p, unapply3 a (inj3 p) = inj3 (scale3 (1 / k) (rq (- x) (- y) (- z) w (sub3 p v)))).
  { intro q. unfold a. cbn [unapply3 Tr3_Isotropic3d iso_rot iso_scale iso_pos iso3].
    rewrite qinv_fin, v3sub_fin, qrot_fin, v3divs_fin by exact K. reflexivity. }
  assert (INV : inverse a = iso3 (scale3 (1 / k) (rq (- x) (- y) (- z) w (sub3 (0, 0, 0) v))) (quat_of (- x) (- y) (- z) w) (1 / k)).
  { change (Isotropic3d (unapply3 a (inj3 (0, 0, 0))) (qinv (quat_of x y z w)) (fdiv f1 (XFin k))
      = iso3 (scale3 (1 / k) (rq (- x) (- y) (- z) w (sub3 (0, 0, 0) v))) (quat_of (- x) (- y) (- z) w) (1 / k)).
    rewrite UN, qinv_fin. unfold iso3. f_equal. apply (fdiv_fin 1 k K). }
  assert (COMP : forall v x y z w k v' x' y' z' w' k' p,
    apply3 (compose (iso3 v (quat_of x y z w) k) (iso3 v' (quat_of x' y' z' w') k')) (inj3 p)
    = apply3 (iso3 v (quat_of x y z w) k) (apply3 (iso3 v' (quat_of x' y' z' w') k') (inj3 p))).
  { clear. intros.
    assert (AP : forall v x y z w k p, apply3 (iso3 v (quat_of x y z w) k) (inj3 p) = inj3 (add3 (scale3 k (rq x y z w p)) v)).
    { intros. cbn [apply3 Tr3_Isotropic3d iso_rot iso_scale iso_pos iso3]. rewrite v3smul_fin, qrot_fin, v3add_fin, rq_scale. reflexivity. }
    destruct (qmul_fin x y z w x' y' z' w') as (a & b & c & d & Q & R & _).
    change (compose (iso3 v (quat_of x y z w) k) (iso3 v' (quat_of x' y' z' w') k'))
      with (Isotropic3d (apply3 (iso3 v (quat_of x y z w) k) (inj3 v')) (qmul (quat_of x y z w) (quat_of x' y' z' w')) (fmul (XFin k) (XFin k'))).
    rewrite Q, AP. change (Isotropic3d (inj3 ?u) ?q (fmul (XFin k) (XFin k'))) with (iso3 u q (k * k')).
    rewrite !AP, R. f_equal. rewrite rq_add, rq_scale. apply pt3_eq; w3; ring. }
  destruct (rq_inv x y z w p U) as [I1 I2].
  split; [exists (rq x y z w p); split; [apply qrot_fin | split; [apply rq_norm, U | apply AP]]|].
  split. { unfold a. rewrite AP. cbn [apply_origin3 Tr3_Isotropic3d iso_pos iso3]. f_equal. apply pt3_eq; v3; ring. }
  split. { unfold a at 2. rewrite AP, UN. f_equal.
    replace (sub3 (add3 (scale3 k (rq x y z w p)) v) v) with (scale3 k (rq x y z w p)) by (apply pt3_eq; w3; ring).
    rewrite rq_scale, I1. apply pt3_eq; w3; field; exact K. }
  split. { rewrite UN. unfold a. rewrite AP, rq_scale. destruct (rq_inv x y z w (sub3 p v) U) as [_ J]. rewrite J.
    f_equal. apply pt3_eq; w3; field; exact K. }
  split. { rewrite INV. unfold a. rewrite !AP. f_equal. rewrite rq_add, rq_scale, I1.
    replace (sub3 (0, 0, 0) v) with (scale3 (-1) v) by (apply pt3_eq; w3; ring). rewrite rq_scale.
    apply pt3_eq; w3; field; exact K. }
  split. { apply COMP. }
  unfold delta_transform. rewrite INV. unfold b. rewrite COMP. rewrite (AP v'). set (q := add3 _ v').
  unfold a. rewrite !AP. f_equal. rewrite rq_add, rq_scale.
  destruct (rq_inv x y z w q U) as [_ J]. rewrite J.
  rewrite rq_scale. destruct (rq_inv x y z w (sub3 (0, 0, 0) v) U) as [_ J']. rewrite J'.
  apply pt3_eq; w3; field; exact K.
Qed.
Print Assumptions C47_isotropic.

Lemma apply_t3 v x y z w s p : apply3 (t3 v (quat_of x y z w) s) (inj3 p) = inj3 (add3 (rq x y z w (mul3 s p)) v).
Proof. cbn [apply3 Tr3_Transform3d t3_rot t3_scale t3_pos t3]. rewrite v3mul_fin, qrot_fin, v3add_fin. reflexivity. Qed.
Lemma unapply_t3 v x y z w s p : x3 s <> 0 -> y3 s <> 0 -> z3 s <> 0 ->
  unapply3 (t3 v (quat_of x y z w) s) (inj3 p) = inj3 (div3 (rq (- x) (- y) (- z) w (sub3 p v)) s).
Proof.
  intros. cbn [unapply3 Tr3_Transform3d t3_rot t3_scale t3_pos t3].
  rewrite qinv_fin, v3sub_fin, qrot_fin, v3div_fin by assumption. reflexivity.
Qed.
Lemma inverse_t3 v x y z w s : x3 s <> 0 -> y3 s <> 0 -> z3 s <> 0 ->
  inverse (t3 v (quat_of x y z w) s) = t3 (div3 (rq (- x) (- y) (- z) w (sub3 (0, 0, 0) v)) s) (quat_of (- x) (- y) (- z) w) (div3 (1, 1, 1) s).
Proof.
  intros.
  change (Transform3d (unapply3 (t3 v (quat_of x y z w) s) (inj3 (0, 0, 0))) (qinv (quat_of x y z w)) (v3sdiv f1 (inj3 s))
    = t3 (div3 (rq (- x) (- y) (- z) w (sub3 (0, 0, 0) v)) s) (quat_of (- x) (- y) (- z) w) (div3 (1, 1, 1) s)).
  rewrite unapply_t3, v3sdiv_fin, qinv_fin by assumption. reflexivity.
Qed.
Lemma compose_t3 v x y z w s v' x' y' z' w' s' p :
  (forall q, mul3 s (rq x' y' z' w' q) = rq x' y' z' w' (mul3 s q)) ->
  apply3 (compose (t3 v (quat_of x y z w) s) (t3 v' (quat_of x' y' z' w') s')) (inj3 p)
  = apply3 (t3 v (quat_of x y z w) s) (apply3 (t3 v' (quat_of x' y' z' w') s') (inj3 p)).
Proof.
  intro COM. destruct (qmul_fin x y z w x' y' z' w') as (a & b & c & d & Q & R & _).
  change (compose (t3 v (quat_of x y z w) s) (t3 v' (quat_of x' y' z' w') s'))
    with (Transform3d (apply3 (t3 v (quat_of x y z w) s) (inj3 v')) (qmul (quat_of x y z w) (quat_of x' y' z' w')) (v3mul (inj3 s) (inj3 s'))).
  rewrite Q, apply_t3, v3mul_fin. change (Transform3d (inj3 ?u) ?q (inj3 ?s)) with (t3 u q s).
  rewrite !apply_t3, R. f_equal.
  replace (mul3 s (add3 (rq x' y' z' w' (mul3 s' p)) v')) with (add3 (mul3 s (rq x' y' z' w' (mul3 s' p))) (mul3 s v'))
    by (apply pt3_eq; w3; ring).
  rewrite COM, rq_add. replace (mul3 (mul3 s s') p) with (mul3 s (mul3 s' p)) by (apply pt3_eq; w3; ring).
  apply pt3_eq; w3; ring.
Qed.

(** Transform3d: apply and unapply for every non-zero scale; inverse, compose and delta when the scale of [a] is uniform
    (b is arbitrary). *)
Theorem C47_transform3d : forall v x y z w s v' x' y' z' w' s', unit_quat x y z w -> x3 s <> 0 -> y3 s <> 0 -> z3 s <> 0 ->
  let a := t3 v (quat_of x y z w) s in let b := t3 v' (quat_of x' y' z' w') s' in
  (forall p, (exists r, qrot (quat_of x y z w) (inj3 (x3 s * x3 p, y3 s * y3 p, z3 s * z3 p)) = inj3 r /\ apply3 a (inj3 p) = inj3 (add3 r v)) /\
     apply_origin3 a = apply3 a (inj3 (0, 0, 0)) /\
     unapply3 a (apply3 a (inj3 p)) = inj3 p /\ apply3 a (unapply3 a (inj3 p)) = inj3 p) /\
  (x3 s = y3 s -> y3 s = z3 s -> forall p,
     apply3 (inverse a) (apply3 a (inj3 p)) = inj3 p /\
     apply3 (compose a b) (inj3 p) = apply3 a (apply3 b (inj3 p)) /\
     apply3 a (apply3 (delta_transform a b) (inj3 p)) = apply3 b (inj3 p)).
Proof.
  intros v x y z w s v' x' y' z' w' s' U X Y Z a b. unfold unit_quat in U. split.
  - intro p. split; [exists (rq x y z w (mul3 s p)); split; [apply qrot_fin | apply apply_t3]|].
    split. { unfold a. rewrite apply_t3. cbn [apply_origin3 Tr3_Transform3d t3_pos t3]. f_equal. apply pt3_eq; v3; ring. }
    split.
    + unfold a. rewrite apply_t3, unapply_t3 by assumption. f_equal.
      replace (sub3 (add3 (rq x y z w (mul3 s p)) v) v) with (rq x y z w (mul3 s p)) by (apply pt3_eq; w3; ring).
      destruct (rq_inv x y z w (mul3 s p) U) as [I _]. rewrite I. clear - X Y Z. unfold x3, y3, z3 in X, Y, Z.
      apply pt3_eq; w3; field; assumption.
    + unfold a. rewrite unapply_t3, apply_t3 by assumption. f_equal.
      replace (mul3 s (div3 (rq (- x) (- y) (- z) w (sub3 p v)) s)) with (rq (- x) (- y) (- z) w (sub3 p v))
        by (set (q := rq _ _ _ _ _); clearbody q; clear - X Y Z; unfold x3, y3, z3 in X, Y, Z; apply pt3_eq; w3; field; assumption).
      destruct (rq_inv x y z w (sub3 p v) U) as [_ I]. rewrite I. apply pt3_eq; w3; ring.
  - intros XY YZ p. destruct s as [[s1 s2] s3]. unfold x3, y3, z3 in X, Y, Z, XY, YZ; cbn [fst snd] in * . subst s2 s3.
    assert (MU : forall q, mul3 (s1, s1, s1) q = scale3 s1 q) by (intro; apply pt3_eq; w3; ring).
    assert (DU : forall q, div3 q (s1, s1, s1) = scale3 (1 / s1) q) by (intro; apply pt3_eq; w3; field; exact X).
    assert (DU1 : div3 (1, 1, 1) (s1, s1, s1) = (1 / s1, 1 / s1, 1 / s1)) by reflexivity.
    assert (MU' : forall q, mul3 (1 / s1, 1 / s1, 1 / s1) q = scale3 (1 / s1) q) by (intro; apply pt3_eq; w3; ring).
    assert (INV := inverse_t3 v x y z w (s1, s1, s1) X X X). rewrite DU, DU1 in INV.
    split; [|split].
    + unfold a. rewrite INV, !apply_t3, MU, MU'. f_equal.
      rewrite !rq_scale, rq_add, !rq_scale. destruct (rq_inv x y z w p U) as [I _]. rewrite I.
      replace (sub3 (0, 0, 0) v) with (scale3 (-1) v) by (apply pt3_eq; w3; ring). rewrite rq_scale.
      apply pt3_eq; w3; field; exact X.
    + apply compose_t3. intro q. rewrite !MU, rq_scale. reflexivity.
    + unfold delta_transform. unfold a at 2. rewrite INV. unfold b. rewrite compose_t3.
      2:{ intro q. rewrite !MU', rq_scale. reflexivity. }
      rewrite (apply_t3 v'). set (q := add3 _ v'). unfold a. rewrite !apply_t3, MU, MU'. f_equal.
      rewrite !rq_scale, rq_add, !rq_scale.
      destruct (rq_inv x y z w q U) as [_ J]. rewrite J.
      destruct (rq_inv x y z w (sub3 (0, 0, 0) v) U) as [_ J']. rewrite J'.
      apply pt3_eq; w3; field; exact X.
Qed.
Print Assumptions C47_transform3d.

(** With a non-uniform scale the documented laws fail (quarter turn about z, scale (1,2,1)). *)
Theorem C47_transform3d_nonuniform_refuted :
  let q := quat_of 0 0 (sin (PI / 4)) (cos (PI / 4)) in
  let a := t3 (0, 0, 0) q (1, 2, 1) in
  unit_quat 0 0 (sin (PI / 4)) (cos (PI / 4)) /\
  apply3 (inverse a) (apply3 a (inj3 (1, 0, 0))) = inj3 (1 / 2, 0, 0) /\
  apply3 (compose a a) (inj3 (1, 0, 0)) = inj3 (-1, 0, 0) /\
  apply3 a (apply3 a (inj3 (1, 0, 0))) = inj3 (-2, 0, 0).
Proof.
  intros q a.
  assert (S2 : sin (PI / 4) * sin (PI / 4) = 1 / 2).
  { rewrite sin_PI4. unfold Rdiv. rewrite !Rmult_1_l. rewrite <- Rinv_mult_distr by (apply Rgt_not_eq, sqrt_lt_R0; lra).
    rewrite sqrt_sqrt by lra. reflexivity. }
  assert (SC : sin (PI / 4) = cos (PI / 4)) by (rewrite sin_PI4, cos_PI4; reflexivity).
  set (h := sin (PI / 4)) in * . rewrite <- SC in * . 
  assert (RQ : forall p, rq 0 0 h h p = (- y3 p, x3 p, z3 p)).
  { intro p. transitivity (add3 (scale3 0 p) (- (h * h) * 2 * y3 p, (h * h) * 2 * x3 p, (h * h) * 2 * z3 p)).
    - apply pt3_eq; v3; ring.
    - rewrite S2. apply pt3_eq; v3; field. }
  assert (RI : forall p, rq (- 0) (- 0) (- h) h p = (y3 p, - x3 p, z3 p)).
  { intro p. transitivity (add3 (scale3 0 p) ((h * h) * 2 * y3 p, - (h * h) * 2 * x3 p, (h * h) * 2 * z3 p)).
    - apply pt3_eq; v3; ring.
    - rewrite S2. apply pt3_eq; v3; field. }
  split; [unfold unit_quat; nra|]. unfold a, q. rewrite <- SC. fold h.
  split; [|split].
  - rewrite inverse_t3 by (v3; lra). rewrite !apply_t3, !RI, RQ. f_equal. apply pt3_eq; v3; field.
  - destruct (qmul_fin 0 0 h h 0 0 h h) as (a' & b' & c' & d' & Q & R & _).
    change (compose (t3 (0, 0, 0) (quat_of 0 0 h h) (1, 2, 1)) (t3 (0, 0, 0) (quat_of 0 0 h h) (1, 2, 1)))
      with (Transform3d (apply3 (t3 (0, 0, 0) (quat_of 0 0 h h) (1, 2, 1)) (inj3 (0, 0, 0))) (qmul (quat_of 0 0 h h) (quat_of 0 0 h h)) (v3mul (inj3 (1, 2, 1)) (inj3 (1, 2, 1)))).
    rewrite Q, apply_t3, v3mul_fin. change (Transform3d (inj3 ?u) ?q (inj3 ?s)) with (t3 u q s).
    rewrite apply_t3, R, !RQ. f_equal. apply pt3_eq; v3; ring.
  - rewrite !apply_t3, !RQ. f_equal. apply pt3_eq; v3; ring.
Qed.
Print Assumptions C47_transform3d_nonuniform_refuted.

(** The hypotheses are met: the third-turn about (1,1,1), scale 3 and a non-zero position. *)
Example C47_case : unit_quat (1/2) (1/2) (1/2) (1/2) /\ (3 : R) <> 0 /\
  apply3 (iso3 (1, 2, 3) (quat_of (1/2) (1/2) (1/2) (1/2)) 3) (inj3 (1, 0, 0)) = inj3 (1, 5, 3) /\
  apply3 (inverse (iso3 (1, 2, 3) (quat_of (1/2) (1/2) (1/2) (1/2)) 3)) (inj3 (1, 5, 3)) = inj3 (1, 0, 0).
Proof.
  assert (U : unit_quat (1/2) (1/2) (1/2) (1/2)) by (unfold unit_quat; field).
  assert (E : apply3 (iso3 (1, 2, 3) (quat_of (1/2) (1/2) (1/2) (1/2)) 3) (inj3 (1, 0, 0)) = inj3 (1, 5, 3)).
  { unfold iso3. cbn [apply3 Tr3_Isotropic3d iso_rot iso_scale iso_pos]. rewrite v3smul_fin, qrot_fin, v3add_fin. f_equal. apply pt3_eq; v3; field. }
  split; [exact U|]. split; [lra|]. split; [exact E|]. rewrite <- E.
  exact (proj1 (proj2 (proj2 (proj2 (proj2 (C47_isotropic (1, 2, 3) (1/2) (1/2) (1/2) (1/2) 3 (0, 0, 0) 0 0 0 1 1 U ltac:(lra) (1, 0, 0))))))).
Qed.
