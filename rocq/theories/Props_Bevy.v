(** * Property theorems C53: bevy transforms in 2D queries. *)
From Coq Require Import Reals Lra Psatz Bool.
From Verif Require Import Num NumXR Glam Transform2 Shapes2 Gjk Detect2 Col3 Spec SpecLink P_Base P_Transform P_Geo3 P_3d.
Local Open Scope R_scope.

(** A bevy transform at v (z is the drawing depth), rotated about z by the unit quaternion (0,0,z,w), scaled by s. *)
Definition bevy (v : pt3) (z w : R) (s : pt3) : bevy_transform XR := BevyTransform (inj3 v) (quat_of 0 0 z w) (inj3 s).

Lemma rotor_planar z w : z * z + w * w = 1 -> rotor_from_quaternion (quat_of 0 0 z w) = rotor (2 * w * w - 1) (2 * w * z).
Proof.
  intro U. unfold rotor_from_quaternion, quat_of, qdot, rotor, inj; cbn.
  replace (0 * 0 + 0 * 0 + z * z + w * w) with 1 by lra.
  rewrite (Rltb_false 1 0) by lra. rewrite sqrt_1, (Reqb_false 1 0) by lra. cbn. f_equal. f_equal; f_equal; field.
Qed.
Lemma t2_bevy v z w s : z * z + w * w = 1 ->
  t2_of_bevy (bevy v z w s) = t2 (x3 v, y3 v) (2 * w * w - 1) (2 * w * z) (x3 s) (y3 s).
Proof. intro U. unfold t2_of_bevy, bevy; cbn [bt_tr bt_rot bt_scale]. rewrite rotor_planar by exact U. reflexivity. Qed.
Lemma unit_rotor z w : z * z + w * w = 1 -> (2 * w * w - 1) * (2 * w * w - 1) + (2 * w * z) * (2 * w * z) = 1.
Proof.
  intro U. assert (Z : z * z = 1 - w * w) by lra.
  replace ((2 * w * z) * (2 * w * z)) with (4 * w * w * (z * z)) by ring. rewrite Z. ring.
Qed.
Lemma bevy_unapply v z w s p : x3 s <> 0 -> y3 s <> 0 -> z3 s <> 0 ->
  unapply3 (bevy v z w s) (inj3 p) = inj3 (div3 (rq (- 0) (- 0) (- z) w (sub3 p v)) s).
Proof.
  intros. cbn [unapply3 Tr3_Bevy bt_rot bt_scale bt_tr bevy].
  rewrite qinv_fin, v3sub_fin, qrot_fin, v3div_fin by assumption. reflexivity.
Qed.
Lemma rq_planar z w p : z * z + w * w = 1 ->
  rq (- 0) (- 0) (- z) w p = ((2 * w * w - 1) * x3 p + 2 * w * z * y3 p, (2 * w * w - 1) * y3 p - 2 * w * z * x3 p, z3 p).
Proof.
  intro U. replace (2 * w * w - 1) with (w * w - z * z) by lra.
  transitivity ((w * w - z * z) * x3 p + 2 * w * z * y3 p, (w * w - z * z) * y3 p - 2 * w * z * x3 p, (z * z + w * w) * z3 p).
  - apply pt3_eq; v3; ring.
  - rewrite U, Rmult_1_l. reflexivity.
Qed.
Lemma rq_planar' z w p : z * z + w * w = 1 ->
  rq 0 0 z w p = ((2 * w * w - 1) * x3 p - 2 * w * z * y3 p, (2 * w * w - 1) * y3 p + 2 * w * z * x3 p, z3 p).
Proof.
  intro U. replace (2 * w * w - 1) with (w * w - z * z) by lra.
  transitivity ((w * w - z * z) * x3 p - 2 * w * z * y3 p, (w * w - z * z) * y3 p + 2 * w * z * x3 p, (z * z + w * w) * z3 p).
  - apply pt3_eq; v3; ring.
  - rewrite U, Rmult_1_l. reflexivity.
Qed.
Lemma bevy_inverse v z w s : z * z + w * w = 1 -> x3 s <> 0 -> y3 s <> 0 -> z3 s <> 0 ->
  inverse (bevy v z w s) =
    bevy (div3 (rq (- 0) (- 0) (- z) w (sub3 (0, 0, 0) v)) s) (- z) w (div3 (1, 1, 1) s).
Proof.
  intros U X Y Z.
  change (inverse (bevy v z w s)) with
    (BevyTransform (unapply3 (bevy v z w s) (inj3 (0, 0, 0))) (qinv (quat_of 0 0 z w)) (v3sdiv f1 (inj3 s))).
  rewrite bevy_unapply, v3sdiv_fin, qinv_fin by assumption. rewrite !Ropp_0. reflexivity.
Qed.
Lemma bevy_compose v z w s v' z' w' s' :
  compose (bevy v z w s) (bevy v' z' w' s') =
    bevy (add3 (rq 0 0 z w (mul3 s v')) v) (w * z' + z * w') (w * w' - z * z') (mul3 s s').
Proof.
  change (compose (bevy v z w s) (bevy v' z' w' s')) with
    (BevyTransform (apply3 (bevy v z w s) (inj3 v')) (qmul (quat_of 0 0 z w) (quat_of 0 0 z' w')) (v3mul (inj3 s) (inj3 s'))).
  unfold bevy at 2. f_equal.
  - cbn [apply3 Tr3_Bevy bt_rot bt_scale bt_tr bevy]. rewrite v3mul_fin, qrot_fin, v3add_fin. reflexivity.
  - unfold qmul, quat_of; cbn. f_equal; f_equal; ring.
Qed.

Lemma t2_bevy_inverse v z w s : z * z + w * w = 1 -> x3 s <> 0 -> y3 s <> 0 -> z3 s <> 0 ->
  t2_of_bevy (inverse (bevy v z w s)) = inverse (t2_of_bevy (bevy v z w s)).
Proof.
  intros U X Y Z. rewrite bevy_inverse by assumption.
  rewrite !t2_bevy by lra. rewrite inverse_t2 by assumption. rewrite rq_planar by exact U. v3.
  f_equal. all: try (f_equal; f_equal; field; assumption); try (field; assumption); try ring.
  all: try (unfold x3, y3, z3 in *; field; assumption).
Qed.
Lemma t2_bevy_compose v z w s v' z' w' s' : z * z + w * w = 1 -> z' * z' + w' * w' = 1 ->
  t2_of_bevy (compose (bevy v z w s) (bevy v' z' w' s')) = compose (t2_of_bevy (bevy v z w s)) (t2_of_bevy (bevy v' z' w' s')).
Proof.
  intros U U'. rewrite bevy_compose.
  rewrite !t2_bevy; [| exact U' | exact U |].
  2:{ replace ((w * z' + z * w') * (w * z' + z * w') + (w * w' - z * z') * (w * w' - z * z'))
        with ((z * z + w * w) * (z' * z' + w' * w')) by ring. rewrite U, U'. ring. }
  rewrite rq_planar' by exact U. unfold compose, Comp_Transform2d, t2, rotor_mul, rotor_rot, inj; cbn. v3.
  assert (Z : z * z = 1 - w * w) by lra. assert (Z' : z' * z' = 1 - w' * w') by lra.
  f_equal. f_equal. f_equal; f_equal.
  - replace (2 * (w * w' - z * z') * (w * w' - z * z')) with (2 * (w * w * w' * w' - 2 * w * w' * z * z' + (z * z) * (z' * z'))) by ring.
    replace ((2 * w * w - 1) * (2 * w' * w' - 1) - 2 * w * z * (2 * w' * z')) with
      ((2 * w * w - 1) * (2 * w' * w' - 1) - 4 * w * w' * z * z') by ring.
    rewrite Z, Z'. ring.
  - replace (2 * (w * w' - z * z') * (w * z' + z * w')) with
      (2 * (w * w * w' * z' + w * w' * w' * z - (z' * z') * z * w - (z * z) * z' * w')) by ring. rewrite Z, Z'. ring.
Qed.

(** The relative bevy transform is, seen in 2D, the relative Transform2d. *)
Theorem C53_bevy_delta : forall v z w s v' z' w' s', z * z + w * w = 1 -> z' * z' + w' * w' = 1 ->
  x3 s <> 0 -> y3 s <> 0 -> z3 s <> 0 ->
  let a := bevy v z w s in let b := bevy v' z' w' s' in
  t2_of_bevy (delta_transform a b) = delta_transform (t2_of_bevy a) (t2_of_bevy b) /\
  (forall p, apply a (inj p) = inj (place (x3 v, y3 v) (2 * w * w - 1) (2 * w * z) (x3 s) (y3 s) p)) /\
  (x3 s = y3 s -> forall p, apply a (apply (delta_transform a b) (inj p)) = apply b (inj p)).
Proof.
  intros v z w s v' z' w' s' U U' X Y Z a b.
  assert (E : t2_of_bevy (delta_transform a b) = delta_transform (t2_of_bevy a) (t2_of_bevy b)).
  { unfold delta_transform, a, b. rewrite <- (t2_bevy_inverse v z w s) by assumption.
    rewrite bevy_inverse by assumption. apply t2_bevy_compose; lra. }
  split; [exact E|]. split.
  - intro p. change (apply (t2_of_bevy a) (inj p) = inj (place (x3 v, y3 v) (2 * w * w - 1) (2 * w * z) (x3 s) (y3 s) p)).
    unfold a. rewrite t2_bevy by exact U. apply apply_t2.
  - intros XY p. change (apply (t2_of_bevy a) (apply (t2_of_bevy (delta_transform a b)) (inj p)) = apply (t2_of_bevy b) (inj p)).
    rewrite E. unfold a, b. rewrite !t2_bevy by assumption.
    apply t2_delta; auto using unit_rotor.
Qed.
Print Assumptions C53_bevy_delta.

(** Every Transformation2d method of a bevy transform with a rotation about z: points are scaled, turned and moved, unapply
    undoes apply, normals are only turned (and turned back), and the scaling factor is the greater scale. *)
Theorem C53_bevy_placement : forall v z w s, z * z + w * w = 1 -> x3 s <> 0 -> y3 s <> 0 ->
  let a := bevy v z w s in let c := 2 * w * w - 1 in let n := 2 * w * z in
  c * c + n * n = 1 /\
  (forall p, apply a (inj p) = inj (place (x3 v, y3 v) c n (x3 s) (y3 s) p) /\
     unapply a (apply a (inj p)) = inj p /\ apply a (unapply a (inj p)) = inj p /\
     apply_normal a (inj p) = inj (rotate c n p) /\ unapply_normal a (apply_normal a (inj p)) = inj p) /\
  apply_origin a = inj (x3 v, y3 v) /\ scaling_factor a = XFin (Rmax (x3 s) (y3 s)).
Proof.
  intros v z w s U X Y a c n. pose proof (unit_rotor z w U) as UR. fold c n in UR.
  pose proof (t2_bevy v z w s U) as E. fold a c n in E. split; [exact UR|]. split.
  - intro p.
    change (apply (t2_of_bevy a) (inj p) = inj (place (x3 v, y3 v) c n (x3 s) (y3 s) p) /\
       unapply (t2_of_bevy a) (apply (t2_of_bevy a) (inj p)) = inj p /\ apply (t2_of_bevy a) (unapply (t2_of_bevy a) (inj p)) = inj p /\
       apply_normal (t2_of_bevy a) (inj p) = inj (rotate c n p) /\ unapply_normal (t2_of_bevy a) (apply_normal (t2_of_bevy a) (inj p)) = inj p).
    rewrite E. destruct (t2_apply_unapply (x3 v, y3 v) c n (x3 s) (y3 s) UR X Y p) as (A & _ & B & B').
    split; [exact A|]. split; [exact B|]. split; [exact B'|].
    destruct (t2_normals (x3 v, y3 v) c n (x3 s) (y3 s) UR p p) as (N1 & _ & N3 & _).
    destruct (t2_normals (x3 v, y3 v) c n (x3 s) (y3 s) UR (rotate c n p) p) as (_ & N2 & _).
    split; [exact N1|]. rewrite N1, N2, N3. reflexivity.
  - change (apply_origin (t2_of_bevy a) = inj (x3 v, y3 v) /\ scaling_factor (t2_of_bevy a) = XFin (Rmax (x3 s) (y3 s))). rewrite E. split; [reflexivity | change (fmax (XFin (x3 s)) (XFin (y3 s)) = XFin (Rmax (x3 s) (y3 s))); unfold fmax; cbn; destruct (Rltb_spec (x3 s) (y3 s)); f_equal; symmetry; [apply Rmax_right | apply Rmax_left]; lra].
Qed.
Print Assumptions C53_bevy_placement.
Example C53_placement_case : apply (bevy (1, 2, 7) (3/5) (4/5) (2, 3, 1)) (inj (1, 1)) = inj (1 + 14/25 - 72/25, 2 + 48/25 + 21/25) /\
  unapply (bevy (1, 2, 7) (3/5) (4/5) (2, 3, 1)) (inj (1 + 14/25 - 72/25, 2 + 48/25 + 21/25)) = inj (1, 1).
Proof.
  destruct (C53_bevy_placement (1, 2, 7) (3/5) (4/5) (2, 3, 1) ltac:(lra) ltac:(unfold x3; cbn; lra) ltac:(unfold y3; cbn; lra)) as (_ & P & _).
  destruct (P (1, 1)) as (A & B & _). replace (1 + 14/25 - 72/25, 2 + 48/25 + 21/25) with
    (place (x3 (1, 2, 7), y3 (1, 2, 7)) (2 * (4/5) * (4/5) - 1) (2 * (4/5) * (3/5)) (x3 (2, 3, 1)) (y3 (2, 3, 1)) (1, 1)) by (apply pt_eq; cbn; v3; field).
  split; [exact A|]. rewrite <- A. exact B.
Qed.

(** The four collider queries give the same answers for bevy transforms and for the Transform2d they convert to. *)
Definition same_answers {A B} {S1 : SdfvCommonRel2d XR A B (bevy_transform XR)} {S2 : SdfvCommonRel2d XR A B (transform2d XR)}
  (a : A) (ta : bevy_transform XR) (b : B) (tb : bevy_transform XR) : Prop :=
  let a1 := Collider2d a ta in let b1 := Collider2d b tb in
  let a2 := Collider2d a (t2_of_bevy ta) in let b2 := Collider2d b (t2_of_bevy tb) in
  collides (F:=XR) a1 b1 = collides (F:=XR) a2 b2 /\ penetrates (F:=XR) a1 b1 = penetrates (F:=XR) a2 b2 /\
  distance_to (F:=XR) a1 b1 = distance_to (F:=XR) a2 b2 /\ sdfv (F:=XR) a1 b1 = sdfv (F:=XR) a2 b2.

Lemma same_from_rel {A B} {S1 : SdfvCommonRel2d XR A B (bevy_transform XR)} {S2 : SdfvCommonRel2d XR A B (transform2d XR)}
  (a : A) ta (b : B) tb :
  t2_of_bevy (delta_transform ta tb) = delta_transform (t2_of_bevy ta) (t2_of_bevy tb) ->
  (forall P D, @sdfv_common_rel _ _ _ _ S1 P D a b (delta_transform ta tb) = @sdfv_common_rel _ _ _ _ S2 P D a b (t2_of_bevy (delta_transform ta tb))) ->
  same_answers a ta b tb.
Proof.
  intros E H. unfold same_answers, collides, penetrates, distance_to, sdfv, collides_rel, penetrates_rel, distance_to_rel, sdfv_rel.
  cbn [c_shape c_transform]. rewrite <- E, !H. repeat split.
Qed.

Lemma bevy_minkowski {A B} {EA : ExtremePoint2d XR A} {EB : ExtremePoint2d XR B} P D (a : A) (b : B) (rel : bevy_transform XR) :
  minkowski_sdfv (F:=XR) P D a b rel = minkowski_sdfv (F:=XR) P D a b (t2_of_bevy rel).
Proof. unfold minkowski_sdfv. reflexivity. Qed.

Theorem C53_bevy_queries : forall v z w s v' z' w' s', z * z + w * w = 1 -> z' * z' + w' * w' = 1 ->
  x3 s <> 0 -> y3 s <> 0 -> z3 s <> 0 -> x3 s' <> 0 -> y3 s' <> 0 -> z3 s' <> 0 ->
  let ta := bevy v z w s in let tb := bevy v' z' w' s' in
  (forall a b : shape2d XR, same_answers a ta b tb) /\
  (forall a b : box2d XR, same_answers a ta b tb) /\ (forall (a : box2d XR) (b : poly2d XR), same_answers a ta b tb) /\
  (forall (a : poly2d XR) (b : box2d XR), same_answers a ta b tb) /\ (forall a b : poly2d XR, same_answers a ta b tb) /\
  (forall (a : ball XR) (b : box2d XR), same_answers a ta b tb) /\ (forall (a : box2d XR) (b : ball XR), same_answers a ta b tb) /\
  (forall a b : ball XR, same_answers a ta b tb) /\ (forall (a : box2d XR) (b : point_shape), same_answers a ta b tb) /\
  (forall (a : ball XR) (b : point_shape), same_answers a ta b tb) /\
  (forall (a : point_shape) (b : box2d XR), same_answers a ta b tb) /\
  (forall (a : point_shape) (b : ball XR), same_answers a ta b tb) /\
  (forall a b : point_shape, same_answers a ta b tb).
Proof.
  intros v z w s v' z' w' s' U U' X Y Z X' Y' Z' ta tb.
  destruct (C53_bevy_delta v z w s v' z' w' s' U U' X Y Z) as [E _]. fold ta tb in E.
  assert (I : t2_of_bevy (inverse (delta_transform ta tb)) = inverse (t2_of_bevy (delta_transform ta tb))).
  { unfold delta_transform, ta, tb. rewrite bevy_inverse, bevy_compose by assumption. apply t2_bevy_inverse.
    - replace ((w * z' + - z * w') * (w * z' + - z * w') + (w * w' - - z * z') * (w * w' - - z * z'))
        with ((z * z + w * w) * (z' * z' + w' * w')) by ring. rewrite U, U'; ring.
    - clear - X X'. unfold mul3, div3, x3 in *; cbn [fst snd]. apply Rmult_integral_contrapositive_currified; [|exact X'].
      apply Rmult_integral_contrapositive_currified; [lra | apply Rinv_neq_0_compat; exact X].
    - clear - Y Y'. unfold mul3, div3, y3 in *; cbn [fst snd]. apply Rmult_integral_contrapositive_currified; [|exact Y'].
      apply Rmult_integral_contrapositive_currified; [lra | apply Rinv_neq_0_compat; exact Y].
    - clear - Z Z'. unfold mul3, div3, z3 in *; cbn [fst snd]. apply Rmult_integral_contrapositive_currified; [|exact Z'].
      apply Rmult_integral_contrapositive_currified; [lra | apply Rinv_neq_0_compat; exact Z]. }
  clearbody ta tb. clear - E I.
  repeat match goal with |- _ /\ _ => split end; intros a b; apply (same_from_rel a ta b tb E); intros P D; revert I; generalize (delta_transform ta tb); intros rel I.
  1-6: apply bevy_minkowski.
  1-4, 7: reflexivity.
  all: unfold sdfv_common_rel, Sdfv_PointBox, Sdfv_PointBall, reverse_sdfv; rewrite <- I; reflexivity.
Qed.
Print Assumptions C53_bevy_queries.

(** Non-vacuity: a turned, scaled sprite. *)
Example C53_case : (3/5) * (3/5) + (4/5) * (4/5) = 1 /\
  t2_of_bevy (bevy (1, 2, 7) (3/5) (4/5) (2, 3, 1)) = t2 (1, 2) (7/25) (24/25) 2 3.
Proof. split; [lra|]. rewrite t2_bevy by lra. unfold t2, inj; cbn. v3. f_equal. f_equal. f_equal; f_equal; field. Qed.

(** A transform that is flat in z (scale z = 0, position on the plane) makes every relative position NaN: a box does not
    even collide with a point at its own centre. *)
Theorem C53_bevy_flat_scale_refuted : forall v v' : pt, forall P D,
  let a := BevyTransform (inj3 (fst v, snd v, 0)) (quat_of 0 0 0 1) (inj3 (1, 1, 0)) in
  let b := BevyTransform (inj3 (fst v', snd v', 0)) (quat_of 0 0 0 1) (inj3 (1, 1, 0)) in
  apply_origin (delta_transform a b) = V2 XNaN XNaN /\
  (forall h, fst (box_point_sdfv P D (Box2d h) (delta_transform a b)) = false) /\
  (forall hx hy, 0 < hx -> 0 < hy ->
     collides (F:=XR) (Collider2d (pbox hx hy) (t2_of_bevy a)) (Collider2d PointS (t2_of_bevy a)) = Ok true /\
     collides (F:=XR) (Collider2d (pbox hx hy) a) (Collider2d PointS a) = Ok false).
Proof.
  intros v v' P D a b.
  assert (O : forall v v' : pt, apply_origin (delta_transform (BevyTransform (inj3 (fst v, snd v, 0)) (quat_of 0 0 0 1) (inj3 (1, 1, 0)))
      (BevyTransform (inj3 (fst v', snd v', 0)) (quat_of 0 0 0 1) (inj3 (1, 1, 0)))) = V2 XNaN XNaN).
  { clear. intros [p q] [p' q'].
    unfold delta_transform, inverse, Inv_Bevy, compose, Comp_Bevy. cbn -[Reqb Rltb Rmult Rplus Ropp Rminus Rdiv].
    unfold v3sdiv, v3div, v3sub, v3mul, inj3, x3, y3, z3, qinv, quat_of, v3zero; cbn [fst snd wx wy wz qx qy qz qw].
    cbn [fdiv fmul fsub FloatXR f1 f0 xdiv xmul xsub].
    rewrite !(Reqb_true 0 0) by reflexivity. rewrite !(Reqb_false 1 0) by lra. cbn [xdiv xmul xsub].
    rewrite !(Reqb_true 0 0) by reflexivity.
    unfold to_vec2, qrot, v3add, v3muls, v3dot, v3cross; cbn.
    rewrite ?Ropp_0. rewrite ?(Reqb_true 0 0) by reflexivity. cbn.
    reflexivity. }
  split; [apply O|]. split.
  - intro h. unfold box_point_sdfv. unfold a, b. rewrite O. destruct h as [hx hy].
    cbn. destruct hx, hy; cbn; reflexivity.
  - intros hx hy Hx Hy. split.
    + unfold a. change (quat_of 0 0 0 1) with (quat_of 0 0 0 1).
      fold (bevy (fst v, snd v, 0) 0 1 (1, 1, 0)). rewrite t2_bevy by lra.
      unfold collides, collides_rel, sdfv_common_rel, Sdfv_BoxPoint. cbn [c_shape c_transform rmap].
      unfold delta_transform. rewrite inverse_t2 by (v3; lra).
      unfold box_point_sdfv, compose, Comp_Transform2d. cbn [apply_origin Tr_Transform2d t_pos].
      cbn -[Reqb Rltb Rmult Rplus Ropp Rminus Rdiv]. v3.
      set (e1 := Rabs _ - hx). set (e2 := Rabs _ - hy).
      assert (E1 : e1 = - hx). { unfold e1. match goal with |- Rabs ?t - _ = _ => replace t with 0 by (field) end. rewrite Rabs_R0; ring. }
      assert (E2 : e2 = - hy). { unfold e2. match goal with |- Rabs ?t - _ = _ => replace t with 0 by (field) end. rewrite Rabs_R0; ring. }
      rewrite E1, E2, !Rltb_true by lra. reflexivity.
    + unfold collides, collides_rel, sdfv_common_rel, Sdfv_BoxPoint, box_point_sdfv. cbn [c_shape c_transform rmap].
      unfold a. rewrite O. cbn. reflexivity.
Qed.
Print Assumptions C53_bevy_flat_scale_refuted.
