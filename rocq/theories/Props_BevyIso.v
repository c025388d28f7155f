(** * C73: the conversion of Bevy's Transform into Isotropic3d (feature bevy; see Extra2.v). *)
From Coq Require Import Reals Lra.
From Verif Require Import Num NumXR Glam Transform2 Shapes2 Gjk Detect2 Misc Col3 Extra2 Spec SpecLink P_Base P_Transform P_Geo3 P_3d Props_3dTransform.
Local Open Scope R_scope.

(** For a uniform scale the conversion changes nothing at all, whatever the scalars (exact, f32, not finite): every point is moved to the same place, and
    inverse, composition and relative pose commute with it. *)
Theorem C73_uniform : forall (F : Type) (FL : Float F) (tr tr' : vec3 F) (q q' : quat F) (k k' : F),
  let a := BevyTransform tr q (V3 k k k) in let b := BevyTransform tr' q' (V3 k' k' k') in
  (forall p, apply3 (iso_of_bevy a) p = apply3 a p /\ unapply3 (iso_of_bevy a) p = unapply3 a p) /\ apply_origin3 (iso_of_bevy a) = apply_origin3 a /\
  iso_of_bevy (inverse a) = inverse (iso_of_bevy a) /\ iso_of_bevy (compose a b) = compose (iso_of_bevy a) (iso_of_bevy b) /\
  iso_of_bevy (delta_transform a b) = delta_transform (iso_of_bevy a) (iso_of_bevy b).
Proof. intros. repeat split; reflexivity. Qed.
Print Assumptions C73_uniform.
(** Exactly then: if the two placements move every point alike, the scale is uniform. *)
Theorem C73_only_uniform : forall v x y z w s, unit_quat x y z w -> let a := BevyTransform (inj3 v) (quat_of x y z w) (inj3 s) in
  ((forall p, apply3 (iso_of_bevy a) (inj3 p) = apply3 a (inj3 p)) <-> x3 s = y3 s /\ y3 s = z3 s).
Proof.
  intros v x y z w s U a.
  assert (E1 : forall p, apply3 (iso_of_bevy a) (inj3 p) = inj3 (add3 (rq x y z w (scale3 (x3 s) p)) v)).
  { intro p. change (apply3 (iso_of_bevy a) (inj3 p)) with (v3add (qrot (quat_of x y z w) (v3smul (XFin (x3 s)) (inj3 p))) (inj3 v)). rewrite v3smul_fin, qrot_fin, v3add_fin. reflexivity. }
  assert (E2 : forall p, apply3 a (inj3 p) = inj3 (add3 (rq x y z w (mul3 s p)) v)).
  { intro p. change (apply3 a (inj3 p)) with (v3add (qrot (quat_of x y z w) (v3mul (inj3 s) (inj3 p))) (inj3 v)). rewrite v3mul_fin, qrot_fin, v3add_fin. reflexivity. }
  split.
  - intro H. assert (K : forall p, scale3 (x3 s) p = mul3 s p).
    { intro p. specialize (H p). rewrite E1, E2 in H. apply inj3_inj in H. assert (E : rq x y z w (scale3 (x3 s) p) = rq x y z w (mul3 s p)).
      { set (l := rq x y z w (scale3 (x3 s) p)) in * . set (r := rq x y z w (mul3 s p)) in * . clearbody l r. destruct l as [[l1 l2] l3], r as [[r1 r2] r3], v as [[v1 v2] v3]. unfold add3, x3, y3, z3 in H. cbn [fst snd] in H. injection H as A B C. f_equal; [f_equal|]; lra. }
      rewrite <- (proj1 (rq_inv x y z w (scale3 (x3 s) p) U)), <- (proj1 (rq_inv x y z w (mul3 s p) U)), E. reflexivity. }
    pose proof (K (0, 1, 0)) as A. pose proof (K (0, 0, 1)) as B. apply (f_equal y3) in A. apply (f_equal z3) in B. unfold scale3, mul3, x3, y3, z3 in A, B. cbn [fst snd] in A, B. unfold x3, y3, z3. lra.
  - intros (A & B) p. rewrite E1, E2. do 3 f_equal. unfold scale3, mul3. rewrite <- B, <- A. reflexivity.
Qed.
Print Assumptions C73_only_uniform.
(** a doubled y scale is lost *)
Example C73_scale_refuted : let a := BevyTransform (inj3 (0, 0, 0)) (quat_of 0 0 0 1) (inj3 (1, 2, 1)) in
  apply3 a (inj3 (0, 1, 0)) = inj3 (0, 2, 0) /\ apply3 (iso_of_bevy a) (inj3 (0, 1, 0)) = inj3 (0, 1, 0).
Proof.
  cbv zeta. split.
  - change (v3add (qrot (quat_of 0 0 0 1) (v3mul (inj3 (1, 2, 1)) (inj3 (0, 1, 0)))) (inj3 (0, 0, 0)) = inj3 (0, 2, 0)). rewrite v3mul_fin, qrot_fin, v3add_fin. f_equal. apply pt3_eq; v3; ring.
  - change (v3add (qrot (quat_of 0 0 0 1) (v3smul (XFin 1) (inj3 (0, 1, 0)))) (inj3 (0, 0, 0)) = inj3 (0, 1, 0)). rewrite v3smul_fin, qrot_fin, v3add_fin. f_equal. apply pt3_eq; v3; ring.
Qed.
