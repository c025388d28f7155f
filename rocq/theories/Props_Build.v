(** * Property theorems C50: constructing a Transform2d *)
From Coq Require Import Reals Lra List.
From Verif Require Import Num NumXR Glam Transform2 Shapes2 Angle Spec SpecLink P_Base P_Transform.
Import ListNotations.
Local Open Scope R_scope.

(** [t] scales by (sx, sy), then rotates by the angle a, then translates by v; directions are only rotated. *)
Definition performs (t : transform2d XR) (v : pt) (a sx sy : R) : Prop :=
  (forall p, apply t (inj p) = inj (place v (cos a) (sin a) sx sy p)) /\
  (forall n, apply_normal t (inj n) = inj (rotate (cos a) (sin a) n)) /\
  apply_origin t = inj v.

(** C50: each constructor performs one kind of motion and no other *)
Theorem C50_constructors : forall v a sx sy,
  performs t2_identity origin 0 1 1 /\
  performs (t2_from_translation (inj v)) v 0 1 1 /\
  performs (t2_from_angle (XFin a)) origin a 1 1 /\
  performs (t2_from_rotation (rotor_from_angle (XFin a))) origin a 1 1 /\
  performs (t2_from_scale (inj (sx, sy))) origin 0 sx sy.
Proof.
  intros v a sx sy. unfold performs. rewrite sin_0, cos_0.
  repeat split; intros; apply vec_ext; cbn; f_equal; ring.
Qed.
Print Assumptions C50_constructors.

(** One call of a builder method. *)
Inductive setting := SetTranslation (v : pt) | SetAngle (a : R) | SetRotation (a : R) | SetScale (sx sy : R).
(** the method called (with_rotation with the rotor of the given angle) *)
Definition build (t : transform2d XR) (x : setting) : transform2d XR :=
  match x with
  | SetTranslation v => t2_with_translation t (inj v)
  | SetAngle a => t2_with_angle t (XFin a)
  | SetRotation a => t2_with_rotation t (rotor_from_angle (XFin a))
  | SetScale sx sy => t2_with_scale t (inj (sx, sy))
  end.
(** the value set last, or the default *)
Fixpoint last_set {X} (f : setting -> option X) (dflt : X) (l : list setting) : X :=
  match l with
  | [] => dflt
  | x :: l' => last_set f (match f x with Some y => y | None => dflt end) l'
  end.
Definition translation_of x := match x with SetTranslation v => Some v | _ => None end.
Definition angle_of x := match x with SetAngle a | SetRotation a => Some a | _ => None end.
Definition scale_of x := match x with SetScale sx sy => Some (sx, sy) | _ => None end.

Lemma build_chain l : forall v a sc, fold_left build l (t2 v (cos a) (sin a) (fst sc) (snd sc)) =
  let a' := last_set angle_of a l in let sc' := last_set scale_of sc l in
  t2 (last_set translation_of v l) (cos a') (sin a') (fst sc') (snd sc').
Proof.
  induction l as [|x l IH]; intros v a sc; [reflexivity|]. cbn [fold_left last_set].
  destruct x as [w|b|b|sx sy]; cbn [translation_of angle_of scale_of].
  - exact (IH w a sc).
  - exact (IH v b sc).
  - exact (IH v b sc).
  - exact (IH v a (sx, sy)).
Qed.
(** C50: after any chain of builder calls the transform performs what was set last in each of the three components,
    and keeps the starting transform's motion in the components never set: builders do not disturb each other. *)
Theorem C50_builders : forall l v a sx sy,
  performs (fold_left build l (t2 v (cos a) (sin a) sx sy))
    (last_set translation_of v l) (last_set angle_of a l)
    (fst (last_set scale_of (sx, sy) l)) (snd (last_set scale_of (sx, sy) l)).
Proof.
  intros l v a sx sy. change sx with (fst (sx, sy)) at 1. change sy with (snd (sx, sy)) at 2. rewrite build_chain. cbv zeta.
  repeat split; intros; apply vec_ext; cbn; f_equal; ring.
Qed.
Print Assumptions C50_builders.
(** From the default transform: with_translation, with_angle and with_scale in any order. *)
Theorem C50_builders_from_identity : forall l,
  performs (fold_left build l t2_identity) (last_set translation_of origin l) (last_set angle_of 0 l)
    (fst (last_set scale_of (1, 1) l)) (snd (last_set scale_of (1, 1) l)).
Proof.
  intro l. replace t2_identity with (t2 origin (cos 0) (sin 0) 1 1) by (rewrite cos_0, sin_0; reflexivity). apply C50_builders.
Qed.
Print Assumptions C50_builders_from_identity.
(** non-vacuity: rotate by a quarter turn, scale, translate, then change the translation *)
Example C50_example : apply (fold_left build [SetAngle (PI / 2); SetTranslation (7, 7); SetScale 2 3; SetTranslation (1, 0)] t2_identity) (inj (1, 1)) = inj (-2, 2).
Proof.
  destruct (C50_builders_from_identity [SetAngle (PI / 2); SetTranslation (7, 7); SetScale 2 3; SetTranslation (1, 0)]) as (H & _).
  rewrite H. cbn [last_set translation_of angle_of scale_of fst snd]. unfold place. cbn [fst snd]. rewrite cos_PI2, sin_PI2. f_equal. apply pt_eq; cbn; ring.
Qed.
