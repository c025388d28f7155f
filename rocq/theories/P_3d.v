(** * 3D transformations over the reals. *)
From Coq Require Import Reals Lra Psatz Bool.
From Verif Require Import Num NumXR Glam Transform2 Shapes2 Gjk Detect2 Col3 Spec SpecLink P_Geo3.
Local Open Scope R_scope.

Lemma vec3_ext {F} (a b : vec3 F) : wx a = wx b -> wy a = wy b -> wz a = wz b -> a = b.
Proof. destruct a, b; cbn; congruence. Qed.

(** the quaternion action on real points *)
Definition rq (x y z w : R) (p : pt3) : pt3 :=
  add3 (add3 (scale3 (w * w - (x * x + y * y + z * z)) p)
             (scale3 (dot3 p (x, y, z) * 2) (x, y, z)))
       (scale3 (w * 2) (cross3 (x, y, z) p)).
Definition mul3 (p q : pt3) : pt3 := (x3 p * x3 q, y3 p * y3 q, z3 p * z3 q).
Definition div3 (p q : pt3) : pt3 := (x3 p / x3 q, y3 p / y3 q, z3 p / z3 q).

Ltac v3 := unfold inj3, rq, mul3, div3, cross3, add3, sub3, neg3, scale3, dot3, x3, y3, z3; cbn [fst snd].
Ltac w3 := unfold inj3, mul3, div3, add3, sub3, neg3, scale3, x3, y3, z3; cbn [fst snd].

Lemma qrot_fin x y z w p : qrot (quat_of x y z w) (inj3 p) = inj3 (rq x y z w p).
Proof. apply vec3_ext; cbn; v3; f_equal; ring. Qed.
Lemma qinv_fin x y z w : qinv (quat_of x y z w) = quat_of (- x) (- y) (- z) w.
Proof. reflexivity. Qed.
Lemma qmul_fin x y z w x' y' z' w' : exists a b c d,
  qmul (quat_of x y z w) (quat_of x' y' z' w') = quat_of a b c d /\
  (forall p, rq a b c d p = rq x y z w (rq x' y' z' w' p)) /\
  a * a + b * b + c * c + d * d = (x * x + y * y + z * z + w * w) * (x' * x' + y' * y' + z' * z' + w' * w').
Proof.
  do 4 eexists. split; [unfold qmul, quat_of; cbn; reflexivity|]. split.
  - intro p. apply pt3_eq; v3; ring.
  - ring.
Qed.
Lemma rq_inv x y z w p : x * x + y * y + z * z + w * w = 1 ->
  rq (- x) (- y) (- z) w (rq x y z w p) = p /\ rq x y z w (rq (- x) (- y) (- z) w p) = p.
Proof.
  intro U.
  assert (E : rq (- x) (- y) (- z) w (rq x y z w p)
    = scale3 ((x * x + y * y + z * z + w * w) * (x * x + y * y + z * z + w * w)) p) by (apply pt3_eq; v3; ring).
  assert (E' : rq x y z w (rq (- x) (- y) (- z) w p)
    = scale3 ((x * x + y * y + z * z + w * w) * (x * x + y * y + z * z + w * w)) p) by (apply pt3_eq; v3; ring).
  rewrite E, E', U. split; apply pt3_eq; v3; ring.
Qed.
Lemma rq_norm x y z w p : x * x + y * y + z * z + w * w = 1 -> norm3 (rq x y z w p) = norm3 p.
Proof.
  intro U. unfold norm3. f_equal.
  transitivity ((x * x + y * y + z * z + w * w) * (x * x + y * y + z * z + w * w) * dot3 p p).
  - v3; ring.
  - rewrite U; ring.
Qed.
Lemma rq_rodrigues u t p : dot3 u u = 1 ->
  rq (sin (t / 2) * x3 u) (sin (t / 2) * y3 u) (sin (t / 2) * z3 u) (cos (t / 2)) p = rotate3 u t p.
Proof.
  intro U.
  assert (C : cos t = cos (t / 2) * cos (t / 2) - sin (t / 2) * sin (t / 2)).
  { replace t with (2 * (t / 2)) at 1 by field. apply cos_2a. }
  assert (S : sin t = 2 * sin (t / 2) * cos (t / 2)).
  { replace t with (2 * (t / 2)) at 1 by field. apply sin_2a. }
  assert (O : 1 - cos t = 2 * (sin (t / 2) * sin (t / 2))).
  { pose proof (sin2_cos2 (t / 2)) as Q. unfold Rsqr in Q. lra. }
  unfold rotate3. rewrite O. rewrite C, S.
  set (s := sin (t / 2)) in * . set (c := cos (t / 2)) in * . clearbody s c.
  destruct u as [[a b] d]. unfold dot3, x3, y3, z3 in U; cbn [fst snd] in U.
  transitivity (add3 (add3 (scale3 (c * c - s * s * (a * a + b * b + d * d)) p) (scale3 (2 * s * c) (cross3 (a, b, d) p)))
     (scale3 (2 * (s * s) * dot3 (a, b, d) p) (a, b, d))).
  - apply pt3_eq; v3; ring.
  - rewrite U, Rmult_1_r. reflexivity.
Qed.

(** linearity *)
Lemma rq_scale k x y z w p : rq x y z w (scale3 k p) = scale3 k (rq x y z w p).
Proof. apply pt3_eq; v3; ring. Qed.
Lemma rq_add x y z w p q : rq x y z w (add3 p q) = add3 (rq x y z w p) (rq x y z w q).
Proof. apply pt3_eq; v3; ring. Qed.

(** finite values *)
Lemma v3add_fin p q : v3add (inj3 p) (inj3 q) = inj3 (add3 p q).
Proof. reflexivity. Qed.
Lemma v3sub_fin p q : v3sub (inj3 p) (inj3 q) = inj3 (sub3 p q).
Proof. reflexivity. Qed.
Lemma v3neg_fin p : v3neg (inj3 p) = inj3 (neg3 p).
Proof. reflexivity. Qed.
Lemma v3smul_fin k p : v3smul (XFin k) (inj3 p) = inj3 (scale3 k p).
Proof. reflexivity. Qed.
Lemma v3muls_fin k p : v3muls (inj3 p) (XFin k) = inj3 (scale3 k p).
Proof. apply vec3_ext; cbn; f_equal; v3; ring. Qed.
Lemma v3mul_fin p q : v3mul (inj3 p) (inj3 q) = inj3 (mul3 p q).
Proof. reflexivity. Qed.
Lemma v3divs_fin k p : k <> 0 -> v3divs (inj3 p) (XFin k) = inj3 (scale3 (1 / k) p).
Proof. intro K. apply vec3_ext; cbn; rewrite (Reqb_false k 0 K); f_equal; v3; field; exact K. Qed.
Lemma v3div_fin p q : x3 q <> 0 -> y3 q <> 0 -> z3 q <> 0 -> v3div (inj3 p) (inj3 q) = inj3 (div3 p q).
Proof. intros. apply vec3_ext; cbn; rewrite Reqb_false by assumption; reflexivity. Qed.
Lemma v3sdiv_fin q : x3 q <> 0 -> y3 q <> 0 -> z3 q <> 0 -> v3sdiv f1 (inj3 q) = inj3 (div3 (1, 1, 1) q).
Proof. intros. apply vec3_ext; cbn; rewrite Reqb_false by assumption; reflexivity. Qed.
Lemma fdiv_fin a b : b <> 0 -> fdiv (XFin a) (XFin b) = XFin (a / b).
Proof. intro B. cbn. rewrite (Reqb_false b 0 B). reflexivity. Qed.
