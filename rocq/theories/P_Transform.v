(** * Transformations over exact scalars: proofs for C01, C03-C10. *)
From Coq Require Import Reals Lra Psatz.
From Verif Require Import Num NumXR Glam Transform2 Angle Spec SpecLink P_Base.
Local Open Scope R_scope.


Lemma xdiv_fin a b : b <> 0 -> xdiv (XFin a) (XFin b) = XFin (a / b).
Proof. intro H. cbn. rewrite Reqb_false by exact H. reflexivity. Qed.
Lemma inj_eq p q : fst p = fst q -> snd p = snd q -> inj p = inj q.
Proof. intros H1 H2. unfold inj. rewrite H1, H2. reflexivity. Qed.
Lemma vec_ext (v w : vec2 XR) : vx v = vx w -> vy v = vy w -> v = w.
Proof. destruct v, w; cbn; congruence. Qed.
Ltac injtac := unfold inj; cbn; f_equal; f_equal; try (cbn; field; try lra; try assumption).

Lemma apply_t2 v c s sx sy p : apply (t2 v c s sx sy) (inj p) = inj (place v c s sx sy p).
Proof. unfold t2; cbn. apply vec_ext; cbn; f_equal; cbn; ring. Qed.

(** the inverse motion *)
Definition unplace (v : pt) (c s sx sy : R) (p : pt) : pt :=
  ((c * (fst p - fst v) + s * (snd p - snd v)) / sx, (c * (snd p - snd v) - s * (fst p - fst v)) / sy).

Lemma unapply_t2 v c s sx sy p : sx <> 0 -> sy <> 0 ->
  unapply (t2 v c s sx sy) (inj p) = inj (unplace v c s sx sy p).
Proof.
  intros Hx Hy. unfold t2. unfold unapply, Tr_Transform2d, v2div, rotor_rot, rotor_inverse, v2sub, t_rot, t_scale, t_pos.
  unfold fdiv, fmul, fsub, fadd, fneg, FloatXR. cbn [ra vx vy inj fst snd xneg xsub xmul xadd].
  rewrite !xdiv_fin by assumption. apply vec_ext; cbn; f_equal; cbn; f_equal; ring.
Qed.

Lemma unplace_place v c s sx sy p : c * c + s * s = 1 -> sx <> 0 -> sy <> 0 ->
  unplace v c s sx sy (place v c s sx sy p) = p.
Proof.
  intros H Hx Hy. apply pt_eq; cbn.
  - apply Rmult_eq_reg_r with sx; [|assumption]. unfold Rdiv. rewrite Rmult_assoc, Rinv_l, Rmult_1_r by assumption.
    transitivity ((c * c + s * s) * (sx * fst p)); [ring | rewrite H; ring].
  - apply Rmult_eq_reg_r with sy; [|assumption]. unfold Rdiv. rewrite Rmult_assoc, Rinv_l, Rmult_1_r by assumption.
    transitivity ((c * c + s * s) * (sy * snd p)); [ring | rewrite H; ring].
Qed.
Lemma place_unplace v c s sx sy p : c * c + s * s = 1 -> sx <> 0 -> sy <> 0 ->
  place v c s sx sy (unplace v c s sx sy p) = p.
Proof.
  intros H Hx Hy. unfold place, unplace; cbn [fst snd].
  replace (sx * ((c * (fst p - fst v) + s * (snd p - snd v)) / sx)) with (c * (fst p - fst v) + s * (snd p - snd v)) by (field; repeat split; assumption).
  replace (sy * ((c * (snd p - snd v) - s * (fst p - fst v)) / sy)) with (c * (snd p - snd v) - s * (fst p - fst v)) by (field; repeat split; assumption).
  apply pt_eq; cbn.
  - transitivity ((c * c + s * s) * (fst p - fst v) + fst v); [ring | rewrite H; ring].
  - transitivity ((c * c + s * s) * (snd p - snd v) + snd v); [ring | rewrite H; ring].
Qed.

Lemma compose_t2 v c s sx sy v' c' s' sx' sy' :
  compose (t2 v c s sx sy) (t2 v' c' s' sx' sy') =
  t2 (place v c s sx sy v') (c * c' - s * s') (c * s' + s * c') (sx * sx') (sy * sy').
Proof.
  unfold compose, Comp_Transform2d. unfold t2 at 1 3. cbn [t_pos t_rot t_scale].
  fold (t2 v c s sx sy). change (t_pos (t2 v' c' s' sx' sy')) with (inj v'). rewrite apply_t2. reflexivity.
Qed.
Lemma inverse_t2 v c s sx sy : sx <> 0 -> sy <> 0 ->
  inverse (t2 v c s sx sy) = t2 (unplace v c s sx sy origin) c (- s) (1 / sx) (1 / sy).
Proof.
  intros Hx Hy. unfold inverse, Inv_Transform2d. rewrite v2zero_inj, unapply_t2 by assumption.
  unfold t2; cbn [t_pos t_rot t_scale]. f_equal. unfold v2sdiv, inj; cbn [vx vy fst snd].
  change fdiv with xdiv. change (f1 (F:=XR)) with (XFin 1). rewrite !xdiv_fin by assumption. reflexivity.
Qed.

(** ** C04 *)
Lemma t2_apply_unapply v c s sx sy : c * c + s * s = 1 -> sx <> 0 -> sy <> 0 -> forall p,
  apply (t2 v c s sx sy) (inj p) = inj (place v c s sx sy p) /\
  apply_origin (t2 v c s sx sy) = apply (t2 v c s sx sy) (inj origin) /\
  unapply (t2 v c s sx sy) (apply (t2 v c s sx sy) (inj p)) = inj p /\
  apply (t2 v c s sx sy) (unapply (t2 v c s sx sy) (inj p)) = inj p.
Proof.
  intros H Hx Hy p. rewrite !apply_t2. rewrite !unapply_t2 by assumption. rewrite apply_t2.
  rewrite unplace_place, place_unplace by assumption. repeat split.
  unfold t2; cbn. apply vec_ext; cbn; f_equal; cbn; ring.
Qed.

(** ** C05 *)
Lemma t2_compose_iff v c s sx sy v' c' s' sx' sy' : c * c + s * s = 1 ->
  (forall p, apply (compose (t2 v c s sx sy) (t2 v' c' s' sx' sy')) (inj p)
             = apply (t2 v c s sx sy) (apply (t2 v' c' s' sx' sy') (inj p)))
  <-> (sx = sy \/ s' = 0 \/ (sx' = 0 /\ sy' = 0)).
Proof.
  intro H. rewrite compose_t2. split.
  - intro L.
    assert (E : forall p, (sx - sy) * s' * sx' * fst p = 0 /\ (sx - sy) * s' * sy' * snd p = 0).
    { intro p. specialize (L p). rewrite !apply_t2 in L. apply inj_inj in L.
      pose proof (f_equal fst L) as L1. pose proof (f_equal snd L) as L2. clear L. cbn in L1, L2.
      set (u := (sx - sy) * s' * sx' * fst p). set (w := (sx - sy) * s' * sy' * snd p).
      assert (E1 : c * w - s * u = 0) by (unfold u, w; lra).
      assert (E2 : c * u + s * w = 0) by (unfold u, w; lra).
      split.
      - transitivity ((c * c + s * s) * u); [rewrite H; ring|].
        transitivity (c * (c * u + s * w) - s * (c * w - s * u)); [ring|]. rewrite E1, E2; ring.
      - transitivity ((c * c + s * s) * w); [rewrite H; ring|].
        transitivity (c * (c * w - s * u) + s * (c * u + s * w)); [ring|]. rewrite E1, E2; ring. }
    destruct (E (1, 1)) as [E1 E2]. cbn in E1, E2. rewrite Rmult_1_r in E1, E2.
    destruct (Req_dec sx sy) as [|N]; [left; assumption|]. destruct (Req_dec s' 0) as [|N2]; [right; left; assumption|].
    right; right. assert (N3 : (sx - sy) * s' <> 0) by (apply Rmult_integral_contrapositive; split; lra).
    split; (eapply Rmult_eq_reg_l; [|exact N3]); rewrite Rmult_0_r; assumption.
  - intros D p. rewrite !apply_t2. f_equal.
    destruct D as [->|[->|[-> ->]]]; apply pt_eq; cbn; ring.
Qed.

(** ** C06 *)
Lemma t2_inverse_iff v c s sx sy : c * c + s * s = 1 -> sx <> 0 -> sy <> 0 ->
  (forall p, apply (inverse (t2 v c s sx sy)) (apply (t2 v c s sx sy) (inj p)) = inj p)
  <-> (sx = sy \/ s = 0).
Proof.
  intros H Hx Hy. rewrite inverse_t2 by assumption. split.
  - intro L.
    assert (E : forall p q, fst (place (unplace v c s sx sy origin) c (- s) (1 / sx) (1 / sy) (place v c s sx sy p)) - fst p
                   = fst (place (unplace v c s sx sy origin) c (- s) (1 / sx) (1 / sy) (place v c s sx sy q)) - fst q).
    { intros p q. pose proof (L p) as Lp; pose proof (L q) as Lq. rewrite !apply_t2 in Lp, Lq.
      apply inj_inj in Lp; apply inj_inj in Lq. rewrite Lp, Lq. ring. }
    specialize (E (1, 0) (0, 0)). cbn in E.
    assert (E' : s * s * (sx - sy) = 0).
    { apply Rmult_eq_reg_l with (/ sy); [|apply Rinv_neq_0_compat; assumption].
      rewrite Rmult_0_r. transitivity (s * s * (sx / sy) - s * s); [field; repeat split; assumption|].
      assert (C : c * c = 1 - s * s) by lra.
      assert (E2 : c * c + s * s * (sx / sy) = 1).
      { transitivity (c * (1 / sx * (c * sx)) + s * (1 / sy * (s * sx))); [field; split; assumption|].
        unfold Rdiv in * . lra. }
      lra. }
    apply Rmult_integral in E'. destruct E' as [E'|E']; [right | left; lra].
    apply Rmult_integral in E'. destruct E'; assumption.
  - intros D p. rewrite !apply_t2. f_equal.
    destruct D as [-> | ->].
    + apply pt_eq; cbn.
      * transitivity ((c * c + s * s) * fst p); [field; repeat split; assumption | rewrite H; ring].
      * transitivity ((c * c + s * s) * snd p); [field; repeat split; assumption | rewrite H; ring].
    + assert (C : c * c = 1) by lra.
      apply pt_eq; cbn.
      * transitivity ((c * c) * fst p); [field; repeat split; assumption | rewrite C; ring].
      * transitivity ((c * c) * snd p); [field; repeat split; assumption | rewrite C; ring].
Qed.

(** ** C07 *)
Lemma delta_t2 v c s sx sy v' c' s' sx' sy' : sx <> 0 -> sy <> 0 ->
  delta_transform (t2 v c s sx sy) (t2 v' c' s' sx' sy') =
  t2 (place (unplace v c s sx sy origin) c (- s) (1 / sx) (1 / sy) v') (c * c' - - s * s') (c * s' + - s * c') (1 / sx * sx') (1 / sy * sy').
Proof. intros Hx Hy. unfold delta_transform. rewrite inverse_t2 by assumption. apply compose_t2. Qed.

Lemma t2_delta v c s sx sy v' c' s' sx' sy' : c * c + s * s = 1 -> sx <> 0 -> sy <> 0 ->
  sx = sy \/ (s = 0 /\ s' = 0) -> forall p,
  apply (t2 v c s sx sy) (apply (delta_transform (t2 v c s sx sy) (t2 v' c' s' sx' sy')) (inj p))
  = apply (t2 v' c' s' sx' sy') (inj p).
Proof.
  intros H Hx Hy D p. rewrite delta_t2 by assumption. rewrite !apply_t2. f_equal.
  assert (C : c * c = 1 - s * s) by lra.
  destruct D as [->|[-> ->]].
  - apply pt_eq; cbn.
    + transitivity ((c * c + s * s) * (c' * (sx' * fst p) - s' * (sy' * snd p) + fst v')
                    + fst v * (1 - (c * c + s * s))); [field; repeat split; assumption | rewrite H; ring].
    + transitivity ((c * c + s * s) * (s' * (sx' * fst p) + c' * (sy' * snd p) + snd v')
                    + snd v * (1 - (c * c + s * s))); [field; repeat split; assumption | rewrite H; ring].
  - assert (C1 : c * c = 1) by lra.
    apply pt_eq; cbn.
    + transitivity ((c * c) * (c' * (sx' * fst p) + fst v') + fst v * (1 - c * c)); [field; repeat split; assumption | rewrite C1; ring].
    + transitivity ((c * c) * (c' * (sy' * snd p) + snd v') + snd v * (1 - c * c)); [field; repeat split; assumption | rewrite C1; ring].
Qed.

(** ** C01 *)
Lemma vec2_laws (a b : pt) :
  (forall p, apply (inj a) (inj p) = inj (padd p a) /\
             apply_origin (inj a) = inj a /\
             unapply (inj a) (apply (inj a) (inj p)) = inj p /\
             apply (inj a) (unapply (inj a) (inj p)) = inj p /\
             apply (inverse (inj a)) (apply (inj a) (inj p)) = inj p /\
             apply (compose (inj a) (inj b)) (inj p) = apply (inj a) (apply (inj b) (inj p)) /\
             apply_normal (inj a) (inj p) = inj p /\ unapply_normal (inj a) (inj p) = inj p) /\
  scaling_factor (inj a) = XFin 1 /\
  (forall d, (forall p, apply (inj a) (apply (inj d) (inj p)) = apply (inj b) (inj p)) <-> inj d = delta_transform (inj a) (inj b)).
Proof.
  split; [|split].
  - intro p. repeat split; cbn; apply vec_ext; cbn; f_equal; cbn; ring.
  - reflexivity.
  - intro d. split.
    + intro H. specialize (H origin).
      change (inj (padd (padd origin d) a) = inj (padd origin b)) in H. apply inj_inj in H.
      pose proof (f_equal fst H) as H1. pose proof (f_equal snd H) as H2. cbn in H1, H2.
      apply vec_ext; cbn; f_equal; cbn; lra.
    + intros H p. assert (E : d = psub b a).
      { apply inj_inj. rewrite H. apply vec_ext; cbn; f_equal; cbn; ring. }
      subst d. apply vec_ext; cbn; f_equal; cbn; ring.
Qed.
Lemma translate_laws (a b : pt) :
  (forall p, apply (Translate2d (inj a)) (inj p) = inj (padd p a) /\
             apply_origin (Translate2d (inj a)) = inj a /\
             unapply (Translate2d (inj a)) (apply (Translate2d (inj a)) (inj p)) = inj p /\
             apply (Translate2d (inj a)) (unapply (Translate2d (inj a)) (inj p)) = inj p /\
             apply (inverse (Translate2d (inj a))) (apply (Translate2d (inj a)) (inj p)) = inj p /\
             apply (compose (Translate2d (inj a)) (Translate2d (inj b))) (inj p)
               = apply (Translate2d (inj a)) (apply (Translate2d (inj b)) (inj p)) /\
             apply_normal (Translate2d (inj a)) (inj p) = inj p /\ unapply_normal (Translate2d (inj a)) (inj p) = inj p) /\
  scaling_factor (Translate2d (inj a)) = XFin 1 /\
  (forall d, (forall p, apply (Translate2d (inj a)) (apply (Translate2d (inj d)) (inj p)) = apply (Translate2d (inj b)) (inj p))
     <-> Translate2d (inj d) = delta_transform (Translate2d (inj a)) (Translate2d (inj b))).
Proof.
  destruct (vec2_laws a b) as [H1 [_ H2]]. split; [|split].
  - intro p. exact (H1 p).
  - reflexivity.
  - intro d. etransitivity; [exact (H2 d)|]. split; intro E.
    + change (delta_transform (Translate2d (inj a)) (Translate2d (inj b))) with (Translate2d (delta_transform (inj a) (inj b))).
      rewrite E; reflexivity.
    + injection E. intros E2 E1. unfold inj. rewrite E1, E2. reflexivity.
Qed.
Lemma identity_laws (p : vec2 XR) :
  apply IdT p = p /\ unapply IdT p = p /\ apply_normal IdT p = p /\ unapply_normal IdT p = p /\
  apply_origin IdT = inj origin /\ scaling_factor IdT = XFin 1.
Proof. repeat split. Qed.

(** ** C03 *)
Lemma axis_unapply_compose v k v' k' : k <> 0 -> forall p,
  unapply (ax v k) (apply (ax v k) (inj p)) = inj p /\
  apply (ax v k) (unapply (ax v k) (inj p)) = inj p /\
  apply (compose (ax v k) (ax v' k')) (inj p) = apply (ax v k) (apply (ax v' k') (inj p)) /\
  apply (ax v k) (inj p) = inj (place v 1 0 k k p).
Proof.
  intros H p. unfold ax. repeat split; apply vec_ext; cbn; rewrite ?Reqb_false by exact H; f_equal; cbn; field; exact H.
Qed.
Lemma axis_inverse_iff v k : k <> 0 ->
  (forall p, apply (inverse (ax v k)) (apply (ax v k) (inj p)) = inj p) <-> (k = 1 \/ v = origin).
Proof.
  intro H.
  assert (I : inverse (ax v k) = ax (pneg v) (1 / k)).
  { unfold inverse, Inv_Axis2d, ax; cbn. rewrite !Reqb_false by exact H. reflexivity. }
  rewrite I. split.
  - intro L. specialize (L origin). unfold inj in L; cbn in L. injection L as L1 L2.
    destruct (Req_dec k 1) as [|N]; [left; assumption|right].
    assert (M : 1 / k - 1 <> 0).
    { intro E. apply N. assert (E' : 1 / k = 1) by lra. apply Rmult_eq_reg_l with (/ k); [|apply Rinv_neq_0_compat, H].
      rewrite Rinv_l by exact H. unfold Rdiv in E'. lra. }
    apply pt_eq; cbn; (apply Rmult_eq_reg_l with (1 / k - 1); [|exact M]); rewrite Rmult_0_r; lra.
  - intros D p. destruct D as [-> | ->]; apply vec_ext; cbn; f_equal; cbn; field; exact H.
Qed.

(** ** C10, C08 *)
Lemma t2_normals v c s sx sy : c * c + s * s = 1 -> forall n m : pt,
  apply_normal (t2 v c s sx sy) (inj n) = inj (rotate c s n) /\
  unapply_normal (t2 v c s sx sy) (inj n) = inj (rotate c (- s) n) /\
  rotate c (- s) (rotate c s n) = n /\ rotate c s (rotate c (- s) n) = n /\
  norm (rotate c s n) = norm n /\ pdot (rotate c s n) (rotate c s m) = pdot n m /\
  pdot (rotate c s n) m = pdot n (rotate c (- s) m).
Proof.
  intros H n m. assert (C : c * c = 1 - s * s) by lra.
  repeat split; try (apply vec_ext; cbn; f_equal; cbn; ring); try (apply pt_eq; cbn).
  - transitivity ((c * c + s * s) * fst n); [ring | rewrite H; ring].
  - transitivity ((c * c + s * s) * snd n); [ring | rewrite H; ring].
  - transitivity ((c * c + s * s) * fst n); [ring | rewrite H; ring].
  - transitivity ((c * c + s * s) * snd n); [ring | rewrite H; ring].
  - unfold norm; f_equal. unfold pdot; cbn. transitivity ((c * c + s * s) * (fst n * fst n + snd n * snd n)); [ring | rewrite H; ring].
  - unfold pdot; cbn. transitivity ((c * c + s * s) * (fst n * fst m + snd n * snd m)); [ring | rewrite H; ring].
  - unfold pdot; cbn; ring.
Qed.

Lemma rotor_angles a b :
  rotor_from_angle (XFin a) = rotor (cos a) (sin a) /\
  cos a * cos a + sin a * sin a = 1 /\
  rotor_mul (rotor_from_angle (XFin a)) (rotor_from_angle (XFin b)) = rotor_from_angle (XFin (a + b)) /\
  rotor_inverse (rotor_from_angle (XFin a)) = rotor_from_angle (XFin (- a)) /\
  rotor_from_angle (XFin 0) = rotor_identity.
Proof.
  repeat split.
  - pose proof (sin2_cos2 a) as H. unfold Rsqr in H. lra.
  - unfold rotor_mul, rotor_from_angle; cbn. rewrite cos_plus, sin_plus. f_equal. apply vec_ext; cbn; f_equal; cbn; ring.
  - unfold rotor_inverse, rotor_from_angle; cbn. rewrite cos_neg, sin_neg. reflexivity.
  - unfold rotor_identity, rotor_from_angle; cbn. rewrite cos_0, sin_0. reflexivity.
Qed.
Lemma rotor_group c s c' s' : c * c + s * s = 1 -> forall v w,
  rotor_rot (rotor c s) (inj v) = inj (rotate c s v) /\
  rotor_rot (rotor_mul (rotor c s) (rotor c' s')) (inj v) = rotor_rot (rotor c s) (rotor_rot (rotor c' s') (inj v)) /\
  rotor_mul (rotor_inverse (rotor c s)) (rotor c s) = rotor_identity /\
  rotor_rot rotor_identity (inj v) = inj v /\
  norm (rotate c s v) = norm v /\ pdot (rotate c s v) (rotate c s w) = pdot v w /\
  pcross (rotate c s v) (rotate c s w) = pcross v w.
Proof.
  intros H v w. destruct (t2_normals origin c s 1 1 H v w) as (_ & _ & _ & _ & N & D & _).
  repeat split; try assumption.
  - apply vec_ext; cbn; f_equal; cbn; ring.
  - apply vec_ext; cbn; f_equal; cbn; ring.
  - unfold rotor_mul, rotor_inverse, rotor_identity, rotor; cbn. f_equal. apply vec_ext; cbn; f_equal; cbn; [rewrite <- H; ring | ring].
  - apply vec_ext; cbn; f_equal; cbn; ring.
  - unfold pcross, rotate; cbn. transitivity ((c * c + s * s) * (fst v * snd w - snd v * fst w)); [ring | rewrite H; ring].
Qed.

Lemma cos_sin_atan t : cos (atan t) = 1 / sqrt (1 + t * t) /\ sin (atan t) = t / sqrt (1 + t * t).
Proof.
  pose proof (cos_atan t) as C. pose proof (sin_atan t) as S. unfold Rsqr in * . split; assumption.
Qed.
Lemma atan_unit c s : c * c + s * s = 1 -> c <> 0 ->
  sqrt (1 + s / c * (s / c)) = 1 / Rabs c.
Proof.
  intros H N. replace (1 + s / c * (s / c)) with ((1 / Rabs c) * (1 / Rabs c)).
  - apply sqrt_square. apply Rmult_le_pos; [lra|]. apply Rlt_le, Rinv_0_lt_compat, Rabs_pos_lt, N.
  - replace (1 / Rabs c * (1 / Rabs c)) with (1 / (Rabs c * Rabs c)) by (field; apply Rabs_no_R0, N).
    rewrite <- Rabs_mult, Rabs_pos_eq by nra.
    apply Rmult_eq_reg_l with (c * c); [|nra]. field_simplify; [|assumption|assumption]. nra.
Qed.
Lemma rotor_angle_roundtrip c s : c * c + s * s = 1 ->
  rotor_from_angle (rotor_angle (rotor c s)) = rotor c s.
Proof.
  intro H. unfold rotor_angle, rotor, rotor_from_angle; cbn. f_equal.
  enough (E : cos (ratan2 s c) = c /\ sin (ratan2 s c) = s) by (destruct E as [E1 E2]; rewrite E1, E2; reflexivity).
  unfold ratan2.
  destruct (Rltb_spec 0 c) as [P|P].
  { destruct (cos_sin_atan (s / c)) as [-> ->]. rewrite atan_unit by lra. rewrite Rabs_pos_eq by lra.
    split; field; lra. }
  destruct (Rltb_spec c 0) as [P2|P2].
  { assert (E : cos (atan (s / c)) = - c /\ sin (atan (s / c)) = - s).
    { destruct (cos_sin_atan (s / c)) as [-> ->]. rewrite atan_unit by lra. rewrite Rabs_left by lra. split; field; lra. }
    destruct E as [E1 E2]. destruct (Rltb_spec s 0).
    - unfold Rminus. rewrite cos_plus, sin_plus, cos_neg, sin_neg, cos_PI, sin_PI, E1, E2. split; ring.
    - rewrite neg_cos, neg_sin, E1, E2. split; ring. }
  assert (C0 : c = 0) by lra. subst c. assert (S : (s - 1) * (s + 1) = 0) by lra.
  apply Rmult_integral in S.
  destruct (Rltb_spec 0 s) as [P3|P3].
  { rewrite cos_PI2, sin_PI2. lra. }
  destruct (Rltb_spec s 0) as [P4|P4].
  { rewrite cos_neg, sin_neg, cos_PI2, sin_PI2. lra. }
  lra.
Qed.
Lemma rotor_angle_range c s v : rotor_angle (rotor c s) = XFin v -> - PI < v <= PI.
Proof.
  unfold rotor_angle, rotor; cbn. intro H. injection H as <-. unfold ratan2.
  pose proof (atan_bound (s / c)) as B. pose proof PI_RGT_0 as P.
  repeat rcase; lra || idtac.
  - (* c<0, s<0 : atan(s/c) > 0 *)
    assert (Q : 0 < s / c).
    { replace (s / c) with ((- s) * / (- c)) by (field; lra). apply Rmult_lt_0_compat; [lra|]. apply Rinv_0_lt_compat; lra. }
    pose proof (atan_increasing 0 (s / c) Q) as A. rewrite atan_0 in A. lra.
  - assert (Q : s / c <= 0).
    { replace (s / c) with (- (s * / (- c))) by (field; lra).
      assert (0 <= s * / - c) by (apply Rmult_le_pos; [lra | apply Rlt_le, Rinv_0_lt_compat; lra]). lra. }
    destruct Q as [Q|Q]; [|rewrite Q, atan_0; lra].
    pose proof (atan_increasing (s / c) 0 Q) as A. rewrite atan_0 in A. lra.
Qed.

(** ** C09 *)
Lemma rotor_from_quat_planar k t : k <> 0 ->
  rotor_from_quaternion (quat_of 0 0 (k * sin (t / 2)) (k * cos (t / 2))) = rotor_from_angle (XFin t).
Proof.
  intro K. unfold rotor_from_quaternion, quat_of, qdot; cbn.
  set (S := sin (t / 2)). set (C := cos (t / 2)).
  assert (SC : S * S + C * C = 1) by (pose proof (sin2_cos2 (t / 2)) as X; unfold Rsqr in X; exact X).
  replace (0 * 0 + 0 * 0 + k * S * (k * S) + k * C * (k * C)) with (k * k)
    by (transitivity (k * k * (S * S + C * C)); [rewrite SC|]; ring).
  rewrite Rltb_false by nra. cbn.
  assert (Q : sqrt (k * k) = Rabs k) by (rewrite <- sqrt_Rsqr_abs; reflexivity). rewrite Q.
  assert (N : Rabs k <> 0) by (apply Rabs_no_R0, K).
  rewrite !Reqb_false by exact N. cbn.
  assert (KK : k / Rabs k * (k / Rabs k) = 1).
  { replace (k / Rabs k * (k / Rabs k)) with ((k * k) / (Rabs k * Rabs k)) by (field; exact N).
    rewrite <- Rabs_mult, Rabs_pos_eq by nra. field. exact K. }
  assert (Ct : cos t = 2 * C * C - 1) by (unfold C; replace t with (2 * (t / 2)) at 1 by field; rewrite cos_2a_cos; ring).
  assert (St : sin t = 2 * S * C) by (unfold S, C; replace t with (2 * (t / 2)) at 1 by field; rewrite sin_2a; ring).
  unfold rotor_from_angle; cbn. f_equal. apply vec_ext; cbn; f_equal.
  - transitivity (2 * (k / Rabs k * (k / Rabs k)) * C * C - 1); [field; exact N | rewrite KK, Ct; ring].
  - transitivity (2 * (k / Rabs k * (k / Rabs k)) * S * C); [field; exact N | rewrite KK, St; ring].
Qed.
(** every non-zero (0,0,z,w) is of the above form: agreement with the sandwich product q v q* / |q|^2 *)
Lemma rotor_from_quat_sandwich z w p : z * z + w * w <> 0 ->
  let n := z * z + w * w in
  rotor_rot (rotor_from_quaternion (quat_of 0 0 z w)) (inj p)
  = inj (((w * w - z * z) * fst p - 2 * w * z * snd p) / n, ((w * w - z * z) * snd p + 2 * w * z * fst p) / n).
Proof.
  intros N n. unfold rotor_from_quaternion, quat_of, qdot; cbn.
  replace (0 * 0 + 0 * 0 + z * z + w * w) with n by (unfold n; ring).
  assert (Np : 0 < n) by (unfold n in *; nra).
  rewrite Rltb_false by lra. cbn.
  assert (Sp : 0 < sqrt n) by (apply sqrt_lt_R0, Np).
  rewrite !Reqb_false by lra. cbn.
  assert (Q : sqrt n * sqrt n = n) by (apply sqrt_sqrt; lra).
  assert (W : w / sqrt n * 2 * (w / sqrt n) - 1 = (w * w - z * z) / n).
  { transitivity (2 * (w * w) / (sqrt n * sqrt n) - 1); [field; lra|]. rewrite Q. unfold n in * . field; lra. }
  assert (V : 2 * (w / sqrt n) * (z / sqrt n) = 2 * w * z / n).
  { transitivity (2 * w * z / (sqrt n * sqrt n)); [field; lra|]. rewrite Q. reflexivity. }
  unfold rotor_rot; cbn. rewrite W, V. apply vec_ext; cbn; f_equal; cbn; field; lra.
Qed.
Lemma rotor_from_quat_unit_iff x y z w : x * x + y * y + z * z + w * w = 1 ->
  exists c s, rotor_from_quaternion (quat_of x y z w) = rotor c s /\
  (c * c + s * s = 1 <-> w = 0 \/ (x = 0 /\ y = 0)).
Proof.
  intro U. unfold rotor_from_quaternion, quat_of, qdot; cbn. rewrite U.
  rewrite Rltb_false by lra. cbn. rewrite sqrt_1. rewrite !Reqb_false by lra. cbn.
  eexists; eexists; split; [reflexivity|].
  replace (w / 1) with w by field. replace (z / 1) with z by field.
  split.
  - intro E. assert (E' : w * w * (x * x + y * y) = 0) by nra.
    apply Rmult_integral in E'. destruct E' as [E'|E']; [left; nra | right; nra].
  - intros [->|[-> ->]]; [ring|]. nra.
Qed.
