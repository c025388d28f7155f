(** * C68: rotated and scaled 3D placements in f32 *)
From Coq Require Import Reals ZArith Lra Lia Psatz Bool.
From Flocq Require Import Core BinarySingleNaN.
From Verif Require Import Num NumXR NumB32 Glam Transform2 Shapes2 Gjk Detect2 Col3 Spec SpecLink P_Base P_Geo P_Geo3 P_3d P_B32 Props_F32 Props_F32Gjk Props_Lerp Props_F32Ball P_F32Box P_Drift Spec32 P_Closed32 Props_Closed32 Props_Approx Spec32s P_Space32 Props_Space32 P_Quat32.
Local Open Scope R_scope.

(** ** What the claims say *)
(** the f32 quaternion q stands for the rotation by t about the unit axis u: it points in the direction of the exact quaternion (its length may be off) *)
Definition stands_for (q : quat b32) (u : pt3) (t : R) : Prop :=
  dot3 u u = 1 /\ exists l, 0 < l /\ val (qx q) = l * (sin (t / 2) * x3 u) /\ val (qy q) = l * (sin (t / 2) * y3 u) /\ val (qz q) = l * (sin (t / 2) * z3 u) /\ val (qw q) = l * cos (t / 2).
(** how far its squared length is from 1 *)
Definition length_error (q : quat b32) : R := Rabs (val (qx q) * val (qx q) + val (qy q) * val (qy q) + val (qz q) * val (qz q) + val (qw q) * val (qw q) - 1).
(** where a placement (position a, rotation by t about u, scale k) puts the local point c *)
Definition put (a : pt3) (u : pt3) (t k : R) (c : pt3) : pt3 := add3 (rotate3 u t (scale3 k c)) a.
(** how precisely the position of b can be seen from a *)
Definition blur (q : quat b32) (k : b32) (a b : vec3 b32) : R :=
  (80 * u32 + length_error q) * ((norm3 (rval3 a) + norm3 (rval3 b) + bpow radix2 (-30)) / val k).
Definition quat_ok (q : quat b32) : Prop := finq q /\ length_error q <= 1 / 100.
Definition scale_range (k : b32) : Prop := fin k /\ bpow radix2 (-20) <= val k <= bpow radix2 20.
Definition spot_ok (a : vec3 b32) : Prop := fin3 a /\ norm3 (rval3 a) <= bpow radix2 30.
(** the three kinds of placement with position a, rotation q and uniform scale k, and their relative transformations *)
Definition as_iso (a : vec3 b32) (q : quat b32) (k : b32) : isotropic3d b32 := Isotropic3d a q k.
Definition as_t3 (a : vec3 b32) (q : quat b32) (k : b32) : transform3d b32 := Transform3d a q (V3 k k k).
Definition as_bevy (a : vec3 b32) (q : quat b32) (k : b32) : bevy_transform b32 := BevyTransform a q (V3 k k k).

(** ** Rotations *)
Lemma sizeq_stands q u t : stands_for q u t -> exists l, 0 < l /\ sizeq q = l * l /\ forall p, rqv q p = scale3 (l * l) (rotate3 u t p).
Proof.
  intros (U & l & Hl & X & Y & Z & W). exists l. split; [exact Hl|]. pose proof (sin2_cos2 (t / 2)) as SC. unfold Rsqr in SC. split.
  - unfold sizeq. rewrite X, Y, Z, W. transitivity (l * l * (sin (t / 2) * sin (t / 2) * dot3 u u + cos (t / 2) * cos (t / 2))); [unfold dot3; ring|]. rewrite U. rewrite Rmult_1_r, SC. ring.
  - intro p. rewrite <- (rq_rodrigues u t p U). unfold rqv. rewrite X, Y, Z, W. apply pt3_eq; v3; ring.
Qed.
Lemma turn_rotate q u t p : stands_for q u t -> turn q p = rotate3 u t p /\ 0 < sizeq q.
Proof.
  intro H. destruct (sizeq_stands q u t H) as (l & Hl & E & F). assert (LL : 0 < l * l) by (apply Rmult_lt_0_compat; assumption). split; [|rewrite E; exact LL].
  unfold turn. rewrite F, E. apply pt3_eq; unfold scale3, x3, y3, z3; cbn [fst snd]; field; lra.
Qed.
Lemma length_size q : length_error q = Rabs (sizeq q - 1). Proof. reflexivity. Qed.
Lemma size_hi q : length_error q <= 1 / 100 -> 99 / 100 <= sizeq q <= 101 / 100.
Proof. rewrite length_size. intro H. apply abs_le2' in H. lra. Qed.

(** every quaternion that is not zero stands for a rotation *)
Theorem C68_every_quaternion : forall q, finq q -> 0 < val (qx q) * val (qx q) + val (qy q) * val (qy q) + val (qz q) * val (qz q) + val (qw q) * val (qw q) -> exists u t, stands_for q u t.
Proof.
  intros q _ P. set (x := val (qx q)) in * . set (y := val (qy q)) in * . set (z := val (qz q)) in * . set (w := val (qw q)) in * .
  set (m := x * x + y * y + z * z + w * w) in * . set (l := sqrt m). assert (Hl : 0 < l) by (apply sqrt_lt_R0, P). assert (LL : l * l = m) by (apply sqrt_sqrt; lra).
  set (s2 := x * x + y * y + z * z). assert (S2 : 0 <= s2) by (unfold s2; pose proof (Rle_0_sqr x); pose proof (Rle_0_sqr y); pose proof (Rle_0_sqr z); unfold Rsqr in * ; lra).
  set (s := sqrt s2). assert (SS : s * s = s2) by (apply sqrt_sqrt, S2). assert (SP : 0 <= s) by apply sqrt_pos.
  assert (SW : (s / l) * (s / l) + (w / l) * (w / l) = 1).
  { apply (Rmult_eq_reg_r (l * l)); [|nra]. transitivity (s * s + w * w); [field; lra|]. rewrite SS, LL. unfold s2, m. ring. }
  assert (WB : -1 <= w / l <= 1). { pose proof (Rle_0_sqr (s / l)) as Q. unfold Rsqr in Q. apply abs_le2'. apply sq_abs; lra. }
  set (h := acos (w / l)). assert (C : cos h = w / l) by (apply cos_acos, WB).
  assert (Sh : sin h = s / l).
  { assert (0 <= sin h) by (apply sin_ge_0; apply acos_bound). assert (0 <= s / l) by (apply Rmult_le_pos; [exact SP | left; apply Rinv_0_lt_compat, Hl]).
    pose proof (sin2_cos2 h) as Q. unfold Rsqr in Q. rewrite C in Q. apply Rsqr_inj; try assumption. unfold Rsqr. lra. }
  destruct (Req_dec s 0) as [Z0|Z0].
  - exists (1, 0, 0), (2 * h). assert (s2 = 0) by (rewrite <- SS, Z0; ring). unfold s2 in H. pose proof (Rle_0_sqr x). pose proof (Rle_0_sqr y). pose proof (Rle_0_sqr z). unfold Rsqr in * .
    assert (x = 0) by nra. assert (y = 0) by nra. assert (z = 0) by nra.
    split; [unfold dot3, x3, y3, z3; cbn [fst snd]; ring|]. exists l. split; [exact Hl|]. fold x y z w. replace (2 * h / 2) with h by field. rewrite Sh, C, Z0. unfold x3, y3, z3; cbn [fst snd].
    repeat split; try lra; field; lra.
  - exists (x / s, y / s, z / s), (2 * h). split.
    + unfold dot3, x3, y3, z3; cbn [fst snd]. apply (Rmult_eq_reg_r (s * s)); [|nra]. transitivity (x * x + y * y + z * z); [field; exact Z0|]. rewrite SS. unfold s2. ring.
    + exists l. split; [exact Hl|]. fold x y z w. replace (2 * h / 2) with h by field. rewrite Sh, C. unfold x3, y3, z3; cbn [fst snd]. repeat split; field; lra.
Qed.
Print Assumptions C68_every_quaternion.

(** Rotating a vector: up to 72 roundings at its own size, and the error of the quaternion's length. *)
Theorem C68_rotation : forall (q : quat b32) (u : pt3) (t : R) (v : vec3 b32) (s : R), quat_ok q -> stands_for q u t -> fin3 v ->
  norm3 (rval3 v) <= s -> bpow radix2 (-60) <= s <= bpow radix2 100 ->
  fin3 (qrot q v) /\ norm3 (sub3 (rval3 (qrot q v)) (rotate3 u t (rval3 v))) <= (72 * u32 + length_error q) * s /\
  fin3 (qrot (qinv q) v) /\ norm3 (sub3 (rval3 (qrot (qinv q) v)) (rotate3 u (- t) (rval3 v))) <= (72 * u32 + length_error q) * s.
Proof.
  assert (K : forall (q : quat b32) (u : pt3) (t : R) (v : vec3 b32) (s : R), quat_ok q -> stands_for q u t -> fin3 v -> norm3 (rval3 v) <= s -> bpow radix2 (-60) <= s <= bpow radix2 100 ->
    fin3 (qrot q v) /\ norm3 (sub3 (rval3 (qrot q v)) (rotate3 u t (rval3 v))) <= (72 * u32 + length_error q) * s).
  { intros q u t v s (Fq & Lq) H Fv L S. pose proof (size_hi q Lq) as Z. destruct (qrot32 q v s Fq Fv ltac:(lra) S L) as (F & D). split; [exact F|].
    destruct (turn_rotate q u t (rval3 v) H) as (E & P). rewrite <- E. apply Rle_trans with (1 := norm3_split _ (rqv q (rval3 v)) _).
    pose proof (turn_near q (rval3 v) P) as T. rewrite <- length_size in T. assert (length_error q * norm3 (rval3 v) <= length_error q * s) by (apply Rmult_le_compat_l; [apply Rabs_pos | exact L]). lra. }
  intros q u t v s Q H Fv L S. destruct (K q u t v s Q H Fv L S) as (A & B). split; [exact A|]. split; [exact B|].
  assert (LE : length_error (qinv q) = length_error q) by (rewrite !length_size, sizeq_inv; reflexivity). rewrite <- LE. apply K; try assumption.
  - split; [apply finq_inv, Q | rewrite LE; apply Q].
  - destruct H as (U & l & Hl & X & Y & Z & W). split; [exact U|]. exists l. split; [exact Hl|]. unfold qinv; cbn [qx qy qz qw]. rewrite !val_neg, X, Y, Z, W.
    replace (- t / 2) with (- (t / 2)) by field. rewrite sin_neg, cos_neg. repeat split; ring.
Qed.
Print Assumptions C68_rotation.

(** ** The position of b as seen from a *)
Lemma blur_scales q k a b : fin k -> 0 < val k -> blur q k a b = (80 * u32 + Rabs (sizeq q - 1)) * ((norm3 (rval3 a) + bpow radix2 (-31)) / val k + (norm3 (rval3 b) + bpow radix2 (-31)) / val k).
Proof.
  intros F K. unfold blur. rewrite length_size. replace (bpow radix2 (-30)) with (bpow radix2 (-31) + bpow radix2 (-31)); [field; lra|].
  change (-30)%Z with (1 + -31)%Z. rewrite bpow_plus. change (bpow radix2 1) with 2. ring.
Qed.
Lemma seen_core q k a b u t c : quat_ok q -> scale_range k -> spot_ok a -> spot_ok b -> stands_for q u t -> put (rval3 a) u t (val k) c = rval3 b ->
  fin3 (seen_pos q k a b) /\ norm3 (sub3 (rval3 (seen_pos q k a b)) c) <= blur q k a b.
Proof.
  intros (Fq & Lq) (Fk & K) (Fa & La) (Fb & Lb) H E. destruct (turn_rotate q u t (scale3 (val k) c) H) as (T & P). unfold put in E. rewrite <- T in E.
  rewrite blur_scales; [|exact Fk | pose proof (bpow_gt_0 radix2 (-20)); lra]. apply seen_pos_ok; assumption.
Qed.
(** Isotropic3d, Transform3d with a uniform scale, and bevy's Transform with a uniform scale all see b at the same place, within blur of the real place *)
Theorem C68_seen_from : forall (q q' : quat b32) (k k' : b32) (a b s' : vec3 b32) (u : pt3) (t : R) (c : pt3),
  quat_ok q -> scale_range k -> spot_ok a -> spot_ok b -> stands_for q u t -> put (rval3 a) u t (val k) c = rval3 b ->
  let good (p : vec3 b32) := fin3 p /\ norm3 (sub3 (rval3 p) c) <= blur q k a b in
  good (apply_origin3 (delta_transform (as_iso a q k) (Isotropic3d b q' k'))) /\
  good (apply_origin3 (delta_transform (as_t3 a q k) (Transform3d b q' s'))) /\
  good (apply_origin3 (delta_transform (as_bevy a q k) (BevyTransform b q' s'))).
Proof. intros. pose proof (seen_core q k a b u t c H H0 H1 H2 H3 H4) as S. split; [exact S|]. split; exact S. Qed.
Print Assumptions C68_seen_from.

(** ** The queries *)
(** Box: what is reported holds of the box fattened by e, what holds of the box thinned by e is reported, and the vector is a true answer, up to one rounding, for a
    point within e of the true one *)
Definition box_right {T : Type} {TR : Transformation3d b32 T} {I : Invertible T} {C : Composable T} (h : vec3 b32) (ta tb : T) (c : pt3) (e : R) : Prop :=
  let solid d := box3 (val (wx h) + d) (val (wy h) + d) (val (wz h) + d) in
  (collides3 (Box3d h) ta PointS tb = true -> overlaps3 (solid e) (single3 c)) /\
  (overlaps3 (solid (- e)) (single3 c) -> collides3 (Box3d h) ta PointS tb = true) /\
  exists c', norm3 (sub3 c' c) <= e /\
  match penetrates3 (Box3d h) ta PointS tb with
  | Some v => collides3 (Box3d h) ta PointS tb = true /\ fin3 v /\ exists w, true_answer3 (solid_box h) (single3 c') w /\ norm3 (sub3 (rval3 v) w) <= u32 * norm3 w
  | None => collides3 (Box3d h) ta PointS tb = false
  end.
(** Ball: the flag is right unless the depth or gap is at most e and a few roundings; the vector is nearly a true answer for a point within e of the true one *)
Definition ball_right {T : Type} {TR : Transformation3d b32 T} {I : Invertible T} {C : Composable T} (r : b32) (ta tb : T) (c : pt3) (e : R) : Prop :=
  (e + 17 * u32 * (norm3 c + 3 * val r + e) < Rabs (norm3 c - val r) -> (collides3 (Ball r) ta PointS tb = true <-> overlaps3 (ball3 (val r)) (single3 c))) /\
  (e + bpow radix2 (-22) <= norm3 c -> exists c', norm3 (sub3 c' c) <= e /\
   match penetrates3 (Ball r) ta PointS tb with
   | Some v => collides3 (Ball r) ta PointS tb = true /\ fin3 v /\ exists w, true_answer3 (ball3 (val r)) (single3 c') w /\ norm3 (sub3 (rval3 v) w) <= 16 * u32 * (norm3 w + 2 * val r)
   | None => collides3 (Ball r) ta PointS tb = false
   end).
(** a radius that is zero or at least 2^-50 *)
Definition fat_radius (r : b32) : Prop := radius_ok r /\ (val r = 0 \/ bpow radix2 (-50) <= val r).

Lemma coords_near (p c : pt3) e : norm3 (sub3 p c) <= e -> Rabs (x3 p - x3 c) <= e /\ Rabs (y3 p - y3 c) <= e /\ Rabs (z3 p - z3 c) <= e.
Proof. intro H. destruct (coord_le_norm3 (sub3 p c)) as (X & Y & Z). repeat split; eapply Rle_trans; eassumption. Qed.
Lemma near_abs a b e : Rabs (a - b) <= e -> Rabs a <= Rabs b + e /\ Rabs b <= Rabs a + e.
Proof.
  intro H. split.
  - replace a with (b + (a - b)) at 1 by ring. eapply Rle_trans; [apply Rabs_triang | lra].
  - replace b with (a + (b - a)) at 1 by ring. eapply Rle_trans; [apply Rabs_triang|]. rewrite (Rabs_minus_sym b a). lra.
Qed.
Lemma near_norm (p c : pt3) e : norm3 (sub3 p c) <= e -> norm3 p <= norm3 c + e /\ norm3 c <= norm3 p + e.
Proof.
  assert (K : forall a b, norm3 a <= norm3 b + norm3 (sub3 a b)).
  { intros a b. replace a with (add3 b (sub3 a b)) at 1 by (apply pt3_eq; unfold add3, sub3, x3, y3, z3; cbn [fst snd]; ring). apply norm3_triangle. }
  intro H. pose proof (K p c). pose proof (K c p). assert (norm3 (sub3 c p) = norm3 (sub3 p c)).
  { rewrite <- norm3_neg. f_equal. apply pt3_eq; unfold neg3, sub3, x3, y3, z3; cbn [fst snd]; ring. }
  lra.
Qed.
Lemma box_right_of {T : Type} {TR : Transformation3d b32 T} {I : Invertible T} {C : Composable T} (h : vec3 b32) (ta tb : T) (c : pt3) (e : R) :
  half3_ok h -> small3 (apply_origin3 (delta_transform ta tb)) 59 -> norm3 (sub3 (rval3 (apply_origin3 (delta_transform ta tb))) c) <= e -> box_right h ta tb c e.
Proof.
  intros H S D. set (p := apply_origin3 (delta_transform ta tb)) in * . pose proof (C67_box_point T TR h (delta_transform ta tb) H S) as (Co & Pe & Fi & w & W). fold p in Co, W.
  destruct (coords_near _ _ _ D) as (X & Y & Z). apply near_abs in X. apply near_abs in Y. apply near_abs in Z. destruct X as (X1 & X2). destruct Y as (Y1 & Y2). destruct Z as (Z1 & Z2). split; [|split].
  - intro Q. unfold collides3 in Q. apply Co in Q. unfold solid_box in Q. rewrite box3_inside in Q |- * . destruct Q as (Q1 & Q2 & Q3). repeat split; lra.
  - intro Q. unfold collides3. apply Co. unfold solid_box. rewrite box3_inside in Q |- * . destruct Q as (Q1 & Q2 & Q3). repeat split; lra.
  - exists (rval3 p). split; [exact D|]. unfold penetrates3, collides3. rewrite Pe. destruct (collides_rel3 (Box3d h) PointS (delta_transform ta tb)) eqn:Ec; [|reflexivity]. split; [reflexivity|]. split; [exact Fi|]. exists w. exact W.
Qed.
Lemma small_of_norm (p : vec3 b32) k : fin3 p -> norm3 (rval3 p) <= bpow radix2 k -> small3 p k.
Proof. intros F H. destruct (coord_le_norm3 (rval3 p)) as (X & Y & Z). split; [exact F|]. unfold small. repeat split; (apply Rle_trans with (norm3 (rval3 p)); assumption). Qed.
(** the flag of a ball, also for points extremely close to the centre *)
Lemma ball3_flag_any {T : Type} {TR : Transformation3d b32 T} (r : b32) (rel : T) : fat_radius r -> small3 (apply_origin3 rel) 59 ->
  let L := norm3 (rval3 (apply_origin3 rel)) in
  16 * u32 * (Rabs (L - val r) + 2 * val r) < Rabs (L - val r) -> (collides_rel3 (Ball r) PointS rel = true <-> overlaps3 (ball3 (val r)) (single3 (rval3 (apply_origin3 rel)))).
Proof.
  intros (R1 & R2) S L H.
  assert (R3 : radius3_ok r). { split; [exact R1|]. destruct R2 as [R2|R2]; [left; exact R2 | right]. apply Rle_trans with (2 := R2). apply bpow_le; lia. }
  destruct (Rle_or_lt (bpow radix2 (-60)) L) as [G|G]; [apply ball3_flag; [split; [exact S | right; exact G] | exact R3 | exact H]|].
  destruct R1 as (FR & SR & PR). set (p := apply_origin3 rel) in * .
  assert (S' : small3 p (-60)) by (apply small_of_norm; [apply S | left; exact G]).
  destruct (dot3_ok p (-60) ltac:(lia) ltac:(lia) S') as (D1 & D2 & _).
  rewrite overlaps3_single0, ball3_interior. fold L. unfold collides_rel3, Col3_BallPoint. cbn [b_radius]. fold p. unfold v3lensq.
  assert (Sq : small (rnd (val r * val r)) 118) by (apply rnd_small; [lia|]; apply (small_mul _ _ 59 59); assumption).
  destruct (mul_ok r r FR FR ltac:(eapply small_big; [|exact Sq]; lia)) as [M1 M2].
  rewrite flt_fin by assumption. pose proof (norm3_nonneg (rval3 p)) as NP. fold L in NP. destruct R2 as [R2|R2].
  - rewrite M2, R2, Rmult_0_l, rnd_0. destruct (Rltb_spec (val (v3dot p p)) 0); split; intro; lra || discriminate.
  - assert (L < val r). { apply Rlt_le_trans with (1 := G). apply Rle_trans with (2 := R2). apply bpow_le; lia. }
    assert (val (v3dot p p) < val (fmul r r)).
    { apply Rle_lt_trans with (1 := proj2 D2). rewrite M2. apply Rlt_le_trans with (bpow radix2 (-100)); [apply bpow_lt; lia|]. rewrite <- (rnd_bpow (-100)) by lia. apply rnd_le.
      replace (-100)%Z with (-50 + -50)%Z by reflexivity. rewrite bpow_plus. apply Rmult_le_compat; try apply bpow_ge_0; exact R2. }
    rewrite Rltb_true by assumption. tauto.
Qed.
Lemma ball_right_of {T : Type} {TR : Transformation3d b32 T} {I : Invertible T} {C : Composable T} (r : b32) (ta tb : T) (c : pt3) (e : R) :
  fat_radius r -> small3 (apply_origin3 (delta_transform ta tb)) 59 -> norm3 (sub3 (rval3 (apply_origin3 (delta_transform ta tb))) c) <= e -> ball_right r ta tb c e.
Proof.
  intros Hr S D. set (p := apply_origin3 (delta_transform ta tb)) in * . destruct (near_norm _ _ _ D) as (N1 & N2). pose proof (norm3_nonneg c) as NC. pose proof (norm3_nonneg (rval3 p)) as NP. pose proof u32_pos as U. pose proof u32_small as US.
  assert (PR : 0 <= val r) by apply Hr. assert (E0 : 0 <= e) by (apply Rle_trans with (2 := D); apply norm3_nonneg). split.
  - intro H. assert (P : 0 <= u32 * (norm3 c + 3 * val r + e)) by (apply Rmult_le_pos; lra).
    assert (Q : forall y, y <= norm3 c + 3 * val r + e -> u32 * y <= u32 * (norm3 c + 3 * val r + e)) by (intros y Y; apply Rmult_le_compat_l; lra).
    rewrite !overlaps3_single0, !ball3_interior. pose proof (ball3_flag_any r (delta_transform ta tb) Hr S) as F. cbv zeta in F. fold p in F. rewrite overlaps3_single0, ball3_interior in F. unfold collides3.
    assert (Z : u32 * (norm3 c + 3 * val r + e) > 0 \/ norm3 c + 3 * val r + e = 0). { destruct (Req_dec (norm3 c + 3 * val r + e) 0); [right; assumption | left; apply Rmult_lt_0_compat; lra]. }
    destruct (Rlt_or_le (norm3 c) (val r)) as [L|L].
    + rewrite Rabs_left in H by lra. assert (norm3 (rval3 p) < val r) by lra. rewrite F; [tauto|]. rewrite Rabs_left by lra.
      pose proof (Q (- (norm3 (rval3 p) - val r) + 2 * val r) ltac:(lra)). lra.
    + rewrite Rabs_pos_eq in H by lra. destruct Z as [Z|Z]; [|lra]. assert (val r < norm3 (rval3 p)) by lra. rewrite F; [lra|]. rewrite Rabs_pos_eq by lra.
      pose proof (Q (norm3 (rval3 p) - val r + 2 * val r) ltac:(lra)). lra.
  - intro H. exists (rval3 p). split; [exact D|]. assert (G : bpow radix2 (-22) <= norm3 (rval3 p)) by lra.
    assert (R3 : radius3_ok r). { destruct Hr as (R1 & R2). split; [exact R1|]. destruct R2 as [R2|R2]; [left; exact R2 | right]. apply Rle_trans with (2 := R2). apply bpow_le; lia. }
    assert (CO : centre3_ok p) by (split; [exact S|]; right; apply Rle_trans with (2 := G); apply bpow_le; lia).
    pose proof (C67_ball_point T TR r (delta_transform ta tb) R3 CO) as (F & (w & W1 & W2 & W3) & P). fold p in W1, W3, P. specialize (P (or_intror G)). unfold penetrates3, collides3.
    destruct (penetrates_rel3 (Ball r) PointS (delta_transform ta tb)) as [v|]; [|exact P]. destruct P as (P1 & P2 & P3). split; [exact P1|]. split; [exact P2|]. exists w. split; [exact W1|]. rewrite P3. exact W2.
Qed.
Lemma rotate_norm u t p : dot3 u u = 1 -> norm3 (rotate3 u t p) = norm3 p.
Proof.
  intro U. rewrite <- (rq_rodrigues u t p U). apply rq_norm. pose proof (sin2_cos2 (t / 2)) as SC. unfold Rsqr in SC.
  transitivity (sin (t / 2) * sin (t / 2) * dot3 u u + cos (t / 2) * cos (t / 2)); [unfold dot3; ring|]. rewrite U, Rmult_1_r. exact SC.
Qed.
Lemma seen_small q k a b u t c : quat_ok q -> scale_range k -> spot_ok a -> spot_ok b -> stands_for q u t -> put (rval3 a) u t (val k) c = rval3 b -> small3 (seen_pos q k a b) 59.
Proof.
  intros Q K A B H E. destruct (seen_core q k a b u t c Q K A B H E) as (F & D). apply small_of_norm; [exact F|]. destruct (near_norm _ _ _ D) as (N1 & _).
  destruct Q as (_ & Lq). destruct K as (Fk & K). destruct A as (_ & La). destruct B as (_ & Lb). pose proof (bpow_gt_0 radix2 (-20)) as P20. assert (KP : 0 < val k) by lra.
  pose proof (norm3_nonneg (rval3 a)) as NA. pose proof (norm3_nonneg (rval3 b)) as NB. pose proof u32_pos as U. pose proof u32_small as US.
  assert (IK : / val k <= bpow radix2 20) by (replace (bpow radix2 20) with (/ bpow radix2 (-20)) by (rewrite <- bpow_opp; reflexivity); apply Rinv_le; lra).
  assert (IP : 0 < / val k) by (apply Rinv_0_lt_compat, KP).
  assert (NC : norm3 c <= (norm3 (rval3 a) + norm3 (rval3 b)) * / val k).
  { apply (Rmult_le_reg_l (val k)); [exact KP|]. replace (val k * ((norm3 (rval3 a) + norm3 (rval3 b)) * / val k)) with (norm3 (rval3 b) + norm3 (rval3 a)) by (field; lra).
    replace (val k * norm3 c) with (norm3 (rotate3 u t (scale3 (val k) c))) by (rewrite rotate_norm by apply H; rewrite norm3_scale, Rabs_pos_eq by lra; reflexivity).
    unfold put in E. replace (rotate3 u t (scale3 (val k) c)) with (add3 (rval3 b) (neg3 (rval3 a))) by (rewrite <- E; apply pt3_eq; unfold add3, neg3, x3, y3, z3; cbn [fst snd]; ring).
    rewrite <- (norm3_neg (rval3 a)). apply norm3_triangle. }
  set (s := norm3 (rval3 a) + norm3 (rval3 b)) in * . assert (S : s <= bpow radix2 31) by (unfold s; change 31%Z with (1 + 30)%Z; rewrite bpow_plus; change (bpow radix2 1) with 2; lra).
  assert (SP : 0 <= s) by (unfold s; lra). assert (T : bpow radix2 (-30) <= bpow radix2 31) by (apply bpow_le; lia). pose proof (bpow_gt_0 radix2 (-30)) as P30.
  assert (BL : blur q k a b <= 1 / 10 * (2 * (bpow radix2 31 * bpow radix2 20))).
  { unfold blur. fold s. assert (0 <= length_error q) by apply Rabs_pos. assert (0 <= (s + bpow radix2 (-30)) / val k) by (apply Rmult_le_pos; lra). apply Rmult_le_compat; try lra.
    unfold Rdiv. replace (2 * (bpow radix2 31 * bpow radix2 20)) with ((bpow radix2 31 + bpow radix2 31) * bpow radix2 20) by ring. apply Rmult_le_compat; lra. }
  assert (M : s * / val k <= bpow radix2 31 * bpow radix2 20) by (apply Rmult_le_compat; lra).
  assert (bpow radix2 31 * bpow radix2 20 <= bpow radix2 51) by (rewrite <- bpow_plus; apply bpow_le; lia).
  assert (bpow radix2 59 = 256 * bpow radix2 51) by (change 59%Z with (8 + 51)%Z; rewrite bpow_plus; change (bpow radix2 8) with 256; reflexivity).
  pose proof (bpow_gt_0 radix2 51). set (z := bpow radix2 31 * bpow radix2 20) in * . set (y := bpow radix2 51) in * . clearbody z y.
  idtac. lra.
Qed.

Theorem C68_box_world : forall (q q' : quat b32) (k k' : b32) (a b s' : vec3 b32) (u : pt3) (t : R) (c : pt3) (h : vec3 b32),
  quat_ok q -> scale_range k -> spot_ok a -> spot_ok b -> stands_for q u t -> put (rval3 a) u t (val k) c = rval3 b -> half3_ok h ->
  box_right h (as_iso a q k) (Isotropic3d b q' k') c (blur q k a b) /\
  box_right h (as_t3 a q k) (Transform3d b q' s') c (blur q k a b) /\
  box_right h (as_bevy a q k) (BevyTransform b q' s') c (blur q k a b).
Proof.
  intros q q' k k' a b s' u t c h Q K A B H E Hh. pose proof (seen_core q k a b u t c Q K A B H E) as (_ & D). pose proof (seen_small q k a b u t c Q K A B H E) as S.
  split; [|split]; apply box_right_of; try assumption; (exact S || exact D).
Qed.
Print Assumptions C68_box_world.
Theorem C68_ball_world : forall (q q' : quat b32) (k k' : b32) (a b s' : vec3 b32) (u : pt3) (t : R) (c : pt3) (r : b32),
  quat_ok q -> scale_range k -> spot_ok a -> spot_ok b -> stands_for q u t -> put (rval3 a) u t (val k) c = rval3 b -> fat_radius r ->
  ball_right r (as_iso a q k) (Isotropic3d b q' k') c (blur q k a b) /\
  ball_right r (as_t3 a q k) (Transform3d b q' s') c (blur q k a b) /\
  ball_right r (as_bevy a q k) (BevyTransform b q' s') c (blur q k a b).
Proof.
  intros q q' k k' a b s' u t c r Q K A B H E Hr. pose proof (seen_core q k a b u t c Q K A B H E) as (_ & D). pose proof (seen_small q k a b u t c Q K A B H E) as S.
  split; [|split]; apply ball_right_of; try assumption; (exact S || exact D).
Qed.
Print Assumptions C68_ball_world.
(** ** Every point is seen at exactly one place, and the hypotheses are met *)
Theorem C68_seen_somewhere : forall (a b u : pt3) (t k : R), dot3 u u = 1 -> k <> 0 -> exists c, put a u t k c = b /\ forall c', put a u t k c' = b -> c' = c.
Proof.
  intros a b u t k U K.
  assert (R0 : forall t p, rotate3 u t (rotate3 u (- t) p) = p).
  { clear t. intros t p. rewrite <- (rq_rodrigues u t _ U), <- (rq_rodrigues u (- t) p U). replace (- t / 2) with (- (t / 2)) by field. rewrite sin_neg, cos_neg.
    pose proof (sin2_cos2 (t / 2)) as SC. unfold Rsqr in SC. set (s := sin (t / 2)) in * . set (w := cos (t / 2)) in * .
    replace (- s * x3 u) with (- (s * x3 u)) by ring. replace (- s * y3 u) with (- (s * y3 u)) by ring. replace (- s * z3 u) with (- (s * z3 u)) by ring.
    apply rq_inv. transitivity (s * s * dot3 u u + w * w); [unfold dot3; ring|]. rewrite U, Rmult_1_r. exact SC. }
  exists (scale3 (/ k) (rotate3 u (- t) (sub3 b a))). split.
  - unfold put. replace (scale3 k (scale3 (/ k) (rotate3 u (- t) (sub3 b a)))) with (rotate3 u (- t) (sub3 b a)) by (apply pt3_eq; unfold scale3, x3, y3, z3; cbn [fst snd]; field; exact K).
    rewrite R0. apply pt3_eq; unfold add3, sub3, x3, y3, z3; cbn [fst snd]; ring.
  - intros c' <-. unfold put. replace (sub3 (add3 (rotate3 u t (scale3 k c')) a) a) with (rotate3 u t (scale3 k c')) by (apply pt3_eq; unfold add3, sub3, x3, y3, z3; cbn [fst snd]; ring).
    pose proof (R0 (- t) (scale3 k c')) as E. rewrite Ropp_involutive in E. rewrite E. apply pt3_eq; unfold scale3, x3, y3, z3; cbn [fst snd]; field; exact K.
Qed.
Print Assumptions C68_seen_somewhere.
Definition case4_q : quat b32 := Qt (b32_of 0 0) (b32_of 0 0) (b32_of 10066330 (-24)) (b32_of 13421773 (-24)).
Definition case4_k : b32 := b32_of 2 0.
Lemma case4_spot (x y z : Z) : (Z.abs x <= 8)%Z -> (Z.abs y <= 8)%Z -> (Z.abs z <= 8)%Z -> spot_ok (V3 (b32_of x 0) (b32_of y 0) (b32_of z 0)).
Proof.
  intros X Y Z0. destruct (case3_num x 0 ltac:(lia) ltac:(lia)) as (Fx & Vx & _). destruct (case3_num y 0 ltac:(lia) ltac:(lia)) as (Fy & Vy & _). destruct (case3_num z 0 ltac:(lia) ltac:(lia)) as (Fz & Vz & _).
  split; [repeat split; assumption|]. apply Rle_trans with (0 * norm3 (0, 0, 0) + 2 * 8); [|rewrite Rmult_0_l, Rplus_0_l; apply Rle_trans with (bpow radix2 4); [cbn; lra | apply bpow_le; lia]].
  assert (K : forall m, (Z.abs m <= 8)%Z -> Rabs (IZR m * bpow radix2 0) <= 0 * Rabs 0 + 8).
  { intros m M. change (bpow radix2 0) with 1. rewrite Rmult_1_r, Rmult_0_l, Rplus_0_l, <- abs_IZR. apply IZR_le, M. }
  apply comp_norm; [lra | lra | | |]; unfold rval3; cbn [wx wy wz]; rewrite Vx, Vy, Vz; unfold x3, y3, z3; cbn [fst snd]; apply K; assumption.
Qed.
Lemma case4_quat : quat_ok case4_q /\ exists u t, stands_for case4_q u t.
Proof.
  destruct (val_of 0 0 ltac:(lia) ltac:(lia)) as (F0 & V0). destruct (val_of 10066330 (-24) ltac:(lia) ltac:(lia)) as (F1 & V1). destruct (val_of 13421773 (-24) ltac:(lia) ltac:(lia)) as (F2 & V2).
  assert (F : finq case4_q) by (repeat split; assumption). split.
  - split; [exact F|]. unfold length_error, case4_q; cbn [qx qy qz qw]. rewrite V0, V1, V2. cbn [bpow radix2 radix_val Z.pow_pos]. apply Rabs_le. cbn. lra.
  - apply C68_every_quaternion; [exact F|]. unfold case4_q; cbn [qx qy qz qw]. rewrite V0, V1, V2. cbn. lra.
Qed.
Example C68_case : let a := V3 (b32_of 1 0) (b32_of 2 0) (b32_of 3 0) in let b := V3 (b32_of 3 0) (b32_of 4 0) (b32_of 3 0) in
  quat_ok case4_q /\ (exists u t, stands_for case4_q u t) /\ scale_range case4_k /\ spot_ok a /\ spot_ok b /\ fat_radius (b32_of 1 0) /\ half3_ok case3_h /\
  collides3 (Box3d case3_h) (as_iso a case4_q case4_k) PointS (as_iso b case4_q case4_k) = true /\
  collides3 (Ball (b32_of 1 0)) (as_t3 a case4_q case4_k) PointS (as_t3 b case4_q case4_k) = false /\
  collides3 (Ball (b32_of 2 0)) (as_bevy a case4_q case4_k) PointS (as_bevy b case4_q case4_k) = true.
Proof.
  cbv zeta. destruct case4_quat as (Q & H). split; [exact Q|]. split; [exact H|].
  split. { destruct (case3_num 2 0 ltac:(lia) ltac:(lia)) as (F & V & _). split; [exact F|]. unfold case4_k. rewrite V. change (bpow radix2 0) with 1. rewrite Rmult_1_r. change 2 with (bpow radix2 1). split; apply bpow_le; lia. }
  split; [apply case4_spot; lia|]. split; [apply case4_spot; lia|].
  split. { destruct (case3_num 1 0 ltac:(lia) ltac:(lia)) as (F & V & S). split; [split; [exact F|]; split; [eapply small_weak; [|exact S]; lia | apply case3_pos; lia]|]. right. rewrite V. change (bpow radix2 0) with 1. rewrite Rmult_1_r. change 1 with (bpow radix2 0). apply bpow_le; lia. }
  split; [exact (proj1 C67_box_case)|]. split; [|split]; vm_compute; reflexivity.
Qed.
