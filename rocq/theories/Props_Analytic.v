(** * Property theorems C15-C25 (analytic pairs, exact arithmetic; C21 in every arithmetic). *)
From Coq Require Import Reals Lra Psatz Bool List.
From Verif Require Import Num NumXR NumB32 Glam Transform2 Shapes2 Gjk Detect2 Spec SpecLink P_Base P_Transform P_Shapes P_Geo P_Analytic P_Analytic2.
Local Open Scope R_scope.

(** What the four relative queries of [a] against [b] at [rel] answer, read against the sets A and B. *)
Local Notation exact_rel A B a b rel :=
  (answers_exact A B (collides_rel (F:=XR) a b rel) (penetrates_rel a b rel) (distance_to_rel a b rel) (sdfv_rel a b rel)).

(** C15: Box2d v Point. The point of the relative transformation is c. *)
Theorem C15_box_point_exact : forall (T : Type) (TR : Transformation2d XR T) hx hy c (rel : T),
  0 <= hx -> 0 <= hy -> apply_origin rel = inj c ->
  exact_rel (rect hx hy) (single c) (pbox hx hy) PointS rel.
Proof. intros T TR hx hy c rel Hx Hy E. exact (box_point_exact hx hy c rel Hx Hy E). Qed.
Print Assumptions C15_box_point_exact.
(** overlap of a rectangle with a point is being strictly inside *)
Theorem C15_box_point_strictly_inside : forall (T : Type) (TR : Transformation2d XR T) hx hy c (rel : T),
  apply_origin rel = inj c ->
  (collides_rel (F:=XR) (pbox hx hy) PointS rel = Ok true <-> - hx < fst c < hx /\ - hy < snd c < hy) /\
  (collides_rel (F:=XR) (pbox hx hy) PointS rel = Ok false <-> ~ (- hx < fst c < hx /\ - hy < snd c < hy)).
Proof.
  intros T TR hx hy c rel E.
  assert (F : collides_rel (F:=XR) (pbox hx hy) PointS rel = Ok (Rltb (Rabs (fst c) - hx) 0 && Rltb (Rabs (snd c) - hy) 0)).
  { unfold collides_rel, sdfv_common_rel, Sdfv_BoxPoint. cbn [rmap]. rewrite (box_flag hx hy c rel E). reflexivity. }
  rewrite F.
  assert (G : forall x h, (Rabs x - h < 0) <-> - h < x < h).
  { intros x h. unfold Rabs; destruct (Rcase_abs x); split; intros; lra. }
  rewrite <- !G.
  destruct (Rltb_spec (Rabs (fst c) - hx) 0), (Rltb_spec (Rabs (snd c) - hy) 0); cbn [andb]; split; split; intros Q;
  try discriminate; try reflexivity; try tauto; try (exfalso; tauto).
Qed.
Print Assumptions C15_box_point_strictly_inside.
Example C15_example : exact_rel (rect 2 1) (single (1, 1/2)) (pbox 2 1) PointS (inj (1, 1/2)) /\
  collides_rel (F:=XR) (pbox 2 1) PointS (inj (1, 1/2)) = Ok true /\ collides_rel (F:=XR) (pbox 2 1) PointS (inj (2, 1/2)) = Ok false.
Proof.
  split; [apply C15_box_point_exact; try lra; reflexivity|]. split.
  - apply (C15_box_point_strictly_inside _ Tr_Vec2 2 1 (1, 1/2) (inj (1, 1/2)) eq_refl). cbn; lra.
  - apply (C15_box_point_strictly_inside _ Tr_Vec2 2 1 (2, 1/2) (inj (2, 1/2)) eq_refl). cbn; lra.
Qed.

(** C16: Ball v Point and Ball v Ball *)
Theorem C16_ball_point_exact : forall (T : Type) (TR : Transformation2d XR T) r c (rel : T),
  0 <= r -> apply_origin rel = inj c -> 0 < r \/ c <> origin ->
  exact_rel (disc r) (single c) (pball r) PointS rel.
Proof. intros T TR r c rel Hr E N. exact (ball_point_exact r c rel Hr E N). Qed.
Print Assumptions C16_ball_point_exact.
Example C16_point_case : exact_rel (disc 1) (single (1/2, 0)) (pball 1) PointS (inj (1/2, 0)).
Proof. apply C16_ball_point_exact; try lra; reflexivity. Qed.
Theorem C16_ball_ball_exact : forall (T : Type) (TR : Transformation2d XR T) r1 r2 v c s (rel : T),
  0 <= r1 -> 0 <= r2 -> acts_as rel v c s 1 -> c * c + s * s = 1 -> 0 < r1 + r2 \/ v <> origin ->
  exact_rel (disc r1) (image (place v c s 1 1) (disc r2)) (pball r1) (pball r2) rel.
Proof.
  intros T TR r1 r2 v c s rel H1 H2 HA U N.
  exact (ans_same (fun P D => Ok (ball_point_sdfv P D (pball (r1 + r2)) rel)) _ _ _ _ (diff_disc_disc r1 r2 v c s H1 H2 U)
    (ball_point_exact (r1 + r2) v rel (Rplus_le_le_0_compat _ _ H1 H2) (proj1 (proj2 HA)) N)).
Qed.
Print Assumptions C16_ball_ball_exact.
(** concentric balls are pushed apart along +X *)
Theorem C16_concentric_along_x : forall (T : Type) (TR : Transformation2d XR T) r1 r2 (rel : T), apply_origin rel = inj origin ->
  sdfv_rel (F:=XR) (pball r1) (pball r2) rel = Ok (true, inj (r1 + r2, 0)).
Proof.
  intros T TR r1 r2 rel E. unfold sdfv_rel, sdfv_common_rel, Sdfv_BallBall. rewrite ball_ball_is_point, (ball_point_eq0 _ _ _ _ E). reflexivity.
Qed.
Print Assumptions C16_concentric_along_x.
(** the excluded case is really wrong: two coincident points (balls of radius 0) are reported as colliding without overlap *)
Theorem C16_zero_radius_refuted : forall (T : Type) (TR : Transformation2d XR T) (rel : T), apply_origin rel = inj origin ->
  collides_rel (F:=XR) (pball 0) PointS rel = Ok true /\ ~ overlaps (disc 0) (single origin).
Proof.
  intros T TR rel E. split; [|exact disc0_not_overlap].
  unfold collides_rel, sdfv_common_rel, Sdfv_BallPoint. rewrite (ball_point_eq0 _ _ _ _ E). reflexivity.
Qed.
Print Assumptions C16_zero_radius_refuted.
Example C16_example : exact_rel (disc 1) (image (place (1, 1) (3/5) (4/5) 1 1) (disc 2)) (pball 1) (pball 2) (t2 (1, 1) (3/5) (4/5) 1 1).
Proof. apply C16_ball_ball_exact; try lra. apply acts_t2. Qed.

(** C17: RoundedBox2d v Point and Box2d v Ball, except when the centre is exactly on the line |x| = hx with |y| < hy *)
Theorem C17_rounded_point_exact : forall (T : Type) (TR : Transformation2d XR T) hx hy r c (rel : T),
  0 <= hx -> 0 <= hy -> 0 <= r -> apply_origin rel = inj c -> ~ (Rabs (fst c) = hx /\ Rabs (snd c) < hy) ->
  exact_rel (rounded_rect hx hy r) (single c) (prounded hx hy r) PointS rel.
Proof. intros T TR hx hy r c rel Hx Hy Hr E N. exact (rounded_exact hx hy r c rel Hx Hy Hr E N). Qed.
Print Assumptions C17_rounded_point_exact.
Example C17_rounded_case : exact_rel (rounded_rect 2 1 1) (single (3, 2)) (prounded 2 1 1) PointS (inj (3, 2)).
Proof. apply C17_rounded_point_exact; try lra; [reflexivity|]. cbn. rewrite !Rabs_right; lra. Qed.
Theorem C17_box_ball_exact : forall (T : Type) (TR : Transformation2d XR T) hx hy r v c s (rel : T),
  0 <= hx -> 0 <= hy -> 0 <= r -> acts_as rel v c s 1 -> c * c + s * s = 1 -> ~ (Rabs (fst v) = hx /\ Rabs (snd v) < hy) ->
  exact_rel (rect hx hy) (image (place v c s 1 1) (disc r)) (pbox hx hy) (pball r) rel.
Proof.
  intros T TR hx hy r v c s rel Hx Hy Hr HA U N.
  exact (ans_same (fun P D => Ok (rounded_point_sdfv P D (prounded hx hy r) rel)) _ _ _ _ (diff_rect_disc hx hy r v c s Hr U)
    (rounded_exact hx hy r v rel Hx Hy Hr (proj1 (proj2 HA)) N)).
Qed.
Print Assumptions C17_box_ball_exact.
(** the flag alone is right on the exceptional line too when the radius is positive *)
Theorem C17_flag_on_the_line : forall (T : Type) (TR : Transformation2d XR T) hx hy r c (rel : T),
  0 <= hx -> 0 <= hy -> 0 < r -> apply_origin rel = inj c -> Rabs (fst c) = hx -> Rabs (snd c) < hy ->
  collides_rel (F:=XR) (prounded hx hy r) PointS rel = Ok true /\ overlaps (rounded_rect hx hy r) (single c).
Proof.
  intros T TR hx hy r c rel Hx Hy Hr E Q1 Q2. split.
  - unfold collides_rel, sdfv_common_rel, Sdfv_RoundedPoint, rounded_point_sdfv. cbn [rmap].
    change (box_part (prounded hx hy r)) with (pbox hx hy). rewrite (box_flag hx hy c rel E), E.
    cbn [inj vx vy rb_halfsize rb_radius prounded fst snd fabs fsub FloatXR xabs xsub fle xle f0 flt xlt].
    rewrite (Rltb_false (Rabs (fst c) - hx) 0) by lra. cbn [andb]. rewrite Rleb_true by lra. cbn [fst]. rewrite Rltb_true by lra. reflexivity.
  - apply (face_x_in hx hy r c); lra.
Qed.
Print Assumptions C17_flag_on_the_line.
Example C17_line_case : collides_rel (F:=XR) (prounded 2 1 1) PointS (inj (2, 1/2)) = Ok true.
Proof. apply (C17_flag_on_the_line _ Tr_Vec2 2 1 1 (2, 1/2)); try lra; try reflexivity; cbn; rewrite Rabs_right; lra. Qed.
(** ... but the vector is wrong there: unit box, radius 1, centre (1,0). The answer (0,-2) has twice the minimal length. *)
Theorem C17_exact_line_refuted : exists v w,
  penetrates_rel (F:=XR) (prounded 1 1 1) PointS (inj (1, 0)) = Ok (Some (inj v)) /\
  is_min_separation w (rounded_rect 1 1 1) (single (1, 0)) /\ norm v = 2 * norm w /\ 0 < norm w.
Proof.
  exists (0, -2), (-1, 0). repeat split.
  - unfold penetrates_rel, sdfv_common_rel, Sdfv_RoundedPoint, rounded_point_sdfv. cbn [rmap].
    change (box_part (prounded 1 1 1)) with (pbox 1 1). rewrite (box_flag (TR:=Tr_Vec2) 1 1 (1, 0) (inj (1, 0)) eq_refl).
    cbn [fst snd inj apply_origin Tr_Vec2 vx vy rb_halfsize rb_radius prounded fabs fsub FloatXR xabs xsub fle xle f0 flt xlt].
    rewrite Rabs_R1, Rabs_R0, (Rltb_false (1 - 1) 0) by lra. cbn [andb]. rewrite Rleb_true by lra. cbn [fst snd].
    rewrite Rltb_true by lra. rewrite fsignum_fin, Rltb_false by lra. do 2 f_equal. apply vec_ext; cbn; f_equal; ring.
  - pose proof (face_x_in 1 1 1 (1, 0)) as F. cbn [fst snd] in F. rewrite Rabs_R1, Rabs_R0 in F.
    replace (-1, 0) with ((1 - 1 - 1) * rsign 1, 0).
    + apply F; lra.
    + apply pt_eq; cbn; [|reflexivity]. unfold rsign. rewrite Rltb_false by lra. ring.
  - pose proof (face_x_in 1 1 1 (1, 0)) as F. cbn [fst snd] in F. rewrite Rabs_R1, Rabs_R0 in F.
    replace (-1, 0) with ((1 - 1 - 1) * rsign 1, 0).
    + apply F; lra.
    + apply pt_eq; cbn; [|reflexivity]. unfold rsign. rewrite Rltb_false by lra. ring.
  - rewrite norm_xaxis, norm_yaxis, !Rabs_left by lra. ring.
  - rewrite norm_xaxis, Rabs_left by lra. lra.
Qed.
Print Assumptions C17_exact_line_refuted.
Example C17_example : exact_rel (rect 2 1) (image (place (3, 2) 1 0 1 1) (disc 1)) (pbox 2 1) (pball 1) (inj (3, 2)).
Proof.
  apply C17_box_ball_exact; try lra; [apply acts_vec2|]. cbn. rewrite !Rabs_pos_eq by lra. lra.
Qed.

(** C18: roles exchanged, rigid relative transformations *)
Theorem C18_point_box_exact : forall (T : Type) (TR : Transformation2d XR T) (I : Invertible T) hx hy v c s (rel : T),
  0 <= hx -> 0 <= hy -> acts_as rel v c s 1 -> c * c + s * s = 1 -> inverse_at rel v c s ->
  exact_rel (single origin) (image (place v c s 1 1) (rect hx hy)) PointS (pbox hx hy) rel.
Proof.
  intros T TR I hx hy v c s rel Hx Hy HA U (u & E & HU).
  exact (reverse_exact (fun P D => box_point_sdfv P D (pbox hx hy)) (rect hx hy) rel v c s u HA U HU
           (box_point_exact hx hy u (inverse rel) Hx Hy E)).
Qed.
Print Assumptions C18_point_box_exact.
Theorem C18_point_ball_exact : forall (T : Type) (TR : Transformation2d XR T) (I : Invertible T) r v c s (rel : T),
  0 < r -> acts_as rel v c s 1 -> c * c + s * s = 1 -> inverse_at rel v c s ->
  exact_rel (single origin) (image (place v c s 1 1) (disc r)) PointS (pball r) rel.
Proof.
  intros T TR I r v c s rel Hr HA U (u & E & HU).
  exact (reverse_exact (fun P D => ball_point_sdfv P D (pball r)) (disc r) rel v c s u HA U HU
           (ball_point_exact r u (inverse rel) (Rlt_le _ _ Hr) E (or_introl Hr))).
Qed.
Print Assumptions C18_point_ball_exact.
Theorem C18_rigid_instances : forall v c s, c * c + s * s = 1 ->
  inverse_at (t2 v c s 1 1) v c s /\ inverse_at (inj v) v 1 0 /\ inverse_at (Translate2d (inj v)) v 1 0.
Proof. intros v c s U. exact (conj (inverse_at_t2 v c s U) (conj (inverse_at_vec2 v) (inverse_at_translate v))). Qed.
Print Assumptions C18_rigid_instances.
Example C18_example : exact_rel (single origin) (image (place (3, 2) (3/5) (4/5) 1 1) (rect 2 1)) PointS (pbox 2 1) (t2 (3, 2) (3/5) (4/5) 1 1) /\
  exact_rel (single origin) (image (place (3, 2) (3/5) (4/5) 1 1) (disc 2)) PointS (pball 2) (t2 (3, 2) (3/5) (4/5) 1 1).
Proof.
  assert (U : (3/5) * (3/5) + (4/5) * (4/5) = 1) by lra.
  split; [apply C18_point_box_exact | apply C18_point_ball_exact]; try lra; try apply acts_t2; apply C18_rigid_instances, U.
Qed.
(** scaled relative transformation: a ball of radius 1 scaled by 2 at distance 3 is 1 away, the answer has length 1/2 *)
Theorem C18_scaled_refuted : exists v w,
  distance_to_rel (F:=XR) PointS (pball 1) (t2 (3, 0) 1 0 2 2) = Ok (Some (inj v)) /\
  is_min_contact w (single origin) (image (place (3, 0) 1 0 2 2) (disc 1)) /\ norm v < norm w.
Proof.
  exists (1/2, 0), (1, 0). repeat split.
  - unfold distance_to_rel, sdfv_common_rel, Sdfv_PointBall, reverse_sdfv.
    assert (E : apply_origin (inverse (t2 (3, 0) 1 0 2 2)) = inj (-3/2, 0)).
    { rewrite inverse_t2 by lra. apply vec_ext; cbn; f_equal; field. }
    assert (N : (-3/2, 0) <> origin) by (intro Q; injection Q; lra).
    rewrite (ball_point_eq 1 _ _ false true E N). rewrite norm_xaxis. rewrite Rabs_left by lra. rewrite Rltb_false by lra.
    cbn [rmap fst snd]. do 2 f_equal. apply vec_ext; cbn; f_equal; field.
  - exists (1, 0). split; [unfold shift, single; apply pt_eq; cbn; ring|]. exists (-1, 0). split.
    + unfold disc. rewrite norm_xaxis, Rabs_left; lra.
    + apply pt_eq; cbn; ring.
  - intros w (p & P & (q & Q & E)). unfold shift, single in P. unfold disc in Q.
    pose proof (norm_x q) as X. pose proof (norm_x w) as Y.
    assert (EW : fst w = 3 + 2 * fst q).
    { apply (f_equal fst) in P. apply (f_equal fst) in E. cbn in P, E. lra. }
    assert (A : Rabs (fst q) <= 1) by lra. apply Rabs_le_iff in A.
    rewrite norm_xaxis, Rabs_R1. rewrite EW in Y. pose proof (Rle_abs (3 + 2 * fst q)). lra.
  - rewrite !norm_xaxis, !Rabs_pos_eq by lra. lra.
Qed.
Print Assumptions C18_scaled_refuted.

(** C19: scalar sdf *)
Theorem C19_box_point_sdf : forall (T : Type) (TR : Transformation2d XR T) hx hy c (rel : T),
  0 <= hx -> 0 <= hy -> apply_origin rel = inj c ->
  exists d, sdf_rel (pbox hx hy) PointS rel = XFin d /\ is_signed_distance d (rect hx hy) (single c).
Proof. intros T TR. exact box_point_sdf_exact. Qed.
Print Assumptions C19_box_point_sdf.
Theorem C19_rounded_point_sdf : forall (T : Type) (TR : Transformation2d XR T) hx hy r c (rel : T),
  0 <= hx -> 0 <= hy -> 0 <= r -> apply_origin rel = inj c ->
  exists d, sdf_rel (prounded hx hy r) PointS rel = XFin d /\ is_signed_distance d (rounded_rect hx hy r) (single c).
Proof. intros T TR. exact rounded_point_sdf_exact. Qed.
Print Assumptions C19_rounded_point_sdf.
Theorem C19_ball_point_sdf : forall (T : Type) (TR : Transformation2d XR T) r c (rel : T),
  0 <= r -> apply_origin rel = inj c ->
  exists d, sdf_rel (pball r) PointS rel = XFin d /\ is_signed_distance d (disc r) (single c).
Proof. intros T TR. exact ball_point_sdf_exact. Qed.
Print Assumptions C19_ball_point_sdf.
Theorem C19_ball_ball_sdf : forall (T : Type) (TR : Transformation2d XR T) r1 r2 v c s (rel : T),
  0 <= r1 -> 0 <= r2 -> acts_as rel v c s 1 -> c * c + s * s = 1 ->
  exists d, sdf_rel (pball r1) (pball r2) rel = XFin d /\
    is_signed_distance d (disc r1) (image (place v c s 1 1) (disc r2)).
Proof. intros T TR. exact ball_ball_sdf_exact. Qed.
Print Assumptions C19_ball_ball_sdf.
Example C19_cases :
  (exists d, sdf_rel (pball 1) (pball 2) (t2 (1, 1) (3/5) (4/5) 1 1) = XFin d /\ is_signed_distance d (disc 1) (image (place (1, 1) (3/5) (4/5) 1 1) (disc 2))) /\
  (exists d, sdf_rel (prounded 2 1 1) PointS (inj (2, 1/2)) = XFin d /\ is_signed_distance d (rounded_rect 2 1 1) (single (2, 1/2))) /\
  (exists d, sdf_rel (pball 1) PointS (inj origin) = XFin d /\ is_signed_distance d (disc 1) (single origin)).
Proof.
  split; [|split].
  - apply C19_ball_ball_sdf; try lra. apply acts_t2.
  - apply C19_rounded_point_sdf; try lra; reflexivity.
  - apply C19_ball_point_sdf; try lra; reflexivity.
Qed.
(** Point v Point: sdf is the distance, collision is coincidence, and the vector moves self onto other *)
Theorem C19_point_point : forall (T : Type) (TR : Transformation2d XR T) c (rel : T), apply_origin rel = inj c ->
  (exists d, sdf_rel PointS PointS rel = XFin d /\ is_signed_distance d (single origin) (single c)) /\
  (collides_rel (F:=XR) PointS PointS rel = Ok true <-> meets (single origin) (single c)) /\
  (exists flag, sdfv_rel (F:=XR) PointS PointS rel = Ok (flag, inj c)) /\ is_min_contact c (single origin) (single c).
Proof.
  intros T TR c rel E. split; [|split; [|split]].
  - exists (norm c). split; [|apply single_sdf]. unfold sdf_rel, Sdf_PointPoint, point_point_sdf. rewrite E. apply v2len_inj.
  - unfold collides_rel, sdfv_common_rel, Sdfv_PointPoint. rewrite (point_point_eq c rel _ _ E). cbn [rmap fst].
    unfold meets, single. destruct (pt_eq_dec_origin c) as [->|N]; split; intro H; try reflexivity; try discriminate.
    + exists origin; auto.
    + destruct H as (p & -> & E'). congruence.
  - unfold sdfv_rel, sdfv_common_rel, Sdfv_PointPoint. rewrite (point_point_eq c rel _ _ E). eexists; reflexivity.
  - split; [apply meets_single; unfold single; apply pt_eq; cbn; ring|]. intros w W. apply meets_single in W. unfold single in W.
    replace w with c; [lra|]. pose proof (f_equal fst W); pose proof (f_equal snd W); cbn in * . apply pt_eq; lra.
Qed.
Print Assumptions C19_point_point.
(** consistency of sdf and sdfv, from exactness of both: |sdf| is the length of sdfv's vector, negative iff colliding *)
Theorem C19_sdf_matches_sdfv : forall A B col pen dist flag v d,
  answers_exact A B col pen dist (Ok (flag, inj v)) -> is_signed_distance d A B ->
  d = if flag then - norm v else norm v.
Proof.
  intros A B col pen dist flag v d [[O (w & S & _ & _ & _ & E)]|[O (w & S & _ & _ & _ & E)]] [[O' (u & S' & ->)]|[O' (u & S' & ->)]]; try contradiction.
  - assert (flag = true /\ v = w) as [-> ->] by (split; [congruence | apply inj_inj; congruence]).
    destruct S as [S1 S2], S' as [S3 S4]. pose proof (S2 _ S3). pose proof (S4 _ S1). lra.
  - assert (flag = false /\ v = w) as [-> ->] by (split; [congruence | apply inj_inj; congruence]).
    destruct S as [S1 S2], S' as [S3 S4]. pose proof (S2 _ S3). pose proof (S4 _ S1). lra.
Qed.
Print Assumptions C19_sdf_matches_sdfv.
Example C19_example : exists d, sdf_rel (pbox 2 1) PointS (inj (5, 5)) = XFin d /\ is_signed_distance d (rect 2 1) (single (5, 5)) /\ d = 5.
Proof.
  destruct (C19_box_point_sdf _ _ 2 1 (5, 5) (inj (5, 5))) as (d & E & S); try lra; [reflexivity|].
  exists d. split; [exact E|]. split; [exact S|].
  unfold sdf_rel, Sdf_BoxPoint in E. rewrite (box_sdf_eq (TR:=Tr_Vec2) 2 1 (5, 5) (inj (5, 5)) eq_refl) in E. injection E as <-. cbn [fst snd].
  rewrite Rabs_pos_eq by lra. rewrite !Rltb_false by lra. cbn [andb]. apply norm_eq; [lra|]. unfold pdot; cbn; ring.
Qed.

(** C20: scalar sdf of Box2d v Ball is not the signed distance, neither outside ... *)
Theorem C20_box_ball_sdf_outside_refuted : exists d e,
  sdf_rel (pbox 20 1) (pball 1) (inj (12, 5)) = XFin d /\
  is_signed_distance e (rect 20 1) (image (place (12, 5) 1 0 1 1) (disc 1)) /\ d = 47/13 /\ e = 3.
Proof.
  exists (47/13), 3. split; [|split; [|split; reflexivity]].
  - unfold sdf_rel, Sdf_BoxBall, box_ball_sdf.
    assert (NC : norm (-12, -5) = 13) by (apply norm_eq; [lra | unfold pdot; cbn; ring]).
    assert (EP : extreme_point_t (pball 1) (inj (12, 5)) (v2neg (apply_origin (inj (12, 5)))) = inj (12 - 12/13, 5 - 5/13)).
    { unfold extreme_point_t, ExtT_Ball. change (v2neg (apply_origin (inj (12, 5)))) with (inj (-12, -5)).
      rewrite ext_ball by lra. destruct (pt_eq_dec_origin (-12, -5)) as [Q|Q]; [injection Q; lra|]. rewrite NC.
      apply vec_ext; cbn; f_equal; field. }
    rewrite EP.
    assert (FL : fst (box_ball_sdfv false false (pbox 20 1) (pball 1) (inj (12, 5))) = false).
    { unfold box_ball_sdfv, rounded_point_sdfv. change (box_part (RoundedBox2d (halfsize (pbox 20 1)) (b_radius (pball 1)))) with (pbox 20 1).
      rewrite (box_flag (TR:=Tr_Vec2) 20 1 (12, 5) (inj (12, 5)) eq_refl). cbn. rewrite !Rabs_pos_eq by lra.
      rewrite (Rltb_false (5 - 1) 0) by lra. rewrite andb_false_r. rewrite Rleb_true by lra. cbn. rewrite Rltb_false by lra. reflexivity. }
    rewrite FL. cbn. rewrite !Rabs_pos_eq by lra. rewrite Rltb_true by lra. f_equal. field.
  - apply (same_signed_distance _ _ _ _ (diff_rect_disc 20 1 1 (12, 5) 1 0 ltac:(lra) ltac:(lra))).
    pose proof (rounded_sdf_exact 20 1 1 (12, 5) ltac:(lra) ltac:(lra) ltac:(lra)) as R. cbv zeta in R. cbn [fst snd] in R.
    rewrite !Rabs_pos_eq in R by lra. rewrite (Rltb_true (12 - 20) 0), (Rltb_false (5 - 1) 0) in R by lra. cbn [andb] in R.
    replace (5 - 1 - 1) with 3 in R by ring. exact R.
Qed.
Print Assumptions C20_box_ball_sdf_outside_refuted.
(** ... nor inside *)
Theorem C20_box_ball_sdf_inside_refuted : exists d e,
  sdf_rel (pbox 10 10) (pball 1) (inj (5, 0)) = XFin d /\
  is_signed_distance e (rect 10 10) (image (place (5, 0) 1 0 1 1) (disc 1)) /\ d = -10 /\ e = -6.
Proof.
  exists (-10), (-6). split; [|split; [|split; reflexivity]].
  - unfold sdf_rel, Sdf_BoxBall, box_ball_sdf.
    assert (NC : norm (-5, 0) = 5) by (rewrite norm_xaxis, Rabs_left; lra).
    assert (EP : extreme_point_t (pball 1) (inj (5, 0)) (v2neg (apply_origin (inj (5, 0)))) = inj (4, 0)).
    { unfold extreme_point_t, ExtT_Ball. replace (v2neg (apply_origin (inj (5, 0)))) with (inj (-5, 0)).
      2:{ apply vec_ext; cbn; f_equal; ring. }
      rewrite ext_ball by lra. destruct (pt_eq_dec_origin (-5, 0)) as [Q|Q]; [injection Q; lra|]. rewrite NC.
      apply vec_ext; cbn; f_equal; field. }
    rewrite EP.
    assert (FL : fst (box_ball_sdfv false false (pbox 10 10) (pball 1) (inj (5, 0))) = true).
    { unfold box_ball_sdfv, rounded_point_sdfv. change (box_part (RoundedBox2d (halfsize (pbox 10 10)) (b_radius (pball 1)))) with (pbox 10 10).
      rewrite (box_flag (TR:=Tr_Vec2) 10 10 (5, 0) (inj (5, 0)) eq_refl). cbn [fst snd]. rewrite !Rabs_pos_eq by lra.
      rewrite !Rltb_true by lra. cbn [andb]. destruct (flt _ _); reflexivity. }
    rewrite FL. cbn [inj vx vy fst snd halfsize pbox fabs fsub FloatXR xabs xsub]. rewrite fmin_fin. rewrite !Rabs_pos_eq by lra.
    f_equal. rewrite Rmin_right; lra.
  - apply (same_signed_distance _ _ _ _ (diff_rect_disc 10 10 1 (5, 0) 1 0 ltac:(lra) ltac:(lra))).
    pose proof (rounded_sdf_exact 10 10 1 (5, 0) ltac:(lra) ltac:(lra) ltac:(lra)) as R. cbv zeta in R. cbn [fst snd] in R.
    rewrite !Rabs_pos_eq in R by lra. rewrite (Rltb_true (5 - 10) 0), (Rltb_true (0 - 10) 0) in R by lra. cbn [andb] in R.
    rewrite Rmax_left in R by lra. replace (5 - 10 - 1) with (-6) in R by ring. exact R.
Qed.
Print Assumptions C20_box_ball_sdf_inside_refuted.
(** what does hold: a ball straight to the right or left of the box, not colliding *)
Theorem C20_box_ball_sdf_axis : forall hx hy r x, 0 <= hx -> 0 < hy -> 0 <= r -> hx + r <= Rabs x -> hx < Rabs x ->
  exists d, sdf_rel (pbox hx hy) (pball r) (inj (x, 0)) = XFin d /\
    is_signed_distance d (rect hx hy) (image (place (x, 0) 1 0 1 1) (disc r)).
Proof.
  intros hx hy r x Hx Hy Hr L LX. exists (Rabs x - hx - r).
  assert (PX : 0 < Rabs x) by lra.
  assert (NX : x <> 0) by (intro Q; rewrite Q, Rabs_R0 in PX; lra).
  assert (LE : r <= Rabs x) by lra.
  split.
  - unfold sdf_rel, Sdf_BoxBall, box_ball_sdf.
    assert (EP : extreme_point_t (pball r) (inj (x, 0)) (v2neg (apply_origin (inj (x, 0)))) = inj (rsign x * (Rabs x - r), 0)).
    { unfold extreme_point_t, ExtT_Ball. replace (v2neg (apply_origin (inj (x, 0)))) with (inj (- x, 0)).
      2:{ apply vec_ext; cbn; f_equal; ring. }
      rewrite ext_ball by lra. destruct (pt_eq_dec_origin (- x, 0)) as [Q|Q]; [injection Q; lra|].
      rewrite norm_xaxis, Rabs_Ropp.
      assert (X : x / Rabs x = rsign x) by (rewrite (rsign_split x) at 1; field; lra).
      apply vec_ext; cbn; f_equal.
      - transitivity (x - r * (x / Rabs x)); [field; lra|]. rewrite X. rewrite (rsign_split x) at 1. ring.
      - field; lra. }
    rewrite EP.
    assert (FL : fst (box_ball_sdfv false false (pbox hx hy) (pball r) (inj (x, 0))) = false).
    { unfold box_ball_sdfv, rounded_point_sdfv. change (box_part (RoundedBox2d (halfsize (pbox hx hy)) (b_radius (pball r)))) with (pbox hx hy).
      rewrite (box_flag (TR:=Tr_Vec2) hx hy (x, 0) (inj (x, 0)) eq_refl). cbn. rewrite (Rltb_false (Rabs x - hx) 0) by lra. cbn [andb]. rewrite Rabs_R0.
      destruct (Rleb_spec (Rabs x - hx) 0).
      - lra.
      - rewrite Rleb_true by lra. cbn. apply Rltb_false. lra. }
    rewrite FL. cbn [inj vx vy fst snd halfsize pbox fabs fsub FloatXR xabs xsub fnegsign xsgn].
    rewrite rsh by lra. rewrite (Rltb_false (Rabs x - r - hx) 0) by lra. rewrite Rabs_R0, (Rltb_true (0 - hy) 0) by lra.
    f_equal. ring.
  - apply (same_signed_distance _ _ _ _ (diff_rect_disc hx hy r (x, 0) 1 0 ltac:(lra) ltac:(lra))).
    pose proof (rounded_sdf_exact hx hy r (x, 0) ltac:(lra) ltac:(lra) ltac:(lra)) as R. cbv zeta in R. cbn [fst snd] in R.
    rewrite Rabs_R0 in R. rewrite (Rltb_false (Rabs x - hx) 0), (Rltb_true (0 - hy) 0) in R by lra. cbn [andb] in R. exact R.
Qed.
Print Assumptions C20_box_ball_sdf_axis.
Example C20_axis_case : exists d, sdf_rel (pbox 2 1) (pball 1) (inj (-5, 0)) = XFin d /\
  is_signed_distance d (rect 2 1) (image (place (-5, 0) 1 0 1 1) (disc 1)).
Proof. apply C20_box_ball_sdf_axis; try lra; rewrite Rabs_left; lra. Qed.
