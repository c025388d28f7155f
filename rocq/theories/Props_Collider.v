(** * Property theorems C21-C25 (agreement of the queries, colliders). *)
From Coq Require Import Reals Lra Psatz Bool List.
From Verif Require Import Num NumXR NumB32 Glam Transform2 Shapes2 Gjk Detect2 Spec SpecLink P_Base P_Transform P_Shapes P_Geo P_Analytic P_Analytic2 Props_Analytic.
Local Open Scope R_scope.

(** C21: in every arithmetic (in particular binary32, with NaN and infinities) the four relative queries of every
    analytic pair give one flag and one vector. *)
Theorem C21_queries_agree : forall (F : Type) (FL : Float F) (T : Type) (TR : Transformation2d F T) (I : Invertible T)
  (bx : box2d F) (rb : rounded_box2d F) (b1 b2 : ball F) (rel : T),
  queries_agree (F:=F) bx PointS rel /\ queries_agree (F:=F) rb PointS rel /\ queries_agree (F:=F) bx b1 rel /\
  queries_agree (F:=F) b1 PointS rel /\ queries_agree (F:=F) b1 b2 rel /\ queries_agree (F:=F) PointS PointS rel /\
  queries_agree (F:=F) PointS bx rel /\ queries_agree (F:=F) PointS b1 rel.
Proof.
  intros F FL T TR I bx rb b1 b2 rel.
  split; [apply agree_box_point|].
  split; [eapply agree_const with (r := rounded_point_sdfv true true rb rel); intros; reflexivity|].
  split; [eapply agree_const with (r := box_ball_sdfv true true bx b1 rel); intros; reflexivity|].
  split; [eapply agree_const with (r := ball_point_sdfv true true b1 rel); intros; reflexivity|].
  split; [eapply agree_const with (r := ball_ball_sdfv true true b1 b2 rel); intros; reflexivity|].
  split; [eapply agree_const with (r := point_point_sdfv true true rel); intros; reflexivity|].
  split; [apply agree_point_box|].
  eapply agree_const with (r := reverse_sdfv (ball_point_sdfv true true b1) rel); intros; reflexivity.
Qed.
Print Assumptions C21_queries_agree.
(** in binary32, concretely: a point on the corner of a box with a NaN coordinate *)
Example C21_example : queries_agree (F:=b32) (Box2d (V2 f1 f1)) PointS (V2 f0 fnan : vec2 b32).
Proof. apply (C21_queries_agree b32 _ _ _ _ (Box2d (V2 f1 f1)) (RoundedBox2d (V2 f1 f1) f1) (Ball f1) (Ball f1)). Qed.

(** C22: a common motion g (rotation, translation, uniform scale) of both colliders changes nothing but the direction
    of sdfv's vector. Any pair of shapes, any scale of the other collider. *)
Theorem C22_common_motion : forall (A B : Type) (SD : SdfvCommonRel2d XR A B (transform2d XR)) (a : A) (b : B)
  vg cg sg kg va ca sa ka vb cb sb sxb syb,
  cg * cg + sg * sg = 1 -> ca * ca + sa * sa = 1 -> kg <> 0 -> ka <> 0 ->
  let g := t2 vg cg sg kg kg in let ta := t2 va ca sa ka ka in let tb := t2 vb cb sb sxb syb in
  let ca' := Collider2d a (compose g ta) in let cb' := Collider2d b (compose g tb) in
  let ca0 := Collider2d a ta in let cb0 := Collider2d b tb in
  collides (F:=XR) ca' cb' = collides (F:=XR) ca0 cb0 /\ penetrates ca' cb' = penetrates ca0 cb0 /\
  distance_to ca' cb' = distance_to ca0 cb0 /\
  (forall flag v, sdfv ca0 cb0 = Ok (flag, inj v) -> sdfv ca' cb' = Ok (flag, inj (rotate cg sg v))).
Proof. intros A B SD a b. exact (common_motion a b). Qed.
Print Assumptions C22_common_motion.
Theorem C22_common_motion_sdf : forall (A B : Type) (SD : SdfRel2d XR A B (transform2d XR)) (a : A) (b : B)
  vg cg sg kg va ca sa ka vb cb sb sxb syb,
  cg * cg + sg * sg = 1 -> ca * ca + sa * sa = 1 -> kg <> 0 -> ka <> 0 ->
  sdf (Collider2d a (compose (t2 vg cg sg kg kg) (t2 va ca sa ka ka))) (Collider2d b (compose (t2 vg cg sg kg kg) (t2 vb cb sb sxb syb)))
  = sdf (Collider2d a (t2 va ca sa ka ka)) (Collider2d b (t2 vb cb sb sxb syb)).
Proof.
  intros. unfold sdf. cbn [c_shape c_transform]. rewrite delta_common_t2 by assumption. reflexivity.
Qed.
Print Assumptions C22_common_motion_sdf.
(** a box and a ball, both moved, turned and doubled in size *)
Example C22_case : collides (F:=XR) (Collider2d (pbox 2 1) (compose (t2 (7, -3) (3/5) (4/5) 2 2) (t2 (1, 0) (4/5) (3/5) 1 1)))
    (Collider2d (pball 1) (compose (t2 (7, -3) (3/5) (4/5) 2 2) (t2 (4, 2) 1 0 1 1)))
  = collides (F:=XR) (Collider2d (pbox 2 1) (t2 (1, 0) (4/5) (3/5) 1 1)) (Collider2d (pball 1) (t2 (4, 2) 1 0 1 1)) /\
  sdf (F:=XR) (Collider2d (pbox 2 1) (compose (t2 (7, -3) (3/5) (4/5) 2 2) (t2 (1, 0) (4/5) (3/5) 1 1)))
    (Collider2d PointS (compose (t2 (7, -3) (3/5) (4/5) 2 2) (t2 (4, 2) 1 0 1 1)))
  = sdf (F:=XR) (Collider2d (pbox 2 1) (t2 (1, 0) (4/5) (3/5) 1 1)) (Collider2d PointS (t2 (4, 2) 1 0 1 1)).
Proof.
  split.
  - apply (C22_common_motion _ _ _ (pbox 2 1) (pball 1) (7, -3) (3/5) (4/5) 2 (1, 0) (4/5) (3/5) 1 (4, 2) 1 0 1 1); lra.
  - apply C22_common_motion_sdf; lra.
Qed.
(** translations *)
Theorem C22_common_translation : forall (A B : Type) (SD : SdfvCommonRel2d XR A B (vec2 XR)) (a : A) (b : B) (g va vb : pt),
  let ca' := Collider2d a (compose (inj g) (inj va)) in let cb' := Collider2d b (compose (inj g) (inj vb)) in
  let ca0 := Collider2d a (inj va) in let cb0 := Collider2d b (inj vb) in
  collides (F:=XR) ca' cb' = collides (F:=XR) ca0 cb0 /\ penetrates ca' cb' = penetrates ca0 cb0 /\
  distance_to ca' cb' = distance_to ca0 cb0 /\ sdfv ca' cb' = sdfv ca0 cb0.
Proof.
  intros A B SD a b g va vb. cbv zeta. unfold collides, penetrates, distance_to, sdfv. cbn [c_shape c_transform].
  replace (delta_transform (compose (inj g) (inj va)) (compose (inj g) (inj vb))) with (delta_transform (inj va) (inj vb)).
  - repeat split; reflexivity.
  - apply vec_ext; cbn; f_equal; ring.
Qed.
Print Assumptions C22_common_translation.
(** a common motion with non-uniform scale does change the relative pose *)
Theorem C22_nonuniform_refuted : exists g ta tb,
  collides (F:=XR) (Collider2d (pball 1) (compose g ta)) (Collider2d PointS (compose g tb)) = Ok true /\
  collides (F:=XR) (Collider2d (pball 1) ta) (Collider2d PointS tb) = Ok false /\ g = t2 origin 1 0 4 1.
Proof.
  exists (t2 origin 1 0 4 1), (t2 (1, 0) 0 1 1 1), (t2 (4, 0) 1 0 1 1).
  split; [|split; [|reflexivity]]; unfold collides, collides_rel, sdfv_common_rel, Sdfv_BallPoint; cbn [c_shape c_transform].
  - assert (E : apply_origin (delta_transform (compose (t2 origin 1 0 4 1) (t2 (1, 0) 0 1 1 1)) (compose (t2 origin 1 0 4 1) (t2 (4, 0) 1 0 1 1))) = inj origin).
    { rewrite !compose_t2, delta_t2 by lra. apply vec_ext; cbn; f_equal; field. }
    rewrite (ball_point_eq0 1 _ _ _ E). reflexivity.
  - assert (E : apply_origin (delta_transform (t2 (1, 0) 0 1 1 1) (t2 (4, 0) 1 0 1 1)) = inj (0, -3)).
    { rewrite delta_t2 by lra. apply vec_ext; cbn; f_equal; field. }
    assert (N : (0, -3) <> origin) by (intro Q; injection Q; lra).
    rewrite (ball_point_eq 1 _ _ _ _ E N). cbn [rmap fst]. rewrite norm_yaxis, Rabs_left, Rltb_false by lra. reflexivity.
Qed.
Print Assumptions C22_nonuniform_refuted.

(** C23: world-space meaning at collider level (both colliders moved rigidly and scaled by the same k; k = 1 is the
    rigid case). [answers_world]: the flag is right, sdfv's vector is in world space, the vectors of penetrates and
    distance_to are in self's local frame. *)
Local Notation exact_world A B k c s a b :=
  (answers_world A B k c s (collides (F:=XR) a b) (penetrates a b) (distance_to a b) (sdfv a b)).
Theorem C23_box_point_world : forall hx hy va ca sa vb cb sb k, 0 <= hx -> 0 <= hy ->
  ca * ca + sa * sa = 1 -> cb * cb + sb * sb = 1 -> 0 < k ->
  exact_world (image (place va ca sa k k) (rect hx hy)) (image (place vb cb sb k k) (single origin)) k ca sa
    (Collider2d (pbox hx hy) (t2 va ca sa k k)) (Collider2d PointS (t2 vb cb sb k k)).
Proof.
  intros hx hy va ca sa vb cb sb k Hx Hy Ua Ub K. apply lift_exact; try assumption. intros v c s U rel _.
  assert (E : same_set (image (place v c s 1 1) (single origin)) (single v)) by (intro p; apply point_image).
  eapply (ans_same (fun P D => Ok (box_point_sdfv P D (pbox hx hy) rel))); [|apply box_point_exact; try assumption; reflexivity].
  apply diff_ext; [intro; reflexivity | intro p; symmetry; apply E].
Qed.
Print Assumptions C23_box_point_world.
Theorem C23_ball_point_world : forall r va ca sa vb cb sb k, 0 < r ->
  ca * ca + sa * sa = 1 -> cb * cb + sb * sb = 1 -> 0 < k ->
  exact_world (image (place va ca sa k k) (disc r)) (image (place vb cb sb k k) (single origin)) k ca sa
    (Collider2d (pball r) (t2 va ca sa k k)) (Collider2d PointS (t2 vb cb sb k k)).
Proof.
  intros r va ca sa vb cb sb k Hr Ua Ub K. apply lift_exact; try assumption. intros v c s U rel _.
  assert (E : same_set (image (place v c s 1 1) (single origin)) (single v)) by (intro p; apply point_image).
  eapply (ans_same (fun P D => Ok (ball_point_sdfv P D (pball r) rel))); [|apply ball_point_exact; [lra | reflexivity | left; exact Hr]].
  apply diff_ext; [intro; reflexivity | intro p; symmetry; apply E].
Qed.
Print Assumptions C23_ball_point_world.
Theorem C23_ball_ball_world : forall r1 r2 va ca sa vb cb sb k, 0 <= r1 -> 0 <= r2 -> 0 < r1 + r2 ->
  ca * ca + sa * sa = 1 -> cb * cb + sb * sb = 1 -> 0 < k ->
  exact_world (image (place va ca sa k k) (disc r1)) (image (place vb cb sb k k) (disc r2)) k ca sa
    (Collider2d (pball r1) (t2 va ca sa k k)) (Collider2d (pball r2) (t2 vb cb sb k k)).
Proof.
  intros r1 r2 va ca sa vb cb sb k H1 H2 H3 Ua Ub K. apply lift_exact; try assumption. intros v c s U rel _.
  apply C16_ball_ball_exact; try assumption; [apply acts_t2 | left; exact H3].
Qed.
Print Assumptions C23_ball_ball_world.
Theorem C23_box_ball_world : forall hx hy r va ca sa vb cb sb k, 0 <= hx -> 0 <= hy -> 0 <= r ->
  ca * ca + sa * sa = 1 -> cb * cb + sb * sb = 1 -> 0 < k ->
  (forall v, place va ca sa k k v = vb -> ~ (Rabs (fst v) = hx /\ Rabs (snd v) < hy)) ->
  exact_world (image (place va ca sa k k) (rect hx hy)) (image (place vb cb sb k k) (disc r)) k ca sa
    (Collider2d (pbox hx hy) (t2 va ca sa k k)) (Collider2d (pball r) (t2 vb cb sb k k)).
Proof.
  intros hx hy r va ca sa vb cb sb k H1 H2 H3 Ua Ub K NL. apply lift_exact; try assumption. intros v c s U rel E.
  apply C17_box_ball_exact; try assumption; [apply acts_t2 | apply NL, E].
Qed.
Print Assumptions C23_box_ball_world.
Theorem C23_point_box_world : forall hx hy va ca sa vb cb sb k, 0 <= hx -> 0 <= hy ->
  ca * ca + sa * sa = 1 -> cb * cb + sb * sb = 1 -> 0 < k ->
  exact_world (image (place va ca sa k k) (single origin)) (image (place vb cb sb k k) (rect hx hy)) k ca sa
    (Collider2d PointS (t2 va ca sa k k)) (Collider2d (pbox hx hy) (t2 vb cb sb k k)).
Proof.
  intros hx hy va ca sa vb cb sb k Hx Hy Ua Ub K. apply lift_exact; try assumption. intros v c s U rel _.
  apply C18_point_box_exact; try assumption; [apply acts_t2 | apply inverse_at_t2, U].
Qed.
Print Assumptions C23_point_box_world.
Theorem C23_point_ball_world : forall r va ca sa vb cb sb k, 0 < r ->
  ca * ca + sa * sa = 1 -> cb * cb + sb * sb = 1 -> 0 < k ->
  exact_world (image (place va ca sa k k) (single origin)) (image (place vb cb sb k k) (disc r)) k ca sa
    (Collider2d PointS (t2 va ca sa k k)) (Collider2d (pball r) (t2 vb cb sb k k)).
Proof.
  intros r va ca sa vb cb sb k Hr Ua Ub K. apply lift_exact; try assumption. intros v c s U rel _.
  apply C18_point_ball_exact; try assumption; [apply acts_t2 | apply inverse_at_t2, U].
Qed.
Print Assumptions C23_point_ball_world.
(** a unit box turned by the 3-4-5 angle at (1, 2), doubled; another body elsewhere, doubled too *)
Example C23_case :
  let t := t2 (1, 2) (3/5) (4/5) 2 2 in let u := t2 (4, 3) (4/5) (3/5) 2 2 in
  let P := place (1, 2) (3/5) (4/5) 2 2 in let Q := place (4, 3) (4/5) (3/5) 2 2 in
  exact_world (image P (rect 1 1)) (image Q (single origin)) 2 (3/5) (4/5) (Collider2d (pbox 1 1) t) (Collider2d PointS u) /\
  exact_world (image P (disc 1)) (image Q (single origin)) 2 (3/5) (4/5) (Collider2d (pball 1) t) (Collider2d PointS u) /\
  exact_world (image P (disc 1)) (image Q (disc 3)) 2 (3/5) (4/5) (Collider2d (pball 1) t) (Collider2d (pball 3) u) /\
  exact_world (image P (rect 1 1)) (image Q (disc 3)) 2 (3/5) (4/5) (Collider2d (pbox 1 1) t) (Collider2d (pball 3) u) /\
  exact_world (image P (single origin)) (image Q (rect 1 1)) 2 (3/5) (4/5) (Collider2d PointS t) (Collider2d (pbox 1 1) u) /\
  exact_world (image P (single origin)) (image Q (disc 1)) 2 (3/5) (4/5) (Collider2d PointS t) (Collider2d (pball 1) u).
Proof.
  intros t u P Q. split; [apply C23_box_point_world; lra|]. split; [apply C23_ball_point_world; lra|]. split; [apply C23_ball_ball_world; lra|].
  split; [|split; [apply C23_point_box_world; lra | apply C23_point_ball_world; lra]].
  apply C23_box_ball_world; try lra. intros [x y] E [E1 E2]. pose proof (f_equal fst E) as Ex. pose proof (f_equal snd E) as Ey. cbn in Ex, Ey, E1, E2.
  assert (x = 13/10 /\ y = -9/10) as [-> ->] by lra. rewrite Rabs_right in E1; lra.
Qed.
(** when do the vectors of penetrates/distance_to and of sdfv coincide? iff self is unrotated or the vector is zero *)
Theorem C23_vectors_agree_iff : forall A B c s col pen dist flag v, c * c + s * s = 1 ->
  answers_world A B 1 c s col pen dist (Ok (flag, inj v)) ->
  ((if flag then pen else dist) = Ok (Some (inj v)) <-> ((c = 1 /\ s = 0) \/ v = origin)).
Proof.
  intros A B c s col pen dist flag v U H.
  assert (R : forall w, pscale (1 / 1) w = w) by (intro; apply pt_eq; cbn; field).
  assert (G : (if flag then pen else dist) = Ok (Some (inj (rotate c (- s) v)))).
  { destruct H as [[O (w & S & _ & E & P & D)]|[O (w & S & _ & E & P & D)]]; rewrite !R in *;
    (assert (V : v = w) by (apply inj_inj; congruence)); subst w.
    - replace flag with true by congruence. exact P.
    - replace flag with false by congruence. exact D. }
  rewrite G. split.
  - intro E. assert (EV : rotate c (- s) v = v) by (apply inj_inj; congruence).
    destruct (pt_eq_dec_origin v) as [Z|N]; [right; exact Z | left].
    pose proof (f_equal fst EV) as E1. pose proof (f_equal snd EV) as E2. cbn in E1, E2.
    assert (P : 0 < pdot v v) by (rewrite <- norm_sq; pose proof (norm_pos v N); nra). unfold pdot in P.
    assert (C : (c - 1) * (fst v * fst v + snd v * snd v) = 0) by nra.
    assert (c = 1) by (apply Rmult_integral in C; lra). subst c. split; [reflexivity | nra].
  - intros [[-> ->]|Z]; do 3 f_equal; [apply pt_eq; cbn; ring | rewrite Z; apply pt_eq; cbn; ring].
Qed.
Print Assumptions C23_vectors_agree_iff.
(** with an unturned self the two spellings agree, with a turned one they do not (unless the vector is zero) *)
Example C23_agree_case : forall A B col pen dist flag, answers_world A B 1 (3/5) (4/5) col pen dist (Ok (flag, inj (2, 0))) ->
  (if flag then pen else dist) <> Ok (Some (inj (2, 0))).
Proof.
  intros A B col pen dist flag H E. apply (C23_vectors_agree_iff A B (3/5) (4/5)) in H; [|lra]. apply H in E.
  destruct E as [[E _]|E]; [lra | injection E; lra].
Qed.
(** concretely: a box turned by 90 degrees and a point inside; moving the box by penetrates' vector does not free the point *)
Theorem C23_penetrates_world_refuted : exists v,
  penetrates (F:=XR) (Collider2d (pbox 1 3) (t2 origin 0 1 1 1)) (Collider2d PointS (t2 (0, 1/2) 1 0 1 1)) = Ok (Some (inj v)) /\
  ~ separates v (image (place origin 0 1 1 1) (rect 1 3)) (single (0, 1/2)).
Proof.
  exists (-1/2, 0). split.
  - unfold penetrates, penetrates_rel, sdfv_common_rel, Sdfv_BoxPoint. cbn [c_shape c_transform].
    assert (E : apply_origin (delta_transform (t2 origin 0 1 1 1) (t2 (0, 1/2) 1 0 1 1)) = inj (1/2, 0)).
    { rewrite delta_t2 by lra. apply vec_ext; cbn; f_equal; field. }
    rewrite (box_point_eq 1 3 _ _ true false E). cbn [fst snd]. cbv zeta. rewrite (Rabs_pos_eq (1/2)), Rabs_R0 by lra.
    rewrite !Rltb_true by lra. cbn [andb rmap fst snd]. rewrite ?Rltb_true by lra. unfold rsign. rewrite Rltb_false by lra.
    do 3 f_equal. apply pt_eq; cbn; field.
  - intro S. apply S. apply overlaps_single. exists (1/2). split; [lra|]. intros u Hu.
    pose proof (norm_x u). pose proof (norm_y u).
    assert (X : Rabs (fst u) <= 1/2) by lra. assert (Y : Rabs (snd u) <= 1/2) by lra.
    apply Rabs_le_iff in X. apply Rabs_le_iff in Y.
    exists (1/2 - snd u, fst u - 1/2). split; [unfold rect; cbn; lra | apply pt_eq; cbn; field].
Qed.
Print Assumptions C23_penetrates_world_refuted.

(** C24: scale. Scaling both colliders by the same k keeps the flag right but the returned vectors are too short by
    the factor k (C23_*_world). A scaled [other] is ignored by the analytic pairs: *)
Theorem C24_scaled_other_refuted : exists A B,
  collides (F:=XR) (Collider2d (pball 1) (t2 origin 1 0 1 1)) (Collider2d (pball 1) (t2 (5/2, 0) 1 0 2 2)) = Ok false /\
  A = image (place origin 1 0 1 1) (disc 1) /\ B = image (place (5/2, 0) 1 0 2 2) (disc 1) /\ overlaps A B.
Proof.
  eexists _, _. split; [|split; [reflexivity|split; [reflexivity|]]].
  - unfold collides, collides_rel, sdfv_common_rel, Sdfv_BallBall. cbn [c_shape c_transform]. rewrite ball_ball_is_point.
    assert (E : apply_origin (delta_transform (t2 origin 1 0 1 1) (t2 (5/2, 0) 1 0 2 2)) = inj (5/2, 0)).
    { rewrite delta_t2 by lra. apply vec_ext; cbn; f_equal; field. }
    assert (N : (5/2, 0) <> origin) by (intro Q; injection Q; lra).
    rewrite (ball_point_eq _ _ _ _ _ E N). cbn [rmap fst]. rewrite norm_xaxis, Rabs_pos_eq, Rltb_false by lra. reflexivity.
  - exists (1/4). split; [lra|]. intros w W. exists (padd (3/4, 0) w). split.
    + exists (3/4, 0). split; [unfold disc; rewrite norm_xaxis, Rabs_pos_eq; lra | apply pt_eq; cbn; ring].
    + exists (pscale (1/2) (padd (-7/4, 0) w)). split.
      * unfold disc. rewrite norm_scale, Rabs_pos_eq by lra. pose proof (norm_triangle (-7/4, 0) w) as T.
        rewrite norm_xaxis, Rabs_left in T by lra. lra.
      * apply pt_eq; cbn; field.
Qed.
Print Assumptions C24_scaled_other_refuted.
(** scaled self: the flag is right, the world vector is not (twice too short for k = 2) *)
Theorem C24_scaled_self_refuted : exists v w,
  sdfv (F:=XR) (Collider2d (pball 1) (t2 origin 1 0 2 2)) (Collider2d PointS (t2 (4, 0) 1 0 2 2)) = Ok (false, inj v) /\
  is_min_contact w (image (place origin 1 0 2 2) (disc 1)) (image (place (4, 0) 1 0 2 2) (single origin)) /\
  norm w = 2 * norm v /\ 0 < norm v.
Proof.
  pose proof (C23_ball_point_world 1 origin 1 0 (4, 0) 1 0 2 ltac:(lra) ltac:(lra) ltac:(lra) ltac:(lra)) as H.
  assert (E : apply_origin (delta_transform (t2 origin 1 0 2 2) (t2 (4, 0) 1 0 2 2)) = inj (2, 0)).
  { rewrite delta_t2 by lra. apply vec_ext; cbn; f_equal; field. }
  assert (N : (2, 0) <> origin) by (intro Q; injection Q; lra).
  assert (ES : sdfv (F:=XR) (Collider2d (pball 1) (t2 origin 1 0 2 2)) (Collider2d PointS (t2 (4, 0) 1 0 2 2)) = Ok (false, inj (1, 0))).
  { unfold sdfv, sdfv_rel, sdfv_common_rel, Sdfv_BallPoint. cbn [c_shape c_transform].
    rewrite (ball_point_eq 1 _ _ true true E N). cbn [rmap fst snd]. rewrite norm_xaxis, Rabs_pos_eq, Rltb_false by lra.
    f_equal. f_equal. apply vec_ext; cbn; f_equal; field. }
  rewrite ES in H. destruct H as [[O (w & S & _ & Q & _)]|[O (w & S & _ & Q & _)]]; [discriminate|].
  assert (V : (1, 0) = pscale (1 / 2) w) by (apply inj_inj; congruence).
  assert (W : w = (2, 0)) by (pose proof (f_equal fst V); pose proof (f_equal snd V); cbn in *; apply pt_eq; cbn; lra).
  exists (1, 0), w. split; [exact ES|]. split; [exact S|]. rewrite W, !norm_xaxis, !Rabs_pos_eq by lra. lra.
Qed.
Print Assumptions C24_scaled_self_refuted.
(** positive part, stated with the factor: see answers_world. *)
Theorem C24_common_scale : forall r1 r2 va ca sa vb cb sb k, 0 <= r1 -> 0 <= r2 -> 0 < r1 + r2 ->
  ca * ca + sa * sa = 1 -> cb * cb + sb * sb = 1 -> 0 < k ->
  exact_world (image (place va ca sa k k) (disc r1)) (image (place vb cb sb k k) (disc r2)) k ca sa
    (Collider2d (pball r1) (t2 va ca sa k k)) (Collider2d (pball r2) (t2 vb cb sb k k)).
Proof. exact C23_ball_ball_world. Qed.
Print Assumptions C24_common_scale.

(** C25: symmetry for the analytic pairs that exist in both orders *)
Theorem C25_symmetric_ball_ball : forall va ca sa vb cb sb, ca * ca + sa * sa = 1 -> cb * cb + sb * sb = 1 -> forall r1 r2,
  let a := Collider2d (pball r1) (t2 va ca sa 1 1) in let b := Collider2d (pball r2) (t2 vb cb sb 1 1) in
  collides (F:=XR) a b = collides (F:=XR) b a /\
  (va <> vb -> exists flag v, sdfv (F:=XR) a b = Ok (flag, inj v) /\ sdfv (F:=XR) b a = Ok (flag, inj (pneg v))).
Proof. intros. apply symmetric_ball_ball; assumption. Qed.
Print Assumptions C25_symmetric_ball_ball.
Theorem C25_symmetric_box_point : forall va ca sa vb cb sb, ca * ca + sa * sa = 1 -> cb * cb + sb * sb = 1 -> forall hx hy,
  let p := Collider2d PointS (t2 va ca sa 1 1) in let b := Collider2d (pbox hx hy) (t2 vb cb sb 1 1) in
  collides (F:=XR) p b = collides (F:=XR) b p /\
  exists flag v, sdfv (F:=XR) b p = Ok (flag, inj v) /\ sdfv (F:=XR) p b = Ok (flag, inj (pneg v)).
Proof. intros. apply symmetric_box_point; assumption. Qed.
Print Assumptions C25_symmetric_box_point.
Theorem C25_symmetric_ball_point : forall va ca sa vb cb sb, ca * ca + sa * sa = 1 -> cb * cb + sb * sb = 1 -> forall r,
  let p := Collider2d PointS (t2 va ca sa 1 1) in let b := Collider2d (pball r) (t2 vb cb sb 1 1) in
  collides (F:=XR) p b = collides (F:=XR) b p /\
  exists flag v, sdfv (F:=XR) b p = Ok (flag, inj v) /\ sdfv (F:=XR) p b = Ok (flag, inj (pneg v)).
Proof. intros. apply symmetric_ball_point; assumption. Qed.
Print Assumptions C25_symmetric_ball_point.
Example C25_case : exists flag v,
  sdfv (F:=XR) (Collider2d (pball 1) (t2 (1, 2) (3/5) (4/5) 1 1)) (Collider2d (pball 2) (t2 (4, 3) (4/5) (3/5) 1 1)) = Ok (flag, inj v) /\
  sdfv (F:=XR) (Collider2d (pball 2) (t2 (4, 3) (4/5) (3/5) 1 1)) (Collider2d (pball 1) (t2 (1, 2) (3/5) (4/5) 1 1)) = Ok (flag, inj (pneg v)).
Proof.
  apply (C25_symmetric_ball_ball (1, 2) (3/5) (4/5) (4, 3) (4/5) (3/5) ltac:(lra) ltac:(lra) 1 2). intro E. injection E. lra.
Qed.
(** concentric balls: both directions answer the same vector, not opposite ones *)
Theorem C25_concentric_refuted : forall r, 0 < r ->
  let a := Collider2d (pball r) (t2 origin 1 0 1 1) in
  sdfv (F:=XR) a a = Ok (true, inj (r + r, 0)) /\ pneg (r + r, 0) <> (r + r, 0).
Proof.
  intros r Hr. split.
  - unfold sdfv. cbn [c_shape c_transform].
    assert (E : apply_origin (delta_transform (t2 origin 1 0 1 1) (t2 origin 1 0 1 1)) = inj origin).
    { rewrite delta_t2 by lra. apply vec_ext; cbn; f_equal; field. }
    rewrite (C16_concentric_along_x _ _ r r _ E). cbn [rmap fst snd]. f_equal. f_equal. apply vec_ext; cbn; f_equal; ring.
  - intro Q. injection Q. lra.
Qed.
Print Assumptions C25_concentric_refuted.
