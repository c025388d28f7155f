(** * Analytic pairs: scalar sdf, exchanged roles, colliders (proofs). *)
From Coq Require Import Reals Lra Psatz Bool.
From Verif Require Import Num NumXR Glam Transform2 Shapes2 Gjk Detect2 Spec SpecLink P_Base P_Transform P_Shapes P_Geo P_Analytic.
Local Open Scope R_scope.

(** ** scalar sdf *)
Lemma sd_sep A c v d : geo_sep A c v -> d = - norm v -> is_signed_distance d A (single c).
Proof. intros [O S] E. left. split; [exact O | exists v; auto]. Qed.
Lemma sd_con A c v d : geo_con A c v -> d = norm v -> is_signed_distance d A (single c).
Proof. intros [O S] E. right. split; [exact O | exists v; auto]. Qed.
Lemma rsn x k : Rabs (k * rsign x) = Rabs k.
Proof. rewrite Rabs_mult, rsign_abs. ring. Qed.
Lemma norm_signs a b x y : norm (a * rsign x, b * rsign y) = norm (a, b).
Proof.
  unfold norm, pdot; cbn. f_equal. pose proof (rsign_sq x). pose proof (rsign_sq y).
  replace (a * rsign x * (a * rsign x)) with (a * a * (rsign x * rsign x)) by ring.
  replace (b * rsign y * (b * rsign y)) with (b * b * (rsign y * rsign y)) by ring. rewrite H, H0. ring.
Qed.
Section Sdf.
Context {T : Type} {TR : Transformation2d XR T}.
Lemma box_sdf_eq hx hy c (rel : T) : apply_origin rel = inj c ->
  box_point_sdf (pbox hx hy) rel =
  XFin (let px := Rabs (fst c) - hx in let py := Rabs (snd c) - hy in
        if Rltb px 0 && Rltb py 0 then Rmax px py else if Rltb px 0 then py else if Rltb py 0 then px else norm (px, py)).
Proof.
  intro E. unfold box_point_sdf. rewrite (box_flag hx hy c rel E), E. cbn [inj vx vy halfsize pbox fst snd].
  cbn [fabs fsub FloatXR xabs xsub]. rewrite fmax_fin. cbn [flt FloatXR xlt f0]. cbv zeta.
  set (px := Rabs (fst c) - hx). set (py := Rabs (snd c) - hy).
  destruct (Rltb px 0 && Rltb py 0); [reflexivity|]. destruct (Rltb px 0); [reflexivity|]. destruct (Rltb py 0); [reflexivity|].
  change (V2 (XFin px) (XFin py)) with (inj (px, py)). apply v2len_inj.
Qed.
Lemma rounded_sdf_exact hx hy r c : 0 <= hx -> 0 <= hy -> 0 <= r ->
  is_signed_distance
   ((let px := Rabs (fst c) - hx in let py := Rabs (snd c) - hy in
        if Rltb px 0 && Rltb py 0 then Rmax px py else if Rltb px 0 then py else if Rltb py 0 then px else norm (px, py)) - r)
   (rounded_rect hx hy r) (single c).
Proof.
  intros Hx Hy Hr. cbv zeta.
  set (px := Rabs (fst c) - hx). set (py := Rabs (snd c) - hy).
  assert (Nx : forall k, norm (k * rsign (fst c), 0) = Rabs k) by (intro; rewrite norm_xaxis; apply rsn).
  assert (Ny : forall k, norm (0, k * rsign (snd c)) = Rabs k) by (intro; rewrite norm_yaxis; apply rsn).
  assert (FX : 0 <= px -> py <= 0 -> is_signed_distance (px - r) (rounded_rect hx hy r) (single c)).
  { intros P1 P2. destruct (Rlt_le_dec px r).
    - eapply sd_sep; [apply face_x_in; try assumption; unfold px in *; lra|]. fold px. rewrite Nx, Rabs_left; lra.
    - eapply sd_con; [apply face_x_out; try assumption; unfold px in *; lra|]. fold px. rewrite Nx, Rabs_pos_eq; lra. }
  assert (FY : 0 <= py -> px <= 0 -> is_signed_distance (py - r) (rounded_rect hx hy r) (single c)).
  { intros P1 P2. destruct (Rlt_le_dec py r).
    - eapply sd_sep; [apply face_y_in; try assumption; unfold py in *; lra|]. fold py. rewrite Ny, Rabs_left; lra.
    - eapply sd_con; [apply face_y_out; try assumption; unfold py in *; lra|]. fold py. rewrite Ny, Rabs_pos_eq; lra. }
  destruct (Rltb_spec px 0) as [X|X]; [destruct (Rltb_spec py 0) as [Y|Y]|]; cbn [andb].
  - unfold Rmax. destruct (Rle_dec px py).
    + eapply sd_sep; [apply inside_y; try assumption; unfold px, py in *; lra|]. fold py. rewrite Ny, Rabs_left; lra.
    + eapply sd_sep; [apply inside_x; try assumption; unfold px, py in *; lra|]. fold px. rewrite Nx, Rabs_left; lra.
  - apply FY; lra.
  - destruct (Rltb_spec py 0) as [Y|Y]; [apply FX; lra|].
    destruct (Req_dec px 0) as [Zx|Zx]; [|destruct (Req_dec py 0) as [Zy|Zy]].
    + rewrite Zx, norm_yaxis, Rabs_pos_eq by lra. apply FY; lra.
    + rewrite Zy, norm_xaxis, Rabs_pos_eq by lra. apply FX; lra.
    + assert (0 < px) by lra. assert (0 < py) by lra.
      pose proof (corner_L hx hy c H H0) as PL. fold px py in PL.
      pose proof (norm_signs px py (fst c) (snd c)) as NS. rewrite NS in PL.
      destruct (Rlt_le_dec (norm (px, py)) r) as [W|W].
      * eapply sd_sep; [apply corner_in; try assumption; fold px py; rewrite NS; exact W|]. fold px py.
        rewrite norm_scale, NS, Rabs_left.
        -- field; lra.
        -- apply Rmult_lt_reg_r with (norm (px, py)); [exact PL|].
           replace ((norm (px, py) - r) / norm (px, py) * norm (px, py)) with (norm (px, py) - r) by (field; lra). lra.
      * eapply sd_con; [apply corner_out; try assumption; fold px py; rewrite NS; exact W|]. fold px py.
        rewrite norm_scale, NS, Rabs_pos_eq.
        -- field; lra.
        -- apply Rmult_le_pos; [lra | left; apply Rinv_0_lt_compat; exact PL].
Qed.
Lemma box_point_sdf_exact hx hy c (rel : T) : 0 <= hx -> 0 <= hy -> apply_origin rel = inj c ->
  exists d, box_point_sdf (pbox hx hy) rel = XFin d /\ is_signed_distance d (rect hx hy) (single c).
Proof.
  intros Hx Hy E. eexists. split; [apply (box_sdf_eq hx hy c rel E)|].
  assert (Z : 0 <= 0) by lra. pose proof (rounded_sdf_exact hx hy 0 c Hx Hy Z) as R.
  rewrite Rminus_0_r in R.
  apply (same_signed_distance _ _ _ _ (diff_ext _ _ (single c) (single c) (rounded_0 hx hy) (fun _ => iff_refl _))), R.
Qed.
Lemma rounded_point_sdf_exact hx hy r c (rel : T) : 0 <= hx -> 0 <= hy -> 0 <= r -> apply_origin rel = inj c ->
  exists d, rounded_point_sdf (prounded hx hy r) rel = XFin d /\ is_signed_distance d (rounded_rect hx hy r) (single c).
Proof.
  intros Hx Hy Hr E. eexists. split.
  - unfold rounded_point_sdf. change (box_part (prounded hx hy r)) with (pbox hx hy). rewrite (box_sdf_eq hx hy c rel E). reflexivity.
  - apply rounded_sdf_exact; assumption.
Qed.
Lemma disc_sdf r c : 0 <= r -> is_signed_distance (norm c - r) (disc r) (single c).
Proof.
  intro Hr. destruct (pt_eq_dec_origin c) as [->|N].
  - rewrite norm_origin. destruct (Req_dec r 0) as [->|Z].
    + eapply sd_con with (v := origin); [|rewrite norm_origin; ring]. split; [apply disc0_not_overlap|].
      apply cert_contact; [unfold disc; replace (psub origin origin) with origin by (apply pt_eq; cbn; ring); rewrite norm_origin; lra|].
      intros a _. unfold pdot; cbn; lra.
    + eapply sd_sep; [apply disc_centre; lra|]. rewrite norm_xaxis, Rabs_pos_eq; lra.
  - pose proof (norm_pos c N). destruct (Rlt_le_dec (norm c) r).
    + eapply sd_sep; [apply disc_in; assumption|]. rewrite norm_scale, Rabs_left.
      * field; lra.
      * apply Rmult_lt_reg_r with (norm c); [assumption|]. replace ((norm c - r) / norm c * norm c) with (norm c - r) by (field; lra). lra.
    + eapply sd_con; [apply disc_out; assumption|]. rewrite norm_scale, Rabs_pos_eq.
      * field; lra.
      * apply Rmult_le_pos; [lra | left; apply Rinv_0_lt_compat; assumption].
Qed.
Lemma ball_point_sdf_exact r c (rel : T) : 0 <= r -> apply_origin rel = inj c ->
  exists d, ball_point_sdf (pball r) rel = XFin d /\ is_signed_distance d (disc r) (single c).
Proof.
  intros Hr E. exists (norm c - r). split; [|apply disc_sdf, Hr].
  unfold ball_point_sdf. rewrite E, v2len_inj. reflexivity.
Qed.
Lemma ball_ball_sdf_exact r1 r2 v c s (rel : T) : 0 <= r1 -> 0 <= r2 -> acts_as rel v c s 1 -> c * c + s * s = 1 ->
  exists d, ball_ball_sdf (pball r1) (pball r2) rel = XFin d /\
    is_signed_distance d (disc r1) (image (place v c s 1 1) (disc r2)).
Proof.
  intros H1 H2 HA U. exists (norm v - (r1 + r2)). split.
  - unfold ball_ball_sdf. destruct HA as (_ & E & _). rewrite E, v2len_inj. reflexivity.
  - apply (same_signed_distance _ _ _ _ (diff_disc_disc r1 r2 v c s H1 H2 U)). apply disc_sdf. lra.
Qed.
Lemma single_sdf c : is_signed_distance (norm c) (single origin) (single c).
Proof.
  assert (NO : ~ overlaps (single origin) (single c)).
  { intros (e & E & H). destruct (H (e / 2, 0)) as (p & P1 & P2); [rewrite norm_xaxis, Rabs_pos_eq; lra|].
    destruct (H origin) as (q & Q1 & Q2); [rewrite norm_origin; exact E|].
    unfold shift, single in * . subst p q. apply (f_equal fst) in P1, Q1. cbn in *; lra. }
  apply (sd_con _ _ c); [|reflexivity]. split; [exact NO|].
  split; [apply meets_single; unfold single; apply pt_eq; cbn; ring|].
  intros w W. apply meets_single in W. unfold single in W. replace w with c; [lra|].
  pose proof (f_equal fst W); pose proof (f_equal snd W); cbn in * . apply pt_eq; lra.
Qed.

(** Point v Point *)
Lemma point_point_eq c (rel : T) P D : apply_origin rel = inj c ->
  point_point_sdfv P D rel = (if pt_eq_dec_origin c then true else false, inj c).
Proof.
  intro E. unfold point_point_sdfv. rewrite E. f_equal. cbn.
  destruct (pt_eq_dec_origin c) as [->|N]; cbn.
  - rewrite !Reqb_true by reflexivity. reflexivity.
  - destruct (Reqb_spec (fst c) 0); [|reflexivity]. destruct (Reqb_spec (snd c) 0); [|reflexivity].
    exfalso. apply N. apply pt_eq; assumption.
Qed.
End Sdf.

(** ** Exchanged roles *)
Section Swap.
Context {T : Type} {TR : Transformation2d XR T} {I : Invertible T}.
Lemma image_single f p : same_set (image f (single p)) (single (f p)).
Proof. intro q. unfold image, single. split; [intros (x & -> & ->); reflexivity | intros ->; exists p; auto]. Qed.
Lemma reverse_exact (f : bool -> bool -> T -> bool * vec2 XR) A (rel : T) v c s u :
  acts_as rel v c s 1 -> c * c + s * s = 1 ->
  place v c s 1 1 u = origin ->
  all_queries (fun P D => Ok (f P D (inverse rel))) A (single u) ->
  all_queries (fun P D => Ok (reverse_sdfv (f P D) rel)) (single origin) (image (place v c s 1 1) A).
Proof.
  intros HA U HU H.
  assert (SD : same_set (minkowski_diff (image (place v c s 1 1) (single u)) (image (place v c s 1 1) A))
                        (minkowski_diff (single origin) (image (place v c s 1 1) A))).
  { apply diff_ext; [rewrite <- HU; apply image_single | intro; reflexivity]. }
  assert (NR : forall w, apply_normal rel (v2neg (inj w)) = inj (rotate c s (pneg w))).
  { intro w. rewrite v2neg_inj. apply HA. }
  unfold all_queries in * . cbn [rmap] in * . unfold reverse_sdfv.
  destruct (f false false (inverse rel)) as [b1 w1], (f true false (inverse rel)) as [b2 w2],
           (f false true (inverse rel)) as [b3 w3], (f true true (inverse rel)) as [b4 w4].
  cbn [fst snd] in * .
  destruct H as [[O (w & S & E1 & E2 & E3 & E4)]|[O (w & S & E1 & E2 & E3 & E4)]].
  - injection E1 as ->. destruct b2; [injection E2 as ->|discriminate]. destruct b3; [|discriminate]. injection E4 as -> ->.
    left. split.
    + apply (same_overlaps _ _ _ _ SD). apply (rigid_overlaps v c s U). apply swap_overlaps. exact O.
    + exists (rotate c s (pneg w)). rewrite !NR. split; [|repeat split; reflexivity].
      apply (same_min_separation _ _ _ _ SD). apply (rigid_min_separation v c s U). apply swap_min_separation. exact S.
  - injection E1 as ->. destruct b2; [discriminate|]. destruct b3; [discriminate|]. injection E3 as ->. injection E4 as -> ->.
    right. split.
    + rewrite <- (same_overlaps _ _ _ _ SD). rewrite (rigid_overlaps v c s U). rewrite swap_overlaps. exact O.
    + exists (rotate c s (pneg w)). rewrite !NR. split; [|repeat split; reflexivity].
      apply (same_min_contact _ _ _ _ SD). apply (rigid_min_contact v c s U). apply swap_min_contact. exact S.
Qed.
End Swap.
(** the inverse of a rigid motion of the library carries its position to the origin *)
Definition inverse_at {T} {TR : Transformation2d XR T} {I : Invertible T} (rel : T) (v : pt) (c s : R) : Prop :=
  exists u, apply_origin (inverse rel) = inj u /\ place v c s 1 1 u = origin.
Lemma inverse_at_t2 v c s : c * c + s * s = 1 -> inverse_at (t2 v c s 1 1) v c s.
Proof.
  intro U. exists (unplace v c s 1 1 origin). rewrite inverse_t2 by lra. split; [reflexivity|].
  apply place_unplace; lra.
Qed.
Lemma inverse_at_vec2 v : inverse_at (inj v) v 1 0.
Proof. exists (pneg v). split; [reflexivity | apply pt_eq; cbn; ring]. Qed.
Lemma inverse_at_translate v : inverse_at (Translate2d (inj v)) v 1 0.
Proof. exists (pneg v). split; [reflexivity | apply pt_eq; cbn; ring]. Qed.

(** ** Agreement of the queries, in any arithmetic *)
Definition queries_agree {F A B T} {SD : SdfvCommonRel2d F A B T} (a : A) (b : B) (rel : T) : Prop :=
  exists (flag : bool) (w : vec2 F),
    collides_rel (F:=F) a b rel = Ok flag /\
    penetrates_rel a b rel = Ok (if flag then Some w else None) /\
    distance_to_rel a b rel = Ok (if flag then None else Some w) /\
    sdfv_rel a b rel = Ok (flag, w).
Section Agree.
Context {F : Type} {FL : Float F} {T : Type} {TR : Transformation2d F T}.
Lemma agree_box_point (a : box2d F) (rel : T) : queries_agree (F:=F) a PointS rel.
Proof.
  unfold queries_agree, collides_rel, penetrates_rel, distance_to_rel, sdfv_rel, sdfv_common_rel, Sdfv_BoxPoint, box_point_sdfv.
  cbn [rmap]. destruct (_ && _) eqn:Q; eexists _, _; (split; [|split; [|split; [|reflexivity]]]); reflexivity.
Qed.
Lemma agree_const (SDa : Type) (SDb : Type) (SD : SdfvCommonRel2d F SDa SDb T) (a : SDa) (b : SDb) (rel : T) r :
  (forall P D, sdfv_common_rel (F:=F) P D a b rel = Ok r) -> queries_agree (F:=F) a b rel.
Proof.
  intro H. exists (fst r), (snd r). unfold collides_rel, penetrates_rel, distance_to_rel, sdfv_rel. rewrite !H. cbn [rmap].
  destruct r as [f w]; cbn. destruct f; repeat split; reflexivity.
Qed.
Lemma agree_point_box {I : Invertible T} (b : box2d F) (rel : T) : queries_agree (F:=F) PointS b rel.
Proof.
  unfold queries_agree, collides_rel, penetrates_rel, distance_to_rel, sdfv_rel, sdfv_common_rel, Sdfv_PointBox, reverse_sdfv, box_point_sdfv.
  cbn [rmap]. destruct (_ && _) eqn:Q; eexists _, _; (split; [|split; [|split; [|reflexivity]]]); reflexivity.
Qed.
End Agree.

(** ** Collider level *)
Lemma delta_common_t2 vg cg sg kg va ca sa ka vb cb sb sxb syb :
  cg * cg + sg * sg = 1 -> ca * ca + sa * sa = 1 -> kg <> 0 -> ka <> 0 ->
  delta_transform (compose (t2 vg cg sg kg kg) (t2 va ca sa ka ka)) (compose (t2 vg cg sg kg kg) (t2 vb cb sb sxb syb))
  = delta_transform (t2 va ca sa ka ka) (t2 vb cb sb sxb syb).
Proof.
  intros Ug Ua Hg Ha. assert (kg * ka <> 0) by (apply Rmult_integral_contrapositive; split; assumption).
  rewrite !compose_t2, !delta_t2 by assumption. unfold t2. f_equal.
  - apply inj_eq; cbn.
    + transitivity ((cg * cg + sg * sg) * ((ca * (fst vb - fst va) + sa * (snd vb - snd va)) / ka)); [field; auto|].
      rewrite Ug. field; auto.
    + transitivity ((cg * cg + sg * sg) * ((ca * (snd vb - snd va) - sa * (fst vb - fst va)) / ka)); [field; auto|].
      rewrite Ug. field; auto.
  - f_equal. apply inj_eq; cbn.
    + transitivity ((cg * cg + sg * sg) * (ca * cb + sa * sb)); [ring | rewrite Ug; ring].
    + transitivity ((cg * cg + sg * sg) * (ca * sb - sa * cb)); [ring | rewrite Ug; ring].
  - apply inj_eq; cbn; field; auto.
Qed.

Section Collider.
Context {A B : Type} {SD : SdfvCommonRel2d XR A B (transform2d XR)}.
Variables (a : A) (b : B).
Lemma common_motion vg cg sg kg va ca sa ka vb cb sb sxb syb :
  cg * cg + sg * sg = 1 -> ca * ca + sa * sa = 1 -> kg <> 0 -> ka <> 0 ->
  let g := t2 vg cg sg kg kg in let ta := t2 va ca sa ka ka in let tb := t2 vb cb sb sxb syb in
  let ca' := Collider2d a (compose g ta) in let cb' := Collider2d b (compose g tb) in
  let ca0 := Collider2d a ta in let cb0 := Collider2d b tb in
  collides (F:=XR) ca' cb' = collides (F:=XR) ca0 cb0 /\ penetrates ca' cb' = penetrates ca0 cb0 /\
  distance_to ca' cb' = distance_to ca0 cb0 /\
  (forall flag v, sdfv ca0 cb0 = Ok (flag, inj v) -> sdfv ca' cb' = Ok (flag, inj (rotate cg sg v))).
Proof.
  intros Ug Ua Hg Ha. cbv zeta. unfold collides, penetrates, distance_to, sdfv. cbn [c_shape c_transform].
  rewrite delta_common_t2 by assumption. repeat split; try reflexivity.
  intros flag v. destruct (sdfv_rel a b _) as [[f w]|p]; cbn [rmap fst snd]; [|discriminate].
  intro E. assert (Ef : f = flag) by congruence.
  assert (Ew : apply_normal (t2 va ca sa ka ka) w = inj v) by congruence. clear E. rewrite compose_t2. f_equal. f_equal; [exact Ef|].
  (* the local vector is finite because its rotation is *)
  assert (W : exists x, w = inj x).
  { destruct w as [wx wy]. pose proof (f_equal (@vx XR) Ew) as E1. pose proof (f_equal (@vy XR) Ew) as E2. clear Ew. cbn in E1, E2.
    destruct wx as [x|sx|]; destruct wy as [y|sy|]; cbn in E1, E2; try discriminate; try (exists (x, y); reflexivity);
    repeat match goal with H : context [Reqb ?p ?q] |- _ => destruct (Reqb p q) end;
    repeat match goal with H : context [Rltb ?p ?q] |- _ => destruct (Rltb p q) end;
    cbn in E1, E2; try discriminate;
    repeat match goal with s : bool |- _ => destruct s; cbn in E1, E2; try discriminate end. }
  destruct W as [x ->].
  change (rotor_rot (t_rot (t2 va ca sa ka ka)) (inj x) = inj v) in Ew.
  assert (X : rotate ca sa x = v).
  { apply inj_inj. rewrite <- Ew. unfold t2; cbn [t_rot]. apply vec_ext; cbn; f_equal; ring. }
  subst v. apply vec_ext; cbn; f_equal; ring.
Qed.

(** exact relative answers give exact world answers *)
Lemma lift_exact SA SB va ca sa vb cb sb k :
  ca * ca + sa * sa = 1 -> cb * cb + sb * sb = 1 -> 0 < k ->
  let ta := t2 va ca sa k k in let tb := t2 vb cb sb k k in
  (forall v c s, c * c + s * s = 1 -> let rel := t2 v c s 1 1 in
     place va ca sa k k v = vb ->
     answers_exact SA (image (place v c s 1 1) SB) (collides_rel (F:=XR) a b rel)
       (penetrates_rel a b rel) (distance_to_rel a b rel) (sdfv_rel a b rel)) ->
  let a' := Collider2d a ta in let b' := Collider2d b tb in
  answers_world (image (place va ca sa k k) SA) (image (place vb cb sb k k) SB) k ca sa
    (collides (F:=XR) a' b') (penetrates a' b') (distance_to a' b') (sdfv a' b').
Proof.
  intros Ua Ub K ta tb H a' b'.
  set (A' := image (place va ca sa k k) SA). set (B' := image (place vb cb sb k k) SB).
  set (dv := place (unplace va ca sa k k origin) ca (- sa) (1 / k) (1 / k) vb).
  set (dc := ca * cb - - sa * sb). set (ds := ca * sb + - sa * cb).
  assert (DE : delta_transform ta tb = t2 dv dc ds 1 1).
  { unfold ta, tb. rewrite delta_t2 by lra. fold dv dc ds. unfold t2. f_equal. apply inj_eq; cbn; field; lra. }
  assert (PL : forall p, place va ca sa k k (place dv dc ds 1 1 p) = place vb cb sb k k p).
  { intro p. apply inj_inj. rewrite <- !apply_t2, <- DE. apply t2_delta; lra. }
  assert (SDF : same_set (minkowski_diff (image (place va ca sa k k) SA) (image (place va ca sa k k) (image (place dv dc ds 1 1) SB))) (minkowski_diff A' B')).
  { apply diff_ext; [intro; reflexivity|]. intro p. unfold B'. split.
    - intros (q & (x & X & ->) & ->). exists x. split; [exact X | apply PL].
    - intros (x & X & ->). exists (place dv dc ds 1 1 x). split; [exists x; auto | symmetry; apply PL]. }
  assert (NR : forall w, apply_normal ta (inj w) = inj (rotate ca sa w)).
  { intro w. unfold ta, t2; cbn. apply vec_ext; cbn; f_equal; ring. }
  assert (UD : dc * dc + ds * ds = 1).
  { unfold dc, ds. transitivity ((ca * ca + sa * sa) * (cb * cb + sb * sb)); [ring | rewrite Ua, Ub; ring]. }
  assert (HO : place va ca sa k k dv = vb).
  { specialize (PL origin). replace (place dv dc ds 1 1 origin) with dv in PL by (apply pt_eq; cbn; ring).
    rewrite PL. apply pt_eq; cbn; ring. }
  assert (R1 : forall v, pscale (1 / k) (pscale k (rotate ca sa v)) = rotate ca sa v) by (intro; apply pt_eq; cbn; field; lra).
  assert (R2 : forall v, pscale (1 / k) (rotate ca (- sa) (pscale k (rotate ca sa v))) = v).
  { intro v. transitivity (rotate ca (- sa) (rotate ca sa v)); [apply pt_eq; cbn; field; lra | apply rotate_inv_rotate; exact Ua]. }
  unfold answers_world, collides, penetrates, distance_to, sdfv. cbn [c_shape c_transform a' b']. rewrite DE.
  destruct (H dv dc ds UD HO) as [[O (v & S & E1 & E2 & E3 & E4)]|[O (v & S & E1 & E2 & E3 & E4)]];
  rewrite E1, E2, E3, E4; cbn [rmap fst snd]; rewrite NR; [left | right].
  - split; [apply (same_overlaps _ _ _ _ SDF), (sim_overlaps va ca sa k Ua K), O|]. exists (pscale k (rotate ca sa v)).
    rewrite R1, R2. split; [|repeat split; reflexivity].
    apply (same_min_separation _ _ _ _ SDF), (sim_min_separation va ca sa k Ua K), S.
  - split; [rewrite <- (same_overlaps _ _ _ _ SDF), (sim_overlaps va ca sa k Ua K); exact O|]. exists (pscale k (rotate ca sa v)).
    rewrite R1, R2. split; [|repeat split; reflexivity].
    apply (same_min_contact _ _ _ _ SDF), (sim_min_contact va ca sa k Ua K), S.
Qed.
End Collider.

(** ** Symmetry *)
Lemma delta_swap va ca sa vb cb sb : ca * ca + sa * sa = 1 -> cb * cb + sb * sb = 1 ->
  inverse (delta_transform (t2 va ca sa 1 1) (t2 vb cb sb 1 1)) = delta_transform (t2 vb cb sb 1 1) (t2 va ca sa 1 1).
Proof.
  intros Ua Ub. rewrite !delta_t2 by lra. rewrite inverse_t2 by lra. unfold t2. f_equal.
  - apply inj_eq; cbn.
    + transitivity ((ca * ca + sa * sa) * (cb * (fst va - fst vb) + sb * (snd va - snd vb))); [field; lra|]. rewrite Ua. field.
    + transitivity ((ca * ca + sa * sa) * (cb * (snd va - snd vb) - sb * (fst va - fst vb))); [field; lra|]. rewrite Ua. field.
  - f_equal. apply inj_eq; cbn; ring.
  - apply inj_eq; cbn; field.
Qed.
Lemma neg_rot va ca sa vb cb sb x : ca * ca + sa * sa = 1 ->
  apply_normal (t2 va ca sa 1 1) (apply_normal (delta_transform (t2 va ca sa 1 1) (t2 vb cb sb 1 1)) (v2neg (inj x)))
  = inj (pneg (rotate cb sb x)).
Proof.
  intro Ua. rewrite delta_t2 by lra. rewrite v2neg_inj.
  transitivity (inj (rotate ca sa (rotate (ca * cb - - sa * sb) (ca * sb + - sa * cb) (pneg x)))).
  - apply vec_ext; cbn; f_equal; ring.
  - f_equal. apply pt_eq; cbn.
    + transitivity ((ca * ca + sa * sa) * (- (cb * fst x - sb * snd x))); [ring | rewrite Ua; ring].
    + transitivity ((ca * ca + sa * sa) * (- (sb * fst x + cb * snd x))); [ring | rewrite Ua; ring].
Qed.
Lemma rev_core (f : transform2d XR -> bool * vec2 XR) va ca sa vb cb sb flag x :
  ca * ca + sa * sa = 1 -> cb * cb + sb * sb = 1 ->
  f (delta_transform (t2 vb cb sb 1 1) (t2 va ca sa 1 1)) = (flag, inj x) ->
  let r := reverse_sdfv f (delta_transform (t2 va ca sa 1 1) (t2 vb cb sb 1 1)) in
  fst r = flag /\ apply_normal (t2 va ca sa 1 1) (snd r) = inj (pneg (rotate cb sb x)).
Proof.
  intros Ua Ub E. cbv zeta. unfold reverse_sdfv. rewrite delta_swap by assumption. rewrite E. cbn [fst snd].
  split; [reflexivity | apply neg_rot, Ua].
Qed.
Lemma rev_flag (f : transform2d XR -> bool * vec2 XR) va ca sa vb cb sb :
  ca * ca + sa * sa = 1 -> cb * cb + sb * sb = 1 ->
  fst (reverse_sdfv f (delta_transform (t2 va ca sa 1 1) (t2 vb cb sb 1 1))) = fst (f (delta_transform (t2 vb cb sb 1 1) (t2 va ca sa 1 1))).
Proof. intros Ua Ub. unfold reverse_sdfv. rewrite delta_swap by assumption. destruct (f _); reflexivity. Qed.
Lemma normal_t2 v c s x : apply_normal (t2 v c s 1 1) (inj x) = inj (rotate c s x).
Proof. apply vec_ext; cbn; f_equal; ring. Qed.

Section Symmetry.
Variables (va : pt) (ca sa : R) (vb : pt) (cb sb : R).
Hypotheses (Ua : ca * ca + sa * sa = 1) (Ub : cb * cb + sb * sb = 1).
Let ta := t2 va ca sa 1 1.
Let tb := t2 vb cb sb 1 1.
Lemma delta_origin v c s v' c' s' : exists p, apply_origin (delta_transform (t2 v c s 1 1) (t2 v' c' s' 1 1)) = inj p.
Proof. rewrite delta_t2 by lra. eexists. reflexivity. Qed.
Lemma symmetric_box_point hx hy :
  let p := Collider2d PointS ta in let b := Collider2d (pbox hx hy) tb in
  collides (F:=XR) p b = collides (F:=XR) b p /\
  exists flag v, sdfv (F:=XR) b p = Ok (flag, inj v) /\ sdfv (F:=XR) p b = Ok (flag, inj (pneg v)).
Proof.
  cbv zeta. unfold collides, sdfv, collides_rel, sdfv_rel, sdfv_common_rel, Sdfv_PointBox, Sdfv_BoxPoint.
  cbn [c_shape c_transform rmap]. split; [f_equal; apply rev_flag; assumption|].
  destruct (delta_origin vb cb sb va ca sa) as [q Q].
  assert (X : exists flag x, box_point_sdfv true true (pbox hx hy) (delta_transform tb ta) = (flag, inj x)).
  { unfold tb, ta. rewrite (box_point_eq hx hy q _ true true Q). cbv zeta.
    destruct (_ && _); [destruct (Rltb _ _)|]; eexists _, _; reflexivity. }
  destruct X as (flag & x & X). exists flag, (rotate cb sb x). rewrite X. cbn [fst snd]. unfold tb at 1. rewrite normal_t2.
  split; [reflexivity|].
  destruct (rev_core (box_point_sdfv true true (pbox hx hy)) va ca sa vb cb sb flag x Ua Ub X) as [R1 R2].
  fold ta tb in R1, R2. rewrite R1, R2. reflexivity.
Qed.
Lemma symmetric_ball_point r :
  let p := Collider2d PointS ta in let b := Collider2d (pball r) tb in
  collides (F:=XR) p b = collides (F:=XR) b p /\
  exists flag v, sdfv (F:=XR) b p = Ok (flag, inj v) /\ sdfv (F:=XR) p b = Ok (flag, inj (pneg v)).
Proof.
  cbv zeta. unfold collides, sdfv, collides_rel, sdfv_rel, sdfv_common_rel, Sdfv_PointBall, Sdfv_BallPoint.
  cbn [c_shape c_transform rmap]. split; [f_equal; apply rev_flag; assumption|].
  destruct (delta_origin vb cb sb va ca sa) as [q Q].
  assert (X : exists flag x, ball_point_sdfv true true (pball r) (delta_transform tb ta) = (flag, inj x)).
  { unfold tb, ta. destruct (pt_eq_dec_origin q) as [->|N].
    - rewrite (ball_point_eq0 r _ true true Q). eexists _, _; reflexivity.
    - rewrite (ball_point_eq r q _ true true Q N). eexists _, _; reflexivity. }
  destruct X as (flag & x & X). exists flag, (rotate cb sb x). rewrite X. cbn [fst snd]. unfold tb at 1. rewrite normal_t2.
  split; [reflexivity|].
  destruct (rev_core (ball_point_sdfv true true (pball r)) va ca sa vb cb sb flag x Ua Ub X) as [R1 R2].
  fold ta tb in R1, R2. rewrite R1, R2. reflexivity.
Qed.
Lemma delta_rot v c s v' c' s' : c * c + s * s = 1 ->
  apply_origin (delta_transform (t2 v c s 1 1) (t2 v' c' s' 1 1)) = inj (rotate c (- s) (psub v' v)).
Proof. intro U. rewrite delta_t2 by lra. apply vec_ext; cbn; f_equal; field. Qed.
Lemma psub_origin p q : psub p q = origin <-> p = q.
Proof.
  split; [|intros ->; apply pt_eq; cbn; ring]. intro E.
  pose proof (f_equal fst E); pose proof (f_equal snd E); cbn in * . apply pt_eq; lra.
Qed.
Lemma rotate_nz c s p : c * c + s * s = 1 -> p <> origin -> rotate c s p <> origin.
Proof. intros U N E. apply N. apply norm_0. rewrite <- (norm_rotate c s p U), E. apply norm_origin. Qed.
Lemma symmetric_ball_ball r1 r2 :
  let a := Collider2d (pball r1) ta in let b := Collider2d (pball r2) tb in
  collides (F:=XR) a b = collides (F:=XR) b a /\
  (va <> vb -> exists flag v, sdfv (F:=XR) a b = Ok (flag, inj v) /\ sdfv (F:=XR) b a = Ok (flag, inj (pneg v))).
Proof.
  cbv zeta. unfold collides, sdfv, collides_rel, sdfv_rel, sdfv_common_rel, Sdfv_BallBall.
  cbn [c_shape c_transform rmap]. rewrite !ball_ball_is_point.
  pose proof (delta_rot va ca sa vb cb sb Ua) as E1. pose proof (delta_rot vb cb sb va ca sa Ub) as E2. fold ta tb in E1, E2.
  assert (NS : norm (psub va vb) = norm (psub vb va)).
  { rewrite <- norm_neg. f_equal. apply pt_eq; cbn; ring. }
  destruct (pt_eq_dec_origin (psub vb va)) as [Z|Z].
  - assert (vb = va) by (apply (proj1 (psub_origin _ _)); exact Z).
    assert (Z' : psub va vb = origin) by (apply (proj2 (psub_origin _ _)); congruence).
    rewrite Z in E1. rewrite Z' in E2. replace (rotate ca (- sa) origin) with origin in E1 by (apply pt_eq; cbn; ring).
    replace (rotate cb (- sb) origin) with origin in E2 by (apply pt_eq; cbn; ring).
    rewrite (ball_point_eq0 _ _ _ _ E1), (ball_point_eq0 _ _ _ _ E2). split; [reflexivity | intro; exfalso; congruence].
  - assert (Z' : psub va vb <> origin) by (intro Q; apply Z; apply (proj1 (psub_origin _ _)) in Q; apply (proj2 (psub_origin _ _)); congruence).
    pose proof (rotate_nz ca (- sa) _ (unit_neg _ _ Ua) Z) as N1. pose proof (rotate_nz cb (- sb) _ (unit_neg _ _ Ub) Z') as N2.
    rewrite !(ball_point_eq _ _ _ _ _ E1 N1), !(ball_point_eq _ _ _ _ _ E2 N2).
    rewrite !norm_rotate by (apply unit_neg; assumption). rewrite NS, (Rplus_comm r2 r1). split; [reflexivity|].
    intros _. cbn [fst snd]. unfold ta at 1, tb at 1. rewrite !normal_t2. eexists _, _. split; [reflexivity|].
    f_equal. f_equal. f_equal.
    assert (RS : forall c s k p, rotate c s (pscale k p) = pscale k (rotate c s p)) by (intros; apply pt_eq; cbn; ring).
    rewrite !RS, !rotate_rotate_inv by assumption. apply pt_eq; cbn; ring.
Qed.
End Symmetry.
