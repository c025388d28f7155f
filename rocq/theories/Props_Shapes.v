(** * Property theorems C11-C14, C36 (shapes, exact arithmetic). *)
From Coq Require Import Reals Lra List Lia.
From Verif Require Import Num NumXR Glam Transform2 Shapes2 Gjk Angle Spec SpecLink P_Base P_Transform P_Shapes.
Import ListNotations.
Local Open Scope R_scope.

(** C11: extreme_point is a farthest point of the shape, in every direction (of any length K). *)
Theorem C11_extreme_point_point : forall K, supports K PointS (single origin).
Proof. exact supports_point. Qed.
Print Assumptions C11_extreme_point_point.
Theorem C11_extreme_point_ball : forall K r, 0 <= r -> supports K (pball r) (disc r).
Proof. exact supports_ball. Qed.
Print Assumptions C11_extreme_point_ball.
Example C11_ball_case : extreme_point (pball 5) (inj (3, 4)) = inj (3, 4) /\ is_farthest (disc 5) (3, 4) (3, 4).
Proof.
  assert (N : norm (3, 4) = 5) by (unfold norm, pdot; cbn [fst snd]; replace (3 * 3 + 4 * 4) with (5 * 5) by ring; apply sqrt_square; lra).
  destruct (C11_extreme_point_ball 5 5 ltac:(lra) (3, 4) ltac:(lra)) as (p & E & F).
  assert (G : p = (3, 4)); [|subst p; split; assumption].
  rewrite ext_ball in E by lra. assert (Z : ((3, 4) : pt) <> origin) by (intro Z; injection Z; lra).
  destruct (pt_eq_dec_origin (3, 4)) as [Q|_]; [contradiction|]. apply inj_inj in E. rewrite <- E, N. apply pt_eq; cbn; field.
Qed.
Theorem C11_extreme_point_box : forall K hx hy, 0 <= hx -> 0 <= hy -> supports K (pbox hx hy) (rect hx hy).
Proof. exact supports_box. Qed.
Print Assumptions C11_extreme_point_box.
Example C11_box_case : exists p, extreme_point (pbox 2 1) (inj (3, -4)) = inj p /\ is_farthest (rect 2 1) (3, -4) p.
Proof. apply (C11_extreme_point_box (norm (3, -4))); lra. Qed.
Theorem C11_extreme_point_rounded_box : forall K hx hy r, 0 <= hx -> 0 <= hy -> 0 <= r ->
  supports K (prounded hx hy r) (rounded_rect hx hy r).
Proof. exact supports_rounded. Qed.
Print Assumptions C11_extreme_point_rounded_box.
Example C11_rounded_case : exists p, extreme_point (prounded 2 1 5) (inj (3, -4)) = inj p /\ is_farthest (rounded_rect 2 1 5) (3, -4) p.
Proof. apply (C11_extreme_point_rounded_box (norm (3, -4))); lra. Qed.
(** polygons: as soon as one vertex has a score above f32::MIN, the answer is a vertex and farthest in the hull *)
Theorem C11_extreme_point_poly : forall ps d, (exists q, In q ps /\ - f32_max < pdot d q) ->
  exists p, extreme_point (ppoly ps) (inj d) = inj p /\ In p ps /\ is_farthest (hull ps) d p.
Proof. exact poly_farthest. Qed.
Print Assumptions C11_extreme_point_poly.
Example C11_poly_case : extreme_point (ppoly [(-1, -1); (0, 1); (1, -1)]) (inj (3, 4)) = inj (0, 1).
Proof.
  destruct (C11_extreme_point_poly [(-1, -1); (0, 1); (1, -1)] (3, 4)) as (p & E & I & F).
  - exists (0, 1). split; [right; left; reflexivity|]. pose proof f32_max_pos. unfold pdot; cbn; lra.
  - rewrite E. f_equal. assert (H : hull [(-1, -1); (0, 1); (1, -1)] (0, 1)).
    { exists [0; 1; 0]. split; [reflexivity|]. split; [repeat constructor; lra|]. split; [cbn; ring|]. apply pt_eq; cbn; ring. }
    apply F in H. destruct I as [<-|[<-|[<-|[]]]]; unfold pdot in H; cbn in H; [lra | reflexivity | lra].
Qed.
(** ... and only then: otherwise (in particular for no vertices) it is the zero vector *)
Theorem C11_extreme_point_poly_low : forall ps d, (forall q, In q ps -> pdot d q <= - f32_max) ->
  extreme_point (ppoly ps) (inj d) = inj origin.
Proof. intros ps d H. rewrite ext_poly. f_equal. exact (rpoly_ext_low ps d H). Qed.
Print Assumptions C11_extreme_point_poly_low.
Example C11_low_case : extreme_point (ppoly [(-1, 0); (-2, 0)]) (inj (f32_max, 0)) = inj origin.
Proof. apply C11_extreme_point_poly_low. pose proof f32_max_pos. intros q [<-|[<-|[]]]; unfold pdot; cbn; lra. Qed.
Theorem C11_extreme_point_shape : forall K r hx hy ps B, 0 <= r -> 0 <= hx -> 0 <= hy ->
  ps <> [] -> (forall p, In p ps -> norm p <= B) -> K * B < f32_max ->
  supports K (SBall (pball r)) (disc r) /\ supports K (SBox (pbox hx hy)) (rect hx hy) /\
  supports K (SPoly (ppoly ps)) (hull ps).
Proof.
  intros K r hx hy ps B Hr Hx Hy N HB HK.
  exact (conj (supports_shape_ball K r Hr) (conj (supports_shape_box K hx hy Hx Hy) (supports_shape_poly K B ps N HB HK))).
Qed.
Print Assumptions C11_extreme_point_shape.
(** the constructors Shape2d::ball, Shape2d::rect, Shape2d::poly and Box2d::with_halfdims build the shape they name *)
Theorem C11_constructors : forall K r hx hy ps B, 0 <= r -> 0 <= hx -> 0 <= hy ->
  ps <> [] -> (forall p, In p ps -> norm p <= B) -> K * B < f32_max ->
  supports K (shape_ball (XFin r)) (disc r) /\ supports K (shape_rect (XFin hx) (XFin hy)) (rect hx hy) /\
  supports K (shape_poly (map inj ps)) (hull ps) /\ supports K (box_with_halfdims (XFin hx) (XFin hy)) (rect hx hy).
Proof.
  intros K r hx hy ps B Hr Hx Hy N HB HK. split; [exact (supports_shape_ball K r Hr)|]. split; [exact (supports_shape_box K hx hy Hx Hy)|].
  split; [exact (supports_shape_poly K B ps N HB HK)|]. exact (C11_extreme_point_box K hx hy Hx Hy).
Qed.
Print Assumptions C11_constructors.
Example C11_constructors_case : exists p, extreme_point (shape_rect (XFin 2) (XFin 1)) (inj (3, -4)) = inj p /\ is_farthest (rect 2 1) (3, -4) p.
Proof. apply (C11_extreme_point_box (norm (3, -4))); lra. Qed.

(** C12 *)
Theorem C12_transformed_box_poly_shape :
  forall (S T : Type) (E : ExtremePoint2d XR S) (TR : Transformation2d XR T) K (a : S) A (t : T) v c s k,
  supports K a A -> acts_as t v c s k -> c * c + s * s = 1 -> 0 <= k -> forall d, norm d <= K ->
  exists p, default_extreme_point_t a t (inj d) = inj p /\ is_farthest (image (place v c s k k) A) d p.
Proof. exact @default_ext_t. Qed.
Print Assumptions C12_transformed_box_poly_shape.
Example C12_case : exists p, default_extreme_point_t (pbox 2 1) (t2 (1, 2) (3/5) (4/5) 2 2) (inj (3, -4)) = inj p /\
  is_farthest (image (place (1, 2) (3/5) (4/5) 2 2) (rect 2 1)) (3, -4) p.
Proof.
  apply (C12_transformed_box_poly_shape _ _ _ _ (norm (3, -4))); try lra; [apply C11_extreme_point_box; lra|]. apply acts_t2.
Qed.
Theorem C12_transformed_ball : forall (T : Type) (TR : Transformation2d XR T) r (t : T) v c s k,
  0 <= r -> acts_as t v c s k -> c * c + s * s = 1 -> 0 <= k -> forall d,
  exists p, extreme_point_t (pball r) t (inj d) = inj p /\ is_farthest (image (place v c s k k) (disc r)) d p.
Proof. exact @ball_ext_t. Qed.
Print Assumptions C12_transformed_ball.
Example C12_ball_case : exists p, extreme_point_t (pball 2) (t2 (1, 2) (3/5) (4/5) 2 2) (inj (3, -4)) = inj p /\
  is_farthest (image (place (1, 2) (3/5) (4/5) 2 2) (disc 2)) (3, -4) p.
Proof. apply C12_transformed_ball; try lra. apply acts_t2. Qed.
Theorem C12_transformed_point : forall (T : Type) (TR : Transformation2d XR T) (t : T) v c s k d, acts_as t v c s k ->
  extreme_point_t PointS t (inj d) = inj v /\ is_farthest (image (place v c s k k) (single origin)) d v.
Proof.
  intros T TR t v c s k d H. split; [exact (proj1 (point_ext_t t v c s k (inj d) H))|].
  split; [apply point_image; reflexivity|]. intros q Q. apply point_image in Q. rewrite Q. right. reflexivity.
Qed.
Print Assumptions C12_transformed_point.
Example C12_point_case : extreme_point_t PointS (t2 (1, 2) (3/5) (4/5) 2 2) (inj (3, -4)) = inj (1, 2).
Proof. apply (C12_transformed_point _ _ _ (1, 2) (3/5) (4/5) 2). apply acts_t2. Qed.
(** Box2d, Poly2d and Shape2d use the default method; colliders delegate. *)
Theorem C12_collider_uses_extreme_point_t : forall (S T : Type) (E : ExtremePointT2d XR S T) (s : S) (t : T) d,
  extreme_point (Collider2d s t) d = extreme_point_t s t d.
Proof. intros. reflexivity. Qed.
Print Assumptions C12_collider_uses_extreme_point_t.
Theorem C12_transformed_box_any_scale : forall hx hy v c s sx sy d, 0 <= hx -> 0 <= hy -> 0 <= sx -> 0 <= sy ->
  exists p, extreme_point_t (pbox hx hy) (t2 v c s sx sy) (inj d) = inj p /\
            is_farthest (image (place v c s sx sy) (rect hx hy)) d p.
Proof. exact box_ext_t. Qed.
Print Assumptions C12_transformed_box_any_scale.
Example C12_any_scale_case : exists p, extreme_point_t (pbox 2 1) (t2 (1, 2) (3/5) (4/5) 2 7) (inj (3, -4)) = inj p /\
  is_farthest (image (place (1, 2) (3/5) (4/5) 2 7) (rect 2 1)) (3, -4) p.
Proof. apply C12_transformed_box_any_scale; lra. Qed.
(** the similarity hypothesis is met by every transformation type of the library *)
Theorem C12_acts_as_instances : forall v c s k,
  acts_as (inj v) v 1 0 1 /\ acts_as (Translate2d (inj v)) v 1 0 1 /\ acts_as IdT origin 1 0 1 /\
  acts_as (ax v k) v 1 0 k /\ acts_as (t2 v c s k k) v c s k.
Proof.
  intros v c s k.
  exact (conj (acts_vec2 v) (conj (acts_translate v) (conj acts_identity (conj (acts_axis v k) (acts_t2 v c s k))))).
Qed.
Print Assumptions C12_acts_as_instances.
(** non-uniform scale: refuted for polygons and balls *)
Theorem C12_nonuniform_poly_refuted : exists ps sx sy d p q,
  0 < sx /\ 0 < sy /\ extreme_point_t (ppoly ps) (t2 origin 1 0 sx sy) (inj d) = inj p /\
  image (place origin 1 0 sx sy) (hull ps) q /\ pdot d p < pdot d q.
Proof.
  exists [(1, 0); (0, 1/2)], 1, 10, (1, 1), (1, 0), (0, 5). split; [lra|]. split; [lra|]. split; [|split].
  - unfold extreme_point_t, ExtT_Poly, default_extreme_point_t.
    replace (unapply_normal (t2 origin 1 0 1 10) (inj (1, 1))) with (inj (1, 1)) by (apply vec_ext; cbn; f_equal; ring).
    rewrite ext_poly. unfold rpoly_ext; cbn [fold_left]. pose proof f32_max_pos.
    rewrite rpoly_step_eq. unfold pdot at 1; cbn [fst snd]. rewrite Rltb_true by lra.
    rewrite rpoly_step_eq. unfold pdot at 1 2; cbn [fst snd]. rewrite Rltb_false by lra.
    cbn [snd]. apply vec_ext; cbn; f_equal; ring.
  - exists (0, 1/2). split; [apply hull_in; right; left; reflexivity | apply pt_eq; cbn; field].
  - unfold pdot; cbn; lra.
Qed.
Print Assumptions C12_nonuniform_poly_refuted.
Theorem C12_nonuniform_ball_refuted : exists r sx sy d p,
  0 < sx /\ 0 < sy /\ extreme_point_t (pball r) (t2 origin 1 0 sx sy) (inj d) = inj p /\
  ~ image (place origin 1 0 sx sy) (disc r) p.
Proof.
  exists 1, 1, 3, (1, 0), (3, 0). split; [lra|]. split; [lra|]. split.
  - unfold extreme_point_t, ExtT_Ball. rewrite ext_ball by lra.
    destruct (pt_eq_dec_origin (1, 0)) as [E|E]; [injection E; lra|].
    rewrite norm_xaxis, Rabs_R1.
    assert (Es : scaling_factor (t2 origin 1 0 1 3) = XFin 3).
    { change (fmax (XFin 1) (XFin 3) = XFin 3). rewrite fmax_fin. unfold Rmax; destruct (Rle_dec 1 3); [reflexivity | lra]. }
    rewrite Es. apply vec_ext; cbn; f_equal; field.
  - intros (q & Q & E). apply (f_equal fst) in E. cbn in E. pose proof (norm_x q) as N. unfold disc in Q.
    assert (Rabs (fst q) <= 1) by lra. apply Rabs_le_iff in H. lra.
Qed.
Print Assumptions C12_nonuniform_ball_refuted.

(** C13 *)
Theorem C13_minkowski_support :
  forall (SA SB T : Type) (EA : ExtremePoint2d XR SA) (EB : ExtremePoint2d XR SB) (TR : Transformation2d XR T)
  K (a : SA) (b : SB) A B (t : T) v c s k,
  supports K a A -> supports K b B -> acts_as t v c s k -> c * c + s * s = 1 -> 0 <= k ->
  forall d, norm d <= K -> exists p, lmd_extreme_point a b t (inj d) = inj p /\
     is_farthest (minkowski_diff A (image (place v c s k k) B)) d p.
Proof. exact @lmd_farthest. Qed.
Print Assumptions C13_minkowski_support.
Example C13_case : exists p, lmd_extreme_point (pball 2) (pbox 2 1) (t2 (1, 2) (3/5) (4/5) 2 2) (inj (3, -4)) = inj p /\
  is_farthest (minkowski_diff (disc 2) (image (place (1, 2) (3/5) (4/5) 2 2) (rect 2 1))) (3, -4) p.
Proof.
  apply (C13_minkowski_support _ _ _ _ _ _ (norm (3, -4))); try lra; [apply C11_extreme_point_ball; lra | apply C11_extreme_point_box; lra|]. apply acts_t2.
Qed.

(** C14 *)
Theorem C14_bounding_boxes_tight : forall r hx hy ps, 0 <= r -> 0 <= hx -> 0 <= hy -> ps <> [] ->
  (exists kx ky, symmetric_bounding_box PointS = pbox kx ky /\ tight_box (single origin) kx ky) /\
  (exists kx ky, symmetric_bounding_box (pball r) = pbox kx ky /\ tight_box (disc r) kx ky) /\
  (exists kx ky, symmetric_bounding_box (pbox hx hy) = pbox kx ky /\ tight_box (rect hx hy) kx ky) /\
  (exists kx ky, symmetric_bounding_box (prounded hx hy r) = pbox kx ky /\ tight_box (rounded_rect hx hy r) kx ky) /\
  (exists kx ky, symmetric_bounding_box (ppoly ps) = pbox kx ky /\ tight_box (hull ps) kx ky).
Proof.
  intros r hx hy ps Hr Hx Hy N.
  exact (conj bb_point (conj (bb_ball r Hr) (conj (bb_box hx hy) (conj (bb_rounded hx hy r Hx Hy Hr) (bb_poly ps N))))).
Qed.
Print Assumptions C14_bounding_boxes_tight.
Example C14_case : exists kx ky, symmetric_bounding_box (ppoly [(3, 1); (-1, -2)]) = pbox kx ky /\ tight_box (hull [(3, 1); (-1, -2)]) kx ky.
Proof. apply (C14_bounding_boxes_tight 1 1 1); try lra. discriminate. Qed.
Theorem C14_cover_minimal : forall hx hy p, 0 <= hx -> 0 <= hy -> exists hx' hy',
  box_cover (pbox hx hy) (inj p) = pbox hx' hy' /\
  included (rect hx hy) (rect hx' hy') /\ rect hx' hy' p /\
  (forall kx ky, included (rect hx hy) (rect kx ky) -> rect kx ky p -> included (rect hx' hy') (rect kx ky)).
Proof. exact cover_spec. Qed.
Print Assumptions C14_cover_minimal.
Example C14_cover_case : exists hx hy, box_cover (pbox 2 1) (inj (-3, 0)) = pbox hx hy /\ rect hx hy (-3, 0) /\ included (rect 2 1) (rect hx hy).
Proof. destruct (C14_cover_minimal 2 1 (-3, 0) ltac:(lra) ltac:(lra)) as (hx & hy & E & I & P & _). exists hx, hy. auto. Qed.

(** C36 *)
Theorem C36_poly_of_box : forall hx hy, 0 <= hx -> 0 <= hy ->
  exists ps, poly_of_box (pbox hx hy) = ppoly ps /\ length ps = 4%nat /\ same_set (hull ps) (rect hx hy).
Proof. intros hx hy Hx Hy. eexists. exact (conj (poly_of_box_eq hx hy) (conj eq_refl (box_hull hx hy Hx Hy))). Qed.
Print Assumptions C36_poly_of_box.
Example C36_box_case : exists ps, poly_of_box (pbox 2 1) = ppoly ps /\ same_set (hull ps) (rect 2 1).
Proof. destruct (C36_poly_of_box 2 1 ltac:(lra) ltac:(lra)) as (ps & E & _ & S). exists ps. auto. Qed.
Theorem C36_regular : forall n r,
  length (points (poly_regular n (XFin r))) = n /\
  forall i, (i < n)%nat ->
    let a := 2 * PI * INR i / INR n in
    nth i (points (poly_regular n (XFin r))) v2nan = inj (pscale r (cos a, sin a)) /\
    norm (pscale r (cos a, sin a)) = Rabs r.
Proof. exact regular_spec. Qed.
Print Assumptions C36_regular.
Theorem C36_regular_upright : forall n r,
  length (points (poly_regular_upright n (XFin r))) = n /\
  forall i, (i < n)%nat ->
    let a := 2 * PI * INR i / INR n in
    nth i (points (poly_regular_upright n (XFin r))) v2nan = inj (pscale r (sin a, cos a)) /\
    norm (pscale r (sin a, cos a)) = Rabs r.
Proof. exact regular_upright_spec. Qed.
Print Assumptions C36_regular_upright.
(** the second corner of a triangle of circumradius 2, at 120 degrees *)
Example C36_regular_case : nth 1 (points (poly_regular 3 (XFin 2))) v2nan = inj (pscale 2 (cos (2 * PI * INR 1 / INR 3), sin (2 * PI * INR 1 / INR 3))).
Proof. destruct (C36_regular 3 2) as (_ & H). destruct (H 1%nat ltac:(lia)) as (E & _). exact E. Qed.
Theorem C36_strict_check_meaning : forall ps,
  (strict_check (ppoly ps) = true -> forall p q, In p ps -> In q ps -> pdot p q <= pdot p p) /\
  ((forall p q, In p ps -> In q ps -> p <> q -> pdot p q < pdot p p) -> strict_check (ppoly ps) = true).
Proof. intro ps. exact (conj (strict_check_sound ps) (strict_check_complete ps)). Qed.
Print Assumptions C36_strict_check_meaning.
Example C36_strict_case : strict_check (ppoly [(1, 0); (0, 1); (-1, 0); (0, -1)]) = true.
Proof.
  apply C36_strict_check_meaning. intros p q P Q N.
  destruct P as [<-|[<-|[<-|[<-|[]]]]]; destruct Q as [<-|[<-|[<-|[<-|[]]]]]; try (exfalso; apply N; reflexivity); unfold pdot; cbn; lra.
Qed.
(** 'the origin must be strictly contained within the polygon to pass': refuted by a polygon not containing the origin *)
(** exactly: every vertex is farthest along its own direction, and no earlier vertex is as far *)
Theorem C36_strict_check_iff : forall ps, strict_check (ppoly ps) = true <->
  forall p, In p ps -> (forall q, In q ps -> pdot p q <= pdot p p) /\
    exists i, nth_error ps i = Some p /\ forall j q, (j < i)%nat -> nth_error ps j = Some q -> pdot p q < pdot p p.
Proof. exact strict_check_exact. Qed.
Print Assumptions C36_strict_check_iff.
(** the order of the vertices matters: (2,0) and (2,1) tie along (2,0) *)
Example C36_strict_order_case : strict_check (ppoly [(2, 0); (2, 1)]) = true /\ strict_check (ppoly [(2, 1); (2, 0)]) = false.
Proof.
  split.
  - apply C36_strict_check_iff. intros p [<-|[<-|[]]]; (split; [intros q [<-|[<-|[]]]; unfold pdot; cbn; lra|]).
    + exists 0%nat. split; [reflexivity|]. intros j q J; lia.
    + exists 1%nat. split; [reflexivity|]. intros [|j] q J Q; [|lia]. injection Q as <-. unfold pdot; cbn; lra.
  - destruct (strict_check (ppoly [(2, 1); (2, 0)])) eqn:E; [|reflexivity]. exfalso.
    destruct (proj1 (C36_strict_check_iff _) E (2, 0)) as [_ (i & I1 & I2)]; [right; left; reflexivity|].
    destruct i as [|i]; [cbn in I1; injection I1; intros; lra|].
    pose proof (I2 0%nat (2, 1) (Nat.lt_0_succ i) eq_refl) as H. unfold pdot in H; cbn in H; lra.
Qed.

Theorem C36_strict_check_accepts_refuted : exists ps, ps <> [] /\ strict_check (ppoly ps) = true /\ ~ hull ps origin.
Proof.
  exists [(1, 0)]. split; [discriminate|]. split.
  - apply strict_check_complete. intros p q [<-|[]] [<-|[]] N; contradiction.
  - intro H. pose proof (hull_bound (-1, 0) (-1) [(1, 0)] origin) as B.
    assert (pdot (-1, 0) origin <= -1); [|unfold pdot, origin in H0; cbn in H0; lra].
    apply B; [|exact H]. intros q [<-|[]]. unfold pdot; cbn; lra.
Qed.
Print Assumptions C36_strict_check_accepts_refuted.
(** and a convex quadrilateral with the origin strictly inside is rejected *)
Theorem C36_strict_check_rejects_refuted : exists ps,
  strict_check (ppoly ps) = false /\ (exists r, 0 < r /\ included (disc r) (hull ps)) /\
  (forall p, In p ps -> exists d, forall q, In q ps -> q <> p -> pdot d q < pdot d p).
Proof.
  exists [(1, 1); (10, 1); (-10, -1); (-1, -1)]. split; [|split].
  - destruct (strict_check (ppoly [(1, 1); (10, 1); (-10, -1); (-1, -1)])) eqn:E; [|reflexivity]. exfalso.
    pose proof (strict_check_sound _ E (1, 1) (10, 1) (or_introl eq_refl) (or_intror (or_introl eq_refl))) as H.
    unfold pdot in H; cbn in H; lra.
  - exists (1/100). split; [lra|]. intros p P.
    assert (Px : Rabs (fst p) <= 1/100) by (pose proof (norm_x p); unfold disc in P; lra).
    assert (Py : Rabs (snd p) <= 1/100) by (pose proof (norm_y p); unfold disc in P; lra).
    apply Rabs_le_iff in Px; apply Rabs_le_iff in Py.
    (* weights w1..w4 with centrally symmetric pairs: p = u (1,1) + w (10,1), then split u, w into pairs *)
    set (w := (fst p - snd p) / 9). set (u := snd p - w).
    exists [1/4 + u / 2; 1/4 + w / 2; 1/4 - w / 2; 1/4 - u / 2]. repeat split.
    + repeat apply Forall_cons; try apply Forall_nil; unfold u, w; lra.
    + cbn; lra.
    + apply pt_eq; cbn; unfold u, w; field.
  - intros p [<-|[<-|[<-|[<-|[]]]]].
    + exists (-1, 8). intros q [<-|[<-|[<-|[<-|[]]]]] N; try contradiction; unfold pdot; cbn; lra.
    + exists (1, 0). intros q [<-|[<-|[<-|[<-|[]]]]] N; try contradiction; unfold pdot; cbn; lra.
    + exists (-1, 0). intros q [<-|[<-|[<-|[<-|[]]]]] N; try contradiction; unfold pdot; cbn; lra.
    + exists (1, -8). intros q [<-|[<-|[<-|[<-|[]]]]] N; try contradiction; unfold pdot; cbn; lra.
Qed.
Print Assumptions C36_strict_check_rejects_refuted.

(** hypotheses met: a triangle and a direction *)
Example poly_hyp_met : exists q, In q [(0, 1); (-1, -1); (1, -1)] /\ - f32_max < pdot (3, 4) q.
Proof. exists (0, 1). split; [left; reflexivity|]. pose proof f32_max_pos. unfold pdot; cbn; lra. Qed.
Example supports_poly_hyp_met : (forall p, In p [(0, 1); (-1, -1); (1, -1)] -> norm p <= 2) /\ 1000000 * 2 < f32_max.
Proof.
  split.
  - intros p [<-|[<-|[<-|[]]]]; apply norm_le_sq; unfold pdot; cbn; lra.
  - unfold f32_max. rewrite <- mult_IZR. apply IZR_lt. reflexivity.
Qed.
