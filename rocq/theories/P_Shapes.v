(** * Shapes over exact scalars: proofs for C11-C14 and C36. *)
From Coq Require Import Reals Lra Psatz List Lia.
From Verif Require Import Num NumXR Glam Transform2 Shapes2 Gjk Angle Spec SpecLink P_Base P_Transform.
Import ListNotations.
Local Open Scope R_scope.

(** ** Similarities *)
Lemma acts_vec2 v : acts_as (inj v) v 1 0 1.
Proof. repeat split; intros; try (apply vec_ext; cbn; f_equal; ring). Qed.
Lemma acts_translate v : acts_as (Translate2d (inj v)) v 1 0 1.
Proof. repeat split; intros; try (apply vec_ext; cbn; f_equal; ring). Qed.
Lemma acts_identity : acts_as IdT origin 1 0 1.
Proof. repeat split; intros; try (apply vec_ext; cbn; f_equal; ring). Qed.
Lemma acts_axis v k : acts_as (ax v k) v 1 0 k.
Proof. repeat split; intros; try (apply vec_ext; cbn; f_equal; ring). Qed.
Lemma acts_t2 v c s k : acts_as (t2 v c s k k) v c s k.
Proof.
  repeat split; intros; try (apply vec_ext; cbn; f_equal; ring).
  change (fmax (XFin k) (XFin k) = XFin k). rewrite fmax_fin. f_equal. unfold Rmax; destruct (Rle_dec k k); reflexivity.
Qed.

(** ** Farthest points of the basic sets *)
Lemma farthest_single d : is_farthest (single origin) d origin.
Proof. split; [reflexivity|]. intros q ->. lra. Qed.

Lemma pdot_scale_r k p q : pdot p (pscale k q) = k * pdot p q.
Proof. unfold pdot, pscale; cbn; ring. Qed.
Lemma pdot_add_r p q r : pdot p (padd q r) = pdot p q + pdot p r.
Proof. unfold pdot, padd; cbn; ring. Qed.
Lemma pdot_sub_r p q r : pdot p (psub q r) = pdot p q - pdot p r.
Proof. unfold pdot, psub; cbn; ring. Qed.
Lemma pdot_comm p q : pdot p q = pdot q p.
Proof. unfold pdot; ring. Qed.

Lemma norm_pos d : d <> origin -> 0 < norm d.
Proof.
  intro H. destruct (norm_nonneg d) as [L|E]; [exact L|]. exfalso; apply H, norm_0; auto.
Qed.
Definition pt_eq_dec_origin (d : pt) : {d = origin} + {d <> origin}.
Proof.
  destruct d as [x y]. destruct (Req_EM_T x 0) as [->|N]; [destruct (Req_EM_T y 0) as [->|N]|].
  - left; reflexivity.
  - right; intro H; injection H; auto.
  - right; intro H; injection H; auto.
Defined.

Lemma normalize_inj d :
  v2normalize_or_zero (inj d) = inj (if pt_eq_dec_origin d then origin else pscale (1 / norm d) d).
Proof.
  unfold v2normalize_or_zero, v2lenrecip. rewrite v2len_inj. change fdiv with xdiv. change (f1 (F:=XR)) with (XFin 1).
  destruct (pt_eq_dec_origin d) as [->|H].
  - rewrite norm_origin. cbn. rewrite Reqb_true by reflexivity. rewrite (Reqb_false 1 0) by lra. reflexivity.
  - pose proof (norm_pos d H) as P. rewrite xdiv_fin by lra.
    replace (fisfinite (XFin (1 / norm d))) with true by reflexivity. cbn [andb].
    change (flt f0 (XFin (1 / norm d))) with (Rltb 0 (1 / norm d)).
    rewrite Rltb_true by (apply Rmult_lt_0_compat; [lra | apply Rinv_0_lt_compat, P]).
    apply v2muls_inj.
Qed.

Lemma farthest_disc r d : 0 <= r ->
  is_farthest (disc r) d (pscale r (if pt_eq_dec_origin d then origin else pscale (1 / norm d) d)).
Proof.
  intro Hr. destruct (pt_eq_dec_origin d) as [->|H].
  - split.
    + unfold disc. apply norm_le_sq; [exact Hr|]. unfold pdot, pscale, origin; cbn. nra.
    + intros q _. unfold pdot, pscale, origin; cbn. lra.
  - pose proof (norm_pos d H) as P. split.
    + unfold disc. rewrite !norm_scale. rewrite (Rabs_pos_eq r) by exact Hr.
      rewrite Rabs_pos_eq by (apply Rmult_le_pos; [lra | apply Rlt_le, Rinv_0_lt_compat, P]).
      right. field. lra.
    + intros q Hq. rewrite !pdot_scale_r. rewrite <- norm_sq.
      replace (r * (1 / norm d * (norm d * norm d))) with (norm d * r) by (field; lra).
      eapply Rle_trans; [apply cauchy|]. unfold disc in Hq. nra.
Qed.
Lemma ext_ball r d : 0 <= r ->
  extreme_point (pball r) (inj d) = inj (pscale r (if pt_eq_dec_origin d then origin else pscale (1 / norm d) d)).
Proof.
  intro Hr. unfold extreme_point, Ext_Ball, pball; cbn [b_radius]. rewrite normalize_inj. apply v2smul_inj.
Qed.
Lemma supports_ball K r : 0 <= r -> supports K (pball r) (disc r).
Proof. intros Hr d _. eexists; split; [apply ext_ball, Hr | apply farthest_disc, Hr]. Qed.

Definition rsign (x : R) : R := if Rltb x 0 then -1 else 1.
Lemma rsign_mul x : rsign x * x = Rabs x.
Proof. unfold rsign. rcase; unfold Rabs; destruct (Rcase_abs x); lra. Qed.
Lemma rsign_cases x : (rsign x = 1 /\ 0 <= x) \/ (rsign x = -1 /\ x < 0).
Proof. unfold rsign. rcase; [right | left]; split; lra. Qed.
Lemma farthest_rect hx hy d : 0 <= hx -> 0 <= hy ->
  is_farthest (rect hx hy) d (rsign (fst d) * hx, rsign (snd d) * hy).
Proof.
  intros Hx Hy. split.
  - unfold rect; cbn. destruct (rsign_cases (fst d)) as [[-> ?]|[-> ?]], (rsign_cases (snd d)) as [[-> ?]|[-> ?]]; lra.
  - intros q [Q1 Q2]. unfold pdot; cbn.
    destruct (rsign_cases (fst d)) as [[-> ?]|[-> ?]], (rsign_cases (snd d)) as [[-> ?]|[-> ?]]; nra.
Qed.
Lemma ext_box hx hy d : extreme_point (pbox hx hy) (inj d) = inj (rsign (fst d) * hx, rsign (snd d) * hy).
Proof.
  unfold extreme_point, Ext_Box, pbox, inj; cbn [halfsize vx vy fst snd]. rewrite !fsignum_fin. reflexivity.
Qed.
Lemma supports_box K hx hy : 0 <= hx -> 0 <= hy -> supports K (pbox hx hy) (rect hx hy).
Proof. intros Hx Hy d _. eexists; split; [apply ext_box | apply farthest_rect; assumption]. Qed.
Lemma supports_point K : supports K PointS (single origin).
Proof. intros d _. exists origin. split; [reflexivity | apply farthest_single]. Qed.

Lemma farthest_rounded hx hy r d p q : is_farthest (disc r) d p -> is_farthest (rect hx hy) d q ->
  is_farthest (rounded_rect hx hy r) d (padd p q).
Proof.
  intros [P1 P2] [Q1 Q2]. split.
  - exists q. split; [exact Q1|]. replace (psub (padd p q) q) with p by (apply pt_eq; cbn; ring). exact P1.
  - intros x (y & Y & D). rewrite pdot_add_r. pose proof (P2 _ D). pose proof (Q2 _ Y).
    replace (pdot d x) with (pdot d (psub x y) + pdot d y) by (unfold pdot, psub; cbn; ring). lra.
Qed.
Lemma supports_rounded K hx hy r : 0 <= hx -> 0 <= hy -> 0 <= r ->
  supports K (prounded hx hy r) (rounded_rect hx hy r).
Proof.
  intros Hx Hy Hr d Hd.
  destruct (supports_ball K r Hr d Hd) as (p & Ep & Fp). destruct (supports_box K hx hy Hx Hy d Hd) as (q & Eq & Fq).
  exists (padd p q). split; [|apply farthest_rounded; assumption].
  unfold extreme_point at 1, Ext_Rounded. unfold prounded; cbn [rb_halfsize rb_radius].
  change (Ball (XFin r)) with (pball r). change (Box2d (inj (hx, hy))) with (pbox hx hy).
  rewrite Ep, Eq. reflexivity.
Qed.

(** ** Polygons *)
Lemma wsum_bound d m : forall ps ws, length ws = length ps -> Forall (fun w => 0 <= w) ws ->
  (forall q, In q ps -> pdot d q <= m) -> pdot d (wsum ws ps) <= total ws * m.
Proof.
  induction ps as [|p ps IH]; intros [|w ws]; cbn; intros L W H; try discriminate.
  - unfold pdot, origin; cbn; lra.
  - inversion W; subst. specialize (IH ws ltac:(lia) H3 (fun q Hq => H q (or_intror Hq))).
    rewrite pdot_add_r, pdot_scale_r. pose proof (H p (or_introl eq_refl)). nra.
Qed.
Lemma hull_bound d m ps q : (forall q, In q ps -> pdot d q <= m) -> hull ps q -> pdot d q <= m.
Proof.
  intros H (ws & L & W & T & ->). pose proof (wsum_bound d m ps ws L W H). rewrite T in H0. lra.
Qed.
Lemma total_repeat0 n : total (repeat 0 n) = 0.
Proof. induction n; cbn; [reflexivity | rewrite IHn; lra]. Qed.
Lemma wsum_repeat0 : forall ps n, wsum (repeat 0 n) ps = origin.
Proof.
  induction ps as [|p ps IH]; intros [|n]; cbn; try reflexivity.
  rewrite IH. apply pt_eq; cbn; ring.
Qed.
Lemma Forall_repeat0 n : Forall (fun w => 0 <= w) (repeat 0 n).
Proof. induction n; constructor; [lra | assumption]. Qed.
Lemma hull_in ps : forall p, In p ps -> hull ps p.
Proof.
  induction ps as [|q ps IH]; intros p []; cbn.
  - subst q. exists (1 :: repeat 0 (length ps)). cbn. repeat split.
    + rewrite repeat_length; reflexivity.
    + constructor; [lra | apply Forall_repeat0].
    + rewrite total_repeat0; lra.
    + rewrite wsum_repeat0. apply pt_eq; cbn; ring.
  - destruct (IH p H) as (ws & L & W & T & E). exists (0 :: ws). cbn. repeat split.
    + lia.
    + constructor; [lra | assumption].
    + lra.
    + rewrite <- E. apply pt_eq; cbn; ring.
Qed.
Lemma farthest_hull ps d p : In p ps -> (forall q, In q ps -> pdot d q <= pdot d p) -> is_farthest (hull ps) d p.
Proof. intros I H. split; [apply hull_in, I|]. intros q Q. apply (hull_bound d _ ps q H Q). Qed.

(** the fold of Poly2d::extreme_point, on reals *)
Definition rpoly_step (d : pt) (acc : R * pt) (p : pt) : R * pt :=
  if Rltb (fst acc) (pdot d p) then (pdot d p, p) else acc.
Lemma rpoly_step_eq d m b p : rpoly_step d (m, b) p = if Rltb m (pdot d p) then (pdot d p, p) else (m, b).
Proof. reflexivity. Qed.
Lemma poly_fold d : forall ps m b,
  fold_left (poly_step (inj d)) (map inj ps) (XFin m, inj b) =
  let r := fold_left (rpoly_step d) ps (m, b) in (XFin (fst r), inj (snd r)).
Proof.
  induction ps as [|p ps IH]; intros m b; cbn [fold_left map]; [reflexivity|].
  unfold poly_step at 2. rewrite rpoly_step_eq. rewrite v2dot_inj. cbn [fst].
  change (flt (XFin m) (XFin (pdot d p))) with (Rltb m (pdot d p)).
  destruct (Rltb m (pdot d p)); apply IH.
Qed.
Lemma rpoly_spec d : forall ps m b,
  let r := fold_left (rpoly_step d) ps (m, b) in
  m <= fst r /\ (forall q, In q ps -> pdot d q <= fst r) /\
  ((fst r = m /\ snd r = b) \/ (In (snd r) ps /\ fst r = pdot d (snd r))).
Proof.
  induction ps as [|p ps IH]; intros m b; cbn [fold_left].
  - cbn. repeat split; [lra | intros q [] | left; split; reflexivity].
  - rewrite rpoly_step_eq. destruct (Rltb_spec m (pdot d p)) as [H|H].
    + destruct (IH (pdot d p) p) as (A & B & C). set (r := fold_left _ ps _) in * .
      repeat split; [lra | intros q [->|Q]; [lra | apply B, Q] |].
      right. destruct C as [[C1 C2]|[C1 C2]].
      * rewrite C1, C2. split; [left; reflexivity | reflexivity].
      * split; [right; exact C1 | exact C2].
    + destruct (IH m b) as (A & B & C). set (r := fold_left _ ps _) in * .
      repeat split; [lra | intros q [->|Q]; [lra | apply B, Q] |].
      destruct C as [C|[C1 C2]]; [left; exact C | right; split; [right; exact C1 | exact C2]].
Qed.
Definition rpoly_ext (ps : list pt) (d : pt) : pt := snd (fold_left (rpoly_step d) ps (- f32_max, origin)).
Lemma ext_poly ps d : extreme_point (ppoly ps) (inj d) = inj (rpoly_ext ps d).
Proof.
  unfold extreme_point, Ext_Poly, ppoly; cbn [points]. rewrite v2zero_inj.
  change (fminval (F:=XR)) with (XFin (- f32_max)). rewrite poly_fold. reflexivity.
Qed.
Lemma rpoly_ext_spec ps d : (exists q, In q ps /\ - f32_max < pdot d q) ->
  In (rpoly_ext ps d) ps /\ forall q, In q ps -> pdot d q <= pdot d (rpoly_ext ps d).
Proof.
  intros (q & Q & L). unfold rpoly_ext. destruct (rpoly_spec d ps (- f32_max) origin) as (A & B & C).
  set (r := fold_left _ ps _) in * . pose proof (B q Q). destruct C as [[C1 C2]|[C1 C2]]; [lra|].
  split; [exact C1|]. intros q' Q'. rewrite <- C2. apply B, Q'.
Qed.
Lemma rpoly_ext_low ps d : (forall q, In q ps -> pdot d q <= - f32_max) -> rpoly_ext ps d = origin.
Proof.
  intro H. unfold rpoly_ext. destruct (rpoly_spec d ps (- f32_max) origin) as (A & B & C).
  assert (G : forall ps' m b, (forall q, In q ps' -> pdot d q <= m) -> fold_left (rpoly_step d) ps' (m, b) = (m, b)).
  { induction ps' as [|p ps' IH]; intros m b Hm; cbn [fold_left]; [reflexivity|].
    unfold rpoly_step at 2; cbn [fst]. rewrite Rltb_false by (apply Hm; left; reflexivity).
    apply IH. intros q Q; apply Hm; right; exact Q. }
  rewrite G by exact H. reflexivity.
Qed.
Lemma poly_farthest ps d : (exists q, In q ps /\ - f32_max < pdot d q) ->
  exists p, extreme_point (ppoly ps) (inj d) = inj p /\ In p ps /\ is_farthest (hull ps) d p.
Proof.
  intro H. destruct (rpoly_ext_spec ps d H) as [I M]. exists (rpoly_ext ps d).
  split; [apply ext_poly|]. split; [exact I | apply farthest_hull; assumption].
Qed.
Lemma f32_max_pos : 0 < f32_max.
Proof. unfold f32_max. apply IZR_lt. reflexivity. Qed.
Lemma supports_poly K B ps : ps <> [] -> (forall p, In p ps -> norm p <= B) -> K * B < f32_max ->
  supports K (ppoly ps) (hull ps).
Proof.
  intros N HB HK d Hd. destruct ps as [|p0 ps]; [contradiction|].
  destruct (poly_farthest (p0 :: ps) d) as (p & E & I & F).
  - exists p0. split; [left; reflexivity|].
    pose proof (HB p0 (or_introl eq_refl)) as B0. pose proof (cauchy_abs d p0) as C.
    pose proof (norm_nonneg d); pose proof (norm_nonneg p0).
    assert (norm d * norm p0 <= K * B) by (apply Rmult_le_compat; assumption).
    unfold Rabs in C; destruct (Rcase_abs _); lra.
  - exists p. split; assumption.
Qed.
Lemma supports_shape_ball K r : 0 <= r -> supports K (SBall (pball r)) (disc r).
Proof. exact (supports_ball K r). Qed.
Lemma supports_shape_box K hx hy : 0 <= hx -> 0 <= hy -> supports K (SBox (pbox hx hy)) (rect hx hy).
Proof. exact (supports_box K hx hy). Qed.
Lemma supports_shape_poly K B ps : ps <> [] -> (forall p, In p ps -> norm p <= B) -> K * B < f32_max ->
  supports K (SPoly (ppoly ps)) (hull ps).
Proof. exact (supports_poly K B ps). Qed.

(** ** Transformed shapes *)
Lemma norm_rotate c s p : c * c + s * s = 1 -> norm (rotate c s p) = norm p.
Proof. intro H. destruct (t2_normals origin c s 1 1 H p p) as (_ & _ & _ & _ & N & _). exact N. Qed.
Lemma pdot_rotate_adj c s p q : pdot (rotate c s p) q = pdot p (rotate c (- s) q).
Proof. unfold pdot, rotate; cbn; ring. Qed.
Lemma pdot_place v c s k d p : pdot d (place v c s k k p) = k * pdot (rotate c (- s) d) p + pdot d v.
Proof. unfold pdot, place, rotate; cbn; ring. Qed.
Lemma farthest_place A v c s k d p : 0 <= k ->
  is_farthest A (rotate c (- s) d) p -> is_farthest (image (place v c s k k) A) d (place v c s k k p).
Proof.
  intros Hk [P1 P2]. split; [exists p; split; [exact P1 | reflexivity]|].
  intros q (q' & Q & ->). rewrite !pdot_place. pose proof (P2 _ Q). nra.
Qed.
Lemma unit_neg c s : c * c + s * s = 1 -> c * c + - s * - s = 1.
Proof. intro; lra. Qed.
Lemma default_ext_t {S T} {E : ExtremePoint2d XR S} {TR : Transformation2d XR T} K (a : S) A (t : T) v c s k :
  supports K a A -> acts_as t v c s k -> c * c + s * s = 1 -> 0 <= k -> forall d, norm d <= K ->
  exists p, default_extreme_point_t a t (inj d) = inj p /\ is_farthest (image (place v c s k k) A) d p.
Proof.
  intros HS (Ha & _ & _ & Hu & _) U Hk d Hd. unfold default_extreme_point_t. rewrite Hu.
  destruct (HS (rotate c (- s) d)) as (p & Ep & Fp); [rewrite norm_rotate by (apply unit_neg, U); exact Hd|].
  rewrite Ep, Ha. eexists; split; [reflexivity|]. apply farthest_place; assumption.
Qed.
Lemma ball_ext_t {T} {TR : Transformation2d XR T} r (t : T) v c s k :
  0 <= r -> acts_as t v c s k -> c * c + s * s = 1 -> 0 <= k -> forall d,
  exists p, extreme_point_t (pball r) t (inj d) = inj p /\ is_farthest (image (place v c s k k) (disc r)) d p.
Proof.
  intros Hr (Ha & Ho & _ & _ & Hs) U Hk d.
  destruct (supports_ball (norm d) r Hr d (Rle_refl _)) as (p & Ep & Fp1 & Fp2).
  exists (padd v (pscale k p)). split.
  - unfold extreme_point_t, ExtT_Ball. rewrite Ho, Hs, Ep. reflexivity.
  - split.
    + exists (rotate c (- s) p). split.
      * unfold disc. rewrite norm_rotate by (apply unit_neg, U). exact Fp1.
      * apply pt_eq; cbn.
        -- transitivity ((c * c + s * s) * (k * fst p) + fst v); [rewrite U|]; ring.
        -- transitivity ((c * c + s * s) * (k * snd p) + snd v); [rewrite U|]; ring.
    + intros q (q' & Q & ->). rewrite pdot_place, pdot_add_r, pdot_scale_r.
      assert (D : disc r (rotate c s q')) by (unfold disc; rewrite norm_rotate by exact U; exact Q).
      pose proof (Fp2 _ D) as F. rewrite pdot_comm, pdot_rotate_adj, pdot_comm in F. nra.
Qed.
Lemma point_ext_t {T} {TR : Transformation2d XR T} (t : T) v c s k d : acts_as t v c s k ->
  extreme_point_t PointS t d = inj v /\ is_farthest (image (place v c s k k) (single origin)) origin v.
Proof.
  intros (_ & Ho & _). split; [exact Ho|]. split.
  - exists origin; split; [reflexivity | apply pt_eq; cbn; ring].
  - intros q _. unfold pdot, origin; cbn; lra.
Qed.
Lemma point_image v c s k p : image (place v c s k k) (single origin) p <-> p = v.
Proof.
  unfold image, single. split.
  - intros (q & -> & ->). apply pt_eq; cbn; ring.
  - intros ->. exists origin. split; [reflexivity|]. apply pt_eq; cbn; ring.
Qed.
(** boxes even under non-uniform non-negative scale *)
Lemma box_ext_t hx hy v c s sx sy d : 0 <= hx -> 0 <= hy -> 0 <= sx -> 0 <= sy ->
  exists p, extreme_point_t (pbox hx hy) (t2 v c s sx sy) (inj d) = inj p /\
            is_farthest (image (place v c s sx sy) (rect hx hy)) d p.
Proof.
  intros Hx Hy Sx Sy.
  set (e := rotate c (- s) d).
  set (q := (rsign (fst e) * hx, rsign (snd e) * hy)).
  exists (place v c s sx sy q). split.
  - unfold extreme_point_t, ExtT_Box, default_extreme_point_t.
    assert (E : unapply_normal (t2 v c s sx sy) (inj d) = inj e) by (apply vec_ext; cbn; f_equal; ring).
    rewrite E, ext_box, apply_t2. reflexivity.
  - destruct (farthest_rect hx hy e Hx Hy) as [Q1 _].
    split; [exists q; split; [exact Q1 | reflexivity]|].
    intros x (y & [Y1 Y2] & ->).
    assert (G : forall z, pdot d (place v c s sx sy z) = sx * (fst e * fst z) + sy * (snd e * snd z) + pdot d v)
      by (intro z; unfold e, pdot, place, rotate; cbn; ring).
    rewrite !G.
    assert (H1 : fst e * fst y <= fst e * fst q) by (unfold q; cbn [fst snd]; destruct (rsign_cases (fst e)) as [[-> ?]|[-> ?]]; nra).
    assert (H2 : snd e * snd y <= snd e * snd q) by (unfold q; cbn [fst snd]; destruct (rsign_cases (snd e)) as [[-> ?]|[-> ?]]; nra).
    assert (sx * (fst e * fst y) <= sx * (fst e * fst q)) by (apply Rmult_le_compat_l; assumption).
    assert (sy * (snd e * snd y) <= sy * (snd e * snd q)) by (apply Rmult_le_compat_l; assumption).
    lra.
Qed.

(** ** C13: the Minkowski difference *)
Lemma farthest_diff A B d a b : is_farthest A d a -> is_farthest B (pneg d) b ->
  is_farthest (minkowski_diff A B) d (psub a b).
Proof.
  intros [A1 A2] [B1 B2]. split; [exists a, b; auto|].
  intros x (a' & b' & HA & HB & ->). rewrite !pdot_sub_r. pose proof (A2 _ HA). pose proof (B2 _ HB).
  assert (N : forall z, pdot (pneg d) z = - pdot d z) by (intro z; unfold pdot, pneg; cbn; ring).
  rewrite !N in H0. lra.
Qed.
Lemma lmd_farthest {SA SB T} {EA : ExtremePoint2d XR SA} {EB : ExtremePoint2d XR SB} {TR : Transformation2d XR T}
  K (a : SA) (b : SB) A B (t : T) v c s k :
  supports K a A -> supports K b B -> acts_as t v c s k -> c * c + s * s = 1 -> 0 <= k ->
  forall d, norm d <= K -> exists p, lmd_extreme_point a b t (inj d) = inj p /\
     is_farthest (minkowski_diff A (image (place v c s k k) B)) d p.
Proof.
  intros HA HB (Ha & _ & _ & Hu & _) U Hk d Hd. unfold lmd_extreme_point.
  destruct (HA d Hd) as (pa & Ea & Fa). rewrite Ea, v2neg_inj, Hu.
  destruct (HB (rotate c (- s) (pneg d))) as (pb & Eb & Fb).
  { rewrite norm_rotate by (apply unit_neg, U). rewrite norm_neg. exact Hd. }
  rewrite Eb, Ha, v2sub_inj. eexists; split; [reflexivity|].
  apply farthest_diff; [exact Fa | apply farthest_place; assumption].
Qed.

(** ** C14 bounding boxes *)
Lemma Rabs_le_iff x h : Rabs x <= h <-> - h <= x <= h.
Proof. split; intro H; [split; pose proof (Rle_abs x); pose proof (Rle_abs (- x)); rewrite Rabs_Ropp in *; lra | apply Rabs_le; lra]. Qed.
Lemma rect_abs hx hy p : rect hx hy p <-> Rabs (fst p) <= hx /\ Rabs (snd p) <= hy.
Proof. unfold rect. rewrite !Rabs_le_iff. reflexivity. Qed.
Lemma cover_eq hx hy p : box_cover (pbox hx hy) (inj p) = pbox (Rmax hx (Rabs (fst p))) (Rmax hy (Rabs (snd p))).
Proof. unfold box_cover, pbox, inj; cbn [halfsize vx vy fst snd]. cbn [fabs FloatXR xabs]. rewrite !fmax_fin. reflexivity. Qed.
Lemma rect_mono hx hy kx ky : hx <= kx -> hy <= ky -> included (rect hx hy) (rect kx ky).
Proof. intros H1 H2 p [P1 P2]. split; lra. Qed.
Lemma rect_incl_inv hx hy kx ky : 0 <= hx -> 0 <= hy -> included (rect hx hy) (rect kx ky) -> hx <= kx /\ hy <= ky.
Proof.
  intros Hx Hy I. assert (C : rect hx hy (hx, hy)) by (unfold rect; cbn; lra).
  apply I in C. destruct C as [C1 C2]; cbn in C1, C2. lra.
Qed.
Lemma cover_spec hx hy p : 0 <= hx -> 0 <= hy -> exists hx' hy',
  box_cover (pbox hx hy) (inj p) = pbox hx' hy' /\
  included (rect hx hy) (rect hx' hy') /\ rect hx' hy' p /\
  (forall kx ky, included (rect hx hy) (rect kx ky) -> rect kx ky p -> included (rect hx' hy') (rect kx ky)).
Proof.
  intros Hx Hy. do 2 eexists. split; [apply cover_eq|]. split; [|split].
  - apply rect_mono; apply Rmax_l.
  - apply rect_abs. split; apply Rmax_r.
  - intros kx ky I P. apply rect_abs in P. destruct (rect_incl_inv hx hy kx ky Hx Hy I). destruct P.
    apply rect_mono; apply Rmax_lub; assumption.
Qed.

Lemma bb_point : exists hx hy, symmetric_bounding_box PointS = pbox hx hy /\ tight_box (single origin) hx hy.
Proof.
  exists 0, 0. split; [reflexivity|]. split.
  - intros p ->. unfold rect, origin; cbn; lra.
  - intros kx ky I. specialize (I origin eq_refl). destruct I as [I1 I2]; cbn in I1, I2. apply rect_mono; lra.
Qed.
Lemma bb_ball r : 0 <= r -> exists hx hy, symmetric_bounding_box (pball r) = pbox hx hy /\ tight_box (disc r) hx hy.
Proof.
  intro Hr. exists r, r. split; [reflexivity|]. split.
  - intros p P. apply rect_abs. pose proof (norm_x p); pose proof (norm_y p). unfold disc in P. lra.
  - intros kx ky I.
    assert (Px : disc r (r, 0)) by (unfold disc; rewrite norm_xaxis, Rabs_pos_eq; lra).
    assert (Py : disc r (0, r)) by (unfold disc; rewrite norm_yaxis, Rabs_pos_eq; lra).
    apply I in Px; apply I in Py. destruct Px as [X _], Py as [_ Y]; cbn in X, Y. apply rect_mono; lra.
Qed.
Lemma bb_box hx hy : exists hx' hy', symmetric_bounding_box (pbox hx hy) = pbox hx' hy' /\ tight_box (rect hx hy) hx' hy'.
Proof. exists hx, hy. split; [reflexivity|]. split; [intros p P; exact P | intros kx ky I; exact I]. Qed.
Lemma bb_rounded hx hy r : 0 <= hx -> 0 <= hy -> 0 <= r ->
  exists hx' hy', symmetric_bounding_box (prounded hx hy r) = pbox hx' hy' /\ tight_box (rounded_rect hx hy r) hx' hy'.
Proof.
  intros Hx Hy Hr. exists (hx + r), (hy + r). split; [reflexivity|]. split.
  - intros p (q & [Q1 Q2] & D). pose proof (norm_x (psub p q)) as N1; pose proof (norm_y (psub p q)) as N2.
    assert (M1 : Rabs (fst (psub p q)) <= r) by lra. assert (M2 : Rabs (snd (psub p q)) <= r) by lra.
    apply Rabs_le_iff in M1; apply Rabs_le_iff in M2. cbn in M1, M2. split; lra.
  - intros kx ky I.
    assert (Px : rounded_rect hx hy r (hx + r, 0)).
    { exists (hx, 0). split; [unfold rect; cbn; lra|]. unfold psub; cbn. replace (hx + r - hx) with r by ring.
      replace (0 - 0) with 0 by ring. rewrite norm_xaxis, Rabs_pos_eq; lra. }
    assert (Py : rounded_rect hx hy r (0, hy + r)).
    { exists (0, hy). split; [unfold rect; cbn; lra|]. unfold psub; cbn. replace (hy + r - hy) with r by ring.
      replace (0 - 0) with 0 by ring. rewrite norm_yaxis, Rabs_pos_eq; lra. }
    apply I in Px; apply I in Py. destruct Px as [X _], Py as [_ Y]; cbn in X, Y. apply rect_mono; lra.
Qed.
Lemma convex_rect hx hy : convex (rect hx hy).
Proof. intros p q t [P1 P2] [Q1 Q2] T. unfold rect; cbn. repeat split; nra. Qed.
Lemma hull_rect hx hy ps : (forall p, In p ps -> rect hx hy p) -> included (hull ps) (rect hx hy).
Proof.
  intros H q Q.
  assert (G : forall d m, (forall p, rect hx hy p -> pdot d p <= m) -> pdot d q <= m).
  { intros d m B. apply (hull_bound d m ps q); [|exact Q]. intros p I. apply B, H, I. }
  pose proof (G (1, 0) hx) as G1. pose proof (G (-1, 0) hx) as G2. pose proof (G (0, 1) hy) as G3. pose proof (G (0, -1) hy) as G4.
  unfold pdot in G1, G2, G3, G4; cbn in G1, G2, G3, G4. 
  assert (1 * fst q + 0 * snd q <= hx) by (apply G1; intros p [P1 P2]; lra).
  assert (-1 * fst q + 0 * snd q <= hx) by (apply G2; intros p [P1 P2]; lra).
  assert (0 * fst q + 1 * snd q <= hy) by (apply G3; intros p [P1 P2]; lra).
  assert (0 * fst q + -1 * snd q <= hy) by (apply G4; intros p [P1 P2]; lra).
  split; lra.
Qed.
Lemma bb_poly_fold : forall ps hx hy, exists hx' hy',
  fold_left box_cover (map inj ps) (pbox hx hy) = pbox hx' hy' /\ hx <= hx' /\ hy <= hy' /\
  (forall p, In p ps -> rect hx' hy' p) /\
  (forall kx ky, hx <= kx -> hy <= ky -> (forall p, In p ps -> rect kx ky p) -> hx' <= kx /\ hy' <= ky).
Proof.
  induction ps as [|p ps IH]; intros hx hy; cbn [map fold_left].
  - exists hx, hy. repeat split; try lra; try (destruct H); assumption.
  - rewrite cover_eq. destruct (IH (Rmax hx (Rabs (fst p))) (Rmax hy (Rabs (snd p)))) as (hx' & hy' & E & L1 & L2 & C & M).
    exists hx', hy'. pose proof (Rmax_l hx (Rabs (fst p))); pose proof (Rmax_l hy (Rabs (snd p))).
    pose proof (Rmax_r hx (Rabs (fst p))); pose proof (Rmax_r hy (Rabs (snd p))).
    split; [exact E|]. split; [lra|]. split; [lra|]. split.
    + intros q [<-|Q]; [|apply C, Q]. apply rect_abs. lra.
    + intros kx ky K1 K2 K. apply M.
      * apply Rmax_lub; [lra|]. apply (rect_abs kx ky p), K. left; reflexivity.
      * apply Rmax_lub; [lra|]. apply (rect_abs kx ky p), K. left; reflexivity.
      * intros q Q. apply K. right; exact Q.
Qed.
Lemma bb_poly ps : ps <> [] ->
  exists hx hy, symmetric_bounding_box (ppoly ps) = pbox hx hy /\ tight_box (hull ps) hx hy.
Proof.
  intro N. destruct (bb_poly_fold ps 0 0) as (hx & hy & E & L1 & L2 & C & M). exists hx, hy. split; [exact E|]. split.
  - apply hull_rect, C.
  - intros kx ky I.
    assert (K : forall p, In p ps -> rect kx ky p) by (intros p P; apply I, hull_in, P).
    destruct ps as [|p0 ps]; [contradiction|]. destruct (K p0 (or_introl eq_refl)) as [K1 K2].
    destruct (M kx ky ltac:(lra) ltac:(lra) K). apply rect_mono; assumption.
Qed.

(** ** C36 *)
Lemma poly_of_box_eq hx hy : poly_of_box (pbox hx hy) = ppoly [(- hx, - hy); (hx, hy); (- hx, hy); (hx, - hy)].
Proof. reflexivity. Qed.
Lemma box_hull hx hy : 0 <= hx -> 0 <= hy ->
  same_set (hull [(- hx, - hy); (hx, hy); (- hx, hy); (hx, - hy)]) (rect hx hy).
Proof.
  intros Hx Hy p. split.
  - apply hull_rect. intros q [<-|[<-|[<-|[<-|[]]]]]; unfold rect; cbn; lra.
  - intros [P1 P2].
    (* bilinear weights; degenerate sides use weight 1/2 *)
    assert (A : exists a, 0 <= a <= 1 /\ fst p = (2 * a - 1) * hx).
    { destruct (Req_dec hx 0) as [->|N].
      - exists 0. split; lra.
      - exists ((fst p / hx + 1) / 2). assert (0 < hx) by lra.
        assert (-1 <= fst p / hx <= 1).
        { split; [apply Rmult_le_reg_r with hx | apply Rmult_le_reg_r with hx]; try assumption;
          unfold Rdiv; rewrite ?Rmult_assoc, Rinv_l by lra; lra. }
        split; [lra | field; lra]. }
    assert (B : exists b, 0 <= b <= 1 /\ snd p = (2 * b - 1) * hy).
    { destruct (Req_dec hy 0) as [->|N].
      - exists 0. split; lra.
      - exists ((snd p / hy + 1) / 2). assert (0 < hy) by lra.
        assert (-1 <= snd p / hy <= 1).
        { split; [apply Rmult_le_reg_r with hy | apply Rmult_le_reg_r with hy]; try assumption;
          unfold Rdiv; rewrite ?Rmult_assoc, Rinv_l by lra; lra. }
        split; [lra | field; lra]. }
    destruct A as (a & A1 & A2), B as (b & B1 & B2).
    exists [(1 - a) * (1 - b); a * b; (1 - a) * b; a * (1 - b)]. repeat split.
    + repeat apply Forall_cons; try nra. apply Forall_nil.
    + cbn; ring.
    + apply pt_eq; cbn; rewrite ?A2, ?B2; ring.
Qed.
Lemma regular_spec n r : 
  length (points (poly_regular n (XFin r))) = n /\
  forall i, (i < n)%nat ->
    let a := 2 * PI * INR i / INR n in
    nth i (points (poly_regular n (XFin r))) v2nan = inj (pscale r (cos a, sin a)) /\
    norm (pscale r (cos a, sin a)) = Rabs r.
Proof.
  unfold poly_regular; cbn [points]. split; [rewrite map_length, seq_length; reflexivity|].
  intros i Hi. cbv zeta.
  assert (Nn : INR n <> 0) by (apply not_0_INR; lia).
  split.
  - erewrite nth_indep; [|rewrite map_length, seq_length; exact Hi]. rewrite (map_nth _ _ 0%nat), seq_nth by exact Hi.
    cbn [Nat.add]. change fofZ with (fun z => XFin (IZR z)). cbv beta. rewrite <- !INR_IZR_INZ.
    cbn [fmul FloatXR xmul f2]. change fdiv with xdiv. rewrite xdiv_fin by exact Nn. reflexivity.
  - rewrite norm_scale. rewrite (norm_eq (cos _, sin _) 1); [ring | lra |].
    unfold pdot; cbn [fst snd]. pose proof (sin2_cos2 (2 * PI * INR i / INR n)) as H. unfold Rsqr in H. lra.
Qed.
Lemma regular_upright_spec n r : 
  length (points (poly_regular_upright n (XFin r))) = n /\
  forall i, (i < n)%nat ->
    let a := 2 * PI * INR i / INR n in
    nth i (points (poly_regular_upright n (XFin r))) v2nan = inj (pscale r (sin a, cos a)) /\
    norm (pscale r (sin a, cos a)) = Rabs r.
Proof.
  unfold poly_regular_upright; cbn [points]. split; [rewrite map_length, seq_length; reflexivity|].
  intros i Hi. cbv zeta.
  assert (Nn : INR n <> 0) by (apply not_0_INR; lia).
  split.
  - erewrite nth_indep; [|rewrite map_length, seq_length; exact Hi]. rewrite (map_nth _ _ 0%nat), seq_nth by exact Hi.
    cbn [Nat.add]. change fofZ with (fun z => XFin (IZR z)). cbv beta. rewrite <- !INR_IZR_INZ.
    cbn [fmul FloatXR xmul f2]. change fdiv with xdiv. rewrite xdiv_fin by exact Nn. reflexivity.
  - rewrite norm_scale. rewrite (norm_eq (sin _, cos _) 1); [ring | lra |].
    unfold pdot; cbn [fst snd]. pose proof (sin2_cos2 (2 * PI * INR i / INR n)) as H. unfold Rsqr in H. lra.
Qed.

Lemma strict_check_iff ps : strict_check (ppoly ps) = true <-> (forall p, In p ps -> rpoly_ext ps p = p).
Proof.
  unfold strict_check. rewrite forallb_forall. split.
  - intros H p P. specialize (H (inj p)). rewrite ext_poly in H. apply v2eq_inj, H.
    unfold ppoly; cbn. apply in_map, P.
  - intros H x X. unfold ppoly in X; cbn in X. apply in_map_iff in X. destruct X as (p & <- & P).
    rewrite ext_poly. apply v2eq_inj, H, P.
Qed.
Lemma strict_check_sound ps : strict_check (ppoly ps) = true -> forall p q, In p ps -> In q ps -> pdot p q <= pdot p p.
Proof.
  intros H p q P Q. pose proof (proj1 (strict_check_iff ps) H p P) as E.
  destruct (rpoly_ext_spec ps p) as [_ M].
  - exists p. split; [exact P|]. pose proof (pdot_nonneg p). pose proof f32_max_pos. lra.
  - rewrite E in M. apply M, Q.
Qed.
Lemma strict_check_complete ps : (forall p q, In p ps -> In q ps -> p <> q -> pdot p q < pdot p p) ->
  strict_check (ppoly ps) = true.
Proof.
  intro H. apply strict_check_iff. intros p P.
  destruct (rpoly_ext_spec ps p) as [I M].
  - exists p. split; [exact P|]. pose proof (pdot_nonneg p). pose proof f32_max_pos. lra.
  - set (e := rpoly_ext ps p) in * . 
    assert (D : {e = p} + {e <> p}).
    { destruct e as [x y], p as [x' y']. destruct (Req_EM_T x x') as [->|N]; [destruct (Req_EM_T y y') as [->|N]|];
      [left; reflexivity | right; congruence | right; congruence]. }
    destruct D as [D|D]; [exact D|]. pose proof (H p e P I ltac:(congruence)). pose proof (M p P). lra.
Qed.

(** the fold keeps the first best point *)
Lemma rpoly_stay d : forall ps m b, (forall q, In q ps -> pdot d q <= m) -> fold_left (rpoly_step d) ps (m, b) = (m, b).
Proof.
  induction ps as [|q ps IH]; intros m b H; [reflexivity|]. cbn [fold_left]. rewrite rpoly_step_eq.
  rewrite Rltb_false by (apply H; left; reflexivity). apply IH. intros x X. apply H; right; exact X.
Qed.
Lemma rpoly_first d : forall ps m b i p, nth_error ps i = Some p -> m < pdot d p ->
  (forall q, In q ps -> pdot d q <= pdot d p) ->
  (forall j q, (j < i)%nat -> nth_error ps j = Some q -> pdot d q < pdot d p) ->
  snd (fold_left (rpoly_step d) ps (m, b)) = p.
Proof.
  induction ps as [|q ps IH]; intros m b i p N L M B; [destruct i; discriminate|].
  cbn [fold_left]. rewrite rpoly_step_eq. destruct i as [|i].
  - cbn in N. injection N as ->. rewrite Rltb_true by exact L. rewrite rpoly_stay; [reflexivity|].
    intros x X. apply M; right; exact X.
  - cbn in N. pose proof (B 0%nat q (Nat.lt_0_succ i) eq_refl) as Q.
    assert (B' : forall j x, (j < i)%nat -> nth_error ps j = Some x -> pdot d x < pdot d p)
      by (intros j x J X; exact (B (S j) x (proj1 (Nat.succ_lt_mono j i) J) X)).
    assert (M' : forall x, In x ps -> pdot d x <= pdot d p) by (intros x X; apply M; right; exact X).
    destruct (Rltb_spec m (pdot d q)); [apply (IH _ _ i p N Q M' B') | apply (IH _ _ i p N L M' B')].
Qed.
Lemma rpoly_is_first d : forall ps m b q, In q ps -> m < pdot d q ->
  exists i, nth_error ps i = Some (snd (fold_left (rpoly_step d) ps (m, b))) /\
    m < pdot d (snd (fold_left (rpoly_step d) ps (m, b))) /\
    forall j x, (j < i)%nat -> nth_error ps j = Some x -> pdot d x < pdot d (snd (fold_left (rpoly_step d) ps (m, b))).
Proof.
  induction ps as [|p ps IH]; intros m b q Q L; [destruct Q|].
  cbn [fold_left]. rewrite rpoly_step_eq. destruct (Rltb_spec m (pdot d p)) as [H|H].
  - assert (D : (exists x, In x ps /\ pdot d p < pdot d x) \/ (forall x, In x ps -> pdot d x <= pdot d p)).
    { clear. induction ps as [|y ps [(x & X & Y)|IH]].
      - right; intros x [].
      - left; exists x; split; [right; exact X|exact Y].
      - destruct (Rlt_le_dec (pdot d p) (pdot d y)) as [K|K]; [left; exists y; split; [left; reflexivity|exact K]|].
        right. intros x [<-|X]; [exact K|apply IH, X]. }
    destruct D as [(x & X & Y)|D].
    + destruct (IH (pdot d p) p x X Y) as (i & I1 & I2 & I3). exists (S i).
      split; [exact I1|]. split; [lra|]. intros [|j] z J Z; cbn in Z.
      * injection Z as <-. exact I2.
      * apply (I3 j z); [lia|exact Z].
    + rewrite rpoly_stay by exact D. exists 0%nat. split; [reflexivity|]. split; [exact H|]. intros j z J; lia.
  - destruct Q as [<-|Q]; [contradiction|]. destruct (IH m b q Q L) as (i & I1 & I2 & I3). exists (S i).
    split; [exact I1|]. split; [exact I2|]. intros [|j] z J Z; cbn in Z.
    + injection Z as <-. lra.
    + apply (I3 j z); [lia|exact Z].
Qed.
Lemma strict_check_exact ps : strict_check (ppoly ps) = true <->
  forall p, In p ps -> (forall q, In q ps -> pdot p q <= pdot p p) /\
    exists i, nth_error ps i = Some p /\ forall j q, (j < i)%nat -> nth_error ps j = Some q -> pdot p q < pdot p p.
Proof.
  rewrite strict_check_iff. split.
  - intros H p P. pose proof (H p P) as E.
    assert (L : - f32_max < pdot p p) by (pose proof (pdot_nonneg p); pose proof f32_max_pos; lra).
    split.
    + intros q Q. apply strict_check_sound with ps; [apply strict_check_iff, H | exact P | exact Q].
    + destruct (rpoly_is_first p ps (- f32_max) origin p P L) as (i & I1 & I2 & I3).
      unfold rpoly_ext in E. rewrite E in I1, I3. exists i. split; assumption.
  - intros H p P. destruct (H p P) as [M (i & N & B)].
    unfold rpoly_ext. apply (rpoly_first p ps (- f32_max) origin i p N); [|exact M|exact B].
    pose proof (pdot_nonneg p); pose proof f32_max_pos; lra.
Qed.
