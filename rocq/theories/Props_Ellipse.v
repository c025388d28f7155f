(** * C71: Ellipse2d. C72: MinkowskiDiff2d, the world-space Minkowski difference. (Text that is not compiled at this commit, see Extra2.v.) *)
From Coq Require Import Reals ZArith Lra Lia Psatz Bool List.
From Flocq Require Import Core BinarySingleNaN.
From Verif Require Import Num NumXR NumB32 Glam Transform2 Shapes2 Gjk Detect2 Misc Col3 Extra2 Spec SpecLink P_Base P_Transform P_Shapes P_Geo P_B32 Props_F32 Props_F32Gjk Props_F32Ball Props_Ext32 P_Closed32 P_Quat32.
Local Open Scope R_scope.

(** ** Specification: the solid ellipse with half axes a and b *)
Definition ellipse (a b : R) : pset := fun p => (fst p / a) * (fst p / a) + (snd p / b) * (snd p / b) <= 1.
Definition pellipse (a b : R) : ellipse2d XR := Ellipse2d (inj (a, b)).

(** ** Exact arithmetic *)
Section Exact.
Variables (a b : R).
Hypotheses (Pa : 0 < a) (Pb : 0 < b).
(** the direction in the coordinates in which the ellipse is the unit disc *)
Let w (d : pt) : pt := (a * fst d, b * snd d).
Definition top (d : pt) : pt := (a * (a * fst d) / norm (a * fst d, b * snd d), b * (b * snd d) / norm (a * fst d, b * snd d)).
Lemma w_pos d : d <> origin -> 0 < norm (a * fst d, b * snd d).
Proof.
  intro D. destruct (norm_nonneg (w d)) as [H|H]; [exact H|]. exfalso. symmetry in H. apply norm_0 in H. injection H as X Y. apply D. destruct d as [x y]. cbn [fst snd] in X, Y.
  apply Rmult_integral in X. apply Rmult_integral in Y. apply pt_eq; unfold origin; cbn [fst snd]; destruct X, Y; lra.
Qed.
Lemma ellipse_unit q : ellipse a b q <-> norm (fst q / a, snd q / b) <= 1.
Proof. rewrite norm_le_sq by lra. unfold ellipse, pdot. cbn [fst snd]. rewrite Rmult_1_r. tauto. Qed.
Lemma dot_unit d q : pdot d q = pdot (a * fst d, b * snd d) (fst q / a, snd q / b).
Proof. unfold pdot. cbn [fst snd]. field. lra. Qed.
Lemma top_unit d : d <> origin -> (fst (top d) / a, snd (top d) / b) = pscale (/ norm (a * fst d, b * snd d)) (a * fst d, b * snd d).
Proof. intro D. pose proof (w_pos d D). apply pt_eq; unfold top, pscale; cbn [fst snd]; field; lra. Qed.
Lemma top_farthest d : d <> origin -> is_farthest (ellipse a b) d (top d) /\ forall q, ellipse a b q -> pdot d (top d) <= pdot d q -> q = top d.
Proof.
  intro D. pose proof (w_pos d D) as P. pose proof (top_unit d D) as T. set (v := (a * fst d, b * snd d)) in * . set (n := norm v) in * .
  assert (Dt : pdot d (top d) = n). { rewrite dot_unit, T. fold v. unfold pscale. replace (pdot v (/ n * fst v, / n * snd v)) with (/ n * pdot v v) by (unfold pdot; cbn [fst snd]; ring). rewrite <- norm_sq. fold n. field. lra. }
  split; [split|].
  - apply ellipse_unit. rewrite T, norm_scale. fold n. rewrite Rabs_pos_eq by (apply Rlt_le, Rinv_0_lt_compat, P). right. field. lra.
  - intros q Q. apply ellipse_unit in Q. rewrite Dt, dot_unit. fold v. eapply Rle_trans; [apply cauchy|]. fold n. rewrite <- (Rmult_1_r n) at 2. apply Rmult_le_compat_l; lra.
  - intros q Q Le. apply ellipse_unit in Q. rewrite Dt, dot_unit in Le. fold v in Le. set (q' := (fst q / a, snd q / b)) in * .
    assert (Q2 : pdot q' q' <= 1) by (rewrite <- norm_sq; pose proof (norm_nonneg q'); assert (norm q' * norm q' <= 1 * 1) by (apply Rmult_le_compat; lra); lra).
    set (e := psub q' (pscale (/ n) v)).
    assert (E : pdot e e <= 0).
    { replace (pdot e e) with (pdot q' q' - 2 * (/ n * pdot v q') + / n * / n * pdot v v) by (unfold e, pdot, psub, pscale; cbn [fst snd]; ring). rewrite <- (norm_sq v). fold n.
      replace (/ n * / n * (n * n)) with 1 by (field; lra). assert (1 <= / n * pdot v q'). { replace 1 with (/ n * n) by (field; lra). apply Rmult_le_compat_l; [apply Rlt_le, Rinv_0_lt_compat, P | exact Le]. } lra. }
    assert (N : norm e = 0) by (apply norm_eq; [lra|]; pose proof (pdot_nonneg e); lra). apply norm_0 in N. unfold e in N. rewrite <- T in N. unfold q', psub in N. cbn [fst snd] in N. injection N as X Y.
    change (fst q / a - fst (top d) / a = 0) in X. change (snd q / b - snd (top d) / b = 0) in Y.
    apply pt_eq; [apply (Rmult_eq_reg_r (/ a)); [unfold Rdiv in X; lra | apply Rinv_neq_0_compat; lra] | apply (Rmult_eq_reg_r (/ b)); [unfold Rdiv in Y; lra | apply Rinv_neq_0_compat; lra]].
Qed.
Lemma lenrecip_inj p : p <> origin -> v2lenrecip (inj p) = XFin (/ norm p).
Proof. intro H. pose proof (norm_pos p H). unfold v2lenrecip. rewrite v2len_inj. change (xdiv (XFin 1) (XFin (norm p)) = XFin (/ norm p)). rewrite xdiv_fin by lra. f_equal. unfold Rdiv. ring. Qed.
Lemma w_nonzero d : d <> origin -> (a * fst d, b * snd d) <> origin.
Proof. intros D E. pose proof (w_pos d D) as P. rewrite E, norm_origin in P. lra. Qed.
Lemma expanded_top d : d <> origin -> extreme_point_expanded (pellipse a b) (inj d) = inj (top d).
Proof.
  intro D. unfold extreme_point_expanded, pellipse. cbn [el_radii vx vy inj]. change (fmul (XFin (fst (a, b))) (XFin (fst d))) with (XFin (a * fst d)). change (fmul (XFin (snd (a, b))) (XFin (snd d))) with (XFin (b * snd d)).
  change (V2 (XFin (a * fst d)) (XFin (b * snd d))) with (inj (a * fst d, b * snd d)). rewrite lenrecip_inj by (apply w_nonzero, D). reflexivity.
Qed.
Lemma v2div_inj p : v2div (inj p) (inj (a, b)) = inj (fst p / a, snd p / b).
Proof. unfold v2div, inj. cbn [vx vy fst snd]. change fdiv with xdiv. rewrite !xdiv_fin by lra. reflexivity. Qed.
Lemma intercept_inj d : d <> origin -> intercept_ray (pellipse a b) (inj d) = inj (pscale (/ norm (fst d / a, snd d / b)) d).
Proof.
  intro D. unfold intercept_ray, pellipse. cbn [el_radii]. rewrite v2div_inj. rewrite lenrecip_inj; [apply v2muls_inj|].
  intro E. injection E as X Y. apply D. apply pt_eq; unfold origin; cbn [fst snd]; [replace (fst d) with (fst d / a * a) by (field; lra); rewrite X | replace (snd d) with (snd d / b * b) by (field; lra); rewrite Y]; ring.
Qed.
Lemma collides_inj {T} {TR : Transformation2d XR T} (t : T) p : apply_origin t = inj p -> (ellipse_collides_rel (pellipse a b) PointS t = true <-> ellipse a b p).
Proof.
  intro E. unfold ellipse_collides_rel. rewrite E. cbn [pellipse el_radii inj vx vy fst snd]. change fdiv with xdiv. rewrite !xdiv_fin by lra. unfold square.
  change (Rleb ((fst p / a) * (fst p / a) + (snd p / b) * (snd p / b)) 1 = true <-> ellipse a b p). unfold Rleb, ellipse. destruct (Rle_dec _ _); split; intro; try tauto; discriminate.
Qed.
End Exact.

Theorem C71_extreme_point : forall a b d, 0 < a -> 0 < b -> d <> origin -> exists p,
  extreme_point (pellipse a b) (inj d) = inj p /\ extreme_point_by_composing (pellipse a b) (inj d) = inj p /\
  is_farthest (ellipse a b) d p /\ forall q, is_farthest (ellipse a b) d q -> q = p.
Proof.
  intros a b d Pa Pb D. destruct (top_farthest a b Pa Pb d D) as (F & U). exists (top a b d). split; [apply expanded_top; assumption|]. split; [|split; [exact F|]].
  - unfold extreme_point_by_composing. change (extreme_point_direction (pellipse a b) (inj d)) with (inj (a * a * fst d, b * b * snd d)).
    assert (E : (a * a * fst d, b * b * snd d) <> origin).
    { intro E. injection E as X Y. apply D. assert (a * a <> 0) by (apply Rgt_not_eq, Rmult_lt_0_compat; exact Pa). assert (b * b <> 0) by (apply Rgt_not_eq, Rmult_lt_0_compat; exact Pb).
      apply Rmult_integral in X. apply Rmult_integral in Y. apply pt_eq; unfold origin; cbn [fst snd]; tauto. }
    rewrite intercept_inj by assumption. f_equal. cbn [fst snd]. replace (a * a * fst d / a) with (a * fst d) by (field; lra). replace (b * b * snd d / b) with (b * snd d) by (field; lra).
    unfold top, pscale. cbn [fst snd]. apply pt_eq; cbn [fst snd]; unfold Rdiv; ring.
  - intros q (Q1 & Q2). apply U; [exact Q1 | apply Q2, F].
Qed.
Print Assumptions C71_extreme_point.
(** intercept_ray: the boundary point in the given direction *)
Theorem C71_intercept_ray : forall a b d, 0 < a -> 0 < b -> d <> origin -> exists k,
  0 < k /\ intercept_ray (pellipse a b) (inj d) = inj (pscale k d) /\ ellipse a b (pscale k d) /\ forall l, k < l -> ~ ellipse a b (pscale l d).
Proof.
  intros a b d Pa Pb D. set (n := norm (fst d / a, snd d / b)).
  assert (N : 0 < n).
  { apply norm_pos. intro E. injection E as X Y. apply D. apply pt_eq; unfold origin; cbn [fst snd]; [replace (fst d) with (fst d / a * a) by (field; lra); rewrite X | replace (snd d) with (snd d / b * b) by (field; lra); rewrite Y]; ring. }
  assert (S : forall l, 0 <= l -> norm (fst (pscale l d) / a, snd (pscale l d) / b) = l * n).
  { intros l L. replace (fst (pscale l d) / a, snd (pscale l d) / b) with (pscale l (fst d / a, snd d / b)) by (apply pt_eq; unfold pscale; cbn [fst snd]; field; lra). rewrite norm_scale, Rabs_pos_eq by exact L. reflexivity. }
  assert (K : 0 < / n) by (apply Rinv_0_lt_compat, N). exists (/ n). split; [exact K|]. split; [apply intercept_inj; assumption|]. split.
  - apply (ellipse_unit a b). rewrite S by lra. right. field. lra.
  - intros l L Q. apply (ellipse_unit a b) in Q. rewrite S in Q by lra. assert (/ n * n < l * n) by (apply Rmult_lt_compat_r; assumption). rewrite Rinv_l in H by lra. lra.
Qed.
Print Assumptions C71_intercept_ray.
(** The flag says whether the point is in the closed ellipse: unlike every other pair, mere contact counts as a collision. *)
Theorem C71_collides : forall (T : Type) (TR : Transformation2d XR T) a b (t : T) p, 0 < a -> 0 < b -> apply_origin t = inj p ->
  (ellipse_collides_rel (pellipse a b) PointS t = true <-> meets (ellipse a b) (single p)) /\
  (overlaps (ellipse a b) (single p) -> ellipse_collides_rel (pellipse a b) PointS t = true) /\
  (overlaps (ellipse a b) (single p) <-> ellipse a b p /\ (fst p / a) * (fst p / a) + (snd p / b) * (snd p / b) <> 1).
Proof.
  intros T TR a b t p Pa Pb E. pose proof (collides_inj a b Pa Pb t p E) as H.
  assert (M : meets (ellipse a b) (single p) <-> ellipse a b p) by (split; [intros (q & Q & ->); exact Q | intro Q; exists p; split; [exact Q | reflexivity]]).
  assert (O : overlaps (ellipse a b) (single p) <-> ellipse a b p /\ (fst p / a) * (fst p / a) + (snd p / b) * (snd p / b) <> 1).
  { split.
    - intro O. apply overlaps_0, overlaps_single in O. destruct O as (e & Pe & O). assert (S : forall u, psub (psub p origin) u = psub p u) by (intro u; apply pt_eq; unfold psub, origin; cbn [fst snd]; ring).
      assert (I : ellipse a b p). { specialize (O origin ltac:(rewrite norm_origin; exact Pe)). rewrite S in O. unfold psub, origin in O. destruct p as [x y]. cbn [fst snd] in O. rewrite !Rminus_0_r in O. exact O. }
      split; [exact I|]. intro Q. set (n := norm p). assert (D : p <> origin). { intro Z. rewrite Z in Q. unfold origin in Q. cbn [fst snd] in Q. unfold Rdiv in Q. rewrite !Rmult_0_l in Q. lra. }
      pose proof (norm_pos p D) as Pn. fold n in Pn. set (k := e / (2 * n)). assert (Pk : 0 < k) by (unfold k; apply Rmult_lt_0_compat; [exact Pe | apply Rinv_0_lt_compat; lra]).
      assert (O1 : ellipse a b (psub p (pscale (- k) p))). { rewrite <- S. apply O. rewrite norm_scale, Rabs_Ropp, Rabs_pos_eq by lra. fold n. unfold k. replace (e / (2 * n) * n) with (e / 2) by (field; lra). lra. }
      unfold ellipse, psub, pscale in O1. cbn [fst snd] in O1.
      replace ((fst p - - k * fst p) / a * ((fst p - - k * fst p) / a) + (snd p - - k * snd p) / b * ((snd p - - k * snd p) / b)) with ((1 + k) * (1 + k) * (fst p / a * (fst p / a) + snd p / b * (snd p / b))) in O1 by (field; lra).
      rewrite Q in O1. assert (0 < k * k) by (apply Rmult_lt_0_compat; lra). lra.
    - intros (I & Q). apply (ellipse_unit a b) in I. set (m := norm (fst p / a, snd p / b)) in * .
      assert (L : m < 1). { destruct I as [I|I]; [exact I|]. exfalso. apply Q. pose proof (norm_sq (fst p / a, snd p / b)) as N. fold m in N. rewrite I in N. unfold pdot in N. cbn [fst snd] in N. lra. }
      set (r := Rmin a b). assert (Pr : 0 < r) by (unfold r; apply Rmin_glb_lt; assumption). apply (cert_ball_overlap _ _ (r * (1 - m) / 2)); [apply Rmult_lt_0_compat; [apply Rmult_lt_0_compat|]; lra|].
      intros u U. apply (ellipse_unit a b).
      assert (V : norm (fst u / a, snd u / b) <= (1 - m) / 2).
      { apply norm_le_sq; [lra|]. pose proof (pdot_nonneg u) as PU. rewrite <- norm_sq in PU. assert (NU : norm u * norm u <= (r * (1 - m) / 2) * (r * (1 - m) / 2)) by (apply Rmult_le_compat; try apply norm_nonneg; exact U). rewrite norm_sq in NU.
        unfold pdot in NU |- * . cbn [fst snd] in NU |- * .
        assert (K : forall x c, 0 < c -> r <= c -> x / c * (x / c) <= x * x / (r * r)).
        { intros x c Pc Rc. replace (x / c * (x / c)) with (x * x * (/ c * / c)) by (field; lra). unfold Rdiv. apply Rmult_le_compat_l; [apply Rle_0_sqr|]. rewrite <- Rinv_mult. apply Rinv_le_contravar; [apply Rmult_lt_0_compat; exact Pr | apply Rmult_le_compat; lra]. }
        pose proof (K (fst u) a Pa (Rmin_l a b)). pose proof (K (snd u) b Pb (Rmin_r a b)).
        assert ((fst u * fst u + snd u * snd u) / (r * r) <= (1 - m) / 2 * ((1 - m) / 2)).
        { apply (Rmult_le_reg_r (r * r)); [apply Rmult_lt_0_compat; exact Pr|]. unfold Rdiv at 1. rewrite Rmult_assoc, Rinv_l, Rmult_1_r by (apply Rgt_not_eq, Rmult_lt_0_compat; exact Pr). eapply Rle_trans; [exact NU|]. right. field. }
        unfold Rdiv in H0, H1, H2 |- * . rewrite Rmult_plus_distr_r in H2. lra. }
      replace (fst (psub p u) / a, snd (psub p u) / b) with (padd (fst p / a, snd p / b) (pneg (fst u / a, snd u / b))) by (apply pt_eq; unfold psub, padd, pneg; cbn [fst snd]; field; lra).
      eapply Rle_trans; [apply norm_triangle|]. rewrite norm_neg. fold m. lra. }
  rewrite M. split; [exact H|]. split; [|exact O]. intro Q. apply H. apply O in Q. apply Q.
Qed.
Print Assumptions C71_collides.
Example C71_touching_refuted : ellipse_collides_rel (pellipse 2 (1/2)) PointS (inj (2, 0)) = true /\ ~ overlaps (ellipse 2 (1/2)) (single (2, 0)).
Proof.
  destruct (C71_collides _ _ 2 (1/2) (inj (2, 0)) (2, 0) ltac:(lra) ltac:(lra) eq_refl) as (A & _ & O). split; [apply A; exists (2, 0); split; [unfold ellipse; cbn [fst snd]; lra | reflexivity]|].
  intro H. apply O in H. destruct H as (_ & N). apply N. cbn [fst snd]. field.
Qed.
Theorem C71_bounding_box : forall a b, 0 < a -> 0 < b -> symmetric_bounding_box (pellipse a b) = pbox a b /\ tight_box (ellipse a b) a b.
Proof.
  intros a b Pa Pb. split; [reflexivity|]. split.
  - intros p Q. apply (ellipse_unit a b) in Q. pose proof (norm_x (fst p / a, snd p / b)) as X. pose proof (norm_y (fst p / a, snd p / b)) as Y. cbn [fst snd] in X, Y.
    assert (K : forall x c, 0 < c -> Rabs (x / c) <= 1 -> - c <= x <= c).
    { intros x c Pc H. apply Rabs_le_iff in H. replace x with (x / c * c) by (field; lra). split; [rewrite <- (Rmult_1_l c) at 1; rewrite <- Ropp_mult_distr_l_reverse | rewrite <- (Rmult_1_l c) at 3]; apply Rmult_le_compat_r; lra. }
    split; apply K; try assumption; lra.
  - intros kx ky H p (Q1 & Q2). assert (E1 : ellipse a b (a, 0)) by (unfold ellipse; cbn [fst snd]; right; field; lra). assert (E2 : ellipse a b (0, b)) by (unfold ellipse; cbn [fst snd]; right; field; lra).
    apply H in E1. apply H in E2. destruct E1 as (E1 & _), E2 as (_ & E2). cbn [fst snd] in E1, E2. split; lra.
Qed.
Print Assumptions C71_bounding_box.
(** With equal radii it is the Ball: same set, same extreme points. *)
Theorem C71_circle : forall r d, 0 < r -> same_set (ellipse r r) (disc r) /\ (d <> origin -> extreme_point (pellipse r r) (inj d) = extreme_point (pball r) (inj d)).
Proof.
  intros r d P. assert (S : same_set (ellipse r r) (disc r)).
  { intro p. unfold disc. rewrite norm_le_sq by lra. unfold ellipse, pdot. assert (0 < r * r) by (apply Rmult_lt_0_compat; exact P).
    replace (fst p / r * (fst p / r) + snd p / r * (snd p / r)) with ((fst p * fst p + snd p * snd p) / (r * r)) by (field; lra). split; intro H1.
    - apply (Rmult_le_compat_r (r * r)) in H1; [|lra]. unfold Rdiv in H1. rewrite Rmult_assoc, Rinv_l, Rmult_1_r, Rmult_1_l in H1 by lra. exact H1.
    - apply (Rmult_le_reg_r (r * r)); [exact H|]. unfold Rdiv. rewrite Rmult_assoc, Rinv_l, Rmult_1_r, Rmult_1_l by lra. exact H1. }
  split; [exact S|]. intro D. destruct (C71_extreme_point r r d P P D) as (p & E & _ & _ & U). rewrite E. rewrite ext_ball by lra. f_equal. symmetry. apply U.
  pose proof (farthest_disc r d ltac:(lra)) as (F1 & F2). split; [apply S, F1|]. intros q Q. apply F2, S, Q.
Qed.
Print Assumptions C71_circle.
(** Nothing sensible comes out for the zero direction (Ball and Box2d answer a point of the shape there). *)
Example C71_zero_direction_refuted : extreme_point (pellipse 1 1) (inj origin) = V2 XNaN XNaN.
Proof.
  unfold extreme_point, Ext_Ellipse, extreme_point_expanded, pellipse, origin. cbn [el_radii vx vy inj fst snd].
  replace (v2lenrecip (V2 (fmul (XFin 1) (XFin 0)) (fmul (XFin 1) (XFin 0)))) with (XInf false).
  - change fmul with xmul. unfold xmul. rewrite !Reqb_true by ring. reflexivity.
  - change (V2 (fmul (XFin 1) (XFin 0)) (fmul (XFin 1) (XFin 0))) with (inj (1 * 0, 1 * 0)). unfold v2lenrecip. rewrite v2len_inj. rewrite Rmult_0_r. change (0, 0) with origin. rewrite norm_origin.
    change (XInf false = xdiv (XFin 1) (XFin 0)). unfold xdiv. rewrite Reqb_true by reflexivity. rewrite Reqb_false by lra. rewrite Rltb_false by lra. reflexivity.
Qed.
(** the hypotheses of the exact theorems are met: half axes 2 and 1/2, direction (3/2, 8) *)
Example C71_case : extreme_point (pellipse 2 (1/2)) (inj (3/2, 8)) = inj (6/5, 2/5) /\ is_farthest (ellipse 2 (1/2)) (3/2, 8) (6/5, 2/5) /\
  ellipse_collides_rel (pellipse 2 (1/2)) PointS (inj (1, 1/4)) = true /\ ellipse_collides_rel (pellipse 2 (1/2)) PointS (inj (1, 1/2)) = false.
Proof.
  destruct (C71_extreme_point 2 (1/2) (3/2, 8) ltac:(lra) ltac:(lra)) as (p & E & _ & F & _); [intro H; injection H; lra|].
  assert (N : norm (2 * (3/2), 1/2 * 8) = 5) by (apply norm_eq; [lra|]; unfold pdot; cbn [fst snd]; lra).
  assert (T : top 2 (1/2) (3/2, 8) = (6/5, 2/5)) by (unfold top; cbn [fst snd]; rewrite N; apply pt_eq; cbn [fst snd]; field).
  assert (EQ : p = (6/5, 2/5)). { apply inj_inj. rewrite <- E, <- T. apply expanded_top; [lra | lra | intro H; injection H; lra]. }
  subst p. split; [exact E|]. split; [exact F|].
  assert (M : forall q, meets (ellipse 2 (1/2)) (single q) <-> ellipse 2 (1/2) q) by (intro q; split; [intros (u & Q & ->); exact Q | intro Q; exists q; split; [exact Q | reflexivity]]).
  destruct (C71_collides _ _ 2 (1/2) (inj (1, 1/4)) (1, 1/4) ltac:(lra) ltac:(lra) eq_refl) as (A & _). destruct (C71_collides _ _ 2 (1/2) (inj (1, 1/2)) (1, 1/2) ltac:(lra) ltac:(lra) eq_refl) as (B & _).
  split; [apply A, M; unfold ellipse; cbn [fst snd]; lra|]. destruct (ellipse_collides_rel (pellipse 2 (1/2)) PointS (inj (1, 1/2))); [|reflexivity]. assert (Q : ellipse 2 (1/2) (1, 1/2)) by (apply M, B; reflexivity). unfold ellipse in Q. cbn [fst snd] in Q. lra.
Qed.

(** ** f32, with all rounding *)
(** radii between 2^-16 and 2^16 *)
Definition usual_radii (e : ellipse2d b32) : Prop := fin2 (el_radii e) /\ bpow radix2 (-16) <= val (vx (el_radii e)) <= bpow radix2 16 /\ bpow radix2 (-16) <= val (vy (el_radii e)) <= bpow radix2 16.

Lemma rlen_norm (p : vec2 b32) : rlen p = norm (rval p). Proof. reflexivity. Qed.
Lemma norm_sub_le (p q : pt) : Rabs (norm p - norm q) <= norm (psub p q).
Proof.
  pose proof (norm_triangle (psub p q) q) as A. replace (padd (psub p q) q) with p in A by (apply pt_eq; unfold padd, psub; cbn [fst snd]; ring).
  pose proof (norm_triangle (psub q p) p) as B. replace (padd (psub q p) p) with q in B by (apply pt_eq; unfold padd, psub; cbn [fst snd]; ring).
  replace (norm (psub q p)) with (norm (psub p q)) in B by (rewrite <- norm_neg; f_equal; apply pt_eq; unfold pneg, psub; cbn [fst snd]; ring). apply Rabs_le; lra.
Qed.
Lemma norm_comps (d : pt) e : 0 <= e -> Rabs (fst d) <= e -> Rabs (snd d) <= e -> norm d <= 142 / 100 * e.
Proof.
  intros P X Y. apply norm_le_sq; [lra|]. unfold pdot. apply Rabs_le_iff in X. apply Rabs_le_iff in Y.
  assert (fst d * fst d <= e * e) by nra. assert (snd d * snd d <= e * e) by nra. nra.
Qed.
Lemma lenrecip32 (w' : vec2 b32) (w : pt) N : N = norm w -> bpow radix2 (-45) <= N <= bpow radix2 48 ->
  app (102 / 100) 1 N (vx w') (fst w) -> app (102 / 100) 1 N (vy w') (snd w) -> app (66 / 10) 1 (/ N) (v2lenrecip w') (/ N).
Proof.
  intros EN [N0 N1] (Fx & Ax & Bx) (Fy & Ay & By). pose proof u32_pos as U0. pose proof u32_small as U1. pose proof (bpow_gt_0 radix2 (-45)) as P45. assert (PN : 0 < N) by lra.
  set (un := u32 * N) in * . assert (PUN : 0 < un) by (apply Rmult_lt_0_compat; assumption). assert (UN : un <= 1 / 16777216 * N) by (apply Rmult_le_compat_r; lra).
  rewrite Rmult_assoc in Ax, Ay. fold un in Ax, Ay.
  assert (D : Rabs (rlen w' - N) <= 145 / 100 * un).
  { rewrite rlen_norm, EN. eapply Rle_trans; [apply norm_sub_le|]. eapply Rle_trans; [apply (norm_comps _ (102 / 100 * un)); [lra | exact Ax | exact Ay]|]. lra. }
  assert (MR : mid_range w').
  { assert (E60 : bpow radix2 60 = 4096 * bpow radix2 48) by (change 60%Z with (12 + 48)%Z; rewrite bpow_plus; f_equal; cbn; lra).
    assert (E45 : bpow radix2 (-45) = 32768 * bpow radix2 (-60)) by (change (-45)%Z with (15 + -60)%Z; rewrite bpow_plus; f_equal; cbn; lra).
    apply Rabs_le_iff in D. apply Rabs_le_iff in Ax. apply Rabs_le_iff in Ay. apply Rabs_le_iff in Bx. apply Rabs_le_iff in By. pose proof (bpow_gt_0 radix2 48). pose proof (bpow_gt_0 radix2 (-60)).
    split; [split; [split; assumption|split; unfold small; apply Rabs_le; lra] | lra]. }
  destruct (length_ok w' MR) as (FL & AL). set (L := val (v2len w')) in * . apply Rabs_le_iff in D.
  assert (AL' : Rabs (L - N) <= 546 / 100 * un).
  { assert (u32 * rlen w' <= u32 * (N + 145 / 100 * un)) by (apply Rmult_le_compat_l; lra). assert (u32 * un <= 1 / 16777216 * un) by (apply Rmult_le_compat_r; lra). fold un in H. rewrite Rmult_plus_distr_l in H. fold un in H.
    apply Rabs_le_iff in AL. apply Rabs_le. lra. }
  assert (PL : 99 / 100 * N <= L) by (apply Rabs_le_iff in AL'; lra).
  set (i := / N) in * . assert (PI : 0 < i) by (apply Rinv_0_lt_compat, PN). assert (EI : i * N = 1) by (unfold i; field; lra).
  assert (J : Rabs (1 / L - i) <= 547 / 100 * (u32 * i)).
  { replace (1 / L - i) with ((N - L) * (i / L)) by (unfold i; field; lra). rewrite Rabs_mult, (Rabs_minus_sym N L). assert (PQ : 0 < i / L) by (apply Rmult_lt_0_compat; [exact PI | apply Rinv_0_lt_compat; lra]). rewrite (Rabs_pos_eq (i / L)) by lra.
    apply Rle_trans with (546 / 100 * un * (i / L)); [apply Rmult_le_compat_r; lra|]. apply Rabs_le_iff in AL'. apply (Rmult_le_reg_r L); [lra|]. replace (546 / 100 * un * (i / L) * L) with (546 / 100 * u32 * (i * N)) by (unfold un; field; lra). rewrite EI.
    replace (547 / 100 * (u32 * i) * L) with (547 / 100 * u32 * (i * L)) by ring. rewrite Rmult_1_r. assert (999 / 1000 <= i * L). { assert (i * (999 / 1000 * N) <= i * L) by (apply Rmult_le_compat_l; lra). replace (i * (999 / 1000 * N)) with (999 / 1000 * (i * N)) in H by ring. rewrite EI in H. lra. } assert (u32 * (999 / 1000) <= u32 * (i * L)) by (apply Rmult_le_compat_l; lra). lra. }
  assert (I1 : i <= bpow radix2 45) by (unfold i; change 45%Z with (- (-45))%Z; rewrite bpow_opp; apply Rinv_le_contravar; assumption).
  assert (I2 : bpow radix2 (-48) <= i) by (unfold i; change (-48)%Z with (- (48))%Z; rewrite bpow_opp; apply Rinv_le_contravar; assumption).
  set (ui := u32 * i) in * . assert (UI : ui <= 1 / 16777216 * i) by (apply Rmult_le_compat_r; lra). assert (PUI : 0 < ui) by (apply Rmult_lt_0_compat; assumption).
  assert (SB : Rabs (1 / L) <= bpow radix2 46) by (change 46%Z with (1 + 45)%Z; rewrite bpow_plus; change (bpow radix2 1) with 2; apply Rabs_le_iff in J; apply Rabs_le; lra).
  destruct one_val as (FO & V1).
  destruct (div_ok f1 (v2len w') FO) as (FQ & VQ); [fold L; lra | rewrite V1; fold L; apply small_big with 46%Z; [lia|]; apply rnd_small; [lia | exact SB] |].
  split; [exact FQ|]. split; [|rewrite (Rabs_pos_eq i) by lra; lra]. change (v2lenrecip w') with (fdiv f1 (v2len w')). rewrite VQ, V1. fold L. destruct (rnd_error (1 / L)) as (ep & et & Ep & Et & ->).
  assert (T : tiny <= 1 / 100 * ui).
  { unfold tiny, ui. apply Rle_trans with (1 / 100 * (u32 * bpow radix2 (-48))); [|apply Rmult_le_compat_l; [lra|]; apply Rmult_le_compat_l; lra]. replace (bpow radix2 (-150)) with (bpow radix2 (-78) * (u32 * bpow radix2 (-48))); [|unfold u32; change (/ IZR (2 ^ 24)) with (bpow radix2 (-24)); rewrite <- !bpow_plus; reflexivity].
    apply Rmult_le_compat_r; [apply Rmult_le_pos; [lra | apply bpow_ge_0]|]. apply Rle_trans with (bpow radix2 (-7)); [apply bpow_le; lia | cbn; lra]. }
  assert (E2 : Rabs (1 / L * ep) <= 101 / 100 * ui).
  { rewrite Rabs_mult. apply Rle_trans with (101 / 100 * i * u32); [|right; unfold ui; ring]. apply Rmult_le_compat; try apply Rabs_pos; [|exact Ep]. apply Rabs_le_iff in J. apply Rabs_le. lra. }
  replace (1 / L * (1 + ep) + et - i) with ((1 / L - i) + 1 / L * ep + et) by ring. rewrite Rmult_assoc. fold ui. apply Rabs_le_iff in J. apply Rabs_le_iff in E2. apply Rabs_le_iff in Et. apply Rabs_le. lra.
Qed.

Lemma norm_weights u v e : 0 <= e -> 0 <= u -> 0 <= v -> forall d, Rabs (fst d) <= e * u -> Rabs (snd d) <= e * v -> norm d <= e * norm (u, v).
Proof.
  intros E Pu Pv d X Y. apply norm_le_sq; [apply Rmult_le_pos; [exact E | apply norm_nonneg]|]. replace (e * norm (u, v) * (e * norm (u, v))) with (e * e * (norm (u, v) * norm (u, v))) by ring. rewrite norm_sq. unfold pdot. cbn [fst snd].
  apply Rsqr_le_abs_1 in X || idtac. assert (K : forall x y, 0 <= y -> Rabs x <= y -> x * x <= y * y) by (intros x y Py H; apply Rabs_le_iff in H; nra).
  assert (A : fst d * fst d <= e * u * (e * u)) by (apply K; [apply Rmult_le_pos; assumption | exact X]). assert (B : snd d * snd d <= e * v * (e * v)) by (apply K; [apply Rmult_le_pos; assumption | exact Y]). lra.
Qed.
Theorem C71_extreme_f32 : forall (e : ellipse2d b32) (d : vec2 b32), usual_radii e -> fin2 d -> bpow radix2 (-24) <= norm (rval d) <= bpow radix2 30 ->
  let a := val (vx (el_radii e)) in let b := val (vy (el_radii e)) in
  let p := extreme_point e d in fin2 p /\ nearly_farthest (10 * u32 * norm (a, b)) (ellipse a b) (rval d) (rval p).
Proof.
  intros e d ((Fa & Fb) & (A0 & A1) & (B0 & B1)) (Fx & Fy) (D0 & D1) a b p. fold a in A0, A1. fold b in B0, B1. pose proof (bpow_gt_0 radix2 (-16)) as P16. pose proof (bpow_gt_0 radix2 (-24)) as P24. assert (Pa : 0 < a) by lra. assert (Pb : 0 < b) by lra.
  set (x := val (vx d)) in * . set (y := val (vy d)) in * . change (rval d) with (x, y) in * . pose proof u32_pos as U0.
  assert (Dn : (x, y) <> origin) by (intro H; rewrite H, norm_origin in D0; lra).
  set (w := (a * x, b * y) : pt). set (N := norm w). assert (PN : 0 < N) by (apply (w_pos a b Pa Pb (x, y) Dn)).
  assert (Nl : bpow radix2 (-40) <= N).
  { apply Rle_trans with (bpow radix2 (-16) * norm (x, y)); [change (-40)%Z with (-16 + -24)%Z; rewrite bpow_plus; apply Rmult_le_compat_l; lra|].
    rewrite <- (Rabs_pos_eq (bpow radix2 (-16))) by lra. rewrite <- norm_scale. unfold N, norm. apply sqrt_le_1_alt. unfold pdot, pscale, w. cbn [fst snd]. set (m := bpow radix2 (-16)) in * .
    assert (m * x * (m * x) <= a * x * (a * x)). { replace (m * x * (m * x)) with (m * m * (x * x)) by ring. replace (a * x * (a * x)) with (a * a * (x * x)) by ring. apply Rmult_le_compat_r; [apply Rle_0_sqr | apply Rmult_le_compat; lra]. }
    assert (m * y * (m * y) <= b * y * (b * y)). { replace (m * y * (m * y)) with (m * m * (y * y)) by ring. replace (b * y * (b * y)) with (b * b * (y * y)) by ring. apply Rmult_le_compat_r; [apply Rle_0_sqr | apply Rmult_le_compat; lra]. } lra. }
  assert (Nu : N <= bpow radix2 47).
  { apply Rle_trans with (bpow radix2 16 * norm (x, y)); [|apply Rle_trans with (bpow radix2 16 * bpow radix2 30); [apply Rmult_le_compat_l; [apply bpow_ge_0 | exact D1] | rewrite <- bpow_plus; apply bpow_le; lia]].
    rewrite <- (Rabs_pos_eq (bpow radix2 16)) by apply bpow_ge_0. rewrite <- norm_scale. unfold N, norm. apply sqrt_le_1_alt. unfold pdot, pscale, w. cbn [fst snd]. set (m := bpow radix2 16) in * .
    assert (a * x * (a * x) <= m * x * (m * x)). { replace (m * x * (m * x)) with (m * m * (x * x)) by ring. replace (a * x * (a * x)) with (a * a * (x * x)) by ring. apply Rmult_le_compat_r; [apply Rle_0_sqr | apply Rmult_le_compat; lra]. }
    assert (b * y * (b * y) <= m * y * (m * y)). { replace (m * y * (m * y)) with (m * m * (y * y)) by ring. replace (b * y * (b * y)) with (b * b * (y * y)) by ring. apply Rmult_le_compat_r; [apply Rle_0_sqr | apply Rmult_le_compat; lra]. } lra. }
  assert (WX : Rabs (a * x) <= N) by apply (norm_x w). assert (WY : Rabs (b * y) <= N) by apply (norm_y w).
  assert (Coord : forall (c : b32) (t : b32), fin c -> bpow radix2 (-16) <= val c <= bpow radix2 16 -> fin t -> Rabs (val c * val t) <= N -> app (102 / 100) 1 N (fmul c t) (val c * val t)).
  { intros c t Fc (C0 & C1) Ft B. assert (Pc : 0 < val c) by lra. eapply (app_mul 0 1 (val c) c (val c) 0 1 (N / val c) t (val t)); [apply app_exact; [exact Fc | rewrite Rabs_pos_eq by lra; lra] | apply app_exact; [exact Ft|] | | | | | | | | | | ]; try lra; try (split; lra).
    - rewrite Rmult_1_l. apply (Rmult_le_reg_l (val c)); [exact Pc|]. rewrite <- (Rabs_pos_eq (val c)) at 1 by lra. rewrite <- Rabs_mult. replace (val c * (N / val c)) with N by (field; lra). exact B.
    - field. lra.
    - apply Rlt_le, Rmult_lt_0_compat; [exact PN | apply Rinv_0_lt_compat, Pc].
    - split; [apply Rle_trans with (2 := Nl); apply bpow_le; lia | apply Rle_trans with (1 := Nu); apply bpow_le; lia]. }
  pose proof (Coord (vx (el_radii e)) (vx d) Fa (conj A0 A1) Fx WX) as Px. pose proof (Coord (vy (el_radii e)) (vy d) Fb (conj B0 B1) Fy WY) as Py. fold a x in Px. fold b y in Py.
  set (ap := fmul (vx (el_radii e)) (vx d)) in * . set (bq := fmul (vy (el_radii e)) (vy d)) in * .
  assert (RL : bpow radix2 (-45) <= N <= bpow radix2 48) by (split; [apply Rle_trans with (2 := Nl) | apply Rle_trans with (1 := Nu)]; apply bpow_le; lia).
  pose proof (lenrecip32 (V2 ap bq) w N eq_refl RL Px Py) as PD. set (r := v2lenrecip (V2 ap bq)) in * . set (i := / N) in * . assert (Pi : 0 < i) by (apply Rinv_0_lt_compat, PN).
  assert (Out : forall (c m : b32) z, fin c -> bpow radix2 (-16) <= val c <= bpow radix2 16 -> app (102 / 100) 1 N m z -> app (97 / 10) 1 (val c) (fmul (fmul c m) r) (val c * z * i)).
  { intros c m z Fc (C0 & C1) M. assert (Pc : 0 < val c) by lra. assert (S1 : bpow radix2 (-60) <= val c * N <= bpow radix2 100).
    { split; [apply Rle_trans with (bpow radix2 (-16) * bpow radix2 (-40)) | apply Rle_trans with (bpow radix2 16 * bpow radix2 47)]; try (rewrite <- bpow_plus; apply bpow_le; lia); apply Rmult_le_compat; try apply bpow_ge_0; lra. }
    assert (Q : app (206 / 100) 1 (val c * N) (fmul c m) (val c * z)).
    { eapply (app_mul 0 1 (val c) c (val c) (102 / 100) 1 N m z); [apply app_exact; [exact Fc | rewrite Rabs_pos_eq by lra; lra] | exact M | | | | | | | | | | ]; try lra; try (split; lra); try reflexivity. }
    eapply (app_mul (206 / 100) 1 (val c * N) _ _ (66 / 10) 1 i r i); [exact Q | exact PD | | | | | | | | | | ]; try lra; try (split; lra).
    - unfold i. field. lra.
    - apply Rlt_le, Rmult_lt_0_compat; assumption.
    - split; [apply Rle_trans with (2 := C0) | apply Rle_trans with (1 := C1)]; apply bpow_le; lia. }
  destruct (Out (vx (el_radii e)) ap (a * x) Fa (conj A0 A1) Px) as (Ox & Ex & _). destruct (Out (vy (el_radii e)) bq (b * y) Fb (conj B0 B1) Py) as (Oy & Ey & _). fold a in Ex. fold b in Ey.
  assert (Ep : p = V2 (fmul (fmul (vx (el_radii e)) ap) r) (fmul (fmul (vy (el_radii e)) bq) r)) by reflexivity.
  split; [rewrite Ep; split; assumption|]. destruct (top_farthest a b Pa Pb (x, y) Dn) as ((T1 & T2) & _). set (t := top a b (x, y)) in * .
  assert (Et : t = (a * (a * x) * i, b * (b * y) * i)) by reflexivity.
  assert (Near : norm (psub (rval p) t) <= 10 * u32 * norm (a, b)).
  { apply norm_weights; [lra | lra | lra | |]; rewrite Ep, Et; unfold rval, psub; cbn [vx vy fst snd].
    - apply Rle_trans with (1 := Ex). apply Rmult_le_compat_r; lra.
    - apply Rle_trans with (1 := Ey). apply Rmult_le_compat_r; lra. }
  split; [exists t; split; [exact T1 | exact Near]|]. intros q Q. apply T2 in Q. apply Rle_trans with (1 := Q).
  assert (C : pdot (x, y) (psub t (rval p)) <= norm (x, y) * norm (psub t (rval p))) by apply cauchy. replace (psub t (rval p)) with (pneg (psub (rval p) t)) in C at 2 by (apply pt_eq; unfold pneg, psub; cbn [fst snd]; ring). rewrite norm_neg in C.
  assert (norm (x, y) * norm (psub (rval p) t) <= norm (x, y) * (10 * u32 * norm (a, b))) by (apply Rmult_le_compat_l; [apply norm_nonneg | exact Near]). rewrite pdot_sub_r in C. lra.
Qed.
Print Assumptions C71_extreme_f32.

Lemma quot_sq (x a : b32) : fin x -> Rabs (val x) <= bpow radix2 30 -> bpow radix2 (-20) <= val a ->
  let q := val x / val a in fin (square (fdiv x a)) /\ Rabs (val (square (fdiv x a)) - q * q) <= 304 / 100 * u32 * (q * q) + 3 * tiny /\ q * q <= bpow radix2 100.
Proof.
  intros Fx X A q. pose proof u32_pos as U0. pose proof u32_small as U1. pose proof tiny_pos as T0. pose proof (bpow_gt_0 radix2 (-20)) as P20. assert (Pa : 0 < val a) by lra.
  assert (TU : tiny <= 1 / 1000 * u32) by (unfold tiny, u32; apply Rle_trans with (bpow radix2 (-40)); [apply bpow_le; lia | cbn; lra]).
  assert (Q : Rabs q <= bpow radix2 50).
  { unfold q, Rdiv. rewrite Rabs_mult, (Rabs_pos_eq (/ val a)) by (apply Rlt_le, Rinv_0_lt_compat, Pa). change 50%Z with (30 + 20)%Z. rewrite bpow_plus. apply Rmult_le_compat; [apply Rabs_pos | apply Rlt_le, Rinv_0_lt_compat, Pa | exact X|].
    change 20%Z with (- (-20))%Z. rewrite bpow_opp. apply Rinv_le_contravar; assumption. }
  destruct (div_ok x a Fx) as (Fq & Vq); [lra | apply small_big with 50%Z; [lia|]; apply rnd_small; [lia | exact Q] |]. fold q in Vq. set (m := fdiv x a) in * .
  assert (SM : small (val m) 50) by (rewrite Vq; apply rnd_small; [lia | exact Q]).
  pose proof (small_mul _ _ _ _ SM SM) as SQ. change (50 + 50)%Z with 100%Z in SQ.
  destruct (mul_ok m m Fq Fq) as (Fs & Vs); [apply small_big with 100%Z; [lia|]; apply rnd_small; [lia | exact SQ] |].
  change (square m) with (fmul m m). split; [exact Fs|]. assert (Q2 : 0 <= q * q) by apply Rle_0_sqr.
  split.
  - rewrite Vs. destruct (rnd_error q) as (e & h & E & H & Eq). rewrite <- Vq in Eq. set (M := val m) in * . destruct (rnd_error (M * M)) as (e' & h' & E' & H' & ->).
    apply Rabs_le_iff in E. apply Rabs_le_iff in H. apply Rabs_le_iff in H'. set (z := q * q) in * .
    assert (K1 : Rabs (M * M - z) <= 202 / 100 * u32 * z + 102 / 100 * tiny).
    { rewrite Eq. replace ((q * (1 + e) + h) * (q * (1 + e) + h) - z) with (z * (2 * e + e * e) + (2 * q * (1 + e) * h + h * h)) by (unfold z; ring).
      apply Rle_trans with (1 := Rabs_triang _ _).
      assert (B1 : Rabs (2 * e + e * e) <= 201 / 100 * u32) by (apply Rabs_le; assert (e * e <= 1 / 100 * u32) by nra; pose proof (Rle_0_sqr e); unfold Rsqr in *; lra).
      assert (C1 : Rabs (z * (2 * e + e * e)) <= 201 / 100 * u32 * z) by (rewrite Rabs_mult, (Rabs_pos_eq z) by exact Q2; rewrite Rmult_comm; apply Rmult_le_compat_r; assumption).
      assert (B2 : Rabs (2 * q * (1 + e) * h) <= 101 / 100 * (z + 1) * tiny).
      { rewrite !Rabs_mult. rewrite (Rabs_pos_eq 2) by lra. assert (Rabs h <= tiny) by (apply Rabs_le; lra). assert (Rabs (1 + e) <= 101 / 100) by (apply Rabs_le; lra).
        assert (2 * Rabs q <= z + 1). { assert (AQ : Rabs q * Rabs q = z) by (rewrite <- Rabs_mult; apply Rabs_pos_eq; exact Q2). pose proof (Rle_0_sqr (Rabs q - 1)) as S. unfold Rsqr in S. lra. }
        apply Rmult_le_compat; try apply Rabs_pos; [apply Rmult_le_pos; [pose proof (Rabs_pos q); lra | apply Rabs_pos] | | assumption]. rewrite (Rmult_comm (101 / 100)). apply Rmult_le_compat; try apply Rabs_pos; [pose proof (Rabs_pos q); lra | assumption | assumption]. }
      assert (B3 : 0 <= h * h <= 1 / 1000 * tiny) by (split; [apply Rle_0_sqr | nra]).
      assert (B5 : 0 <= u32 * z) by (apply Rmult_le_pos; lra). assert (B4 : z * tiny <= z * (1 / 1000 * u32)) by (apply Rmult_le_compat_l; assumption).
      apply Rle_trans with (201 / 100 * u32 * z + (101 / 100 * (z + 1) * tiny + 1 / 1000 * tiny)).
      - apply Rplus_le_compat; [exact C1|]. apply Rle_trans with (1 := Rabs_triang _ _). rewrite (Rabs_pos_eq (h * h)) by lra. lra.
      - lra. }
    assert (UZ : 0 <= u32 * z) by (apply Rmult_le_pos; lra). assert (UZ2 : u32 * z <= 1 / 16777216 * z) by (apply Rmult_le_compat_r; lra).
    assert (K2 : Rabs (M * M * e') <= 101 / 100 * u32 * z + 1 / 100 * tiny).
    { rewrite Rabs_mult, (Rabs_pos_eq (M * M)) by apply Rle_0_sqr. apply Rabs_le_iff in K1. assert (M * M <= 1001 / 1000 * z + 102 / 100 * tiny) by lra.
      apply Rle_trans with ((1001 / 1000 * z + 102 / 100 * tiny) * u32); [apply Rmult_le_compat; try apply Rabs_pos; try apply Rle_0_sqr; assumption|]. assert (u32 * tiny <= 1 / 16777216 * tiny) by (apply Rmult_le_compat_r; lra). lra. }
    replace (M * M * (1 + e') + h' - z) with ((M * M - z) + M * M * e' + h') by ring. apply Rabs_le_iff in K1. apply Rabs_le_iff in K2. apply Rabs_le. lra.
  - rewrite <- (Rabs_pos_eq (q * q)) by exact Q2. rewrite Rabs_mult. change 100%Z with (50 + 50)%Z. rewrite bpow_plus. apply Rmult_le_compat; try apply Rabs_pos; exact Q.
Qed.
(** The flag in f32: right except within 5 units in the last place of the boundary. *)
Theorem C71_flag_f32 : forall (T : Type) (TR : Transformation2d b32 T) (e : ellipse2d b32) (t : T), let c := apply_origin t in
  bpow radix2 (-20) <= val (vx (el_radii e)) -> bpow radix2 (-20) <= val (vy (el_radii e)) -> fin2 c -> Rabs (val (vx c)) <= bpow radix2 30 -> Rabs (val (vy c)) <= bpow radix2 30 ->
  let x := val (vx c) / val (vx (el_radii e)) in let y := val (vy c) / val (vy (el_radii e)) in
  (x * x + y * y < 1 - 5 * u32 -> ellipse_collides_rel e PointS t = true) /\ (1 + 5 * u32 < x * x + y * y -> ellipse_collides_rel e PointS t = false).
Proof.
  intros T TR e t c A B (Fx & Fy) X Y x y. destruct (quot_sq _ _ Fx X A) as (F1 & E1 & M1). destruct (quot_sq _ _ Fy Y B) as (F2 & E2 & M2). fold x in E1, M1. fold y in E2, M2.
  pose proof u32_pos as U0. pose proof u32_small as U1. pose proof tiny_pos as T0. assert (TU : tiny <= 1 / 1000 * u32) by (unfold tiny, u32; apply Rle_trans with (bpow radix2 (-40)); [apply bpow_le; lia | cbn; lra]).
  unfold ellipse_collides_rel. cbv zeta. fold c. set (p := square (fdiv (vx c) (vx (el_radii e)))) in * . set (q := square (fdiv (vy c) (vy (el_radii e)))) in * .
  assert (XX : 0 <= x * x) by apply Rle_0_sqr. assert (YY : 0 <= y * y) by apply Rle_0_sqr. set (zx := x * x) in * . set (zy := y * y) in * . clearbody zx zy.
  assert (G1 : u32 * zx <= 1 / 16777216 * zx) by (apply Rmult_le_compat_r; lra). assert (G2 : u32 * zy <= 1 / 16777216 * zy) by (apply Rmult_le_compat_r; lra). assert (G3 : 0 <= u32 * zx) by (apply Rmult_le_pos; lra). assert (G4 : 0 <= u32 * zy) by (apply Rmult_le_pos; lra).
  assert (Big : bpow radix2 100 * 4 = bpow radix2 102) by (change 102%Z with (100 + 2)%Z; rewrite bpow_plus; f_equal). assert (One : 1 <= bpow radix2 100) by (apply (bpow_le radix2 0 100); lia).
  apply Rabs_le_iff in E1. apply Rabs_le_iff in E2.
  destruct (add_ok p q F1 F2) as (Fs & Vs); [apply small_big with 102%Z; [lia|]; apply rnd_small; [lia|]; unfold small; rewrite <- Big; apply Rabs_le; lra |].
  destruct one_val as (FO & VO). rewrite (fle_fin _ _ Fs FO), VO, Vs. destruct (rnd_error_add p q) as (r & Er & ->). apply Rabs_le_iff in Er. set (S := val p + val q) in * .
  assert (S0 : - (6 * tiny) <= S) by (unfold S; lra).
  assert (P : Rabs (S * r) <= u32 * (101 / 100 * (zx + zy) + 7 * tiny)).
  { rewrite Rabs_mult, Rmult_comm. apply Rmult_le_compat; try apply Rabs_pos; [apply Rabs_le; lra | apply Rabs_le; unfold S in *; lra]. }
  assert (UT : u32 * tiny <= 1 / 16777216 * tiny) by (apply Rmult_le_compat_r; lra). apply Rabs_le_iff in P. assert (Sv : Rabs (S - (zx + zy)) <= 304 / 100 * u32 * (zx + zy) + 6 * tiny) by (apply Rabs_le; unfold S; lra). apply Rabs_le_iff in Sv.
  split; intro H.
  - unfold Rleb. destruct (Rle_dec _ _) as [|N]; [reflexivity|]. exfalso. apply N. assert (u32 * (zx + zy) <= u32 * 1) by (apply Rmult_le_compat_l; lra). lra.
  - unfold Rleb. destruct (Rle_dec _ _) as [N|]; [|reflexivity]. exfalso. assert (0 <= (zx + zy - 1 - 5 * u32) * (1 - 406 / 100 * u32)) by (apply Rmult_le_pos; lra). assert (u32 * u32 <= 1 / 16777216 * u32) by (apply Rmult_le_compat_r; lra). lra.
Qed.
Print Assumptions C71_flag_f32.
(** the hypotheses of the two f32 theorems are met, and what happens for directions outside the range: not a point at all *)
Lemma usual_16 (m e : Z) : (-16 <= e)%Z -> (e <= 13)%Z -> (1 <= m <= 8)%Z -> bpow radix2 (-16) <= val (b32_of m e) <= bpow radix2 16.
Proof.
  intros H1 H2 M. rewrite (proj2 (val_of m e ltac:(lia) ltac:(lia))). pose proof (bpow_gt_0 radix2 e). assert (1 <= IZR m <= 8) by (split; apply IZR_le; lia). split.
  - apply Rle_trans with (bpow radix2 e); [apply bpow_le; exact H1|]. rewrite <- (Rmult_1_l (bpow radix2 e)) at 1. apply Rmult_le_compat_r; lra.
  - apply Rle_trans with (8 * bpow radix2 e); [apply Rmult_le_compat_r; lra|]. change 8 with (bpow radix2 3). rewrite <- bpow_plus. apply bpow_le. lia.
Qed.
Definition case_ellipse : ellipse2d b32 := Ellipse2d (V2 (b32_of 2 0) (b32_of 1 (-1))).
Example C71_f32_case : usual_radii case_ellipse /\ fin2 (V2 (b32_of 3 (-1)) (b32_of 8 0)) /\ bpow radix2 (-24) <= norm (rval (V2 (b32_of 3 (-1)) (b32_of 8 0))) <= bpow radix2 30.
Proof.
  split; [|split].
  - split; [split; reflexivity|]. split; apply usual_16; lia.
  - split; reflexivity.
  - assert (E : rval (V2 (b32_of 3 (-1)) (b32_of 8 0)) = (3 / 2, 8)) by (unfold rval; cbn [vx vy]; rewrite (proj2 (val_of 3 (-1) ltac:(lia) ltac:(lia))), (proj2 (val_of 8 0 ltac:(lia) ltac:(lia))); apply pt_eq; cbn [fst snd]; [change (bpow radix2 (-1)) with (/ 2) | change (bpow radix2 0) with 1]; lra). rewrite E.
    pose proof (norm_y (3 / 2, 8)) as L. cbn [snd] in L. rewrite Rabs_pos_eq in L by lra. assert (U : norm (3 / 2, 8) <= 9) by (apply norm_le_sq; unfold pdot; cbn [fst snd]; lra).
    assert (bpow radix2 (-24) <= 1) by (apply (bpow_le radix2 (-24) 0); lia). assert (16 <= bpow radix2 30) by (apply (bpow_le radix2 4 30); lia). lra.
Qed.
Example C71_tiny_direction_refuted : extreme_point case_ellipse (V2 (b32_of 1 (-80)) (b32_of 1 (-80))) = V2 (finf : b32) (finf : b32) /\
  is_nan (vx (extreme_point case_ellipse (V2 (f0 : b32) (f0 : b32)))) = true /\ is_nan (vx (extreme_point case_ellipse (V2 (b32_of 1 (-80)) (f0 : b32)))) = false /\
  is_nan (vy (extreme_point case_ellipse (V2 (b32_of 1 (-80)) (f0 : b32)))) = true.
Proof. repeat split; vm_compute; reflexivity. Qed.
