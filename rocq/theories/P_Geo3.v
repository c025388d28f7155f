(** * Space geometry: norms, interior points, boxes and balls against a point. *)
From Coq Require Import Reals Lra Psatz Bool.
From Verif Require Import Num NumXR Glam Spec SpecLink.
Local Open Scope R_scope.

Lemma pt3_eq (p q : pt3) : x3 p = x3 q -> y3 p = y3 q -> z3 p = z3 q -> p = q.
Proof. destruct p as [[? ?] ?], q as [[? ?] ?]; unfold x3, y3, z3; cbn; congruence. Qed.
Lemma inj3_inj p q : inj3 p = inj3 q -> p = q.
Proof. intro H. unfold inj3 in H. injection H; intros. apply pt3_eq; assumption. Qed.
Ltac u3 := unfold add3, sub3, neg3, scale3, dot3, x3, y3, z3 in * ; cbn [fst snd] in * .
Lemma dot3_nonneg p : 0 <= dot3 p p.
Proof. unfold dot3; nra. Qed.
Lemma norm3_nonneg p : 0 <= norm3 p.
Proof. apply sqrt_pos. Qed.
Lemma norm3_sq p : norm3 p * norm3 p = dot3 p p.
Proof. apply sqrt_sqrt, dot3_nonneg. Qed.
Lemma norm3_le_sq p r : 0 <= r -> (norm3 p <= r <-> dot3 p p <= r * r).
Proof. intro Hr. pose proof (norm3_nonneg p). pose proof (norm3_sq p). split; intro; nra. Qed.
Lemma norm3_lt_sq p r : 0 <= r -> (norm3 p < r <-> dot3 p p < r * r).
Proof. intro Hr. pose proof (norm3_nonneg p). pose proof (norm3_sq p). split; intro; nra. Qed.
Lemma norm3_le_norm p q : dot3 p p <= dot3 q q -> norm3 p <= norm3 q.
Proof. intro H. apply (proj2 (norm3_le_sq p (norm3 q) (norm3_nonneg q))). rewrite norm3_sq. exact H. Qed.
Lemma norm3_eq p r : 0 <= r -> dot3 p p = r * r -> norm3 p = r.
Proof. intros Hr H. unfold norm3. rewrite H. apply sqrt_square, Hr. Qed.
Lemma cauchy3 p q : dot3 p q <= norm3 p * norm3 q.
Proof.
  assert (C : dot3 p q * dot3 p q <= dot3 p p * dot3 q q).
  { destruct p as [[a b] c], q as [[d e] f]. u3.
    pose proof (Rle_0_sqr (a * e - b * d)); pose proof (Rle_0_sqr (a * f - c * d)); pose proof (Rle_0_sqr (b * f - c * e)).
    unfold Rsqr in * . nra. }
  rewrite <- !norm3_sq in C. pose proof (norm3_nonneg p); pose proof (norm3_nonneg q).
  assert (0 <= norm3 p * norm3 q) by nra. apply Rnot_lt_le; intro. nra.
Qed.
Lemma norm3_triangle p q : norm3 (add3 p q) <= norm3 p + norm3 q.
Proof.
  pose proof (norm3_nonneg p); pose proof (norm3_nonneg q).
  apply norm3_le_sq; [lra|].
  pose proof (cauchy3 p q). pose proof (norm3_sq p); pose proof (norm3_sq q).
  replace (dot3 (add3 p q) (add3 p q)) with (dot3 p p + 2 * dot3 p q + dot3 q q) by (u3; ring). nra.
Qed.
Lemma norm3_scale k p : norm3 (scale3 k p) = Rabs k * norm3 p.
Proof.
  apply norm3_eq.
  - apply Rmult_le_pos; [apply Rabs_pos | apply norm3_nonneg].
  - replace (Rabs k * norm3 p * (Rabs k * norm3 p)) with ((Rabs k * Rabs k) * (norm3 p * norm3 p)) by ring.
    rewrite norm3_sq, <- Rabs_mult, Rabs_pos_eq by nra. u3; ring.
Qed.
Lemma norm3_neg p : norm3 (neg3 p) = norm3 p.
Proof. unfold norm3. f_equal. u3; ring. Qed.
Lemma coord_le_norm3 p : Rabs (x3 p) <= norm3 p /\ Rabs (y3 p) <= norm3 p /\ Rabs (z3 p) <= norm3 p.
Proof.
  pose proof (norm3_nonneg p). pose proof (norm3_sq p) as S. unfold dot3 in S.
  repeat split; apply Rabs_le; split; nra.
Qed.
Lemma norm3_axis_x a : norm3 (a, 0, 0) = Rabs a.
Proof. apply norm3_eq; [apply Rabs_pos|]. rewrite <- Rabs_mult, Rabs_pos_eq by nra. u3; ring. Qed.
Lemma norm3_axis_y a : norm3 (0, a, 0) = Rabs a.
Proof. apply norm3_eq; [apply Rabs_pos|]. rewrite <- Rabs_mult, Rabs_pos_eq by nra. u3; ring. Qed.
Lemma norm3_axis_z a : norm3 (0, 0, a) = Rabs a.
Proof. apply norm3_eq; [apply Rabs_pos|]. rewrite <- Rabs_mult, Rabs_pos_eq by nra. u3; ring. Qed.
Lemma norm3_0 p : norm3 p = 0 -> p = (0, 0, 0).
Proof. intro H. pose proof (norm3_sq p) as S. rewrite H in S. unfold dot3 in S. apply pt3_eq; unfold x3, y3, z3 in *; cbn in *; nra. Qed.

(** Contact and overlap with a single point. *)
Lemma meets3_single (A : pset3) q v : meets3 (shift3 v A) (single3 q) <-> A (sub3 q v).
Proof. unfold meets3, shift3, single3. split; [intros [p [H ->]]; exact H | intro H; exists q; auto]. Qed.
Lemma overlaps3_single (A : pset3) q v :
  overlaps3 (shift3 v A) (single3 q) <-> exists eps, 0 < eps /\ forall w, norm3 w < eps -> A (sub3 (sub3 q v) w).
Proof.
  unfold overlaps3. split; intros [eps [E H]]; exists eps; (split; [exact E|]); intros w W; specialize (H w W).
  - apply meets3_single in H. unfold shift3 in H.
    replace (sub3 (sub3 q v) w) with (sub3 (sub3 q w) v); [exact H | apply pt3_eq; u3; ring].
  - apply meets3_single. unfold shift3.
    replace (sub3 (sub3 q w) v) with (sub3 (sub3 q v) w); [exact H | apply pt3_eq; u3; ring].
Qed.
Lemma overlaps3_single0 (A : pset3) q :
  overlaps3 A (single3 q) <-> exists eps, 0 < eps /\ forall w, norm3 w < eps -> A (sub3 q w).
Proof.
  unfold overlaps3. split; intros [eps [E H]]; exists eps; (split; [exact E|]); intros w W; specialize (H w W);
    apply meets3_single; exact H.
Qed.

(** Interior of a box *)
Lemma box3_interior hx hy hz q :
  (exists eps, 0 < eps /\ forall w, norm3 w < eps -> box3 hx hy hz (sub3 q w))
  <-> Rabs (x3 q) < hx /\ Rabs (y3 q) < hy /\ Rabs (z3 q) < hz.
Proof.
  split.
  - intros [eps [E H]].
    assert (N : forall d, Rabs d = eps / 2 -> Rabs d < eps) by (intros d ->; lra).
    assert (P : Rabs (eps / 2) = eps / 2) by (apply Rabs_pos_eq; lra).
    assert (M : Rabs (- (eps / 2)) = eps / 2) by (rewrite Rabs_Ropp; exact P).
    assert (X1 : box3 hx hy hz (sub3 q (eps / 2, 0, 0))) by (apply H; rewrite norm3_axis_x; auto).
    assert (X2 : box3 hx hy hz (sub3 q (- (eps / 2), 0, 0))) by (apply H; rewrite norm3_axis_x; auto).
    assert (Y1 : box3 hx hy hz (sub3 q (0, eps / 2, 0))) by (apply H; rewrite norm3_axis_y; auto).
    assert (Y2 : box3 hx hy hz (sub3 q (0, - (eps / 2), 0))) by (apply H; rewrite norm3_axis_y; auto).
    assert (Z1 : box3 hx hy hz (sub3 q (0, 0, eps / 2))) by (apply H; rewrite norm3_axis_z; auto).
    assert (Z2 : box3 hx hy hz (sub3 q (0, 0, - (eps / 2)))) by (apply H; rewrite norm3_axis_z; auto).
    unfold box3, sub3, x3, y3, z3 in * ; cbn [fst snd] in * .
    repeat split; apply Rabs_def1; lra.
  - intros [X [Y Z]]. exists (Rmin (hx - Rabs (x3 q)) (Rmin (hy - Rabs (y3 q)) (hz - Rabs (z3 q)))). split.
    { repeat apply Rmin_glb_lt; lra. }
    intros w W. destruct (coord_le_norm3 w) as [Wx [Wy Wz]].
    pose proof (Rmin_l (hx - Rabs (x3 q)) (Rmin (hy - Rabs (y3 q)) (hz - Rabs (z3 q)))).
    pose proof (Rmin_r (hx - Rabs (x3 q)) (Rmin (hy - Rabs (y3 q)) (hz - Rabs (z3 q)))).
    pose proof (Rmin_l (hy - Rabs (y3 q)) (hz - Rabs (z3 q))).
    pose proof (Rmin_r (hy - Rabs (y3 q)) (hz - Rabs (z3 q))).
    assert (A : forall a b h, Rabs b < h - Rabs a -> - h <= a - b <= h).
    { intros a b h G. revert G. unfold Rabs; destruct (Rcase_abs a), (Rcase_abs b); lra. }
    assert (X' := A (x3 q) (x3 w) hx ltac:(lra)). assert (Y' := A (y3 q) (y3 w) hy ltac:(lra)).
    assert (Z' := A (z3 q) (z3 w) hz ltac:(lra)). clear - X' Y' Z'.
    unfold box3, sub3, x3, y3, z3 in * ; cbn [fst snd] in * . tauto.
Qed.

(** Interior of a ball *)
Lemma ball3_interior r q :
  (exists eps, 0 < eps /\ forall w, norm3 w < eps -> ball3 r (sub3 q w)) <-> norm3 q < r.
Proof.
  split.
  - intros [eps [E H]]. destruct (Req_dec (norm3 q) 0) as [Z|NZ].
    + specialize (H (eps / 2, 0, 0)). rewrite norm3_axis_x, Rabs_pos_eq in H by lra. specialize (H ltac:(lra)).
      unfold ball3 in H. rewrite (norm3_0 q Z) in H.
      replace (sub3 (0, 0, 0) (eps / 2, 0, 0)) with (- (eps / 2), 0, 0) in H by (apply pt3_eq; u3; ring).
      rewrite norm3_axis_x, Rabs_Ropp, Rabs_pos_eq in H by lra. lra.
    + assert (P : 0 < norm3 q) by (pose proof (norm3_nonneg q); lra).
      assert (K : 0 < eps / 2 / norm3 q).
      { apply Rmult_lt_0_compat; [lra | apply Rinv_0_lt_compat; exact P]. }
      specialize (H (scale3 (- (eps / 2 / norm3 q)) q)).
      rewrite norm3_scale, Rabs_Ropp, (Rabs_pos_eq (eps / 2 / norm3 q)) in H by lra.
      assert (F : eps / 2 / norm3 q * norm3 q = eps / 2) by (field; exact NZ). rewrite F in H.
      specialize (H ltac:(lra)). unfold ball3 in H.
      replace (sub3 q (scale3 (- (eps / 2 / norm3 q)) q)) with (scale3 (1 + eps / 2 / norm3 q) q) in H
        by (apply pt3_eq; u3; ring).
      rewrite norm3_scale, Rabs_pos_eq in H by lra. rewrite Rmult_plus_distr_r, F in H. lra.
  - intro L. exists (r - norm3 q). split; [lra|]. intros w W. unfold ball3.
    replace (sub3 q w) with (add3 q (neg3 w)) by (apply pt3_eq; u3; ring).
    pose proof (norm3_triangle q (neg3 w)) as T. rewrite norm3_neg in T. lra.
Qed.
