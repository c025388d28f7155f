(** * Property theorems C49: 3D cover, Point v A, cylinders. *)
From Coq Require Import Reals Lra Psatz Bool.
From Verif Require Import Num NumXR Glam Transform2 Shapes2 Gjk Detect2 Col3 Spec SpecLink P_Base P_Geo3 P_3d Props_3d.
Local Open Scope R_scope.

(** Box3d::cover: the covered box contains the point exactly when it already reached it in z. *)
Theorem C49_cover_iff : forall hx hy hz p, 0 <= hx -> 0 <= hy -> 0 <= hz ->
  exists kx ky kz, box3_cover (mbox3 hx hy hz) (inj3 p) = mbox3 kx ky kz /\
    included3 (box3 hx hy hz) (box3 kx ky kz) /\
    (box3 kx ky kz p <-> Rabs (z3 p) <= hz).
Proof.
  intros hx hy hz p Hx Hy Hz. exists (Rmax hx (Rabs (x3 p))), (Rmax hy (Rabs (y3 p))), hz. split.
  { unfold box3_cover, mbox3. cbn -[fmax]. rewrite !fmax_fin. reflexivity. }
  assert (A : forall a h, - h <= a <= h <-> Rabs a <= h).
  { intros a h. split; [intros []; apply Rabs_le; lra | intro H; unfold Rabs in H; destruct (Rcase_abs a); lra]. }
  split.
  - intros q (X & Y & Z). apply A in X, Y, Z. split; [|split].
    + apply (proj2 (A _ _)). eapply Rle_trans; [exact X | apply Rmax_l].
    + apply (proj2 (A _ _)). eapply Rle_trans; [exact Y | apply Rmax_l].
    + apply (proj2 (A _ _)). exact Z.
  - unfold box3. rewrite !A. split; [intros (_ & _ & Z); exact Z|]. intro Z. split; [apply Rmax_r|]. split; [apply Rmax_r | exact Z].
Qed.
Print Assumptions C49_cover_iff.
Theorem C49_cover_refuted : ~ (forall hx hy hz p, 0 <= hx -> 0 <= hy -> 0 <= hz ->
  forall kx ky kz, box3_cover (mbox3 hx hy hz) (inj3 p) = mbox3 kx ky kz -> box3 kx ky kz p).
Proof.
  intro H. destruct (C49_cover_iff 1 1 1 (0, 0, 2) ltac:(lra) ltac:(lra) ltac:(lra)) as (kx & ky & kz & E & _ & I).
  pose proof (proj1 I (H 1 1 1 (0, 0, 2) ltac:(lra) ltac:(lra) ltac:(lra) kx ky kz E)) as B.
  unfold z3 in B; cbn in B. rewrite Rabs_pos_eq in B; lra.
Qed.
Print Assumptions C49_cover_refuted.

(** Point v A reuses A v Point with the same relative transform. For pure translations this is right. *)
Definition symmetric3 (A : pset3) : Prop := forall p, A p -> A (neg3 p).
Lemma mirror_meets A q v : symmetric3 A -> (meets3 (shift3 v (single3 (0, 0, 0))) (shift3 q A) <-> meets3 (shift3 v A) (single3 q)).
Proof.
  intro S. unfold meets3, shift3, single3. split.
  - intros [p [E H]]. exists q. split; [|reflexivity]. replace (sub3 q v) with (neg3 (sub3 p q)); [apply S, H|].
    assert (p = v) by (apply pt3_eq; [apply (f_equal x3) in E | apply (f_equal y3) in E | apply (f_equal z3) in E]; u3; lra). subst p.
    apply pt3_eq; u3; ring.
  - intros [p [H ->]]. exists v. split; [apply pt3_eq; u3; ring|]. replace (sub3 v q) with (neg3 (sub3 q v)); [apply S, H | apply pt3_eq; u3; ring].
Qed.
Lemma shift3_shift3 A v w p : shift3 w (shift3 v A) p <-> shift3 (add3 v w) A p.
Proof. unfold shift3. replace (sub3 (sub3 p w) v) with (sub3 p (add3 v w)); [reflexivity | apply pt3_eq; u3; ring]. Qed.
Lemma meets3_ext A A' B : (forall p, A p <-> A' p) -> (meets3 A B <-> meets3 A' B).
Proof. intro H. unfold meets3. split; intros [p [X Y]]; exists p; split; auto; apply H; exact X. Qed.
Lemma mirror_overlaps A q v : symmetric3 A -> (overlaps3 (shift3 v (single3 (0, 0, 0))) (shift3 q A) <-> overlaps3 (shift3 v A) (single3 q)).
Proof.
  intro S. unfold overlaps3. split; intros [e [E H]]; exists e; (split; [exact E|]); intros w W; specialize (H w W).
  - rewrite (meets3_ext _ _ _ (shift3_shift3 _ v w)) in H. rewrite (meets3_ext _ _ _ (shift3_shift3 _ v w)). apply mirror_meets in H; assumption.
  - rewrite (meets3_ext _ _ _ (shift3_shift3 _ v w)) in H. rewrite (meets3_ext _ _ _ (shift3_shift3 _ v w)). apply mirror_meets; assumption.
Qed.
Lemma shift3_0 A p : shift3 (0, 0, 0) A p <-> A p.
Proof. unfold shift3. replace (sub3 p (0, 0, 0)) with p; [reflexivity | apply pt3_eq; u3; ring]. Qed.
Lemma overlaps3_0 A B : overlaps3 A B <-> overlaps3 (shift3 (0, 0, 0) A) B.
Proof.
  unfold overlaps3. split; intros [e [E H]]; exists e; (split; [exact E|]); intros w W; specialize (H w W).
  - apply (meets3_ext (shift3 w A) (shift3 w (shift3 (0, 0, 0) A)) B); [|exact H]. intro p. symmetry. exact (shift3_0 A (sub3 p w)).
  - apply (meets3_ext (shift3 w A) (shift3 w (shift3 (0, 0, 0) A)) B); [|exact H]. intro p. symmetry. exact (shift3_0 A (sub3 p w)).
Qed.
Lemma mirror_answers A q c p s : symmetric3 A -> answers3 A (single3 q) c p s -> answers3 (single3 (0, 0, 0)) (shift3 q A) c p s.
Proof.
  intros S H.
  assert (O : overlaps3 (single3 (0, 0, 0)) (shift3 q A) <-> overlaps3 A (single3 q)).
  { rewrite (overlaps3_0 (single3 _)), (overlaps3_0 A). apply mirror_overlaps, S. }
  destruct H as [[OV (v & [M1 M2] & R)] | [NO (v & [M1 M2] & R)]].
  - left. split; [apply O, OV|]. exists v. split; [|exact R]. split.
    + unfold separates3. rewrite mirror_overlaps by exact S. exact M1.
    + intros w W. apply M2. unfold separates3 in W |- * . rewrite mirror_overlaps in W by exact S. exact W.
  - right. split; [rewrite O; exact NO|]. exists v. split; [|exact R]. split.
    + apply mirror_meets; assumption.
    + intros w W. apply M2. apply mirror_meets; assumption.
Qed.

Theorem C49_point_v_translated_box_exact : forall hx hy hz q, 0 <= hx -> 0 <= hy -> 0 <= hz ->
  answers3 (single3 (0, 0, 0)) (shift3 q (box3 hx hy hz))
    (collides_rel3 PointS (mbox3 hx hy hz) (inj3 q)) (penetrates_rel3 PointS (mbox3 hx hy hz) (inj3 q)) (sdfv_rel3 PointS (mbox3 hx hy hz) (inj3 q)) /\
  answers3 (single3 (0, 0, 0)) (shift3 q (box3 hx hy hz))
    (collides_rel3 PointS (mbox3 hx hy hz) (Translate3d (inj3 q))) (penetrates_rel3 PointS (mbox3 hx hy hz) (Translate3d (inj3 q)))
    (sdfv_rel3 PointS (mbox3 hx hy hz) (Translate3d (inj3 q))).
Proof.
  intros hx hy hz q Hx Hy Hz.
  assert (S : symmetric3 (box3 hx hy hz)).
  { intros p (X & Y & Z). unfold box3, neg3, x3, y3, z3 in * ; cbn [fst snd] in * . lra. }
  split.
  - apply mirror_answers; [exact S|]. apply (C48_box3_point_exact hx hy hz q Hx Hy Hz _ Tr3_Vec3 (inj3 q) eq_refl).
  - apply mirror_answers; [exact S|]. apply (C48_box3_point_exact hx hy hz q Hx Hy Hz _ Tr3_Translate3d (Translate3d (inj3 q)) eq_refl).
Qed.
Print Assumptions C49_point_v_translated_box_exact.

(** For a rotated box it is not: a 2x1x1 box turned by 120 degrees about (1,1,1) (its long side now along y), one and a
    half units along x from the point, is reported as colliding. *)
Definition turned (q : pt3) : isotropic3d XR := Isotropic3d (inj3 q) (quat_of (1/2) (1/2) (1/2) (1/2)) (XFin 1).
Theorem C49_point_v_rotated_box_refuted :
  (forall p, apply3 (turned (3/2, 0, 0)) (inj3 p) = inj3 (z3 p + 3/2, x3 p, y3 p)) /\
  (forall B : pset3, (forall p, box3 2 1 1 p -> B (z3 p + 3/2, x3 p, y3 p)) -> (forall p, B p -> exists b, box3 2 1 1 b /\ p = (z3 b + 3/2, x3 b, y3 b)) ->
     ~ meets3 (single3 (0, 0, 0)) B) /\
  collides_rel3 PointS (mbox3 2 1 1) (turned (3/2, 0, 0)) = true.
Proof.
  split; [|split].
  - intro p. unfold turned. cbn [apply3 Tr3_Isotropic3d iso_rot iso_scale iso_pos]. rewrite v3smul_fin, qrot_fin, v3add_fin. f_equal.
    apply pt3_eq; v3; field.
  - intros B _ HB [p [-> H]]. destruct (HB _ H) as (b & (_ & _ & Z) & E). apply (f_equal x3) in E. unfold x3 at 1 2 in E; cbn [fst] in E. lra.
  - unfold collides_rel3, Col3_PointBox. rewrite (box3_collides_b (TR:=Tr3_Isotropic3d) 2 1 1 (3/2, 0, 0) (turned (3/2, 0, 0)) eq_refl).
    unfold x3, y3, z3; cbn [fst snd]. rewrite Rabs_R0, Rabs_pos_eq, !Rltb_true by lra. reflexivity.
Qed.
Print Assumptions C49_point_v_rotated_box_refuted.

(** Minkowski sums: right for boxes; for cylinders the height of the sum is halved. *)
Theorem C49_box3_minkowski_sum : forall ax ay az bx by' bz, 0 <= ax -> 0 <= ay -> 0 <= az -> 0 <= bx -> 0 <= by' -> 0 <= bz ->
  box3_minkowski_sum (mbox3 ax ay az) (mbox3 bx by' bz) = mbox3 (ax + bx) (ay + by') (az + bz) /\
  same_set3 (minkowski_sum3 (box3 ax ay az) (box3 bx by' bz)) (box3 (ax + bx) (ay + by') (az + bz)).
Proof.
  intros ax ay az bx by' bz A1 A2 A3 B1 B2 B3. split; [reflexivity|].
  assert (SP : forall a b c, 0 <= a -> 0 <= b -> - (a + b) <= c <= a + b -> exists d, - a <= d <= a /\ - b <= c - d <= b).
  { intros a b c A B C. destruct (Rle_dec c (- b)); [exists (c + b); lra|]. destruct (Rle_dec b c); [exists (c - b); lra|]. exists 0; lra. }
  intro p. split.
  - intros (a & b & Ha & Hb & ->). unfold box3, add3, x3, y3, z3 in * ; cbn [fst snd] in * . lra.
  - intros (X & Y & Z). destruct (SP ax bx _ A1 B1 X) as (d & D1 & D2). destruct (SP ay by' _ A2 B2 Y) as (e & E1 & E2).
    destruct (SP az bz _ A3 B3 Z) as (f & F1 & F2).
    exists (d, e, f), (x3 p - d, y3 p - e, z3 p - f). split; [repeat split; unfold x3, y3, z3; cbn [fst snd]; tauto|].
    split; [repeat split; unfold x3, y3, z3 in *; cbn [fst snd]; tauto | apply pt3_eq; u3; ring].
Qed.
Print Assumptions C49_box3_minkowski_sum.
Theorem C49_cylinder_minkowski_sum_refuted : forall h1 r1 h2 r2, 0 <= h1 -> 0 <= r1 -> 0 <= h2 -> 0 <= r2 ->
  same_set3 (minkowski_sum3 (cylinder3 h1 r1) (cylinder3 h2 r2)) (cylinder3 (h1 + h2) (r1 + r2)) /\
  cylinder_minkowski_sum (cylinder_new (XFin h1) (XFin r1)) (cylinder_new (XFin h2) (XFin r2))
    = cylinder_new (XFin ((h1 + h2) / 2)) (XFin (r1 + r2)) /\
  (0 < h1 + h2 -> ~ same_set3 (minkowski_sum3 (cylinder3 h1 r1) (cylinder3 h2 r2)) (cylinder3 ((h1 + h2) / 2) (r1 + r2))).
Proof.
  intros h1 r1 h2 r2 H1 R1 H2 R2.
  assert (SP : forall a b c, 0 <= a -> 0 <= b -> - (a + b) <= c <= a + b -> exists d, - a <= d <= a /\ - b <= c - d <= b).
  { intros a b c A B C. destruct (Rle_dec c (- b)); [exists (c + b); lra|]. destruct (Rle_dec b c); [exists (c - b); lra|]. exists 0; lra. }
  assert (S : same_set3 (minkowski_sum3 (cylinder3 h1 r1) (cylinder3 h2 r2)) (cylinder3 (h1 + h2) (r1 + r2))).
  { intro p. split.
    - intros (a & b & (A1 & A2) & (B1 & B2) & ->). split; [|unfold add3, z3 in *; cbn [fst snd] in *; lra].
      change (norm (padd (x3 a, y3 a) (x3 b, y3 b)) <= r1 + r2). pose proof (norm_triangle (x3 a, y3 a) (x3 b, y3 b)). lra.
    - intros (N & Z). destruct (SP (h1 / 2) (h2 / 2) (z3 p) ltac:(lra) ltac:(lra) ltac:(lra)) as (f & F1 & F2).
      pose proof (norm_nonneg (x3 p, y3 p)) as NN.
      assert (K : exists k, 0 <= k <= 1 /\ k * norm (x3 p, y3 p) <= r1 /\ (1 - k) * norm (x3 p, y3 p) <= r2).
      { destruct (Req_dec (norm (x3 p, y3 p)) 0) as [E|E]; [exists 0; rewrite E; lra|].
        destruct (Rle_dec (norm (x3 p, y3 p)) r1) as [L|L]; [exists 1; lra|].
        exists (r1 / norm (x3 p, y3 p)). assert (P : 0 < norm (x3 p, y3 p)) by lra.
        assert (D : r1 / norm (x3 p, y3 p) * norm (x3 p, y3 p) = r1) by (field; lra).
        assert (0 <= r1 / norm (x3 p, y3 p)) by (apply Rmult_le_pos; [lra | left; apply Rinv_0_lt_compat, P]).
        split; [|lra]. split; [lra|]. apply Rmult_le_reg_r with (norm (x3 p, y3 p)); lra. }
      destruct K as (k & K0 & K1 & K2).
      exists (k * x3 p, k * y3 p, f), ((1 - k) * x3 p, (1 - k) * y3 p, z3 p - f).
      split; [split; [|exact F1]|split; [split; [|exact F2]|apply pt3_eq; u3; ring]].
      + change (norm (pscale k (x3 p, y3 p)) <= r1). rewrite norm_scale, Rabs_pos_eq by lra. exact K1.
      + change (norm (pscale (1 - k) (x3 p, y3 p)) <= r2). rewrite norm_scale, Rabs_pos_eq by lra. exact K2. }
  split; [exact S|]. split.
  - unfold cylinder_minkowski_sum, cylinder_new. cbn [cy_halfheight cy_radius]. change (f2 : XR) with (XFin 2).
    rewrite !fdiv_fin by lra. cbn. rewrite (Reqb_false 2 0) by lra. f_equal. f_equal. field.
  - intros P Q. assert (T : cylinder3 (h1 + h2) (r1 + r2) (0, 0, (h1 + h2) / 2)).
    { split; [|unfold z3; cbn [snd]; lra]. change (norm origin <= r1 + r2). rewrite (proj2 (norm_0 origin) eq_refl). lra. }
    apply S, Q in T. destruct T as [_ T]. unfold z3 in T; cbn [snd] in T. lra.
Qed.
Print Assumptions C49_cylinder_minkowski_sum_refuted.

(** Cylinder v Point. *)
Definition mcyl (h r : R) : cylinder3d XR := cylinder_new (XFin h) (XFin r).
Lemma cyl_ball2 (P D : bool) r a b : 0 <= r ->
  ball_point_sdfv (TR := Tr_Vec2) P D (Ball (XFin r)) (V2 (XFin a) (XFin b)) =
  if Rltb 0 (norm (a, b)) then (Rltb (norm (a, b)) r, V2 (XFin (a * ((norm (a, b) - r) / norm (a, b)))) (XFin (b * ((norm (a, b) - r) / norm (a, b)))))
  else (true, V2 (XFin (r * 1)) (XFin (r * 0))).
Proof.
  intro R. unfold ball_point_sdfv. cbn [apply_origin Tr_Vec2].
  assert (L2 : v2len (V2 (XFin a) (XFin b)) = XFin (norm (a, b))).
  { unfold v2len, v2dot, norm, pdot; cbn. rewrite Rltb_false by nra. reflexivity. }
  rewrite L2. cbn [flt FloatXR f0 xlt b_radius fsub xsub]. destruct (Rltb_spec 0 (norm (a, b))) as [N|N]; [|reflexivity].
  rewrite fdiv_fin by lra. reflexivity.
Qed.
Lemma mcyl_hh h r : mcyl h r = Cylinder3d (XFin (h / 2)) (XFin r).
Proof. unfold mcyl, cylinder_new. change (f2 : XR) with (XFin 2). rewrite fdiv_fin by lra. reflexivity. Qed.

(** collides is inclusive at the top and bottom faces and exclusive at the side (and always true on the axis). *)
Theorem C49_cylinder_collides_iff : forall h r q, 0 <= h -> 0 <= r ->
  forall T (TR : Transformation3d XR T) (rel : T), apply_origin3 rel = inj3 q ->
  collides_rel3 (mcyl h r) PointS rel = true <->
    Rabs (z3 q) <= h / 2 /\ (norm (x3 q, y3 q) < r \/ (x3 q = 0 /\ y3 q = 0)).
Proof.
  intros h r q H R T TR rel O. rewrite mcyl_hh. unfold collides_rel3, Col3_CylinderPoint, cylinder_to_ball. rewrite O.
  cbn -[Rltb ball_point_sdfv inj3]. unfold inj3. cbn [wx wy wz].
  rewrite cyl_ball2 by exact R. cbn [flt FloatXR xlt fneg xneg].
  assert (A : Rltb (z3 q) (- (h / 2)) || Rltb (h / 2) (z3 q) = negb (Rleb (Rabs (z3 q)) (h / 2))).
  { destruct (Rleb_spec (Rabs (z3 q)) (h / 2)) as [L|L]; cbn.
    - rewrite !Rltb_false; [reflexivity| |]; revert L; unfold Rabs; destruct (Rcase_abs (z3 q)); lra.
    - apply Rnot_le_lt in L. revert L; unfold Rabs; destruct (Rcase_abs (z3 q)); intro L.
      + rewrite Rltb_true by lra. reflexivity.
      + rewrite (Rltb_true (h / 2)) by lra. apply orb_true_r. }
  rewrite A. destruct (Rleb_spec (Rabs (z3 q)) (h / 2)) as [L|L]; cbn [negb].
  - pose proof (norm_nonneg (x3 q, y3 q)) as NN. destruct (Rltb_spec 0 (norm (x3 q, y3 q))) as [P|P]; cbn [fst].
    + destruct (Rltb_spec (norm (x3 q, y3 q)) r) as [Q|Q].
      * split; auto.
      * split; [discriminate|]. intros [_ [B | [B1 B2]]]; [contradiction|].
        rewrite B1, B2 in P. rewrite (proj2 (norm_0 (0, 0)) eq_refl) in P. lra.
    + split; [|reflexivity]. intros _. split; [exact L|]. right.
      assert (E : norm (x3 q, y3 q) = 0) by lra. apply norm_0 in E. injection E; auto.
  - split; [discriminate|]. intros [B _]. contradiction.
Qed.
Print Assumptions C49_cylinder_collides_iff.

(** The distance vector is right above the top face, and beyond the side when the point is not below the bottom. *)
Theorem C49_cylinder_sdfv_outside : forall h r q, 0 <= h -> 0 <= r -> h / 2 <= Rabs (z3 q) ->
  (norm (x3 q, y3 q) <= r \/ 0 <= z3 q) ->
  forall T (TR : Transformation3d XR T) (rel : T), apply_origin3 rel = inj3 q ->
  exists v, sdfv_rel3 (mcyl h r) PointS rel = inj3 v /\ is_min_contact3 v (cylinder3 h r) (single3 q).
Proof.
  intros h r q H R Z C T TR rel O.
  set (n := norm (x3 q, y3 q)) in * . pose proof (norm_nonneg (x3 q, y3 q)) as NN. fold n in NN.
  assert (NS : x3 q * x3 q + y3 q * y3 q = n * n) by (unfold n; rewrite norm_sq; reflexivity).
  assert (MIN : forall v, cylinder3 h r (sub3 q v) ->
    x3 v * x3 v + y3 v * y3 v = (Rmax (n - r) 0) * (Rmax (n - r) 0) -> z3 v * z3 v = (Rabs (z3 q) - h / 2) * (Rabs (z3 q) - h / 2) ->
    is_min_contact3 v (cylinder3 h r) (single3 q)).
  { intros v Cv Vx Vz. split; [apply meets3_single; exact Cv|]. intros w W. apply meets3_single in W. destruct W as [W1 W2].
    change (norm (psub (x3 q, y3 q) (x3 w, y3 w)) <= r) in W1. change (- (h / 2) <= z3 q - z3 w <= h / 2) in W2.
    apply norm3_le_norm. unfold dot3. rewrite Vx, Vz.
    assert (A : Rmax (n - r) 0 <= norm (x3 w, y3 w)).
    { apply Rmax_lub; [|apply norm_nonneg]. pose proof (norm_triangle (psub (x3 q, y3 q) (x3 w, y3 w)) (x3 w, y3 w)) as TI.
      replace (padd (psub (x3 q, y3 q) (x3 w, y3 w)) (x3 w, y3 w)) with (x3 q, y3 q) in TI by (apply pt_eq; cbn; ring). fold n in TI. lra. }
    assert (B : Rmax (n - r) 0 * Rmax (n - r) 0 <= x3 w * x3 w + y3 w * y3 w).
    { change (x3 w * x3 w + y3 w * y3 w) with (pdot (x3 w, y3 w) (x3 w, y3 w)). rewrite <- norm_sq.
      pose proof (Rmax_r (n - r) 0). apply Rmult_le_compat; lra. }
    assert (Cz : (Rabs (z3 q) - h / 2) * (Rabs (z3 q) - h / 2) <= z3 w * z3 w).
    { unfold Rabs in Z |- * . destruct (Rcase_abs (z3 q)).
      - assert (0 <= - z3 q - h / 2 <= - z3 w) by lra. nra.
      - assert (0 <= z3 q - h / 2 <= z3 w) by lra. nra. }
    lra. }
  rewrite mcyl_hh. unfold sdfv_rel3, Sdfv3_CylinderPoint, cylinder_to_ball. rewrite O.
  change (wx (inj3 q)) with (XFin (x3 q)); change (wy (inj3 q)) with (XFin (y3 q)); change (wz (inj3 q)) with (XFin (z3 q)).
  cbn [cy_radius cy_halfheight]. cbv zeta. unfold v2lensq, v2dot. cbn [vx vy fmul fadd fabs fsub FloatXR xmul xadd xabs xsub flt fle xlt xle f0].
  rewrite cyl_ball2 by exact R. rewrite !fsignum_fin. rewrite NS. fold n.
  rewrite (Rltb_false (Rabs (z3 q) - h / 2) 0) by lra.
  destruct (Rleb_spec (n * n) (r * r)) as [L|L].
  - assert (n <= r) by nra. exists (0, 0, sg (z3 q) * (Rabs (z3 q) - h / 2)). split; [reflexivity|]. apply MIN.
    + split.
      * change (norm (x3 q - 0, y3 q - 0) <= r). rewrite !Rminus_0_r. assumption.
      * change (- (h / 2) <= z3 q - sg (z3 q) * (Rabs (z3 q) - h / 2) <= h / 2).
        unfold sg. destruct (Rltb_spec (z3 q) 0); unfold Rabs in * ; destruct (Rcase_abs (z3 q)); lra.
    + rewrite Rmax_right by lra. unfold x3, y3; cbn; ring.
    + change (sg (z3 q) * (Rabs (z3 q) - h / 2) * (sg (z3 q) * (Rabs (z3 q) - h / 2)) = (Rabs (z3 q) - h / 2) * (Rabs (z3 q) - h / 2)).
      transitivity (sg (z3 q) * sg (z3 q) * ((Rabs (z3 q) - h / 2) * (Rabs (z3 q) - h / 2))); [ring|]. rewrite sg_sq. ring.
  - assert (LR : r < n) by nra. destruct C as [C|C]; [lra|].
    rewrite (Rltb_true 0 n) by lra. cbn [snd vx vy].
    exists (x3 q * ((n - r) / n), y3 q * ((n - r) / n), sg (Rabs (z3 q) - h / 2) * (Rabs (z3 q) - h / 2)). split; [reflexivity|].
    replace (sg (Rabs (z3 q) - h / 2)) with 1 by (unfold sg; rewrite Rltb_false by lra; reflexivity). rewrite Rmult_1_l. apply MIN.
    + split.
      * change (norm (x3 q - x3 q * ((n - r) / n), y3 q - y3 q * ((n - r) / n)) <= r).
        replace (x3 q - x3 q * ((n - r) / n), y3 q - y3 q * ((n - r) / n)) with (pscale (r / n) (x3 q, y3 q)) by (apply pt_eq; cbn; field; lra).
        rewrite norm_scale. fold n. rewrite Rabs_pos_eq by (apply Rmult_le_pos; [lra | left; apply Rinv_0_lt_compat; lra]). right. field. lra.
      * change (- (h / 2) <= z3 q - (Rabs (z3 q) - h / 2) <= h / 2). rewrite Rabs_pos_eq by exact C. lra.
    + rewrite Rmax_left by lra. change (x3 q * ((n - r) / n) * (x3 q * ((n - r) / n)) + y3 q * ((n - r) / n) * (y3 q * ((n - r) / n)) = (n - r) * (n - r)).
      transitivity ((x3 q * x3 q + y3 q * y3 q) * ((n - r) / n * ((n - r) / n))); [ring|]. rewrite NS. field. lra.
    + reflexivity.
Qed.
Print Assumptions C49_cylinder_sdfv_outside.

(** The remaining answers are wrong: a flat wide cylinder, a tall thin one, and a point below the rim. *)
Lemma norm_x0 a : 0 <= a -> norm (a, 0) = a.
Proof. intro A. apply norm_eq; [exact A|]. unfold pdot; cbn; ring. Qed.
Theorem C49_cylinder_refuted :
  (* penetrates: the cylinder of height 2 and radius 10, moved by the answer, still overlaps the point (1,0,1/2) *)
  (penetrates_rel3 (mcyl 2 10) PointS (inj3 (1, 0, 1/2)) = Some (inj3 (0, 0, 1)) /\
     ~ separates3 (0, 0, 1) (cylinder3 2 10) (single3 (1, 0, 1/2))) /\
  (* sdf: the point (2,0,0) is outside the cylinder of height 20 and radius 1, the value says 10 deep inside *)
  (sdf_rel3 (mcyl 20 1) PointS (inj3 (2, 0, 0)) = XFin (-10) /\ ~ meets3 (cylinder3 20 1) (single3 (2, 0, 0))) /\
  (* sdfv: for the same point the vector does not bring the cylinder into contact *)
  (sdfv_rel3 (mcyl 20 1) PointS (inj3 (2, 0, 0)) = inj3 (0, 0, -10) /\ ~ meets3 (shift3 (0, 0, -10) (cylinder3 20 1)) (single3 (2, 0, 0))) /\
  (* sdfv: the point (2,0,-3) below the rim of the cylinder of height 2 and radius 1: the vector points up *)
  (sdfv_rel3 (mcyl 2 1) PointS (inj3 (2, 0, -3)) = inj3 (1, 0, 2) /\ ~ meets3 (shift3 (1, 0, 2) (cylinder3 2 1)) (single3 (2, 0, -3))).
Proof.
  assert (N2 := norm_x0 2 ltac:(lra)). assert (N1 := norm_x0 1 ltac:(lra)).
  rewrite !mcyl_hh. repeat split.
  - unfold penetrates_rel3, Pen3_CylinderPoint.
    assert (C : collides_rel3 (mcyl 2 10) PointS (inj3 (1, 0, 1/2)) = true).
    { apply (C49_cylinder_collides_iff 2 10 (1, 0, 1/2) ltac:(lra) ltac:(lra) _ Tr3_Vec3 (inj3 (1, 0, 1/2)) eq_refl).
      unfold x3, y3, z3; cbn [fst snd]. rewrite Rabs_pos_eq, N1 by lra. lra. }
    rewrite mcyl_hh in C. rewrite C. cbn [apply_origin3 Tr3_Vec3]. unfold inj3, v2lensq, v2dot, x3, y3, z3; cbn [wx wy wz fst snd vx vy fmul fadd FloatXR xmul xadd flt xlt cy_halfheight].
    rewrite Rltb_true by lra. rewrite fsignum_fin. unfold sg. rewrite Rltb_false by lra. cbn. f_equal. f_equal. f_equal. field.
  - intro S. apply S. apply overlaps3_single. exists (1/4). split; [lra|]. intros w W. destruct (coord_le_norm3 w) as (X & Y & ZZ).
    split.
    + change (norm (1 - 0 - x3 w, 0 - 0 - y3 w) <= 10). apply norm_le_sq; [lra|]. unfold pdot; cbn [fst snd].
      assert (- (1/4) <= x3 w <= 1/4) by (revert X; unfold Rabs; destruct (Rcase_abs (x3 w)); lra).
      assert (- (1/4) <= y3 w <= 1/4) by (revert Y; unfold Rabs; destruct (Rcase_abs (y3 w)); lra). nra.
    + change (- (2 / 2) <= 1/2 - 1 - z3 w <= 2 / 2). revert ZZ; unfold Rabs; destruct (Rcase_abs (z3 w)); lra.
  - unfold sdf_rel3, Sdf3_CylinderPoint. cbn [apply_origin3 Tr3_Vec3]. unfold inj3, v2lensq, v2dot, x3, y3, z3;
      cbn [wx wy wz fst snd vx vy fmul fadd fsub fabs FloatXR xmul xadd xsub xabs flt xlt cy_halfheight].
    rewrite Rabs_R0, Rltb_true by lra. f_equal. field.
  - intros [p [[N _] ->]]. unfold x3, y3 in N; cbn [fst snd] in N. rewrite N2 in N. lra.
  - unfold sdfv_rel3, Sdfv3_CylinderPoint. cbn [apply_origin3 Tr3_Vec3]. unfold inj3, v2lensq, v2dot, x3, y3, z3;
      cbn [wx wy wz fst snd vx vy fmul fadd fsub fabs FloatXR xmul xadd xsub xabs flt xlt cy_halfheight cy_radius f0].
    rewrite Rabs_R0, !Rltb_true by lra. rewrite fsignum_fin. unfold sg. rewrite Rltb_false by lra. cbn. f_equal. f_equal. field.
  - intros [p [[N _] ->]]. change (norm (2 - 0, 0 - 0) <= 1) in N. rewrite !Rminus_0_r, N2 in N. lra.
  - unfold sdfv_rel3, Sdfv3_CylinderPoint, cylinder_to_ball. cbn [apply_origin3 Tr3_Vec3]. unfold inj3, v2lensq, v2dot, x3, y3, z3;
      cbn [wx wy wz fst snd vx vy fmul fadd fsub fabs FloatXR xmul xadd xsub xabs flt xlt fle xle cy_halfheight cy_radius f0].
    rewrite Rabs_left by lra. rewrite (Rltb_false (- -3 - 2 / 2) 0), Rleb_false by lra.
    rewrite cyl_ball2 by lra. rewrite N2, (Rltb_true 0 2) by lra. cbn [snd vx vy]. rewrite fsignum_fin. unfold sg. rewrite Rltb_false by lra.
    apply vec3_ext; cbn; f_equal; field.
  - intros [p [[_ Z] ->]]. change (- (2 / 2) <= -3 - 2 <= 2 / 2) in Z. lra.
Qed.
Print Assumptions C49_cylinder_refuted.

(** The three collider-level spellings agree. *)
Theorem C49_collides_spellings : forall A B T (TR : Transformation3d XR T) (I : Invertible T) (C : Composable T) (CR : CollidesRel3d XR A B)
  (a : A) (ta : T) (b : B) (tb : T),
  collides3 (F:=XR) a ta b tb = collides3_v2 (F:=XR) (a, ta) b tb /\ collides3 (F:=XR) a ta b tb = collides3_v3 (F:=XR) (a, ta) (b, tb).
Proof. intros. split; reflexivity. Qed.
Print Assumptions C49_collides_spellings.

(** Instances of the hypotheses of the cylinder theorems: a point above the top face, off the axis. *)
Example C49_case : exists v, sdfv_rel3 (mcyl 2 3) PointS (inj3 (1, 2, 5)) = inj3 v /\ is_min_contact3 v (cylinder3 2 3) (single3 (1, 2, 5)) /\
  collides_rel3 (mcyl 2 3) PointS (inj3 (1, 2, 5)) = false.
Proof.
  destruct (C49_cylinder_sdfv_outside 2 3 (1, 2, 5) ltac:(lra) ltac:(lra)) with (TR := Tr3_Vec3) (rel := inj3 (1, 2, 5)) as (v & E & M).
  - unfold z3; cbn [snd]. rewrite Rabs_pos_eq; lra.
  - right. unfold z3; cbn [snd]. lra.
  - reflexivity.
  - exists v. split; [exact E|]. split; [exact M|].
    destruct (collides_rel3 (mcyl 2 3) PointS (inj3 (1, 2, 5))) eqn:C; [|reflexivity].
    apply (C49_cylinder_collides_iff 2 3 (1, 2, 5) ltac:(lra) ltac:(lra) _ Tr3_Vec3 (inj3 (1, 2, 5)) eq_refl) in C.
    destruct C as [C _]. unfold z3 in C; cbn [snd] in C. rewrite Rabs_pos_eq in C; lra.
Qed.
