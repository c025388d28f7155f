(** * C78: exactly where the answers of Cylinder3d against a point are right *)
From Coq Require Import Reals Lra Psatz Bool.
From Verif Require Import Num NumXR Glam Transform2 Shapes2 Gjk Detect2 Col3 Spec SpecLink P_Base P_Geo3 P_3d Props_3d Props_3dDefects.
Local Open Scope R_scope.

(** how far q is beyond the planes of the two faces, and beyond the curved surface (negative: that deep inside) *)
Definition flat (h : R) (q : pt3) : R := Rabs (z3 q) - h / 2.
Definition side (r : R) (q : pt3) : R := norm (x3 q, y3 q) - r.

(** ** Geometry *)
Lemma norm_le_norm3 w : norm (x3 w, y3 w) <= norm3 w.
Proof. apply norm_le_sq; [apply norm3_nonneg|]. rewrite norm3_sq. unfold pdot, dot3; cbn [fst snd]. nra. Qed.
Lemma cyl_interior h r q :
  (exists eps, 0 < eps /\ forall w, norm3 w < eps -> cylinder3 h r (sub3 q w)) <-> flat h q < 0 /\ side r q < 0.
Proof.
  unfold flat, side. split.
  - intros [eps [E H]].
    assert (Z1 : cylinder3 h r (sub3 q (0, 0, eps / 2))) by (apply H; rewrite norm3_axis_z, Rabs_pos_eq; lra).
    assert (Z2 : cylinder3 h r (sub3 q (0, 0, - (eps / 2)))) by (apply H; rewrite norm3_axis_z, Rabs_Ropp, Rabs_pos_eq; lra).
    destruct Z1 as [_ Z1], Z2 as [_ Z2]. unfold sub3, z3 in Z1, Z2; cbn [fst snd] in Z1, Z2.
    split; [unfold Rabs, z3; destruct (Rcase_abs (snd q)); lra|].
    destruct (Req_dec (norm (x3 q, y3 q)) 0) as [Z|NZ].
    + specialize (H (eps / 2, 0, 0)). rewrite norm3_axis_x, Rabs_pos_eq in H by lra. destruct (H ltac:(lra)) as [H1 _].
      rewrite Z. apply norm_0 in Z. injection Z as Zx Zy. unfold sub3 in H1. change (norm (x3 q - eps / 2, y3 q - 0) <= r) in H1.
      rewrite Zx, Zy in H1. replace (0 - eps / 2, 0 - 0) with (- (eps / 2), 0) in H1 by (apply pt_eq; cbn; ring).
      rewrite norm_xaxis, Rabs_Ropp, Rabs_pos_eq in H1 by lra. lra.
    + pose proof (norm_nonneg (x3 q, y3 q)). set (n := norm (x3 q, y3 q)) in * . assert (P : 0 < n) by lra.
      assert (K : 0 < eps / 2 / n) by (apply Rmult_lt_0_compat; [lra | apply Rinv_0_lt_compat; exact P]).
      set (k := eps / 2 / n) in * . assert (F : k * n = eps / 2) by (unfold k; field; exact NZ).
      specialize (H (- k * x3 q, - k * y3 q, 0)). assert (N : norm3 (- k * x3 q, - k * y3 q, 0) = eps / 2).
      { apply norm3_eq; [lra|]. change (- k * x3 q * (- k * x3 q) + - k * y3 q * (- k * y3 q) + 0 * 0 = eps / 2 * (eps / 2)).
        transitivity (k * k * (x3 q * x3 q + y3 q * y3 q)); [ring|]. assert (S : n * n = x3 q * x3 q + y3 q * y3 q) by (unfold n; rewrite norm_sq; reflexivity). rewrite <- S, <- F. ring. }
      rewrite N in H. destruct (H ltac:(lra)) as [H1 _]. change (norm (x3 q - - k * x3 q, y3 q - - k * y3 q) <= r) in H1.
      replace (x3 q - - k * x3 q, y3 q - - k * y3 q) with (pscale (1 + k) (x3 q, y3 q)) in H1 by (apply pt_eq; cbn; ring).
      rewrite norm_scale, Rabs_pos_eq in H1 by lra. fold n in H1. lra.
  - intros [X Y]. exists (Rmin (- (Rabs (z3 q) - h / 2)) (- (norm (x3 q, y3 q) - r))). split; [apply Rmin_glb_lt; lra|]. intros w W.
    pose proof (Rmin_l (- (Rabs (z3 q) - h / 2)) (- (norm (x3 q, y3 q) - r))). pose proof (Rmin_r (- (Rabs (z3 q) - h / 2)) (- (norm (x3 q, y3 q) - r))).
    destruct (coord_le_norm3 w) as (_ & _ & Wz). pose proof (norm_le_norm3 w) as Wn. split.
    + change (norm (psub (x3 q, y3 q) (x3 w, y3 w)) <= r).
      pose proof (norm_triangle (x3 q, y3 q) (pneg (x3 w, y3 w))) as T. rewrite norm_neg in T.
      replace (padd (x3 q, y3 q) (pneg (x3 w, y3 w))) with (psub (x3 q, y3 q) (x3 w, y3 w)) in T by (apply pt_eq; cbn; ring). lra.
    + change (- (h / 2) <= z3 q - z3 w <= h / 2). assert (G : Rabs (z3 w) < h / 2 - Rabs (z3 q)) by lra. clear - G. revert G. unfold Rabs; destruct (Rcase_abs (z3 q)), (Rcase_abs (z3 w)); lra.
Qed.
Lemma cyl_overlaps h r q : overlaps3 (cylinder3 h r) (single3 q) <-> flat h q < 0 /\ side r q < 0.
Proof. rewrite overlaps3_single0. apply cyl_interior. Qed.
Lemma cyl_separates h r q v : separates3 v (cylinder3 h r) (single3 q) <-> ~ (flat h (sub3 q v) < 0 /\ side r (sub3 q v) < 0).
Proof. unfold separates3. rewrite overlaps3_single, cyl_interior. reflexivity. Qed.
Lemma side_sub r q v : side r q - norm (x3 v, y3 v) <= side r (sub3 q v).
Proof.
  unfold side. change (x3 (sub3 q v), y3 (sub3 q v)) with (psub (x3 q, y3 q) (x3 v, y3 v)).
  pose proof (norm_triangle_sub (x3 q, y3 q) (x3 v, y3 v)). lra.
Qed.
Lemma flat_sub h q v : flat h q - Rabs (z3 v) <= flat h (sub3 q v).
Proof. unfold flat. change (z3 (sub3 q v)) with (z3 q - z3 v). pose proof (Rabs_triang_inv (z3 q) (z3 v)). lra. Qed.
Lemma side_add r q v : side r (sub3 q v) <= side r q + norm (x3 v, y3 v).
Proof.
  unfold side. change (x3 (sub3 q v), y3 (sub3 q v)) with (psub (x3 q, y3 q) (x3 v, y3 v)).
  pose proof (norm_triangle (x3 q, y3 q) (pneg (x3 v, y3 v))) as T. rewrite norm_neg in T.
  replace (padd (x3 q, y3 q) (pneg (x3 v, y3 v))) with (psub (x3 q, y3 q) (x3 v, y3 v)) in T by (apply pt_eq; cbn; ring). lra.
Qed.
Lemma flat_add h q v : flat h (sub3 q v) <= flat h q + Rabs (z3 v).
Proof. unfold flat. change (z3 (sub3 q v)) with (z3 q - z3 v). unfold Rabs. destruct (Rcase_abs (z3 q)), (Rcase_abs (z3 v)), (Rcase_abs (z3 q - z3 v)); lra. Qed.
(** no way out is shorter than the smaller depth *)
Lemma sep_lower h r q w : separates3 w (cylinder3 h r) (single3 q) -> Rmin (- flat h q) (- side r q) <= norm3 w.
Proof.
  intro S. apply cyl_separates in S. pose proof (side_add r q w). pose proof (flat_add h q w). destruct (coord_le_norm3 w) as (_ & _ & Wz). pose proof (norm_le_norm3 w).
  pose proof (Rmin_l (- flat h q) (- side r q)). pose proof (Rmin_r (- flat h q) (- side r q)).
  destruct (Rlt_le_dec (flat h (sub3 q w)) 0); [|lra]. destruct (Rlt_le_dec (side r (sub3 q w)) 0); [|lra]. tauto.
Qed.
(** two ways out: through the nearer face, and through the curved surface *)
Definition way_flat (h : R) (q : pt3) : pt3 := (0, 0, sg (z3 q) * flat h q).
Definition way_side (r : R) (q : pt3) : pt3 :=
  let n := norm (x3 q, y3 q) in if Rltb 0 n then (x3 q * ((n - r) / n), y3 q * ((n - r) / n), 0) else (r, 0, 0).
Lemma abs_sgR x : Rabs (sg x) = 1.
Proof. unfold sg. destruct (Rltb_spec x 0); [rewrite Rabs_left by lra; ring | apply Rabs_pos_eq; lra]. Qed.
Lemma way_flat_norm h q : norm3 (way_flat h q) = Rabs (flat h q).
Proof. unfold way_flat. rewrite norm3_axis_z, Rabs_mult, abs_sgR. ring. Qed.
Lemma way_flat_z h q : 0 <= h -> flat h (sub3 q (way_flat h q)) = 0.
Proof.
  intro H. unfold flat at 1, way_flat. change (z3 (sub3 q (0, 0, sg (z3 q) * flat h q))) with (z3 q - sg (z3 q) * (Rabs (z3 q) - h / 2)).
  replace (z3 q - sg (z3 q) * (Rabs (z3 q) - h / 2)) with (sg (z3 q) * (h / 2)).
  - rewrite Rabs_mult, abs_sgR, Rabs_pos_eq by lra. ring.
  - unfold sg. destruct (Rltb_spec (z3 q) 0); [rewrite Rabs_left by lra | rewrite Rabs_pos_eq by lra]; ring.
Qed.
Lemma way_flat_side h r q : side r (sub3 q (way_flat h q)) = side r q.
Proof. unfold side, way_flat. f_equal. f_equal. apply pt_eq; unfold sub3, x3, y3; cbn [fst snd]; ring. Qed.
Lemma way_side_xy r q : 0 <= r -> norm (x3 (sub3 q (way_side r q)), y3 (sub3 q (way_side r q))) = r /\ norm (x3 (way_side r q), y3 (way_side r q)) = Rabs (side r q) /\ z3 (way_side r q) = 0.
Proof.
  intro R. unfold way_side, side. set (n := norm (x3 q, y3 q)). pose proof (norm_nonneg (x3 q, y3 q)) as NN. fold n in NN. destruct (Rltb_spec 0 n) as [P|P].
  - assert (N0 : n <> 0) by lra. split; [|split; [|reflexivity]].
    + change (norm (x3 q - x3 q * ((n - r) / n), y3 q - y3 q * ((n - r) / n)) = r).
      replace (x3 q - x3 q * ((n - r) / n), y3 q - y3 q * ((n - r) / n)) with (pscale (r / n) (x3 q, y3 q)) by (apply pt_eq; cbn; field; exact N0).
      rewrite norm_scale. fold n. rewrite Rabs_pos_eq by (apply Rmult_le_pos; [lra | left; apply Rinv_0_lt_compat; lra]). field. exact N0.
    + change (norm (x3 q * ((n - r) / n), y3 q * ((n - r) / n)) = Rabs (n - r)).
      replace (x3 q * ((n - r) / n), y3 q * ((n - r) / n)) with (pscale ((n - r) / n) (x3 q, y3 q)) by (apply pt_eq; cbn; field; exact N0).
      rewrite norm_scale. fold n. rewrite <- (Rabs_pos_eq n) at 3 by lra. rewrite <- Rabs_mult. f_equal. field. exact N0.
  - assert (Z : n = 0) by lra. pose proof Z as Z0. apply norm_0 in Z0. injection Z0 as Zx Zy.
    change (x3 (sub3 q (r, 0, 0))) with (x3 q - r). change (y3 (sub3 q (r, 0, 0))) with (y3 q - 0). change (x3 (r, 0, 0)) with r. change (y3 (r, 0, 0)) with 0. rewrite Z, Zx, Zy. split; [|split; [|reflexivity]].
    + replace (0 - r, 0 - 0) with (- r, 0) by (apply pt_eq; cbn; ring). rewrite norm_xaxis, Rabs_Ropp. apply Rabs_pos_eq, R.
    + rewrite norm_xaxis. replace (0 - r) with (- r) by ring. symmetry. apply Rabs_Ropp.
Qed.
Lemma flat3_norm v : z3 v = 0 -> norm3 v = norm (x3 v, y3 v).
Proof. intro Z. apply norm3_eq; [apply norm_nonneg|]. rewrite norm_sq. unfold dot3, pdot; cbn [fst snd]. rewrite Z. ring. Qed.
Lemma way_side_norm r q : 0 <= r -> norm3 (way_side r q) = Rabs (side r q).
Proof. intro R. destruct (way_side_xy r q R) as (_ & N & Z). rewrite flat3_norm by exact Z. exact N. Qed.
Lemma way_side_side r q : 0 <= r -> side r (sub3 q (way_side r q)) = 0.
Proof. intro R. unfold side at 1. destruct (way_side_xy r q R) as (N & _). rewrite N. ring. Qed.
Lemma way_side_flat h r q : 0 <= r -> flat h (sub3 q (way_side r q)) = flat h q.
Proof. intro R. unfold flat. change (z3 (sub3 q (way_side r q))) with (z3 q - z3 (way_side r q)). destruct (way_side_xy r q R) as (_ & _ & Z). rewrite Z, Rminus_0_r. reflexivity. Qed.
Lemma way_flat_separates h r q : 0 <= h -> separates3 (way_flat h q) (cylinder3 h r) (single3 q).
Proof. intro H. apply cyl_separates. rewrite way_flat_z by exact H. lra. Qed.
Lemma way_side_separates h r q : 0 <= r -> separates3 (way_side r q) (cylinder3 h r) (single3 q).
Proof. intro R. apply cyl_separates. rewrite way_side_side by exact R. lra. Qed.
(** inside, each is a shortest way out exactly if the other is not shorter *)
Lemma way_flat_min h r q : 0 <= h -> 0 <= r -> flat h q < 0 -> side r q < 0 -> (is_min_separation3 (way_flat h q) (cylinder3 h r) (single3 q) <-> side r q <= flat h q).
Proof.
  intros H R F S. split.
  - intros [_ M]. specialize (M _ (way_side_separates h r q R)). rewrite way_flat_norm, way_side_norm in M by exact R. rewrite !Rabs_left in M by assumption. lra.
  - intro L. split; [apply way_flat_separates, H|]. intros w W. apply sep_lower in W. rewrite way_flat_norm, Rabs_left by exact F. rewrite Rmin_left in W; lra.
Qed.
Lemma way_side_min h r q : 0 <= h -> 0 <= r -> flat h q < 0 -> side r q < 0 -> (is_min_separation3 (way_side r q) (cylinder3 h r) (single3 q) <-> flat h q <= side r q).
Proof.
  intros H R F S. split.
  - intros [_ M]. specialize (M _ (way_flat_separates h r q H)). rewrite way_flat_norm, way_side_norm in M by exact R. rewrite !Rabs_left in M by assumption. lra.
  - intro L. split; [apply way_side_separates, R|]. intros w W. apply sep_lower in W. rewrite way_side_norm, Rabs_left by assumption. rewrite Rmin_right in W; lra.
Qed.
(** contact *)
Lemma cyl_meets h r q v : meets3 (shift3 v (cylinder3 h r)) (single3 q) <-> flat h (sub3 q v) <= 0 /\ side r (sub3 q v) <= 0.
Proof.
  rewrite meets3_single. unfold cylinder3, flat, side. split.
  - intros [A B]. split; [|lra]. apply Rabs_le in B. lra.
  - intros [A B]. split; [lra|]. revert A. unfold Rabs. destruct (Rcase_abs (z3 (sub3 q v))); lra.
Qed.
Lemma norm3_parts v : norm3 v * norm3 v = norm (x3 v, y3 v) * norm (x3 v, y3 v) + z3 v * z3 v.
Proof. rewrite norm3_sq, norm_sq. unfold dot3, pdot; cbn [fst snd]. ring. Qed.
Lemma contact_lower h r q w : meets3 (shift3 w (cylinder3 h r)) (single3 q) -> norm (Rmax (side r q) 0, Rmax (flat h q) 0) <= norm3 w.
Proof.
  intro M. apply cyl_meets in M. destruct M as [A B]. pose proof (side_sub r q w). pose proof (flat_sub h q w).
  apply norm_le_sq; [apply norm3_nonneg|]. rewrite norm3_parts. unfold pdot; cbn [fst snd].
  assert (X : Rmax (side r q) 0 <= norm (x3 w, y3 w)) by (apply Rmax_lub; [lra | apply norm_nonneg]).
  assert (Y : Rmax (flat h q) 0 <= Rabs (z3 w)) by (apply Rmax_lub; [lra | apply Rabs_pos]).
  pose proof (Rmax_r (side r q) 0). pose proof (Rmax_r (flat h q) 0).
  assert (Z : Rabs (z3 w) * Rabs (z3 w) = z3 w * z3 w) by (rewrite <- Rabs_mult; apply Rabs_pos_eq; nra).
  apply Rplus_le_compat; [apply Rmult_le_compat; assumption|]. rewrite <- Z. apply Rmult_le_compat; assumption.
Qed.
(** the shortest translation into contact: both parts, where positive *)
Definition way_in (h r : R) (q : pt3) : pt3 :=
  add3 (if Rltb 0 (side r q) then way_side r q else (0, 0, 0)) (if Rltb 0 (flat h q) then way_flat h q else (0, 0, 0)).
Lemma way_in_ok h r q : 0 <= h -> 0 <= r -> meets3 (shift3 (way_in h r q) (cylinder3 h r)) (single3 q) /\ norm3 (way_in h r q) = norm (Rmax (side r q) 0, Rmax (flat h q) 0).
Proof.
  intros H R. destruct (way_side_xy r q R) as (X1 & X2 & X3).
  assert (P : x3 (way_in h r q) = (if Rltb 0 (side r q) then x3 (way_side r q) else 0) /\ y3 (way_in h r q) = (if Rltb 0 (side r q) then y3 (way_side r q) else 0) /\ z3 (way_in h r q) = (if Rltb 0 (flat h q) then sg (z3 q) * flat h q else 0)).
  { unfold way_in. destruct (Rltb 0 (side r q)), (Rltb 0 (flat h q)); unfold add3, way_flat; rewrite ?X3; unfold x3, y3, z3; cbn [fst snd]; repeat split; try ring; unfold z3 in X3; rewrite X3; ring. }
  destruct P as (P1 & P2 & P3). split.
  - apply cyl_meets. split.
    + unfold flat at 1. change (z3 (sub3 q (way_in h r q))) with (z3 q - z3 (way_in h r q)). rewrite P3. destruct (Rltb_spec 0 (flat h q)) as [F|F].
      * pose proof (way_flat_z h q H) as E. unfold flat at 1 in E. change (z3 (sub3 q (way_flat h q))) with (z3 q - sg (z3 q) * flat h q) in E. lra.
      * rewrite Rminus_0_r. fold (flat h q). lra.
    + unfold side at 1. change (x3 (sub3 q (way_in h r q))) with (x3 q - x3 (way_in h r q)). change (y3 (sub3 q (way_in h r q))) with (y3 q - y3 (way_in h r q)). rewrite P1, P2. destruct (Rltb_spec 0 (side r q)) as [F|F].
      * change (norm (x3 q - x3 (way_side r q), y3 q - y3 (way_side r q)) = r) in X1. lra.
      * rewrite !Rminus_0_r. fold (side r q). lra.
  - apply norm3_eq; [apply norm_nonneg|]. rewrite norm_sq. unfold pdot; cbn [fst snd].
    assert (A : x3 (way_in h r q) * x3 (way_in h r q) + y3 (way_in h r q) * y3 (way_in h r q) = Rmax (side r q) 0 * Rmax (side r q) 0).
    { rewrite P1, P2. destruct (Rltb_spec 0 (side r q)) as [F|F].
      - rewrite Rmax_left by lra. transitivity (norm (x3 (way_side r q), y3 (way_side r q)) * norm (x3 (way_side r q), y3 (way_side r q))); [rewrite norm_sq; reflexivity|]. rewrite X2, Rabs_pos_eq by lra. reflexivity.
      - rewrite Rmax_right by lra. ring. }
    assert (B : z3 (way_in h r q) * z3 (way_in h r q) = Rmax (flat h q) 0 * Rmax (flat h q) 0).
    { rewrite P3. destruct (Rltb_spec 0 (flat h q)) as [F|F].
      - rewrite Rmax_left by lra. transitivity (sg (z3 q) * sg (z3 q) * (flat h q * flat h q)); [ring|]. rewrite sg_sq. ring.
      - rewrite Rmax_right by lra. ring. }
    unfold dot3. rewrite A, B. reflexivity.
Qed.
Lemma contact_iff h r q v : 0 <= h -> 0 <= r -> (is_min_contact3 v (cylinder3 h r) (single3 q) <->
  (flat h (sub3 q v) <= 0 /\ side r (sub3 q v) <= 0) /\ norm3 v = norm (Rmax (side r q) 0, Rmax (flat h q) 0)).
Proof.
  intros H R. destruct (way_in_ok h r q H R) as (M & N). split.
  - intros [A B]. split; [apply cyl_meets, A|]. apply Rle_antisym; [rewrite <- N; apply B, M | apply contact_lower, A].
  - intros [A B]. apply cyl_meets in A. split; [exact A|]. intros w W. rewrite B. apply contact_lower, W.
Qed.
(** the signed distance *)
Definition cyl_distance (h r : R) (q : pt3) : R :=
  if Rltb (flat h q) 0 && Rltb (side r q) 0 then Rmax (flat h q) (side r q) else norm (Rmax (side r q) 0, Rmax (flat h q) 0).
Lemma cyl_distance_ok h r q d : 0 <= h -> 0 <= r -> (is_signed_distance3 d (cylinder3 h r) (single3 q) <-> d = cyl_distance h r q).
Proof.
  intros H R. unfold is_signed_distance3, cyl_distance. rewrite cyl_overlaps.
  destruct (Rltb_spec (flat h q) 0) as [F|F]; [destruct (Rltb_spec (side r q) 0) as [S|S]|]; cbn [andb].
  - assert (E : exists v, is_min_separation3 v (cylinder3 h r) (single3 q) /\ norm3 v = - Rmax (flat h q) (side r q)).
    { destruct (Rle_dec (side r q) (flat h q)).
      - exists (way_flat h q). split; [apply way_flat_min; assumption|]. rewrite way_flat_norm, Rabs_left, Rmax_left by lra. reflexivity.
      - exists (way_side r q). split; [apply way_side_min; lra|]. rewrite way_side_norm, Rabs_left, Rmax_right by lra. reflexivity. }
    destruct E as (v & V & N). split.
    + intros [[_ (w & W & ->)] | [[]]]; [|tauto]. replace (norm3 w) with (norm3 v); [lra|]. apply Rle_antisym; [apply V, W | apply W, V].
    + intros ->. left. split; [tauto|]. exists v. split; [exact V | lra].
  - destruct (way_in_ok h r q H R) as (M & N). split.
    + intros [[[]] | [_ (w & W & ->)]]; [lra|]. apply contact_iff in W; [apply W | assumption..].
    + intros ->. right. split; [lra|]. exists (way_in h r q). split; [|symmetry; exact N]. split; [exact M|]. intros w W. rewrite N. apply contact_lower, W.
  - destruct (way_in_ok h r q H R) as (M & N). split.
    + intros [[[]] | [_ (w & W & ->)]]; [lra|]. apply contact_iff in W; [apply W | assumption..].
    + intros ->. right. split; [lra|]. exists (way_in h r q). split; [|symmetry; exact N]. split; [exact M|]. intros w W. rewrite N. apply contact_lower, W.
Qed.

(** ** The values of the model *)
Lemma ball_side (P D : bool) r q : 0 <= r ->
  ball_point_sdfv (TR := Tr_Vec2) P D (Ball (XFin r)) (V2 (XFin (x3 q)) (XFin (y3 q))) =
  (if Rltb 0 (norm (x3 q, y3 q)) then Rltb (norm (x3 q, y3 q)) r else true, V2 (XFin (x3 (way_side r q))) (XFin (y3 (way_side r q)))).
Proof.
  intro R. rewrite cyl_ball2 by exact R. unfold way_side. cbv zeta. destruct (Rltb 0 (norm (x3 q, y3 q))); [reflexivity|].
  rewrite Rmult_1_r, Rmult_0_r. reflexivity.
Qed.
Lemma Rltb_sq a b : 0 <= a -> Rltb (a * a) (b * b) = Rltb a (Rabs b).
Proof.
  intro A. pose proof (Rabs_pos b). assert (B : b * b = Rabs b * Rabs b) by (rewrite <- Rabs_mult; symmetry; apply Rabs_pos_eq; nra). rewrite B.
  destruct (Rltb_spec a (Rabs b)); [apply Rltb_true; nra | apply Rltb_false; nra].
Qed.
Lemma Rleb_sq a b : 0 <= a -> 0 <= b -> Rleb (a * a) (b * b) = Rleb a b.
Proof. intros A B. destruct (Rleb_spec a b); [apply Rleb_true; nra | apply Rleb_false; nra]. Qed.
Lemma sdfv_value h r q : 0 <= h -> 0 <= r -> forall T (TR : Transformation3d XR T) (rel : T), apply_origin3 rel = inj3 q ->
  sdfv_rel3 (mcyl h r) PointS rel = inj3 (
    if Rltb (flat h q) 0 then if Rltb (norm (x3 q, y3 q)) (- flat h q) then way_flat h q else way_side r q
    else if Rleb (norm (x3 q, y3 q)) r then way_flat h q else (x3 (way_side r q), y3 (way_side r q), flat h q)).
Proof.
  intros H R T TR rel O. set (n := norm (x3 q, y3 q)). pose proof (norm_nonneg (x3 q, y3 q)) as NN. fold n in NN.
  assert (NS : x3 q * x3 q + y3 q * y3 q = n * n) by (unfold n; rewrite norm_sq; reflexivity).
  rewrite mcyl_hh. unfold sdfv_rel3, Sdfv3_CylinderPoint, cylinder_to_ball. rewrite O.
  change (wx (inj3 q)) with (XFin (x3 q)); change (wy (inj3 q)) with (XFin (y3 q)); change (wz (inj3 q)) with (XFin (z3 q)).
  cbn [cy_radius cy_halfheight]. cbv zeta. unfold v2lensq, v2dot. cbn [vx vy fmul fadd fabs fsub FloatXR xmul xadd xabs xsub flt fle xlt xle f0].
  rewrite ball_side by exact R. cbn [snd vx vy]. rewrite !fsignum_fin. rewrite NS. fold (flat h q).
  assert (Z : z3 (way_side r q) = 0) by (apply way_side_xy, R).
  assert (E : inj3 (way_side r q) = V3 (XFin (x3 (way_side r q))) (XFin (y3 (way_side r q))) (XFin 0)) by (unfold inj3; rewrite Z; reflexivity).
  destruct (Rltb_spec (flat h q) 0) as [F|F].
  - rewrite Rltb_sq by exact NN. rewrite Rabs_left by exact F. destruct (Rltb n (- flat h q)); [reflexivity | symmetry; exact E].
  - rewrite Rleb_sq by assumption. destruct (Rleb n r); [reflexivity|].
    replace (sg (flat h q)) with 1 by (unfold sg; rewrite Rltb_false by lra; reflexivity). cbn [fmul FloatXR xmul]. rewrite Rmult_1_l. reflexivity.
Qed.

(** ** The theorems *)
(** sdfv. Point inside: always a way out; the shortest one exactly if the surface it picks (the plane of the face when farther from it than from
    the axis, else the curved one) is the nearer. Point not inside: right exactly if, between the planes of the faces, it is at least as far from the
    axis as from the nearer plane; beyond them, if it is not below the rim *)
Theorem C78_sdfv_iff : forall h r q, 0 <= h -> 0 <= r -> forall T (TR : Transformation3d XR T) (rel : T), apply_origin3 rel = inj3 q ->
  let n := norm (x3 q, y3 q) in exists v, sdfv_rel3 (mcyl h r) PointS rel = inj3 v /\
  (overlaps3 (cylinder3 h r) (single3 q) ->
     separates3 v (cylinder3 h r) (single3 q) /\
     (is_min_separation3 v (cylinder3 h r) (single3 q) <-> if Rltb n (- flat h q) then side r q <= flat h q else flat h q <= side r q)) /\
  (~ overlaps3 (cylinder3 h r) (single3 q) ->
     (is_min_contact3 v (cylinder3 h r) (single3 q) <->
        (flat h q < 0 -> - flat h q <= n) /\ (0 < flat h q -> n <= r \/ 0 <= z3 q))).
Proof.
  intros h r q H R T TR rel O n. eexists. split; [apply sdfv_value; eassumption|]. fold n. rewrite cyl_overlaps.
  pose proof (norm_nonneg (x3 q, y3 q)) as NN. fold n in NN. assert (Sn : side r q = n - r) by reflexivity. split.
  - intros [F S]. rewrite (Rltb_true (flat h q) 0) by exact F. destruct (Rltb_spec n (- flat h q)) as [L|L].
    + split; [apply way_flat_separates, H | apply way_flat_min; assumption].
    + split; [apply way_side_separates, R | apply way_side_min; assumption].
  - intro NO. destruct (way_side_xy r q R) as (X1 & X2 & X3). destruct (Rltb_spec (flat h q) 0) as [F|F].
    + assert (S : 0 <= side r q) by (apply Rnot_lt_le; tauto). destruct (Rltb_spec n (- flat h q)) as [L|L].
      * split; [|intros [A _]; specialize (A F); lra]. intro C. apply contact_iff in C; [|assumption..]. destruct C as [[_ C] N]. rewrite way_flat_side in C.
        assert (S0 : side r q = 0) by lra. rewrite way_flat_norm, S0, Rmax_right, Rmax_right, norm_xaxis, Rabs_R0, Rabs_left in N by lra. lra.
      * split; [intros _; split; [intros _; lra | intro; lra]|]. intros _. apply contact_iff; [assumption..|].
        rewrite way_side_flat, way_side_side, way_side_norm by exact R. split; [lra|]. rewrite Rmax_left, Rmax_right, norm_xaxis by lra. reflexivity.
    + apply Rnot_lt_le in F. destruct (Rleb_spec n r) as [L|L].
      * split; [intros _; split; [lra | auto]|]. intros _. apply contact_iff; [assumption..|].
        rewrite way_flat_z, way_flat_side, way_flat_norm by exact H. split; [lra|]. rewrite Rmax_right, Rmax_left, norm_yaxis by lra. reflexivity.
      * apply Rnot_le_lt in L. set (v := (x3 (way_side r q), y3 (way_side r q), flat h q)).
        assert (Sv : side r (sub3 q v) = 0).
        { unfold side at 1. change (norm (x3 (sub3 q (way_side r q)), y3 (sub3 q (way_side r q))) - r = 0). lra. }
        assert (Fv : flat h (sub3 q v) = Rabs (z3 q - flat h q) - h / 2) by reflexivity.
        assert (Nv : norm3 v = norm (Rmax (side r q) 0, Rmax (flat h q) 0)).
        { apply norm3_eq; [apply norm_nonneg|]. rewrite norm_sq, !Rmax_left by lra. unfold pdot; cbn [fst snd].
          change (x3 (way_side r q) * x3 (way_side r q) + y3 (way_side r q) * y3 (way_side r q) + flat h q * flat h q = side r q * side r q + flat h q * flat h q).
          f_equal. transitivity (norm (x3 (way_side r q), y3 (way_side r q)) * norm (x3 (way_side r q), y3 (way_side r q))); [rewrite norm_sq; reflexivity|]. rewrite X2, Rabs_pos_eq by lra. reflexivity. }
        rewrite contact_iff by assumption. rewrite Sv, Fv, Nv. split.
        { intros [[A _] _]. split; [lra|]. intro G. right. apply Rnot_lt_le. intro Q. unfold flat in A, G. rewrite (Rabs_left (z3 q)) in A, G by exact Q. rewrite Rabs_left in A by lra. lra. }
        intros [_ B]. split; [split; [|lra]|reflexivity]. destruct (Req_dec (flat h q) 0) as [Z|Z]; [rewrite Z, Rminus_0_r; fold (flat h q); lra|].
        destruct (B ltac:(lra)) as [B1|B1]; [lra|]. unfold flat. rewrite (Rabs_pos_eq (z3 q)) by exact B1. replace (z3 q - (z3 q - h / 2)) with (h / 2) by ring. rewrite Rabs_pos_eq; lra.
Qed.
Print Assumptions C78_sdfv_iff.

(** penetrates is Some exactly when collides is true. For a point inside, its answer is a way out exactly if the point is at least as far from the
    middle plane as from the axis, or in the middle plane; and a shortest one exactly if in addition the surface chosen is the nearer *)
Theorem C78_penetrates_iff : forall h r q, 0 <= h -> 0 <= r -> forall T (TR : Transformation3d XR T) (rel : T), apply_origin3 rel = inj3 q ->
  let n := norm (x3 q, y3 q) in
  (penetrates_rel3 (mcyl h r) PointS rel = None <-> collides_rel3 (mcyl h r) PointS rel = false) /\
  (overlaps3 (cylinder3 h r) (single3 q) -> exists v, penetrates_rel3 (mcyl h r) PointS rel = Some (inj3 v) /\
    (separates3 v (cylinder3 h r) (single3 q) <-> n <= Rabs (z3 q) \/ z3 q = 0) /\
    (is_min_separation3 v (cylinder3 h r) (single3 q) <->
       (n <= Rabs (z3 q) /\ flat h q <= side r q) \/ (Rabs (z3 q) < n /\ z3 q = 0 /\ side r q <= flat h q))).
Proof.
  intros h r q H R T TR rel O n. pose proof (norm_nonneg (x3 q, y3 q)) as NN. fold n in NN.
  assert (NS : x3 q * x3 q + y3 q * y3 q = n * n) by (unfold n; rewrite norm_sq; reflexivity).
  pose proof (C49_cylinder_collides_iff h r q H R T TR rel O) as CI. fold n in CI.
  assert (V : penetrates_rel3 (mcyl h r) PointS rel = if collides_rel3 (mcyl h r) PointS rel then
    if Rltb (Rabs (z3 q)) n then Some (inj3 (0, 0, sg (z3 q) * (h / 2))) else
      if (if Rltb 0 n then Rltb n r else true) then Some (inj3 (way_side r q)) else None else None).
  { clear CI. unfold penetrates_rel3 at 1, Pen3_CylinderPoint. destruct (collides_rel3 (mcyl h r) PointS rel); [|reflexivity]. rewrite mcyl_hh. unfold cylinder_to_ball. rewrite O.
    change (wx (inj3 q)) with (XFin (x3 q)); change (wy (inj3 q)) with (XFin (y3 q)); change (wz (inj3 q)) with (XFin (z3 q)).
    cbn [cy_radius cy_halfheight]. cbv zeta. unfold v2lensq, v2dot. cbn [vx vy fmul fadd FloatXR xmul xadd flt xlt f0].
    rewrite ball_side by exact R. fold n. rewrite NS. rewrite fsignum_fin.
    replace (z3 q * z3 q) with (Rabs (z3 q) * Rabs (z3 q)) by (rewrite <- Rabs_mult; apply Rabs_pos_eq; nra).
    rewrite Rltb_sq by apply Rabs_pos. rewrite (Rabs_pos_eq n) by exact NN. destruct (Rltb (Rabs (z3 q)) n); [reflexivity|].
    destruct (if Rltb 0 n then Rltb n r else true); [|reflexivity]. destruct (way_side_xy r q R) as (_ & _ & Z). unfold inj3. rewrite Z. reflexivity. }
  assert (K : (if Rltb 0 n then Rltb n r else true) = true <-> n < r \/ x3 q = 0 /\ y3 q = 0).
  { destruct (Rltb_spec 0 n) as [P|P].
    - destruct (Rltb_spec n r); [tauto|]. split; [discriminate|]. intros [|[A B]]; [tauto|]. unfold n in P. rewrite A, B in P. rewrite (proj2 (norm_0 (0, 0)) eq_refl) in P. lra.
    - split; [|reflexivity]. intros _. right. assert (Z : n = 0) by lra. apply norm_0 in Z. injection Z; auto. }
  rewrite V. split.
  - destruct (collides_rel3 (mcyl h r) PointS rel) eqn:C; [|tauto]. split; [|discriminate]. destruct (Rltb (Rabs (z3 q)) n); [discriminate|].
    destruct (proj1 CI eq_refl) as [_ B]. apply K in B. rewrite B. discriminate.
  - intro OV. apply cyl_overlaps in OV. destruct OV as [F S]. assert (Sn : side r q = n - r) by reflexivity. unfold flat in F.
    rewrite (proj2 CI) by (split; [lra | left; lra]). destruct (Rltb_spec (Rabs (z3 q)) n) as [L|L].
    + set (v := (0, 0, sg (z3 q) * (h / 2))). exists v. split; [reflexivity|].
      assert (Sv : side r (sub3 q v) = side r q). { unfold side, v. f_equal. f_equal. apply pt_eq; unfold sub3, x3, y3; cbn [fst snd]; ring. }
      assert (SP : separates3 v (cylinder3 h r) (single3 q) <-> z3 q = 0).
      { rewrite cyl_separates, Sv. unfold flat. change (z3 (sub3 q v)) with (z3 q - sg (z3 q) * (h / 2)).
        assert (A : Rabs (z3 q - sg (z3 q) * (h / 2)) = h / 2 - Rabs (z3 q)).
        { unfold sg. destruct (Rltb_spec (z3 q) 0) as [Q|Q]; [rewrite (Rabs_left (z3 q)) in * by exact Q | rewrite (Rabs_pos_eq (z3 q)) in * by lra]; [rewrite Rabs_pos_eq by lra | rewrite Rabs_left by lra]; ring. }
        rewrite A. pose proof (Rabs_pos (z3 q)). split.
        - intro B. destruct (Req_dec (z3 q) 0) as [|NZ]; [assumption|]. apply Rabs_pos_lt in NZ. exfalso. apply B. split; [lra | exact S].
        - intros -> [B _]. rewrite Rabs_R0 in B. lra. }
      split; [rewrite SP; split; [tauto | intros [|]; [lra | assumption]]|]. split.
      * intro M. right. destruct M as [M1 M2]. apply SP in M1. split; [exact L|]. split; [exact M1|].
        specialize (M2 _ (way_side_separates h r q R)). rewrite way_side_norm, Rabs_left in M2 by assumption. unfold v in M2. rewrite norm3_axis_z, Rabs_mult, abs_sgR, Rabs_pos_eq in M2 by lra.
        unfold flat. rewrite M1, Rabs_R0. lra.
      * intros [[]|(_ & Z & M)]; [lra|]. split; [apply SP, Z|]. intros w W. apply sep_lower in W. unfold v. rewrite norm3_axis_z, Rabs_mult, abs_sgR, Rabs_pos_eq by lra.
        assert (FZ : flat h q = - (h / 2)) by (unfold flat; rewrite Z, Rabs_R0; ring). rewrite Rmin_left in W by lra. lra.
    + rewrite (proj2 K) by lra. exists (way_side r q). split; [reflexivity|]. split.
      * split; [intros _; left; lra | intros _; apply way_side_separates, R].
      * rewrite way_side_min by (assumption || exact F). split; [intro; left; lra | intros [|]; [tauto | lra]].
Qed.
Print Assumptions C78_penetrates_iff.

(** the scalar sdf is the signed distance exactly if: nearer to the axis than to the plane of a face, that plane decides and the point is not outside the
    curved surface; otherwise the curved surface decides and the point is not beyond the faces *)
Theorem C78_sdf_iff : forall h r q, 0 <= h -> 0 <= r -> forall T (TR : Transformation3d XR T) (rel : T), apply_origin3 rel = inj3 q ->
  exists d, sdf_rel3 (mcyl h r) PointS rel = XFin d /\
  (is_signed_distance3 d (cylinder3 h r) (single3 q) <->
     if Rltb (norm (x3 q, y3 q)) (Rabs (flat h q)) then side r q <= flat h q /\ side r q <= 0 else flat h q <= side r q /\ flat h q <= 0).
Proof.
  intros h r q H R T TR rel O. set (n := norm (x3 q, y3 q)). pose proof (norm_nonneg (x3 q, y3 q)) as NN. fold n in NN. assert (Sn : side r q = n - r) by reflexivity.
  assert (NS : x3 q * x3 q + y3 q * y3 q = n * n) by (unfold n; rewrite norm_sq; reflexivity).
  exists (if Rltb n (Rabs (flat h q)) then flat h q else side r q). split.
  { rewrite mcyl_hh. unfold sdf_rel3, Sdf3_CylinderPoint, cylinder_to_ball, ball_point_sdf. rewrite O.
    change (wx (inj3 q)) with (XFin (x3 q)); change (wy (inj3 q)) with (XFin (y3 q)); change (wz (inj3 q)) with (XFin (z3 q)).
    cbn [cy_radius cy_halfheight apply_origin Tr_Vec2 b_radius]. cbv zeta. unfold v2len, v2lensq, v2dot. cbn [vx vy fmul fadd fabs fsub fsqrt FloatXR xmul xadd xabs xsub xsqrt flt xlt f0].
    rewrite NS. fold (flat h q). rewrite Rltb_sq by exact NN. destruct (Rltb n (Rabs (flat h q))); [reflexivity|]. rewrite Rltb_false by nra. cbn [xsub xadd xneg]. rewrite sqrt_square by exact NN. reflexivity. }
  rewrite cyl_distance_ok by assumption. unfold cyl_distance.
  assert (NB : forall a b, 0 < a -> 0 < b -> a < norm (a, b) /\ b < norm (a, b)).
  { intros a b A B. assert (E : norm (a, b) * norm (a, b) = a * a + b * b) by (rewrite norm_sq; reflexivity). pose proof (norm_nonneg (a, b)). split; nra. }
  assert (N1 : forall a, 0 <= a -> norm (a, 0) = a) by (intros a A; rewrite norm_xaxis; apply Rabs_pos_eq, A).
  assert (N2 : forall a, 0 <= a -> norm (0, a) = a) by (intros a A; rewrite norm_yaxis; apply Rabs_pos_eq, A).
  destruct (Rltb_spec n (Rabs (flat h q))) as [L|L].
  - destruct (Rltb_spec (flat h q) 0) as [F|F]; [destruct (Rltb_spec (side r q) 0) as [S|S]|]; cbn [andb].
    + split; [intro E | intros [A B]; rewrite Rmax_left by lra; reflexivity]. pose proof (Rmax_r (flat h q) (side r q)). lra.
    + rewrite (Rmax_left (side r q)), (Rmax_right (flat h q)), N1 by lra. split; intros; lra.
    + rewrite (Rmax_left (flat h q)) by lra. destruct (Rle_lt_dec (side r q) 0) as [S|S].
      * rewrite Rmax_right, N2 by lra. split; intros; lra.
      * rewrite Rmax_left by lra. split; [|lra]. intro E. destruct (Req_dec (flat h q) 0) as [Z|Z]; [rewrite Z, N1 in E by lra; lra|]. destruct (NB (side r q) (flat h q)) as [X1 X2]; lra.
  - apply Rnot_lt_le in L. destruct (Rltb_spec (flat h q) 0) as [F|F]; [destruct (Rltb_spec (side r q) 0) as [S|S]|]; cbn [andb].
    + split; [intro E | intros [A B]; rewrite Rmax_right by lra; reflexivity]. pose proof (Rmax_l (flat h q) (side r q)). lra.
    + rewrite (Rmax_left (side r q)), (Rmax_right (flat h q)), N1 by lra. split; intros; lra.
    + rewrite (Rmax_left (flat h q)) by lra. destruct (Rle_lt_dec (side r q) 0) as [S|S].
      * rewrite Rmax_right, N2 by lra. split; intros; lra.
      * rewrite Rmax_left by lra. split.
        { intro E. destruct (Req_dec (flat h q) 0) as [Z|Z]; [lra|]. destruct (NB (side r q) (flat h q)) as [X1 X2]; lra. }
        intros [A B]. assert (Z : flat h q = 0) by lra. rewrite Z, N1 by lra. reflexivity.
Qed.
Print Assumptions C78_sdf_iff.

(** ** The hypotheses are met, on both sides of each equivalence *)
(** the cylinder of height 4 and radius 3/2: near the top face sdfv gives a shortest way out; at (1,0,0) it gives a way out that is not shortest; the
    point (2,0,0), outside beside it, gets a right answer, and (2,0,0) beside the cylinder of height 20 and radius 1 gets a wrong one *)
Example C78_case :
  (overlaps3 (cylinder3 4 (3/2)) (single3 (1, 0, 1/2)) /\ exists v, sdfv_rel3 (mcyl 4 (3/2)) PointS (inj3 (1, 0, 1/2)) = inj3 v /\ separates3 v (cylinder3 4 (3/2)) (single3 (1, 0, 1/2)) /\ ~ is_min_separation3 v (cylinder3 4 (3/2)) (single3 (1, 0, 1/2))) /\
  (overlaps3 (cylinder3 4 (3/2)) (single3 (1/4, 0, 3/2)) /\ exists v, sdfv_rel3 (mcyl 4 (3/2)) PointS (inj3 (1/4, 0, 3/2)) = inj3 v /\ is_min_separation3 v (cylinder3 4 (3/2)) (single3 (1/4, 0, 3/2))) /\
  (~ overlaps3 (cylinder3 4 (3/2)) (single3 (2, 0, 0)) /\ exists v, sdfv_rel3 (mcyl 4 (3/2)) PointS (inj3 (2, 0, 0)) = inj3 v /\ is_min_contact3 v (cylinder3 4 (3/2)) (single3 (2, 0, 0))) /\
  (exists v, sdfv_rel3 (mcyl 20 1) PointS (inj3 (2, 0, 0)) = inj3 v /\ ~ is_min_contact3 v (cylinder3 20 1) (single3 (2, 0, 0))).
Proof.
  assert (NX : forall a, 0 <= a -> norm (a, 0) = a) by (intros a A; rewrite norm_xaxis; apply Rabs_pos_eq, A).
  assert (F1 : flat 4 (1, 0, 1/2) = - (3/2)) by (unfold flat, z3; cbn [snd]; rewrite Rabs_pos_eq by lra; field).
  assert (S1 : side (3/2) (1, 0, 1/2) = - (1/2)) by (unfold side, x3, y3; cbn [fst snd]; rewrite NX by lra; field).
  assert (F2 : flat 4 (1/4, 0, 3/2) = - (1/2)) by (unfold flat, z3; cbn [snd]; rewrite Rabs_pos_eq by lra; field).
  assert (S2 : side (3/2) (1/4, 0, 3/2) = - (5/4)) by (unfold side, x3, y3; cbn [fst snd]; rewrite NX by lra; field).
  assert (F3 : flat 4 (2, 0, 0) = - 2) by (unfold flat, z3; cbn [snd]; rewrite Rabs_R0; field).
  assert (S3 : side (3/2) (2, 0, 0) = 1/2) by (unfold side, x3, y3; cbn [fst snd]; rewrite NX by lra; field).
  assert (F4 : flat 20 (2, 0, 0) = - 10) by (unfold flat, z3; cbn [snd]; rewrite Rabs_R0; field).
  assert (S4 : side 1 (2, 0, 0) = 1) by (unfold side, x3, y3; cbn [fst snd]; rewrite NX by lra; field).
  split; [|split; [|split]].
  - assert (OV : overlaps3 (cylinder3 4 (3/2)) (single3 (1, 0, 1/2))) by (apply cyl_overlaps; rewrite F1, S1; lra). split; [exact OV|].
    destruct (C78_sdfv_iff 4 (3/2) (1, 0, 1/2) ltac:(lra) ltac:(lra) _ Tr3_Vec3 (inj3 (1, 0, 1/2)) eq_refl) as (v & E & A & _). exists v. split; [exact E|].
    destruct (A OV) as [A1 A2]. split; [exact A1|]. rewrite A2. unfold x3, y3; cbn [fst snd]. rewrite NX, F1, S1, Rltb_true by lra. lra.
  - assert (OV : overlaps3 (cylinder3 4 (3/2)) (single3 (1/4, 0, 3/2))) by (apply cyl_overlaps; rewrite F2, S2; lra). split; [exact OV|].
    destruct (C78_sdfv_iff 4 (3/2) (1/4, 0, 3/2) ltac:(lra) ltac:(lra) _ Tr3_Vec3 (inj3 (1/4, 0, 3/2)) eq_refl) as (v & E & A & _). exists v. split; [exact E|].
    destruct (A OV) as [A1 A2]. apply A2. unfold x3, y3; cbn [fst snd]. rewrite NX, F2, S2, Rltb_true by lra. lra.
  - assert (OV : ~ overlaps3 (cylinder3 4 (3/2)) (single3 (2, 0, 0))) by (rewrite cyl_overlaps, F3, S3; lra). split; [exact OV|].
    destruct (C78_sdfv_iff 4 (3/2) (2, 0, 0) ltac:(lra) ltac:(lra) _ Tr3_Vec3 (inj3 (2, 0, 0)) eq_refl) as (v & E & _ & A). exists v. split; [exact E|].
    apply (A OV). unfold x3, y3, z3; cbn [fst snd]. rewrite NX, F3 by lra. split; intros; lra.
  - destruct (C78_sdfv_iff 20 1 (2, 0, 0) ltac:(lra) ltac:(lra) _ Tr3_Vec3 (inj3 (2, 0, 0)) eq_refl) as (v & E & _ & A). exists v. split; [exact E|].
    assert (OV : ~ overlaps3 (cylinder3 20 1) (single3 (2, 0, 0))) by (rewrite cyl_overlaps, F4, S4; lra).
    rewrite (A OV). unfold x3, y3, z3; cbn [fst snd]. rewrite NX, F4 by lra. intros [B _]. specialize (B ltac:(lra)). lra.
Qed.
