(** * C74: Box3d v Box3d through their Minkowski sum ([cfg(minkowski)], never set at this commit; see Extra3.v). *)
From Coq Require Import Reals ZArith Lra Lia Bool List.
From Flocq Require Import Core BinarySingleNaN.
From Verif Require Import Num NumXR NumB32 Glam Transform2 Shapes2 Gjk Detect2 Misc Col3 Extra3 Spec SpecLink P_Base P_Transform P_Shapes P_Geo3 P_3d Props_3d Props_3dDefects P_B32 Props_F32 Props_Approx P_Space32 P_Drift Spec32s Props_Space32 Props_Ext3.
Local Open Scope R_scope.

(** Two bodies meet where their difference contains the offset. *)
Lemma meets_sum u v (A B : pset3) : (forall p, B p -> B (neg3 p)) -> (meets3 (shift3 u A) (shift3 v B) <-> meets3 (shift3 u (minkowski_sum3 A B)) (single3 v)).
Proof.
  intro N. rewrite meets3_single. split.
  - intros (p & P & Q). exists (sub3 p u), (neg3 (sub3 p v)). split; [exact P|]. split; [apply N, Q|]. apply pt3_eq; v3; ring.
  - intros (a & b & PA & PB & E). exists (add3 a u). split.
    + unfold shift3. replace (sub3 (add3 a u) u) with a by (apply pt3_eq; v3; ring). exact PA.
    + unfold shift3. replace (sub3 (add3 a u) v) with (neg3 b); [apply N, PB|]. pose proof (f_equal x3 E) as X. pose proof (f_equal y3 E) as Y. pose proof (f_equal z3 E) as Z. unfold sub3, add3, neg3, x3, y3, z3 in * . cbn [fst snd] in * . f_equal; [f_equal|]; lra.
Qed.
Lemma shift_shift u w (A : pset3) p : shift3 u (shift3 w A) p <-> shift3 (add3 u w) A p.
Proof. unfold shift3. replace (sub3 (sub3 p u) w) with (sub3 p (add3 u w)) by (apply pt3_eq; v3; ring). apply iff_refl. Qed.
Section Swap.
Variables (A B A' B' : pset3).
Hypothesis M : forall u, meets3 (shift3 u A) B <-> meets3 (shift3 u A') B'.
Lemma swap_overlaps w : overlaps3 (shift3 w A) B <-> overlaps3 (shift3 w A') B'.
Proof.
  assert (E : forall X Y u, meets3 (shift3 u (shift3 w X)) Y <-> meets3 (shift3 (add3 u w) X) Y).
  { intros X Y u. split; intros (p & P & Q); exists p; (split; [apply (shift_shift u w X p); exact P | exact Q]). }
  unfold overlaps3. split; intros (e & Pe & H); exists e; (split; [exact Pe|]); intros u U; apply E; apply M, E, H, U.
Qed.
Lemma swap_overlaps0 : overlaps3 A B <-> overlaps3 A' B'.
Proof. unfold overlaps3. split; intros (e & Pe & H); exists e; (split; [exact Pe|]); intros u U; apply M, H, U. Qed.
Lemma swap_answers c p s : answers3 A' B' c p s -> answers3 A B c p s.
Proof.
  assert (S : forall w, separates3 w A B <-> separates3 w A' B') by (intro w; unfold separates3; pose proof (swap_overlaps w); tauto).
  intros [(O & v & (V1 & V2) & R)|(O & v & (V1 & V2) & R)]; [left | right].
  - split; [apply swap_overlaps0, O|]. exists v. split; [split; [apply S, V1 | intros w W; apply V2, S, W] | exact R].
  - split; [intro O'; apply O, swap_overlaps0, O'|]. exists v. split; [split; [apply M, V1 | intros w W; apply V2, M, W] | exact R].
Qed.
Lemma swap_distance d : is_signed_distance3 d A' B' -> is_signed_distance3 d A B.
Proof.
  assert (S : forall w, separates3 w A B <-> separates3 w A' B') by (intro w; unfold separates3; pose proof (swap_overlaps w); tauto).
  intros [(O & v & (V1 & V2) & E)|(O & v & (V1 & V2) & E)]; [left | right].
  - split; [apply swap_overlaps0, O|]. exists v. split; [split; [apply S, V1 | intros w W; apply V2, S, W] | exact E].
  - split; [intro O'; apply O, swap_overlaps0, O'|]. exists v. split; [split; [apply M, V1 | intros w W; apply V2, M, W] | exact E].
Qed.
End Swap.
Lemma box_sym hx hy hz p : box3 hx hy hz p -> box3 hx hy hz (neg3 p).
Proof. unfold box3, neg3, x3, y3, z3. cbn [fst snd]. lra. Qed.

(** The second box placed by a pure translation: flag, penetration and distance vector are the true ones. *)
Theorem C74_box_box_exact : forall ax ay az bx by' bz v, 0 <= ax -> 0 <= ay -> 0 <= az -> 0 <= bx -> 0 <= by' -> 0 <= bz ->
  forall T (TR : Transformation3d XR T) (rel : T), apply_origin3 rel = inj3 v ->
  let a := mbox3 ax ay az in let b := mbox3 bx by' bz in
  answers3 (box3 ax ay az) (shift3 v (box3 bx by' bz)) (sum_collides box3_minkowski_sum a b rel) (sum_penetrates box3_minkowski_sum a b rel) (sum_sdfv box3_minkowski_sum a b rel) /\
  (sum_collides box3_minkowski_sum a b rel = true <-> Rabs (x3 v) < ax + bx /\ Rabs (y3 v) < ay + by' /\ Rabs (z3 v) < az + bz).
Proof.
  intros ax ay az bx by' bz v A1 A2 A3 B1 B2 B3 T TR rel O a b. destruct (C49_box3_minkowski_sum ax ay az bx by' bz A1 A2 A3 B1 B2 B3) as (E & S).
  unfold sum_collides, sum_penetrates, sum_sdfv, a, b. rewrite E. destruct (C48_box3_point_exact (ax + bx) (ay + by') (az + bz) v ltac:(lra) ltac:(lra) ltac:(lra) T TR rel O) as (H1 & H2). split; [|exact H2].
  apply (swap_answers _ _ (box3 (ax + bx) (ay + by') (az + bz)) (single3 v)); [|exact H1]. intro u. rewrite (meets_sum u v (box3 ax ay az) (box3 bx by' bz) (box_sym bx by' bz)).
  rewrite !meets3_single. apply S.
Qed.
Print Assumptions C74_box_box_exact.
(** A rotation of the second box is ignored: the unit box at (21/10, 0, 0) turned about z by the angle with cosine 7/25 reaches into the unit box at
    the origin, and is reported apart. *)
Theorem C74_rotated_refuted : let rel := Isotropic3d (inj3 (21/10, 0, 0)) (quat_of 0 0 (3/5) (4/5)) (XFin 1) in
  sum_collides box3_minkowski_sum (mbox3 1 1 1) (mbox3 1 1 1) rel = false /\
  overlaps3 (box3 1 1 1) (fun q => exists p, box3 1 1 1 p /\ apply3 rel (inj3 p) = inj3 q).
Proof.
  intro rel. destruct (C74_box_box_exact 1 1 1 1 1 1 (21/10, 0, 0) ltac:(lra) ltac:(lra) ltac:(lra) ltac:(lra) ltac:(lra) ltac:(lra) _ Tr3_Isotropic3d rel eq_refl) as (_ & F). split.
  - apply not_true_is_false. intro E. apply F in E. destruct E as (E & _). unfold x3 in E. cbn [fst snd] in E. rewrite Rabs_pos_eq in E by lra. lra.
  - exists (1/10). split; [lra|]. intros w W. destruct (coord_le_norm3 w) as (X & Y & Z).
    exists (43/50, -17/25, 0). split.
    + apply Rabs_le_iff in X. apply Rabs_le_iff in Y. apply Rabs_le_iff in Z. unfold shift3, box3, sub3, x3, y3, z3 in * . cbn [fst snd] in * . lra.
    + exists (-1, 1, 0). split; [unfold box3, x3, y3, z3; cbn [fst snd]; lra|].
      change (v3add (qrot (quat_of 0 0 (3/5) (4/5)) (v3smul (XFin 1) (inj3 (-1, 1, 0)))) (inj3 (21/10, 0, 0)) = inj3 (43/50, -17/25, 0)). rewrite v3smul_fin, qrot_fin, v3add_fin. f_equal. apply pt3_eq; v3; field.
Qed.
Print Assumptions C74_rotated_refuted.
(** so is a scale *)
Theorem C74_scaled_refuted : let rel := AxisTransform3d (inj3 (3, 0, 0)) (XFin 3) in
  sum_collides box3_minkowski_sum (mbox3 1 1 1) (mbox3 1 1 1) rel = false /\
  overlaps3 (box3 1 1 1) (fun q => exists p, box3 1 1 1 p /\ apply3 rel (inj3 p) = inj3 q).
Proof.
  intro rel. destruct (C74_box_box_exact 1 1 1 1 1 1 (3, 0, 0) ltac:(lra) ltac:(lra) ltac:(lra) ltac:(lra) ltac:(lra) ltac:(lra) _ Tr3_Axis3d rel eq_refl) as (_ & F). split.
  - apply not_true_is_false. intro E. apply F in E. destruct E as (E & _). unfold x3 in E. cbn [fst snd] in E. rewrite Rabs_pos_eq in E by lra. lra.
  - exists (1/10). split; [lra|]. intros w W. destruct (coord_le_norm3 w) as (X & Y & Z). exists (1/2, 0, 0). split.
    + apply Rabs_le_iff in X. apply Rabs_le_iff in Y. apply Rabs_le_iff in Z. unfold shift3, box3, sub3, x3, y3, z3 in * . cbn [fst snd] in * . lra.
    + exists (-5/6, 0, 0). split; [unfold box3, x3, y3, z3; cbn [fst snd]; lra|].
      change (v3add (inj3 (3, 0, 0)) (v3smul (XFin 3) (inj3 (-5/6, 0, 0))) = inj3 (1/2, 0, 0)). rewrite v3smul_fin, v3add_fin. f_equal. apply pt3_eq; v3; field.
Qed.
Print Assumptions C74_scaled_refuted.
(** The signed distance is the true one except in the two columns above and below the summed box (where Box3d v Point itself is wrong, C48). *)
Theorem C74_box_box_sdf : forall ax ay az bx by' bz v, 0 <= ax -> 0 <= ay -> 0 <= az -> 0 <= bx -> 0 <= by' -> 0 <= bz ->
  ~ (Rabs (x3 v) < ax + bx /\ Rabs (y3 v) < ay + by' /\ az + bz <= Rabs (z3 v)) ->
  forall T (TR : Transformation3d XR T) (rel : T), apply_origin3 rel = inj3 v ->
  exists d, sum_sdf box3_minkowski_sum (mbox3 ax ay az) (mbox3 bx by' bz) rel = XFin d /\ is_signed_distance3 d (box3 ax ay az) (shift3 v (box3 bx by' bz)).
Proof.
  intros ax ay az bx by' bz v A1 A2 A3 B1 B2 B3 H T TR rel O. destruct (C49_box3_minkowski_sum ax ay az bx by' bz A1 A2 A3 B1 B2 B3) as (E & S).
  destruct (C48_box3_point_sdf (ax + bx) (ay + by') (az + bz) v ltac:(lra) ltac:(lra) ltac:(lra) H T TR rel O) as (d & D1 & D2 & _).
  exists d. split; [unfold sum_sdf; rewrite E; exact D1|]. revert D2. apply swap_distance. intro u. rewrite (meets_sum u v (box3 ax ay az) (box3 bx by' bz) (box_sym bx by' bz)).
  rewrite !meets3_single. apply S.
Qed.
Print Assumptions C74_box_box_sdf.
(** a case that touches none of the exceptions: boxes 1x1x1 and 2x1x3 (half sizes), offset (2, 1, -3): they overlap; offset (4, 0, 0): they do not *)
Example C74_case : sum_collides box3_minkowski_sum (mbox3 1 1 1) (mbox3 2 1 3) (Translate3d (inj3 (2, 1, -3))) = true /\
  sum_collides box3_minkowski_sum (mbox3 1 1 1) (mbox3 2 1 3) (inj3 (4, 0, 0)) = false /\ ~ (Rabs (x3 (2, 1, -3)) < 1 + 2 /\ Rabs (y3 (2, 1, -3)) < 1 + 1 /\ 1 + 3 <= Rabs (z3 (2, 1, -3))).
Proof.
  destruct (C74_box_box_exact 1 1 1 2 1 3 (2, 1, -3) ltac:(lra) ltac:(lra) ltac:(lra) ltac:(lra) ltac:(lra) ltac:(lra) _ Tr3_Translate3d (Translate3d (inj3 (2, 1, -3))) eq_refl) as (_ & F).
  destruct (C74_box_box_exact 1 1 1 2 1 3 (4, 0, 0) ltac:(lra) ltac:(lra) ltac:(lra) ltac:(lra) ltac:(lra) ltac:(lra) _ Tr3_Vec3 (inj3 (4, 0, 0)) eq_refl) as (_ & G).
  unfold x3, y3, z3 in * . cbn [fst snd] in * . assert (Z : Rabs (-3) = 3) by (rewrite Rabs_left; lra). split; [|split].
  - apply F. rewrite Z, !Rabs_pos_eq; lra.
  - apply not_true_is_false. intro E. apply G in E. destruct E as (E & _). rewrite Rabs_pos_eq in E; lra.
  - rewrite Z. intros (_ & _ & E). lra.
Qed.

(** ** f32 *)
(** The flag for the f32 boxes a and b, b moved by the stored offset c: true only if the boxes grown by one part in 2^24 overlap, and always if the boxes
    shrunk by one part in 2^24 do. *)
Theorem C74_flag_f32 : forall (T : Type) (TR : Transformation3d b32 T) (a b : box3d b32) (rel : T), half3_ok (halfsize3 a) -> half3_ok (halfsize3 b) -> fin3 (apply_origin3 rel) ->
  let c := rval3 (apply_origin3 rel) in let flag := sum_collides box3_minkowski_sum a b rel in
  let body k (s : box3d b32) := box3 (k * val (wx (halfsize3 s))) (k * val (wy (halfsize3 s))) (k * val (wz (halfsize3 s))) in
  (flag = true -> overlaps3 (body (1 + u32) a) (shift3 c (body (1 + u32) b))) /\ (overlaps3 (body (1 - u32) a) (shift3 c (body (1 - u32) b)) -> flag = true).
Proof.
  intros T TR a b rel Ha Hb Fc c flag body. destruct (C69_minkowski_sum a b Ha Hb) as (Fs & X & Y & Z & _).
  destruct Ha as (_ & A1 & A2 & A3). destruct Hb as (_ & B1 & B2 & B3). pose proof u32_pos as U0. pose proof u32_small as U1.
  pose proof (C67_box_flag T TR (halfsize3 (box3_minkowski_sum a b)) rel Fs Fc) as K.
  assert (K' : flag = true <-> Rabs (x3 c) < val (wx (halfsize3 (box3_minkowski_sum a b))) /\ Rabs (y3 c) < val (wy (halfsize3 (box3_minkowski_sum a b))) /\ Rabs (z3 c) < val (wz (halfsize3 (box3_minkowski_sum a b)))).
  { exact (iff_trans K (box3_inside _ _ _ _)). }
  assert (OV : forall k, 0 <= k -> overlaps3 (body k a) (shift3 c (body k b)) <-> Rabs (x3 c) < k * (val (wx (halfsize3 a)) + val (wx (halfsize3 b))) /\ Rabs (y3 c) < k * (val (wy (halfsize3 a)) + val (wy (halfsize3 b))) /\ Rabs (z3 c) < k * (val (wz (halfsize3 a)) + val (wz (halfsize3 b)))).
  { intros k Hk. pose proof (Rmult_le_pos k _ Hk A1). pose proof (Rmult_le_pos k _ Hk A2). pose proof (Rmult_le_pos k _ Hk A3). pose proof (Rmult_le_pos k _ Hk B1). pose proof (Rmult_le_pos k _ Hk B2). pose proof (Rmult_le_pos k _ Hk B3).
    rewrite !Rmult_plus_distr_l. unfold body. rewrite <- box3_inside. refine (swap_overlaps0 _ _ _ _ _). intro u. rewrite (meets_sum u c _ _ (box_sym _ _ _)). rewrite !meets3_single.
    match goal with HA : 0 <= k * val (wx (halfsize3 a)), HB : 0 <= k * val (wy (halfsize3 a)), HC : 0 <= k * val (wz (halfsize3 a)), HD : 0 <= k * val (wx (halfsize3 b)), HE : 0 <= k * val (wy (halfsize3 b)), HF : 0 <= k * val (wz (halfsize3 b)) |- _ => apply (proj2 (C49_box3_minkowski_sum _ _ _ _ _ _ HA HB HC HD HE HF)) end. }
  apply abs_le2' in X. apply abs_le2' in Y. apply abs_le2' in Z.
  split; intro H.
  - apply OV; [lra|]. apply K' in H. lra.
  - apply K'. apply OV in H; lra.
Qed.
Print Assumptions C74_flag_f32.
Example C74_f32_case : half3_ok case3_h /\ fin3 case3_b /\ fin3 (V3 (b32_of 5 0) (b32_of 1 0) (b32_of 1 (-1))) /\ sum_collides box3_minkowski_sum (Box3d case3_h) (Box3d case3_h) case3_b = false /\
  sum_collides box3_minkowski_sum (Box3d case3_h) (Box3d case3_h) (V3 (b32_of 5 0) (b32_of 1 0) (b32_of 1 (-1))) = true.
Proof. destruct C67_box_case as (H & _ & (Fb & _) & _). split; [exact H|]. split; [exact Fb|]. split; [repeat split; vm_compute; reflexivity|]. split; vm_compute; reflexivity. Qed.
