(** * Property theorems C48 (3D box and ball against a point) and C49 (3D defects). *)
From Coq Require Import Reals Lra Psatz Bool.
From Verif Require Import Num NumXR Glam Transform2 Shapes2 Gjk Detect2 Col3 Spec SpecLink P_Base P_Geo3 P_3d.
Local Open Scope R_scope.

(** What it means for the 3D queries to be right for bodies A (self) and B. *)
Definition answers3 (A B : pset3) (collides : bool) (penetrates : option (vec3 XR)) (sdfv : vec3 XR) : Prop :=
  (overlaps3 A B /\ exists v, is_min_separation3 v A B /\ collides = true /\ penetrates = Some (inj3 v) /\ sdfv = inj3 v)
  \/ (~ overlaps3 A B /\ exists v, is_min_contact3 v A B /\ collides = false /\ penetrates = None /\ sdfv = inj3 v).
Definition mbox3 (hx hy hz : R) : box3d XR := Box3d (inj3 (hx, hy, hz)).

(** ** Geometry *)
Definition sg (x : R) : R := if Rltb x 0 then -1 else 1.
Lemma sg_abs x : x * sg x = Rabs x.
Proof. unfold sg. destruct (Rltb_spec x 0). - rewrite Rabs_left by lra; ring. - rewrite Rabs_pos_eq by lra; ring. Qed.
Lemma sg_sq x : sg x * sg x = 1.
Proof. unfold sg. destruct (Rltb_spec x 0); ring. Qed.
Lemma abs_sg a x : Rabs (a * sg x) = Rabs a.
Proof. rewrite Rabs_mult. replace (Rabs (sg x)) with 1; [ring|]. unfold sg. destruct (Rltb_spec x 0); [rewrite Rabs_left | rewrite Rabs_pos_eq]; lra. Qed.
Lemma abs_sub_lower a b : Rabs a - Rabs b <= Rabs (a - b).
Proof. apply Rabs_triang_inv. Qed.

Lemma sep_box3 hx hy hz q w : separates3 w (box3 hx hy hz) (single3 q) ->
  hx <= Rabs (x3 q - x3 w) \/ hy <= Rabs (y3 q - y3 w) \/ hz <= Rabs (z3 q - z3 w).
Proof.
  intro S. unfold separates3 in S. rewrite overlaps3_single, box3_interior in S.
  change (x3 (sub3 q w)) with (x3 q - x3 w) in S. change (y3 (sub3 q w)) with (y3 q - y3 w) in S.
  change (z3 (sub3 q w)) with (z3 q - z3 w) in S.
  destruct (Rle_lt_dec hx (Rabs (x3 q - x3 w))); [left; assumption|].
  destruct (Rle_lt_dec hy (Rabs (y3 q - y3 w))); [right; left; assumption|].
  destruct (Rle_lt_dec hz (Rabs (z3 q - z3 w))); [right; right; assumption|]. exfalso; apply S; auto.
Qed.
(** a translation that puts the point on the boundary plane of one axis, no longer than any axis slack *)
Lemma box3_min_sep hx hy hz q v :
  Rabs (x3 q) < hx -> Rabs (y3 q) < hy -> Rabs (z3 q) < hz ->
  (hx <= Rabs (x3 q - x3 v) \/ hy <= Rabs (y3 q - y3 v) \/ hz <= Rabs (z3 q - z3 v)) ->
  norm3 v <= hx - Rabs (x3 q) -> norm3 v <= hy - Rabs (y3 q) -> norm3 v <= hz - Rabs (z3 q) ->
  is_min_separation3 v (box3 hx hy hz) (single3 q).
Proof.
  intros X Y Z S Nx Ny Nz. split.
  - unfold separates3. rewrite overlaps3_single, box3_interior.
    change (x3 (sub3 q v)) with (x3 q - x3 v). change (y3 (sub3 q v)) with (y3 q - y3 v). change (z3 (sub3 q v)) with (z3 q - z3 v). lra.
  - intros w W. apply sep_box3 in W. destruct (coord_le_norm3 w) as [Wx [Wy Wz]].
    assert (T : forall a b, Rabs (a - b) <= Rabs a + Rabs b).
    { intros a b. replace (a - b) with (a + - b) by ring. rewrite <- (Rabs_Ropp b). apply Rabs_triang. }
    pose proof (T (x3 q) (x3 w)); pose proof (T (y3 q) (y3 w)); pose proof (T (z3 q) (z3 w)).
    destruct W as [W | [W | W]]; lra.
Qed.
Lemma box3_contact hx hy hz q : 0 <= hx -> 0 <= hy -> 0 <= hz ->
  is_min_contact3 (Rmax (Rabs (x3 q) - hx) 0 * sg (x3 q), Rmax (Rabs (y3 q) - hy) 0 * sg (y3 q), Rmax (Rabs (z3 q) - hz) 0 * sg (z3 q))
    (box3 hx hy hz) (single3 q).
Proof.
  intros Hx Hy Hz.
  assert (C : forall h a, 0 <= h -> - h <= a - Rmax (Rabs a - h) 0 * sg a <= h).
  { intros h a H. unfold Rmax, sg. destruct (Rle_dec (Rabs a - h) 0) as [L|L]; destruct (Rltb_spec a 0) as [N|N];
      revert L; unfold Rabs; destruct (Rcase_abs a); lra. }
  assert (M : forall h a b, - h <= a - b <= h -> (Rmax (Rabs a - h) 0 * sg a) * (Rmax (Rabs a - h) 0 * sg a) <= b * b).
  { intros h a b H. replace (Rmax (Rabs a - h) 0 * sg a * (Rmax (Rabs a - h) 0 * sg a)) with (Rmax (Rabs a - h) 0 * Rmax (Rabs a - h) 0 * (sg a * sg a)) by ring.
    rewrite sg_sq, Rmult_1_r. unfold Rmax. destruct (Rle_dec (Rabs a - h) 0) as [L|L]; [nra|].
    apply Rnot_le_lt in L. revert L. unfold Rabs; destruct (Rcase_abs a); intro L.
    + assert (0 < - a - h <= - b) by lra. nra.
    + assert (0 < a - h <= b) by lra. nra. }
  split.
  - apply meets3_single. unfold box3, sub3, x3, y3, z3; cbn [fst snd]. repeat split; apply C; assumption.
  - intros w W. apply meets3_single in W. unfold box3 in W. destruct W as [Wx [Wy Wz]].
    apply norm3_le_norm.
    pose proof (M hx (x3 q) (x3 w) Wx) as Mx. pose proof (M hy (y3 q) (y3 w) Wy) as My. pose proof (M hz (z3 q) (z3 w) Wz) as Mz.
    set (A1 := Rmax (Rabs (x3 q) - hx) 0 * sg (x3 q)) in * . set (A2 := Rmax (Rabs (y3 q) - hy) 0 * sg (y3 q)) in * .
    set (A3 := Rmax (Rabs (z3 q) - hz) 0 * sg (z3 q)) in * .
    change (A1 * A1 + A2 * A2 + A3 * A3 <= dot3 w w). unfold dot3. lra.
Qed.

(** ** The code on finite values *)
Lemma fsignum_fin x : fsignum (XFin x) = XFin (sg x).
Proof. unfold fsignum, sg. cbn. destruct (Rltb x 0); reflexivity. Qed.
Lemma fmax_fin a b : fmax (XFin a) (XFin b) = XFin (Rmax a b).
Proof.
  unfold fmax; cbn. destruct (Rltb_spec a b).
  - f_equal. symmetry. apply Rmax_right. lra.
  - f_equal. symmetry. apply Rmax_left. lra.
Qed.
Lemma box3_collides_b hx hy hz q {T} {TR : Transformation3d XR T} (rel : T) : apply_origin3 rel = inj3 q ->
  collides_rel3 (mbox3 hx hy hz) PointS rel = Rltb (Rabs (x3 q)) hx && Rltb (Rabs (y3 q)) hy && Rltb (Rabs (z3 q)) hz.
Proof.
  intro O. unfold collides_rel3, Col3_BoxPoint. rewrite O. cbn -[Rltb].
  assert (A : forall a h, Rltb (- h) a && Rltb a h = Rltb (Rabs a) h).
  { intros a h. destruct (Rltb_spec (Rabs a) h) as [L|L].
    - apply Rabs_def2 in L. rewrite !Rltb_true by lra. reflexivity.
    - destruct (Rltb_spec (- h) a) as [L1|L1]; [|reflexivity]. destruct (Rltb_spec a h) as [L2|L2]; [|reflexivity].
      exfalso; apply L. apply Rabs_def1; lra. }
  unfold x3, y3, z3; cbn [fst snd]. rewrite <- !A, !andb_assoc. reflexivity.
Qed.

Theorem C48_box3_point_exact : forall hx hy hz q, 0 <= hx -> 0 <= hy -> 0 <= hz ->
  forall T (TR : Transformation3d XR T) (rel : T), apply_origin3 rel = inj3 q ->
  answers3 (box3 hx hy hz) (single3 q)
    (collides_rel3 (mbox3 hx hy hz) PointS rel) (penetrates_rel3 (mbox3 hx hy hz) PointS rel) (sdfv_rel3 (mbox3 hx hy hz) PointS rel) /\
  (collides_rel3 (mbox3 hx hy hz) PointS rel = true <-> Rabs (x3 q) < hx /\ Rabs (y3 q) < hy /\ Rabs (z3 q) < hz).
Proof.
  intros hx hy hz q Hx Hy Hz T TR rel O.
  pose proof (box3_collides_b hx hy hz q rel O) as CB.
  assert (OV : overlaps3 (box3 hx hy hz) (single3 q) <-> Rabs (x3 q) < hx /\ Rabs (y3 q) < hy /\ Rabs (z3 q) < hz).
  { rewrite overlaps3_single0. apply box3_interior. }
  assert (IFF : collides_rel3 (mbox3 hx hy hz) PointS rel = true <-> Rabs (x3 q) < hx /\ Rabs (y3 q) < hy /\ Rabs (z3 q) < hz).
  { rewrite CB. destruct (Rltb_spec (Rabs (x3 q)) hx), (Rltb_spec (Rabs (y3 q)) hy), (Rltb_spec (Rabs (z3 q)) hz); cbn; intuition congruence. }
  split; [|exact IFF].
  destruct (collides_rel3 (mbox3 hx hy hz) PointS rel) eqn:E.
  - destruct (proj1 IFF eq_refl) as [X [Y Z]]. left. split; [apply OV; auto|].
    set (dx := Rabs (x3 q) - hx) in * . set (dy := Rabs (y3 q) - hy) in * . set (dz := Rabs (z3 q) - hz) in * .
    set (v := if Rltb dy dx then (if Rltb dx dz then (0, 0, dz * sg (z3 q)) else (dx * sg (x3 q), 0, 0))
              else (if Rltb dy dz then (0, 0, dz * sg (z3 q)) else (0, dy * sg (y3 q), 0))).
    exists v. split; [|split; [reflexivity|split]].
    + assert (SX : hx <= Rabs (x3 q - dx * sg (x3 q))).
      { replace (x3 q) with (Rabs (x3 q) * sg (x3 q)) at 1 by (rewrite <- sg_abs, Rmult_assoc, sg_sq; ring).
        replace (Rabs (x3 q) * sg (x3 q) - dx * sg (x3 q)) with (hx * sg (x3 q)) by (unfold dx; ring). rewrite abs_sg. apply Rle_abs. }
      assert (SY : hy <= Rabs (y3 q - dy * sg (y3 q))).
      { replace (y3 q) with (Rabs (y3 q) * sg (y3 q)) at 1 by (rewrite <- sg_abs, Rmult_assoc, sg_sq; ring).
        replace (Rabs (y3 q) * sg (y3 q) - dy * sg (y3 q)) with (hy * sg (y3 q)) by (unfold dy; ring). rewrite abs_sg. apply Rle_abs. }
      assert (SZ : hz <= Rabs (z3 q - dz * sg (z3 q))).
      { replace (z3 q) with (Rabs (z3 q) * sg (z3 q)) at 1 by (rewrite <- sg_abs, Rmult_assoc, sg_sq; ring).
        replace (Rabs (z3 q) * sg (z3 q) - dz * sg (z3 q)) with (hz * sg (z3 q)) by (unfold dz; ring). rewrite abs_sg. apply Rle_abs. }
      assert (NX : norm3 (dx * sg (x3 q), 0, 0) = - dx) by (rewrite norm3_axis_x, abs_sg; apply Rabs_left; unfold dx; lra).
      assert (NY : norm3 (0, dy * sg (y3 q), 0) = - dy) by (rewrite norm3_axis_y, abs_sg; apply Rabs_left; unfold dy; lra).
      assert (NZ : norm3 (0, 0, dz * sg (z3 q)) = - dz) by (rewrite norm3_axis_z, abs_sg; apply Rabs_left; unfold dz; lra).
      unfold v.
      destruct (Rltb_spec dy dx); [destruct (Rltb_spec dx dz) | destruct (Rltb_spec dy dz)]; apply box3_min_sep; auto; unfold dx, dy, dz in *; try lra.
    + unfold penetrates_rel3, Pen3_BoxPoint. rewrite E, O. cbn -[Rltb fsignum]. rewrite !fsignum_fin. unfold v.
      change (fst (fst q)) with (x3 q). change (snd (fst q)) with (y3 q). change (snd q) with (z3 q).
      fold dx dy dz. destruct (Rltb dy dx); [destruct (Rltb dx dz) | destruct (Rltb dy dz)]; reflexivity.
    + unfold sdfv_rel3, Sdfv3_BoxPoint. rewrite E, O. cbn -[Rltb fsignum]. rewrite !fsignum_fin. unfold v.
      fold dx dy dz. destruct (Rltb dy dx); [destruct (Rltb dx dz) | destruct (Rltb dy dz)]; reflexivity.
  - right. split; [intro H; apply OV, IFF in H; discriminate|].
    eexists. split; [apply box3_contact; assumption|]. split; [reflexivity|]. split.
    + unfold penetrates_rel3, Pen3_BoxPoint. rewrite E. reflexivity.
    + unfold sdfv_rel3, Sdfv3_BoxPoint. rewrite E, O. cbn -[fmax fsignum]. rewrite !fmax_fin, !fsignum_fin. reflexivity.
Qed.
Print Assumptions C48_box3_point_exact.

(** The scalar: right except above and below the box, where the two in-plane distances are negative and the code adds
    the square of one of them. *)
Lemma box3_sdf_cases hx hy hz q T (TR : Transformation3d XR T) (rel : T) : apply_origin3 rel = inj3 q ->
  let dx := Rabs (x3 q) - hx in let dy := Rabs (y3 q) - hy in let dz := Rabs (z3 q) - hz in
  sdf_rel3 (mbox3 hx hy hz) PointS rel =
    if collides_rel3 (mbox3 hx hy hz) PointS rel then XFin (Rmax (Rmax dx dy) dz)
    else if Rltb dz 0 then
      if Rltb dx 0 then XFin dy else if Rltb dy 0 then XFin dx else XFin (norm3 (dx, dy, 0))
    else if Rltb dx 0 then XFin (norm3 (0, dy, dz)) else if Rltb dy 0 then XFin (norm3 (dx, 0, dz)) else XFin (norm3 (dx, dy, dz)).
Proof.
  intros O dx dy dz. unfold sdf_rel3, Sdf3_BoxPoint. rewrite O. cbn -[Rltb fmax v2len v3len collides_rel3].
  rewrite !fmax_fin. fold dx dy dz.
  assert (L2 : forall a b, v2len (V2 (XFin a) (XFin b)) = XFin (sqrt (a * a + b * b))).
  { intros. unfold v2len, v2dot; cbn. rewrite Rltb_false by nra. reflexivity. }
  assert (L3 : forall a b c, v3len (V3 (XFin a) (XFin b) (XFin c)) = XFin (norm3 (a, b, c))).
  { intros. unfold v3len, v3dot; cbn. rewrite Rltb_false by nra. reflexivity. }
  change (fst (fst q)) with (x3 q). change (snd (fst q)) with (y3 q). change (snd q) with (z3 q). fold dx dy dz.
  destruct (collides_rel3 _ _ _); [reflexivity|]. rewrite !L2, L3. unfold norm3, dot3, x3, y3, z3; cbn [fst snd].
  destruct (Rltb dz 0), (Rltb dx 0), (Rltb dy 0); try reflexivity; f_equal; f_equal; ring.
Qed.

Theorem C48_box3_point_sdf : forall hx hy hz q, 0 <= hx -> 0 <= hy -> 0 <= hz ->
  ~ (Rabs (x3 q) < hx /\ Rabs (y3 q) < hy /\ hz <= Rabs (z3 q)) ->
  forall T (TR : Transformation3d XR T) (rel : T), apply_origin3 rel = inj3 q ->
  exists d, sdf_rel3 (mbox3 hx hy hz) PointS rel = XFin d /\ is_signed_distance3 d (box3 hx hy hz) (single3 q) /\
    exists v, sdfv_rel3 (mbox3 hx hy hz) PointS rel = inj3 v /\ norm3 v = Rabs d.
Proof.
  intros hx hy hz q Hx Hy Hz NB T TR rel O.
  destruct (C48_box3_point_exact hx hy hz q Hx Hy Hz T TR rel O) as [A IFF].
  rewrite (box3_sdf_cases hx hy hz q T TR rel O).
  set (dx := Rabs (x3 q) - hx) in * . set (dy := Rabs (y3 q) - hy) in * . set (dz := Rabs (z3 q) - hz) in * .
  destruct A as [[OV [v [M [C [P S]]]]] | [NO [v [M [C [P S]]]]]]; rewrite C.
  - assert (IN := proj1 IFF C). exists (Rmax (Rmax dx dy) dz). split; [reflexivity|].
    assert (N : norm3 v = - Rmax (Rmax dx dy) dz).
    { unfold sdfv_rel3, Sdfv3_BoxPoint in S. rewrite C, O in S. cbn -[Rltb fsignum] in S. rewrite !fsignum_fin in S.
      change (fst (fst q)) with (x3 q) in S. change (snd (fst q)) with (y3 q) in S. change (snd q) with (z3 q) in S. fold dx dy dz in S.
      destruct IN as [X [Y Z]].
      assert (NX : norm3 (dx * sg (x3 q), 0, 0) = - dx) by (rewrite norm3_axis_x, abs_sg; apply Rabs_left; unfold dx; lra).
      assert (NY : norm3 (0, dy * sg (y3 q), 0) = - dy) by (rewrite norm3_axis_y, abs_sg; apply Rabs_left; unfold dy; lra).
      assert (NZ : norm3 (0, 0, dz * sg (z3 q)) = - dz) by (rewrite norm3_axis_z, abs_sg; apply Rabs_left; unfold dz; lra).
      unfold Rmax. destruct (Rltb_spec dy dx) as [L1|L1]; [destruct (Rltb_spec dx dz) as [L2|L2] | destruct (Rltb_spec dy dz) as [L2|L2]];
        [change (inj3 (0, 0, dz * sg (z3 q)) = inj3 v) in S | change (inj3 (dx * sg (x3 q), 0, 0) = inj3 v) in S
        | change (inj3 (0, 0, dz * sg (z3 q)) = inj3 v) in S | change (inj3 (0, dy * sg (y3 q), 0) = inj3 v) in S];
        apply inj3_inj in S; subst v; rewrite ?NX, ?NY, ?NZ;
        destruct (Rle_dec dx dy); destruct (Rle_dec _ dz); lra. }
    split; [left; split; [exact OV|]; exists v; split; [exact M|]; lra|].
    exists v. split; [exact S|]. rewrite Rabs_left1; [exact N|]. pose proof (norm3_nonneg v). lra.
  - assert (OUT : ~ (dx < 0 /\ dy < 0 /\ dz < 0)).
    { intros [X [Y Z]]. unfold dx, dy, dz in * . rewrite (proj2 IFF) in C by (repeat split; lra). discriminate. }
    assert (V : v = (Rmax dx 0 * sg (x3 q), Rmax dy 0 * sg (y3 q), Rmax dz 0 * sg (z3 q))).
    { unfold sdfv_rel3, Sdfv3_BoxPoint in S. rewrite C, O in S. cbn -[fmax fsignum] in S. rewrite !fmax_fin, !fsignum_fin in S.
      apply inj3_inj. rewrite <- S. reflexivity. }
    assert (N : norm3 v = norm3 (Rmax dx 0, Rmax dy 0, Rmax dz 0)).
    { rewrite V. unfold norm3. f_equal. unfold dot3, x3 at 1 3 5 7, y3 at 1 3 5 7, z3 at 1 3 5 7; cbn [fst snd].
      transitivity (Rmax dx 0 * Rmax dx 0 * (sg (x3 q) * sg (x3 q)) + Rmax dy 0 * Rmax dy 0 * (sg (y3 q) * sg (y3 q)) + Rmax dz 0 * Rmax dz 0 * (sg (z3 q) * sg (z3 q))).
      - unfold x3, y3, z3; cbn [fst snd]; ring.
      - rewrite !sg_sq. unfold x3, y3, z3; cbn [fst snd]; ring. }
    assert (KEY : exists d, (if Rltb dz 0
       then if Rltb dx 0 then XFin dy else if Rltb dy 0 then XFin dx else XFin (norm3 (dx, dy, 0))
       else if Rltb dx 0 then XFin (norm3 (0, dy, dz)) else if Rltb dy 0 then XFin (norm3 (dx, 0, dz)) else XFin (norm3 (dx, dy, dz))) = XFin d
       /\ d = norm3 v).
    { rewrite N. eexists. split.
      - instantiate (1 := norm3 (Rmax dx 0, Rmax dy 0, Rmax dz 0)).
        destruct (Rltb_spec dz 0) as [LZ|LZ]; destruct (Rltb_spec dx 0) as [LX|LX]; destruct (Rltb_spec dy 0) as [LY|LY]; f_equal.
        all: try (exfalso; apply OUT; repeat split; lra).
        all: try (exfalso; apply NB; unfold dx, dy, dz in *; repeat split; lra).
        all: repeat match goal with
          | |- context [Rmax ?a 0] => first [rewrite (Rmax_left a 0) by lra | rewrite (Rmax_right a 0) by lra] end; try reflexivity.
        + rewrite norm3_axis_y, Rabs_pos_eq by lra. reflexivity.
        + rewrite norm3_axis_x, Rabs_pos_eq by lra. reflexivity.
      - reflexivity. }
    destruct KEY as [d [K1 K2]]. exists d. split; [exact K1|]. split.
    + right. split; [exact NO|]. exists v. split; [exact M | exact K2].
    + exists v. split; [exact S|]. rewrite K2, Rabs_pos_eq; [reflexivity | apply norm3_nonneg].
Qed.
Print Assumptions C48_box3_point_sdf.

(** Above or below the box (strictly inside its footprint) the reported distance is too large. *)
Theorem C48_box3_point_sdf_refuted : forall hx hy hz q, 0 <= hz ->
  Rabs (x3 q) < hx -> Rabs (y3 q) < hy -> hz <= Rabs (z3 q) ->
  forall T (TR : Transformation3d XR T) (rel : T), apply_origin3 rel = inj3 q ->
  is_signed_distance3 (Rabs (z3 q) - hz) (box3 hx hy hz) (single3 q) /\
  exists d, sdf_rel3 (mbox3 hx hy hz) PointS rel = XFin d /\ Rabs (z3 q) - hz < d /\ ~ is_signed_distance3 d (box3 hx hy hz) (single3 q).
Proof.
  intros hx hy hz q Hz X Y Z T TR rel O.
  assert (Hx : 0 <= hx) by (pose proof (Rabs_pos (x3 q)); lra). assert (Hy : 0 <= hy) by (pose proof (Rabs_pos (y3 q)); lra).
  destruct (C48_box3_point_exact hx hy hz q Hx Hy Hz T TR rel O) as [A IFF].
  set (dx := Rabs (x3 q) - hx) in * . set (dy := Rabs (y3 q) - hy) in * . set (dz := Rabs (z3 q) - hz) in * .
  assert (C : collides_rel3 (mbox3 hx hy hz) PointS rel = false).
  { destruct (collides_rel3 (mbox3 hx hy hz) PointS rel); [|reflexivity]. destruct (proj1 IFF eq_refl) as [_ [_ B]]. lra. }
  pose proof (box3_contact hx hy hz q Hx Hy Hz) as M. fold dx dy dz in M.
  rewrite (Rmax_right dx 0), (Rmax_right dy 0), (Rmax_left dz 0) in M by (unfold dx, dy, dz in *; lra). rewrite !Rmult_0_l in M.
  assert (NV : norm3 (0, 0, dz * sg (z3 q)) = dz) by (rewrite norm3_axis_z, abs_sg; apply Rabs_pos_eq; unfold dz; lra).
  assert (NO : ~ overlaps3 (box3 hx hy hz) (single3 q)).
  { rewrite overlaps3_single0, box3_interior. intros [_ [_ B]]. lra. }
  assert (SD : is_signed_distance3 dz (box3 hx hy hz) (single3 q)).
  { right. split; [exact NO|]. eexists. split; [exact M | symmetry; exact NV]. }
  split; [exact SD|].
  exists (norm3 (0, dy, dz)). rewrite (box3_sdf_cases hx hy hz q T TR rel O), C. fold dx dy dz.
  rewrite (Rltb_false dz 0), (Rltb_true dx 0) by (unfold dx, dz in *; lra). split; [reflexivity|].
  assert (LT : dz < norm3 (0, dy, dz)).
  { apply Rnot_le_lt. intro L. apply norm3_le_sq in L; [|unfold dz; lra]. unfold dot3, x3, y3, z3 in L; cbn [fst snd] in L.
    assert (dy < 0) by (unfold dy; lra). nra. }
  split; [exact LT|]. intros [[OV _] | [_ [v [Mv E]]]]; [contradiction|].
  destruct Mv as [_ Mv]. destruct M as [M _]. specialize (Mv _ M). lra.
Qed.
Print Assumptions C48_box3_point_sdf_refuted.

(** ** Ball *)
Lemma ball3_sep r q v : 0 <= r -> norm3 q < r -> norm3 (sub3 q v) = r -> norm3 v = r - norm3 q ->
  is_min_separation3 v (ball3 r) (single3 q).
Proof.
  intros R Q B N. split.
  - unfold separates3. rewrite overlaps3_single, ball3_interior. lra.
  - intros w W. unfold separates3 in W. rewrite overlaps3_single, ball3_interior in W.
    apply Rnot_lt_le in W. pose proof (norm3_triangle q (neg3 w)) as T. rewrite norm3_neg in T.
    replace (add3 q (neg3 w)) with (sub3 q w) in T by (apply pt3_eq; u3; ring). lra.
Qed.
Lemma ball3_contact r q v : 0 <= r -> norm3 (sub3 q v) <= r -> norm3 v = norm3 q - r ->
  is_min_contact3 v (ball3 r) (single3 q).
Proof.
  intros R B N. split.
  - apply meets3_single. exact B.
  - intros w W. apply meets3_single in W. unfold ball3 in W.
    pose proof (norm3_triangle (sub3 q w) w) as T. replace (add3 (sub3 q w) w) with q in T by (apply pt3_eq; u3; ring). lra.
Qed.
Lemma v3len_fin p : v3len (inj3 p) = XFin (norm3 p).
Proof. unfold v3len, v3dot, norm3, dot3; cbn. rewrite Rltb_false by (unfold x3, y3, z3; nra). reflexivity. Qed.
Lemma ball3_sdfv_fin r q T (TR : Transformation3d XR T) (rel : T) : apply_origin3 rel = inj3 q ->
  sdfv_rel3 (pball r) PointS rel = if Rltb 0 (norm3 q) then inj3 (scale3 ((norm3 q - r) / norm3 q) q) else inj3 (r, 0, 0).
Proof.
  intro O. unfold sdfv_rel3, Sdfv3_BallPoint. rewrite O, v3len_fin. cbn [flt FloatXR f0 xlt].
  destruct (Rltb_spec 0 (norm3 q)) as [P|P].
  - cbn [fsub FloatXR xsub b_radius pball]. rewrite fdiv_fin by lra. apply v3muls_fin.
  - apply vec3_ext; cbn; f_equal; u3; ring.
Qed.
Lemma ball3_collides_fin r q T (TR : Transformation3d XR T) (rel : T) : 0 <= r -> apply_origin3 rel = inj3 q ->
  collides_rel3 (pball r) PointS rel = Rltb (norm3 q) r.
Proof.
  intros R O. unfold collides_rel3, Col3_BallPoint. rewrite O. unfold v3lensq, v3dot; cbn -[Rltb].
  fold (dot3 q q). destruct (Rltb_spec (norm3 q) r) as [L|L].
  - apply Rltb_true. apply norm3_lt_sq; assumption.
  - apply Rltb_false. apply Rnot_lt_le. intro H. apply L. apply norm3_lt_sq; assumption.
Qed.

Lemma two23 : IZR (2 ^ 23)%Z = 2 ^ 23.
Proof. change (2 ^ 23)%Z with 8388608%Z. lra. Qed.

(** collides, sdfv and sdf are exact for every position; penetrates is exact unless the centre is closer than
    f32::EPSILON without coinciding. *)
Theorem C48_ball3_point_exact : forall r q, 0 <= r ->
  forall T (TR : Transformation3d XR T) (rel : T), apply_origin3 rel = inj3 q ->
  answers3 (ball3 r) (single3 q) (collides_rel3 (pball r) PointS rel)
    (if collides_rel3 (pball r) PointS rel then Some (sdfv_rel3 (pball r) PointS rel) else None) (sdfv_rel3 (pball r) PointS rel) /\
  (norm3 q = 0 \/ / 2 ^ 23 <= norm3 q ->
     penetrates_rel3 (pball r) PointS rel = if collides_rel3 (pball r) PointS rel then Some (sdfv_rel3 (pball r) PointS rel) else None) /\
  (exists d, sdf_rel3 (pball r) PointS rel = XFin d /\ is_signed_distance3 d (ball3 r) (single3 q) /\
     exists v, sdfv_rel3 (pball r) PointS rel = inj3 v /\ norm3 v = Rabs d).
Proof.
  intros r q R T TR rel O.
  pose proof (ball3_collides_fin r q T TR rel R O) as C. pose proof (ball3_sdfv_fin r q T TR rel O) as S.
  assert (OV : overlaps3 (ball3 r) (single3 q) <-> norm3 q < r) by (rewrite overlaps3_single0; apply ball3_interior).
  assert (SD : sdf_rel3 (pball r) PointS rel = XFin (norm3 q - r)).
  { unfold sdf_rel3, Sdf3_BallPoint. rewrite O, v3len_fin. reflexivity. }
  pose proof (norm3_nonneg q) as NN.
  set (v := if Rltb 0 (norm3 q) then scale3 ((norm3 q - r) / norm3 q) q else (r, 0, 0)).
  assert (SV : sdfv_rel3 (pball r) PointS rel = inj3 v) by (rewrite S; unfold v; destruct (Rltb 0 (norm3 q)); reflexivity).
  assert (NV : norm3 v = Rabs (norm3 q - r)).
  { unfold v. destruct (Rltb_spec 0 (norm3 q)) as [P|P].
    - rewrite norm3_scale. unfold Rdiv. rewrite Rabs_mult, (Rabs_pos_eq (/ norm3 q)) by (left; apply Rinv_0_lt_compat, P).
      field. lra.
    - rewrite norm3_axis_x. replace (norm3 q) with 0 by lra. rewrite Rminus_0_l, Rabs_Ropp. reflexivity. }
  assert (DV : norm3 (sub3 q v) = r).
  { unfold v. destruct (Rltb_spec 0 (norm3 q)) as [P|P].
    - replace (sub3 q (scale3 ((norm3 q - r) / norm3 q) q)) with (scale3 (r / norm3 q) q) by (apply pt3_eq; u3; field; lra).
      rewrite norm3_scale, Rabs_pos_eq. { field. lra. }
      apply Rmult_le_pos; [exact R | left; apply Rinv_0_lt_compat, P].
    - rewrite (norm3_0 q ltac:(lra)). replace (sub3 (0, 0, 0) (r, 0, 0)) with (- r, 0, 0) by (apply pt3_eq; u3; ring).
      rewrite norm3_axis_x, Rabs_Ropp, Rabs_pos_eq by exact R. reflexivity. }
  split; [|split].
  - rewrite C, SV. destruct (Rltb_spec (norm3 q) r) as [L|L].
    + left. split; [apply OV; exact L|]. exists v. split; [|auto].
      apply ball3_sep; auto. rewrite NV, Rabs_left by lra. ring.
    + right. split; [rewrite OV; exact L|]. exists v. split; [|auto].
      apply ball3_contact; auto; [lra|]. rewrite NV, Rabs_pos_eq by lra. reflexivity.
  - intro E. unfold penetrates_rel3, Pen3_BallPoint. destruct (collides_rel3 (pball r) PointS rel); [|reflexivity].
    rewrite O, v3len_fin, SV. change (flt (XFin (norm3 q)) feps) with (Rltb (norm3 q) (/ IZR (2 ^ 23))).
    rewrite two23.
    assert (PE : 0 < / 2 ^ 23) by (apply Rinv_0_lt_compat; apply pow_lt; lra).
    unfold v. destruct E as [E | E].
    + rewrite E, Rltb_true, (Rltb_false 0 0) by lra. reflexivity.
    + rewrite Rltb_false, (Rltb_true 0) by lra.
      cbn [fsub FloatXR xsub b_radius pball]. rewrite fdiv_fin, v3muls_fin, v3neg_fin by lra. f_equal. f_equal.
      apply pt3_eq; u3; field; lra.
  - exists (norm3 q - r). split; [exact SD|]. split; [|exists v; split; [exact SV | exact NV]].
    destruct (Rlt_dec (norm3 q) r) as [L|L].
    + left. split; [apply OV; exact L|]. exists v. split.
      * apply ball3_sep; auto. rewrite NV, Rabs_left by lra. ring.
      * rewrite NV, Rabs_left by lra. ring.
    + right. split; [rewrite OV; exact L|]. exists v. split.
      * apply ball3_contact; auto; [lra|]. rewrite NV, Rabs_pos_eq by lra. reflexivity.
      * rewrite NV, Rabs_pos_eq by lra. reflexivity.
Qed.
Print Assumptions C48_ball3_point_exact.

(** Closer than EPSILON to the centre, on the positive x side, [penetrates_rel] returns a vector that does not separate. *)
Theorem C48_ball3_penetrates_tiny_refuted : forall r x, 0 < x < / 2 ^ 23 -> x < 2 * r ->
  forall T (TR : Transformation3d XR T) (rel : T), apply_origin3 rel = inj3 (x, 0, 0) -> x < r ->
  penetrates_rel3 (pball r) PointS rel = Some (inj3 (r, 0, 0)) /\ ~ separates3 (r, 0, 0) (ball3 r) (single3 (x, 0, 0)).
Proof.
  intros r x [X1 X2] X3 T TR rel O XR'. split.
  - unfold penetrates_rel3, Pen3_BallPoint. rewrite (ball3_collides_fin r _ T TR rel ltac:(lra) O).
    rewrite norm3_axis_x, Rabs_pos_eq, Rltb_true by lra. rewrite O, v3len_fin, norm3_axis_x, Rabs_pos_eq by lra.
    change (flt (XFin x) feps) with (Rltb x (/ IZR (2 ^ 23))).
    rewrite two23. rewrite Rltb_true by exact X2. reflexivity.
  - intro S. apply S. apply overlaps3_single. apply ball3_interior.
    replace (sub3 (x, 0, 0) (r, 0, 0)) with (x - r, 0, 0) by (apply pt3_eq; u3; ring).
    rewrite norm3_axis_x. apply Rabs_def1; lra.
Qed.
Print Assumptions C48_ball3_penetrates_tiny_refuted.

(** ** Extreme points *)
Theorem C48_extreme_points : forall hx hy hz r h d, 0 <= hx -> 0 <= hy -> 0 <= hz -> 0 <= r -> 0 <= h ->
  (exists p, extreme_point3 (mbox3 hx hy hz) (inj3 d) = inj3 p /\ is_farthest3 (box3 hx hy hz) d p) /\
  (exists p, extreme_point3 (pball r) (inj3 d) = inj3 p /\ is_farthest3 (ball3 r) d p) /\
  (exists p, extreme_point3 PointS (inj3 d) = inj3 p /\ is_farthest3 (single3 (0, 0, 0)) d p) /\
  (exists p, extreme_point3 (cylinder_new (XFin h) (XFin r)) (inj3 d) = inj3 p /\ is_farthest3 (cylinder3 h r) d p).
Proof.
  intros hx hy hz r h d Hx Hy Hz R H.
  assert (AX : forall e k, 0 <= k -> exists c, (if Rltb 0 e then XFin k else XFin (- k)) = XFin c /\ - k <= c <= k /\ forall b, - k <= b <= k -> e * b <= e * c).
  { intros e k K. destruct (Rltb_spec 0 e).
    - exists k. split; [reflexivity|]. split; [lra|]. intros; nra.
    - exists (- k). split; [reflexivity|]. split; [lra|]. intros; nra. }
  split; [|split; [|split]].
  - destruct (AX (x3 d) hx Hx) as (a & Ea & Ba & Ma). destruct (AX (y3 d) hy Hy) as (b & Eb & Bb & Mb). destruct (AX (z3 d) hz Hz) as (c & Ec & Bc & Mc).
    exists (a, b, c). split.
    + unfold extreme_point3, Ext3_Box, mbox3, inj3; cbn -[Rltb]. unfold x3, y3, z3 in * ; cbn [fst snd] in * . rewrite Ea, Eb, Ec. reflexivity.
    + split; [unfold box3, x3, y3, z3; cbn [fst snd]; tauto|]. intros p (P1 & P2 & P3).
      specialize (Ma _ P1). specialize (Mb _ P2). specialize (Mc _ P3). change (dot3 d (a, b, c)) with (x3 d * a + y3 d * b + z3 d * c). unfold dot3. lra.
  - exists (scale3 (if Rltb 0 (norm3 d) then r / norm3 d else 0) d). split.
    + unfold extreme_point3, Ext3_Ball, v3normalize_or_zero. rewrite v3len_fin. pose proof (norm3_nonneg d).
      change (f1 : XR) with (XFin 1). destruct (Rltb_spec 0 (norm3 d)) as [P|P].
      * rewrite fdiv_fin by lra. unfold fisfinite. cbn [fisnan fisinf flt FloatXR negb andb f0 xlt].
        rewrite Rltb_true. 2:{ apply Rmult_lt_0_compat; [lra | apply Rinv_0_lt_compat, P]. }
        rewrite v3muls_fin. cbn [b_radius pball]. rewrite v3smul_fin. f_equal. apply pt3_eq; u3; field; lra.
      * replace (norm3 d) with 0 by lra. cbn. rewrite (Reqb_true 0 0) by reflexivity. rewrite (Reqb_false 1 0) by lra. cbn.
        apply vec3_ext; cbn; f_equal; u3; ring.
    + pose proof (norm3_nonneg d). destruct (Rltb_spec 0 (norm3 d)) as [P|P].
      * assert (K : 0 <= r / norm3 d) by (apply Rmult_le_pos; [exact R | left; apply Rinv_0_lt_compat, P]). split.
        -- unfold ball3. rewrite norm3_scale, Rabs_pos_eq by exact K. right. field. lra.
        -- intros p Bp. unfold ball3 in Bp. pose proof (cauchy3 d p).
           replace (dot3 d (scale3 (r / norm3 d) d)) with (r / norm3 d * dot3 d d) by (u3; ring).
           rewrite <- norm3_sq. replace (r / norm3 d * (norm3 d * norm3 d)) with (norm3 d * r) by (field; lra). nra.
      * split.
        -- unfold ball3. rewrite norm3_scale, Rabs_R0. lra.
        -- intros p _. rewrite (norm3_0 d ltac:(lra)). u3. lra.
  - exists (0, 0, 0). split; [reflexivity|]. split; [reflexivity|]. intros p ->. lra.
  - destruct (AX (z3 d) (h / 2) ltac:(lra)) as (c & Ec & Bc & Mc).
    assert (N2 := norm_nonneg (x3 d, y3 d)).
    set (k := if Rltb 0 (norm (x3 d, y3 d)) then r / norm (x3 d, y3 d) else 0).
    exists (k * x3 d, k * y3 d, c). split.
    + assert (HH : fdiv (XFin h) f2 = XFin (h / 2)) by (apply (fdiv_fin h 2); lra).
      unfold extreme_point3, Ext3_Cylinder, cylinder_new, cylinder_to_ball, extreme_point, Ext_Ball, v2normalize_or_zero, v2lenrecip.
      rewrite HH. cbn [cy_radius cy_halfheight b_radius].
      assert (L2 : v2len (V2 (wx (inj3 d)) (wy (inj3 d))) = XFin (norm (x3 d, y3 d))).
      { unfold v2len, v2dot, norm, pdot; cbn. rewrite Rltb_false by nra. reflexivity. }
      rewrite L2. change (f1 : XR) with (XFin 1).
      assert (ZZ : (if flt f0 (wz (inj3 d)) then XFin (h / 2) else fneg (XFin (h / 2))) = XFin c) by exact Ec.
      rewrite ZZ. unfold k. destruct (Rltb_spec 0 (norm (x3 d, y3 d))) as [P|P].
      * rewrite fdiv_fin by lra. unfold fisfinite. cbn [fisnan fisinf flt FloatXR negb andb f0 xlt].
        rewrite Rltb_true. 2:{ apply Rmult_lt_0_compat; [lra | apply Rinv_0_lt_compat, P]. }
        apply vec3_ext; cbn; f_equal; v3; try reflexivity; unfold x3, y3 in *; field; lra.
      * replace (norm (x3 d, y3 d)) with 0 by lra. cbn. rewrite (Reqb_true 0 0) by reflexivity. rewrite (Reqb_false 1 0) by lra. cbn.
        apply vec3_ext; cbn; f_equal; v3; ring.
    + split.
      * split; [|exact Bc]. change (norm (pscale k (x3 d, y3 d)) <= r). rewrite norm_scale. unfold k.
        destruct (Rltb_spec 0 (norm (x3 d, y3 d))) as [P|P].
        -- rewrite Rabs_pos_eq by (apply Rmult_le_pos; [exact R | left; apply Rinv_0_lt_compat, P]). right. field. lra.
        -- rewrite Rabs_R0. lra.
      * intros p [Pr Pz]. specialize (Mc _ Pz). pose proof (cauchy (x3 d, y3 d) (x3 p, y3 p)) as CS.
        assert (PL : pdot (x3 d, y3 d) (x3 p, y3 p) <= k * pdot (x3 d, y3 d) (x3 d, y3 d)).
        { rewrite <- norm_sq. unfold k. destruct (Rltb_spec 0 (norm (x3 d, y3 d))) as [P|P].
          - replace (r / norm (x3 d, y3 d) * (norm (x3 d, y3 d) * norm (x3 d, y3 d))) with (norm (x3 d, y3 d) * r) by (field; lra). nra.
          - assert (norm (x3 d, y3 d) = 0) as E0 by lra. rewrite E0 in CS |- * . lra. }
        unfold pdot in PL; cbn [fst snd] in PL. change (dot3 d (k * x3 d, k * y3 d, c)) with (x3 d * (k * x3 d) + y3 d * (k * y3 d) + z3 d * c).
        unfold dot3. lra.
Qed.
Print Assumptions C48_extreme_points.

(** Instances of the hypotheses: an inner and an outer point under a plain translation. *)
Example C48_case :
  collides_rel3 (mbox3 1 2 3) PointS (inj3 (1/2, 1, -2)) = true /\ collides_rel3 (mbox3 1 2 3) PointS (inj3 (1, 1, -2)) = false /\
  collides_rel3 (pball 2) PointS (inj3 (1, 1, 1)) = true /\ collides_rel3 (pball 1) PointS (inj3 (1, 1, 1)) = false.
Proof.
  rewrite (box3_collides_b (TR:=Tr3_Vec3) 1 2 3 (1/2, 1, -2) (inj3 (1/2, 1, -2)) eq_refl).
  rewrite (box3_collides_b (TR:=Tr3_Vec3) 1 2 3 (1, 1, -2) (inj3 (1, 1, -2)) eq_refl).
  rewrite (ball3_collides_fin 2 (1, 1, 1) _ Tr3_Vec3 (inj3 (1, 1, 1)) ltac:(lra) eq_refl).
  rewrite (ball3_collides_fin 1 (1, 1, 1) _ Tr3_Vec3 (inj3 (1, 1, 1)) ltac:(lra) eq_refl).
  assert (S : norm3 (1, 1, 1) * norm3 (1, 1, 1) = 3) by (rewrite norm3_sq; unfold dot3, x3, y3, z3; cbn [fst snd]; ring).
  pose proof (norm3_nonneg (1, 1, 1)) as N.
  unfold x3, y3, z3; cbn [fst snd].
  rewrite (Rabs_pos_eq (1/2)), (Rabs_pos_eq 1), (Rabs_left (-2)) by lra. rewrite (Rltb_true (1/2) 1), (Rltb_true 1 2), (Rltb_true (- -2) 3), (Rltb_false 1 1) by lra.
  split; [reflexivity|]. split; [reflexivity|]. split.
  - apply Rltb_true. nra.
  - apply Rltb_false. nra.
Qed.
