(** * 3D boxes and balls against a point, in f32 *)
From Coq Require Import Reals ZArith Lra Lia Psatz Bool List.
From Flocq Require Import Core BinarySingleNaN.
From Verif Require Import Num NumXR NumB32 Glam Transform2 Shapes2 Gjk Detect2 Col3 Spec SpecLink P_Base P_Geo P_Geo3 P_3d P_B32 Props_F32 Props_F32Gjk Props_F32Ball P_F32Box Props_Lerp P_Drift Spec32 P_Closed32 Props_Closed32 Props_Approx Props_Sdf32 Spec32s.
From Verif Require Props_3d.
Local Open Scope R_scope.

Lemma small3_wide p k j : (k <= j)%Z -> small3 p k -> small3 p j.
Proof. intros H (F & X & Y & Z). repeat split; try apply F; eapply small_weak; eauto. Qed.

(** ** Geometry of the box with any sign at coordinate zero *)
Lemma sgn_sg s x : sgn s x -> x <> 0 -> s = Props_3d.sg x.
Proof.
  intros [E [-> | ->]] N; unfold Props_3d.sg; destruct (Rltb_spec x 0) as [L|L]; try reflexivity; exfalso.
  - pose proof (Rabs_pos x). lra.
  - pose proof (Rabs_pos x). lra.
Qed.
Lemma sgn_max s x h : 0 <= h -> sgn s x -> Rmax (Rabs x - h) 0 * s = Rmax (Rabs x - h) 0 * Props_3d.sg x.
Proof.
  intros H S. destruct (Req_dec x 0) as [E|N]; [|rewrite (sgn_sg s x S N); reflexivity].
  subst x. rewrite Rabs_R0, Rmax_right by lra. ring.
Qed.
Lemma sgn_off s x h : 0 <= h -> sgn s x -> h <= Rabs (x - (Rabs x - h) * s).
Proof.
  intros H [E S]. rewrite E at 1. replace (s * Rabs x - (Rabs x - h) * s) with (h * s) by ring. rewrite Rabs_mult.
  destruct S as [-> | ->]; [rewrite Rabs_R1 | replace (-1) with (-(1)) by ring; rewrite Rabs_Ropp, Rabs_R1]; rewrite Rabs_pos_eq; lra.
Qed.
Lemma sgn_abs1 s x : sgn s x -> Rabs s = 1.
Proof. intros [_ [-> | ->]]; [apply Rabs_R1 | replace (-1) with (-(1)) by ring; rewrite Rabs_Ropp; apply Rabs_R1]. Qed.
Section BoxGeo.
Variables (hx hy hz : R) (q : pt3) (sx sy sz : R).
Hypotheses (Hx : 0 <= hx) (Hy : 0 <= hy) (Hz : 0 <= hz) (Sx : sgn sx (x3 q)) (Sy : sgn sy (y3 q)) (Sz : sgn sz (z3 q)).
Lemma box3_contact_s : is_min_contact3 (Rmax (Rabs (x3 q) - hx) 0 * sx, Rmax (Rabs (y3 q) - hy) 0 * sy, Rmax (Rabs (z3 q) - hz) 0 * sz) (box3 hx hy hz) (single3 q).
Proof. rewrite (sgn_max _ _ _ Hx Sx), (sgn_max _ _ _ Hy Sy), (sgn_max _ _ _ Hz Sz). apply Props_3d.box3_contact; assumption. Qed.
Lemma box3_inside : overlaps3 (box3 hx hy hz) (single3 q) <-> Rabs (x3 q) < hx /\ Rabs (y3 q) < hy /\ Rabs (z3 q) < hz.
Proof. rewrite overlaps3_single0. apply box3_interior. Qed.
Lemma box3_sep_if v : hx <= Rabs (x3 q - x3 v) \/ hy <= Rabs (y3 q - y3 v) \/ hz <= Rabs (z3 q - z3 v) -> separates3 v (box3 hx hy hz) (single3 q).
Proof.
  intro S. unfold separates3. rewrite overlaps3_single, box3_interior.
  change (x3 (sub3 q v)) with (x3 q - x3 v). change (y3 (sub3 q v)) with (y3 q - y3 v). change (z3 (sub3 q v)) with (z3 q - z3 v). lra.
Qed.
Lemma box3_sep_low w : separates3 w (box3 hx hy hz) (single3 q) -> hx - Rabs (x3 q) <= norm3 w \/ hy - Rabs (y3 q) <= norm3 w \/ hz - Rabs (z3 q) <= norm3 w.
Proof.
  intro W. apply Props_3d.sep_box3 in W. destruct (coord_le_norm3 w) as [Wx [Wy Wz]].
  assert (T : forall a b, Rabs (a - b) <= Rabs a + Rabs b).
  { intros a b. replace (a - b) with (a + - b) by ring. rewrite <- (Rabs_Ropp b). apply Rabs_triang. }
  pose proof (T (x3 q) (x3 w)); pose proof (T (y3 q) (y3 w)); pose proof (T (z3 q) (z3 w)).
  destruct W as [W | [W | W]]; lra.
Qed.
(** the face chosen by comparing rounded slacks *)
Lemma box3_face v a : Rabs (x3 q) < hx -> Rabs (y3 q) < hy -> Rabs (z3 q) < hz -> norm3 v = - a ->
  (hx <= Rabs (x3 q - x3 v) \/ hy <= Rabs (y3 q - y3 v) \/ hz <= Rabs (z3 q - z3 v)) ->
  - a <= (1 + 4 * u32) * (hx - Rabs (x3 q)) -> - a <= (1 + 4 * u32) * (hy - Rabs (y3 q)) -> - a <= (1 + 4 * u32) * (hz - Rabs (z3 q)) ->
  true_answer3 (box3 hx hy hz) (single3 q) v.
Proof.
  intros X Y Z N S A1 A2 A3. left. split; [apply box3_inside; auto|]. split; [apply box3_sep_if, S|].
  intros w W. apply box3_sep_low in W. rewrite N. pose proof u32_pos as U.
  destruct W as [W | [W | W]].
  - apply Rle_trans with (1 := A1). apply Rmult_le_compat_l; lra.
  - apply Rle_trans with (1 := A2). apply Rmult_le_compat_l; lra.
  - apply Rle_trans with (1 := A3). apply Rmult_le_compat_l; lra.
Qed.
End BoxGeo.
(** rounded slacks compared: the true slacks compare up to 1 + 4u *)
Lemma slack_cmp a b e e' : a < 0 -> b < 0 -> Rabs e <= u32 -> Rabs e' <= u32 -> b * (1 + e') <= a * (1 + e) -> - a <= (1 + 4 * u32) * - b.
Proof.
  intros A B E E' H. apply abs_le2' in E. apply abs_le2' in E'. pose proof u32_pos. pose proof u32_small.
  assert (- a * (1 - u32) <= - b * (1 + u32)) by nra. assert ((1 + u32) <= (1 + 4 * u32) * (1 - u32)) by nra.
  assert (- b * (1 + u32) <= - b * ((1 + 4 * u32) * (1 - u32))) by nra.
  apply Rmult_le_reg_r with (1 - u32); nra.
Qed.

(** ** the box code *)
Lemma half_pair (x h : b32) : fin x -> fin h -> flt (fneg h) x && flt x h = Rltb (Rabs (val x)) (val h).
Proof.
  intros Fx Fh. rewrite !flt_fin by (try assumption; apply fin_neg; assumption). rewrite val_neg.
  destruct (Rltb_spec (Rabs (val x)) (val h)) as [L|L].
  - apply Rabs_def2 in L. rewrite !Rltb_true by lra. reflexivity.
  - destruct (Rltb_spec (- val h) (val x)) as [L1|L1]; [|reflexivity]. destruct (Rltb_spec (val x) (val h)) as [L2|L2]; [|reflexivity].
    exfalso; apply L. apply Rabs_def1; lra.
Qed.
Lemma box3_collides (h : vec3 b32) {T} {TR : Transformation3d b32 T} (rel : T) : fin3 h -> fin3 (apply_origin3 rel) ->
  collides_rel3 (Box3d h) PointS rel = Rltb (Rabs (val (wx (apply_origin3 rel)))) (val (wx h)) && Rltb (Rabs (val (wy (apply_origin3 rel)))) (val (wy h)) && Rltb (Rabs (val (wz (apply_origin3 rel)))) (val (wz h)).
Proof.
  intros (F1 & F2 & F3) (G1 & G2 & G3). unfold collides_rel3, Col3_BoxPoint. cbn [halfsize3]. rewrite <- !half_pair by assumption. rewrite !andb_assoc. reflexivity.
Qed.
Lemma v3_parts (v : vec3 b32) w k : 0 <= k -> Rabs (val (wx v) - x3 w) <= k * Rabs (x3 w) -> Rabs (val (wy v) - y3 w) <= k * Rabs (y3 w) -> Rabs (val (wz v) - z3 w) <= k * Rabs (z3 w) ->
  norm3 (sub3 (rval3 v) w) <= k * norm3 w.
Proof.
  intros K X Y Z. replace (k * norm3 w) with (norm3 (scale3 k w)) by (rewrite norm3_scale, Rabs_pos_eq by exact K; reflexivity).
  apply norm3_le_norm. destruct w as [[a b] c]. unfold dot3, sub3, scale3, rval3, x3, y3, z3 in * ; cbn [fst snd] in * .
  assert (Q : forall a b, 0 <= k -> Rabs a <= k * Rabs b -> a * a <= k * b * (k * b)).
  { clear. intros a b K H. pose proof (Rsqr_abs a) as R1. pose proof (Rsqr_abs b) as R2. unfold Rsqr in * . replace (k * b * (k * b)) with (k * k * (b * b)) by ring. rewrite R1, R2.
    replace (k * k * (Rabs b * Rabs b)) with ((k * Rabs b) * (k * Rabs b)) by ring. apply Rmult_le_compat; try apply Rabs_pos; assumption. }
  pose proof (Q _ _ K X). pose proof (Q _ _ K Y). pose proof (Q _ _ K Z). lra.
Qed.
Lemma signum_mul (x d : b32) : fin x -> fin d -> exists s, sgn s (val x) /\ fin (fmul d (fsignum x)) /\ val (fmul d (fsignum x)) = val d * s.
Proof.
  intros Fx Fd. destruct (sb_sgn x Fx) as (s & SB & SG). exists (sg s). split; [exact SG|]. rewrite (sb_signum s x SB). apply mul_one_r, Fd.
Qed.
Section BoxCore.
Context {T : Type} {TR : Transformation3d b32 T}.
Variables (h : vec3 b32) (rel : T).
Let p := apply_origin3 rel.
Let q := rval3 p.
Hypotheses (Fp : small3 p 59) (Fh : half3_ok h).
Let dx := fsub (fabs (wx p)) (wx h).
Let dy := fsub (fabs (wy p)) (wy h).
Let dz := fsub (fabs (wz p)) (wz h).
Lemma slack_ok (x k : b32) : fin x -> fin k -> small (val x) 59 -> small (val k) 59 -> fin (fsub (fabs x) k) /\ small (val (fsub (fabs x) k)) 60 /\
  val (fsub (fabs x) k) = rnd (Rabs (val x) - val k) /\ exists e, Rabs e <= u32 /\ val (fsub (fabs x) k) = (Rabs (val x) - val k) * (1 + e).
Proof.
  intros F G S S'. destruct (edge_ok x k F G) as (A & B & C); [eapply small_weak; [|exact S]; lia | eapply small_weak; [|exact S']; lia |].
  split; [exact A|]. split; [|split; [exact B | exact C]]. apply (edge_small x k 59 ltac:(lia) B S S').
Qed.
Lemma box3_core : (collides_rel3 (Box3d h) PointS rel = true <-> overlaps3 (solid_box h) (single3 q)) /\
  penetrates_rel3 (Box3d h) PointS rel = (if collides_rel3 (Box3d h) PointS rel then Some (sdfv_rel3 (Box3d h) PointS rel) else None) /\
  fin3 (sdfv_rel3 (Box3d h) PointS rel) /\
  exists w, true_answer3 (solid_box h) (single3 q) w /\ norm3 (sub3 (rval3 (sdfv_rel3 (Box3d h) PointS rel)) w) <= u32 * norm3 w.
Proof.
  destruct Fp as ((Px & Py & Pz) & Sx & Sy & Sz). destruct Fh as (((Ex & Ey & Ez) & Tx & Ty & Tz) & Hx & Hy & Hz).
  destruct (slack_ok _ _ Px Ex Sx Tx) as (Dx & _ & Rx & ex & Ux & Vx). destruct (slack_ok _ _ Py Ey Sy Ty) as (Dy & _ & Ry & ey & Uy & Vy). destruct (slack_ok _ _ Pz Ez Sz Tz) as (Dz & _ & Rz & ez & Uz & Vz).
  fold dx in Dx, Rx, Vx. fold dy in Dy, Ry, Vy. fold dz in Dz, Rz, Vz.
  pose proof u32_pos as Up. pose proof u32_small as Us.
  set (hx := val (wx h)) in * . set (hy := val (wy h)) in * . set (hz := val (wz h)) in * .
  assert (CB : collides_rel3 (Box3d h) PointS rel = Rltb (Rabs (x3 q)) hx && Rltb (Rabs (y3 q)) hy && Rltb (Rabs (z3 q)) hz) by (apply box3_collides; repeat split; assumption).
  assert (IFF : collides_rel3 (Box3d h) PointS rel = true <-> Rabs (x3 q) < hx /\ Rabs (y3 q) < hy /\ Rabs (z3 q) < hz).
  { rewrite CB. destruct (Rltb_spec (Rabs (x3 q)) hx), (Rltb_spec (Rabs (y3 q)) hy), (Rltb_spec (Rabs (z3 q)) hz); cbn; intuition congruence. }
  split; [unfold solid_box; fold hx hy hz; rewrite box3_inside; exact IFF|].
  split. { unfold penetrates_rel3, Pen3_BoxPoint, sdfv_rel3, Sdfv3_BoxPoint. destruct (collides_rel3 (Box3d h) PointS rel); [|reflexivity]. cbn [halfsize3]. fold p. fold dx dy dz.
    destruct (flt dy dx); [destruct (flt dx dz) | destruct (flt dy dz)]; reflexivity. }
  unfold solid_box. fold hx hy hz. clear CB.
  destruct (collides_rel3 (Box3d h) PointS rel) eqn:E.
  - destruct (proj1 IFF eq_refl) as (X & Y & Z). unfold sdfv_rel3, Sdfv3_BoxPoint. rewrite E. cbn [halfsize3]. fold p. fold dx dy dz.
    destruct (signum_mul (wx p) dx Px Dx) as (sx & Gx & Mx & Wx). destruct (signum_mul (wy p) dy Py Dy) as (sy & Gy & My & Wy). destruct (signum_mul (wz p) dz Pz Dz) as (sz & Gz & Mz & Wz).
    fold (x3 q) in Gx. change (val (wx p)) with (x3 q) in Gx, Vx. change (val (wy p)) with (y3 q) in Gy, Vy. change (val (wz p)) with (z3 q) in Gz, Vz.
    set (ax := Rabs (x3 q) - hx) in * . set (ay := Rabs (y3 q) - hy) in * . set (az := Rabs (z3 q) - hz) in * .
    assert (Ax : ax < 0) by (unfold ax; lra). assert (Ay : ay < 0) by (unfold ay; lra). assert (Az : az < 0) by (unfold az; lra).
    assert (NX : norm3 (ax * sx, 0, 0) = - ax) by (rewrite norm3_axis_x, Rabs_mult, (sgn_abs1 _ _ Gx), Rmult_1_r; apply Rabs_left, Ax).
    assert (NY : norm3 (0, ay * sy, 0) = - ay) by (rewrite norm3_axis_y, Rabs_mult, (sgn_abs1 _ _ Gy), Rmult_1_r; apply Rabs_left, Ay).
    assert (NZ : norm3 (0, 0, az * sz) = - az) by (rewrite norm3_axis_z, Rabs_mult, (sgn_abs1 _ _ Gz), Rmult_1_r; apply Rabs_left, Az).
    assert (ZZ : Rabs (val (@f0 b32 _) - 0) <= u32 * Rabs 0) by (change (val (@f0 b32 _)) with 0; rewrite Rminus_0_r, Rabs_R0; lra).
    assert (Rel : forall a s e d, Rabs e <= u32 -> val d = a * (1 + e) -> forall m, val m = val d * s -> Rabs (val m - a * s) <= u32 * Rabs (a * s)).
    { intros a s e d He Vd m Vm. rewrite Vm, Vd. replace (a * (1 + e) * s - a * s) with (e * (a * s)) by ring. rewrite Rabs_mult. apply Rmult_le_compat_r; [apply Rabs_pos | exact He]. }
    assert (RX : ay * (1 + ey) <= ax * (1 + ex) -> az * (1 + ez) <= ax * (1 + ex) -> true_answer3 (box3 hx hy hz) (single3 q) (ax * sx, 0, 0)).
    { intros K1 K2. apply (box3_face _ _ _ _ _ ax X Y Z NX).
      - left. apply (sgn_off sx (x3 q) hx Hx Gx).
      - unfold ax; nra.
      - pose proof (slack_cmp ax ay ex ey Ax Ay Ux Uy K1). unfold ay in H. replace (hy - Rabs (y3 q)) with (- (Rabs (y3 q) - hy)) by ring. exact H.
      - pose proof (slack_cmp ax az ex ez Ax Az Ux Uz K2). unfold az in H. replace (hz - Rabs (z3 q)) with (- (Rabs (z3 q) - hz)) by ring. exact H. }
    assert (RY : ax * (1 + ex) <= ay * (1 + ey) -> az * (1 + ez) <= ay * (1 + ey) -> true_answer3 (box3 hx hy hz) (single3 q) (0, ay * sy, 0)).
    { intros K1 K2. apply (box3_face _ _ _ _ _ ay X Y Z NY).
      - right; left. apply (sgn_off sy (y3 q) hy Hy Gy).
      - pose proof (slack_cmp ay ax ey ex Ay Ax Uy Ux K1). unfold ax in H. replace (hx - Rabs (x3 q)) with (- (Rabs (x3 q) - hx)) by ring. exact H.
      - unfold ay; nra.
      - pose proof (slack_cmp ay az ey ez Ay Az Uy Uz K2). unfold az in H. replace (hz - Rabs (z3 q)) with (- (Rabs (z3 q) - hz)) by ring. exact H. }
    assert (RZ : ax * (1 + ex) <= az * (1 + ez) -> ay * (1 + ey) <= az * (1 + ez) -> true_answer3 (box3 hx hy hz) (single3 q) (0, 0, az * sz)).
    { intros K1 K2. apply (box3_face _ _ _ _ _ az X Y Z NZ).
      - right; right. apply (sgn_off sz (z3 q) hz Hz Gz).
      - pose proof (slack_cmp az ax ez ex Az Ax Uz Ux K1). unfold ax in H. replace (hx - Rabs (x3 q)) with (- (Rabs (x3 q) - hx)) by ring. exact H.
      - pose proof (slack_cmp az ay ez ey Az Ay Uz Uy K2). unfold ay in H. replace (hy - Rabs (y3 q)) with (- (Rabs (y3 q) - hy)) by ring. exact H.
      - unfold az; nra. }
    assert (F0 : fin (@f0 b32 _)) by reflexivity.
    rewrite !flt_fin by assumption.
    destruct (Rltb_spec (val dy) (val dx)) as [L1|L1]; [destruct (Rltb_spec (val dx) (val dz)) as [L2|L2] | destruct (Rltb_spec (val dy) (val dz)) as [L2|L2]]; rewrite Vx, Vy in L1; rewrite ?Vx, ?Vy, ?Vz in L2; (split; [repeat split; assumption|]).
    + exists (0, 0, az * sz). split; [apply RZ; lra|]. apply v3_parts; [lra | exact ZZ | exact ZZ |]. exact (Rel az sz ez dz Uz Vz _ Wz).
    + exists (ax * sx, 0, 0). split; [apply RX; lra|]. apply v3_parts; [lra | | exact ZZ | exact ZZ]. exact (Rel ax sx ex dx Ux Vx _ Wx).
    + exists (0, 0, az * sz). split; [apply RZ; lra|]. apply v3_parts; [lra | exact ZZ | exact ZZ |]. exact (Rel az sz ez dz Uz Vz _ Wz).
    + exists (0, ay * sy, 0). split; [apply RY; lra|]. apply v3_parts; [lra | exact ZZ | | exact ZZ]. exact (Rel ay sy ey dy Uy Vy _ Wy).
  - assert (NO : ~ overlaps3 (box3 hx hy hz) (single3 q)) by (rewrite box3_inside; intro K; apply IFF in K; discriminate).
    unfold sdfv_rel3, Sdfv3_BoxPoint. rewrite E. cbn [halfsize3]. fold p. fold dx dy dz.
    destruct (max0 dx Dx) as [M1 N1]. destruct (max0 dy Dy) as [M2 N2]. destruct (max0 dz Dz) as [M3 N3].
    destruct (signum_mul (wx p) _ Px M1) as (sx & Gx & Mx & Wx). destruct (signum_mul (wy p) _ Py M2) as (sy & Gy & My & Wy). destruct (signum_mul (wz p) _ Pz M3) as (sz & Gz & Mz & Wz).
    split; [repeat split; assumption|].
    exists (Rmax (Rabs (x3 q) - hx) 0 * sx, Rmax (Rabs (y3 q) - hy) 0 * sy, Rmax (Rabs (z3 q) - hz) 0 * sz).
    split; [right; split; [exact NO | apply box3_contact_s; assumption]|].
    assert (Rel : forall A s e d, Rabs e <= u32 -> val d = A * (1 + e) -> forall m, val m = Rmax (val d) 0 * s -> Rabs (val m - Rmax A 0 * s) <= u32 * Rabs (Rmax A 0 * s)).
    { intros A s e d He Vd m Vm. rewrite Vm, Vd, max_fac by (apply fac_pos, He). replace (Rmax A 0 * (1 + e) * s - Rmax A 0 * s) with (e * (Rmax A 0 * s)) by ring. rewrite Rabs_mult. apply Rmult_le_compat_r; [apply Rabs_pos | exact He]. }
    apply v3_parts; [lra | | |].
    + rewrite N1 in Wx. exact (Rel _ sx ex dx Ux Vx _ Wx).
    + rewrite N2 in Wy. exact (Rel _ sy ey dy Uy Vy _ Wy).
    + rewrite N3 in Wz. exact (Rel _ sz ez dz Uz Vz _ Wz).
Qed.
End BoxCore.

(** ** Lengths of 3D vectors *)
Lemma dot3_ok (p : vec3 b32) k : (-149 <= k + k)%Z -> (k + k <= 124)%Z -> small3 p k ->
  let N := dot3 (rval3 p) (rval3 p) in
  fin (v3dot p p) /\ 0 <= val (v3dot p p) <= bpow radix2 (k + k + 2) /\ Rabs (val (v3dot p p) - N) <= 41 / 10 * u32 * N + 5 * tiny.
Proof.
  intros L U ((Fx & Fy & Fz) & Sx & Sy & Sz) N. set (p2 := V2 (wx p) (wy p)).
  assert (S2 : small2 p2 k) by (repeat split; assumption).
  destruct (dot_ok p2 p2 k k L ltac:(lia) S2 S2) as [D1 D2]. destruct (sq_ok p2 k L ltac:(lia) S2) as (_ & D3 & D4).
  pose proof (rnd_small _ _ L (small_mul _ _ _ _ Sz Sz)) as Bz. destruct (mul_ok (wz p) (wz p) Fz Fz ltac:(eapply small_big; [|exact Bz]; lia)) as [Z1 Z2].
  assert (Z3 : 0 <= val (fmul (wz p) (wz p))) by (rewrite Z2; apply rnd_nonneg; nra).
  assert (Sm : small (rnd (val (v2dot p2 p2) + val (fmul (wz p) (wz p)))) (k + k + 2)).
  { apply rnd_small; [lia|]. replace (k + k + 2)%Z with (k + k + 1 + 1)%Z by ring. apply small_add.
    - unfold small. rewrite Rabs_pos_eq; assumption.
    - rewrite Z2. eapply small_weak; [|exact Bz]. lia. }
  destruct (add_ok _ _ D1 Z1 ltac:(eapply small_big; [|exact Sm]; lia)) as [A1 A2].
  change (fadd (v2dot p2 p2) (fmul (wz p) (wz p))) with (v3dot p p) in A1, A2.
  split; [exact A1|]. split. { rewrite A2. split; [apply rnd_nonneg; lra | eapply Rle_trans; [apply Rle_abs | exact Sm]]. }
  rewrite A2. destruct (rnd_error_add (v2dot p2 p2) (fmul (wz p) (wz p))) as (e0 & E0 & ->).
  rewrite Z2. destruct (rnd_error (val (wz p) * val (wz p))) as (e1 & t1 & E1 & U1 & ->).
  set (D := val (v2dot p2 p2)) in * . set (c := val (wz p) * val (wz p)).
  assert (Ra : rdot_abs p2 p2 = rdot p2 p2) by (unfold rdot_abs, rdot; rewrite !Rabs_pos_eq by nra; reflexivity). rewrite Ra in D2.
  set (d := rdot p2 p2) in * . assert (Dp : 0 <= d) by (unfold d, rdot; nra). assert (Cp : 0 <= c) by (unfold c; nra).
  assert (EN : N = d + c) by (unfold N, d, rdot, c, dot3, rval3, x3, y3, z3; cbn [fst snd]; reflexivity).
  pose proof u32_pos as Hu. pose proof u32_small as Hs. pose proof tiny_pos as Ht. rewrite EN.
  apply abs_le2' in D2. apply abs_le2' in E0. apply abs_le2' in E1. apply abs_le2' in U1.
  assert (Q : Rabs (D + (c * (1 + e1) + t1) - (d + c)) <= 3 * u32 * d + u32 * c + 4 * tiny) by (apply Rabs_le; nra).
  set (S := D + (c * (1 + e1) + t1)) in * .
  replace (S * (1 + e0) - (d + c)) with ((S - (d + c)) * (1 + e0) + (d + c) * e0) by ring. eapply Rle_trans; [apply Rabs_triang|]. rewrite !Rabs_mult.
  assert (Rabs (1 + e0) <= 101 / 100) by (apply Rabs_le; lra). assert (Rabs e0 <= u32) by (apply Rabs_le; lra).
  assert (Rabs (S - (d + c)) * Rabs (1 + e0) <= (3 * u32 * d + u32 * c + 4 * tiny) * (101 / 100)) by (apply Rmult_le_compat; try apply Rabs_pos; assumption).
  assert (Rabs (d + c) * Rabs e0 <= (d + c) * u32) by (rewrite (Rabs_pos_eq (d + c)) by lra; apply Rmult_le_compat_l; lra).
  assert (0 <= u32 * d) by nra. assert (0 <= u32 * c) by nra. lra.
Qed.
Lemma norm3_sq' (p : vec3 b32) : dot3 (rval3 p) (rval3 p) = norm3 (rval3 p) * norm3 (rval3 p).
Proof. symmetry. apply norm3_sq. Qed.
Lemma sq_rel (p : vec3 b32) : small3 p 60 -> bpow radix2 (-60) <= norm3 (rval3 p) -> let L := norm3 (rval3 p) in
  fin (v3dot p p) /\ 0 < L /\ Rabs (val (v3dot p p) - L * L) <= 42 / 10 * u32 * (L * L) /\ tiny <= u32 / 64 * (L * L).
Proof.
  intros S Hl L. destruct (dot3_ok p 60 ltac:(lia) ltac:(lia) S) as (D1 & _ & D2). rewrite norm3_sq' in D2. fold L in D2.
  pose proof u32_pos as Up. pose proof u32_small as Us. pose proof tiny_pos as Tp.
  assert (B120 : bpow radix2 (-120) <= L * L). { replace (-120)%Z with (-60 + -60)%Z by reflexivity. rewrite bpow_plus. apply Rmult_le_compat; try apply bpow_ge_0; exact Hl. }
  assert (Tt : tiny <= u32 / 64 * (L * L)).
  { apply Rle_trans with (u32 / 64 * bpow radix2 (-120)); [|apply Rmult_le_compat_l; lra]. unfold tiny, u32.
    replace (-150)%Z with (-30 + -120)%Z by reflexivity. rewrite bpow_plus. apply Rmult_le_compat_r; [apply bpow_ge_0|]. cbn. lra. }
  split; [exact D1|]. split; [eapply Rlt_le_trans; [apply bpow_gt_0 | exact Hl]|]. split; [|exact Tt]. eapply Rle_trans; [exact D2|]. lra.
Qed.
Lemma length3_ok (p : vec3 b32) : small3 p 60 -> bpow radix2 (-60) <= norm3 (rval3 p) ->
  fin (v3len p) /\ Rabs (val (v3len p) - norm3 (rval3 p)) <= 4 * u32 * norm3 (rval3 p).
Proof.
  intros S Hl. destruct (sq_rel p S Hl) as (D1 & Lpos & Sb & _). pose proof (bpow_small_u _ Hl) as T2. unfold v3len.
  pose proof u32_pos as Up. pose proof u32_small as Us. pose proof tiny_pos as Tp.
  set (L := norm3 (rval3 p)) in * . set (s := val (v3dot p p)) in * .
  apply Rabs_le_inv in Sb. assert (LL : 0 < L * L) by nra. assert (Sp : 0 < s) by nra.
  destruct (sqrt_fin _ D1 ltac:(fold s; lra)) as [R1 R2]. fold s in R2. split; [exact R1|]. rewrite R2.
  destruct (rnd_error (sqrt s)) as (e & t & He & Ht & ->).
  assert (Sq : Rabs (sqrt s - L) <= 22 / 10 * u32 * L).
  { assert (0 <= sqrt s) by apply sqrt_pos. pose proof (sqrt_sqrt s ltac:(lra)) as Q.
    set (k := 22 / 10 * u32). assert (Hk : 0 < k < 1 / 100) by (unfold k; lra).
    assert (K1 : (1 - k) * (1 - k) <= 1 - 42 / 10 * u32) by (unfold k; nra). assert (K2 : 1 + 42 / 10 * u32 <= (1 + k) * (1 + k)) by (unfold k; nra).
    assert (M1 : ((1 - k) * (1 - k)) * (L * L) <= s) by nra. assert (M2 : s <= ((1 + k) * (1 + k)) * (L * L)) by nra.
    apply Rabs_le. split.
    - assert ((1 - k) * L <= sqrt s); [|lra]. apply Rsqr_incr_0; [unfold Rsqr; nra | nra | assumption].
    - assert (sqrt s <= (1 + k) * L); [|lra]. apply Rsqr_incr_0; [unfold Rsqr; nra | assumption | nra]. }
  apply Rabs_le_inv in Sq. apply Rabs_le_inv in He. apply Rabs_le_inv in Ht. apply Rabs_le.
  assert (0 <= sqrt s <= 2 * L) by (split; [apply sqrt_pos | nra]). nra.
Qed.
Lemma len3_any (p : vec3 b32) : small3 p 60 -> fin (v3len p) /\ 0 <= val (v3len p) /\ Rabs (val (v3len p) - norm3 (rval3 p)) <= 4 * u32 * norm3 (rval3 p) + bpow radix2 (-59).
Proof.
  intro S. pose proof u32_pos as U0. pose proof (bpow_gt_0 radix2 (-59)) as B0. pose proof (norm3_nonneg (rval3 p)) as P.
  destruct (dot3_ok p 60 ltac:(lia) ltac:(lia) S) as (D1 & D2 & _). destruct (sqrt_fin _ D1 (proj1 D2)) as [F V]. change (fsqrt (v3dot p p)) with (v3len p) in F, V.
  split; [exact F|]. split; [rewrite V; apply rnd_nonneg, sqrt_pos|].
  destruct (Rle_or_lt (bpow radix2 (-60)) (norm3 (rval3 p))) as [H|H].
  - destruct (length3_ok p S H) as [_ E]. lra.
  - destruct (coord_le_norm3 (rval3 p)) as (C1 & C2 & C3).
    assert (S' : small3 p (-60)). { split; [apply S|]. unfold small. change (val (wx p)) with (x3 (rval3 p)). change (val (wy p)) with (y3 (rval3 p)). change (val (wz p)) with (z3 (rval3 p)). lra. }
    destruct (dot3_ok p (-60) ltac:(lia) ltac:(lia) S') as (_ & (G1 & G2) & _).
    assert (Q : sqrt (val (v3dot p p)) <= bpow radix2 (-59)).
    { rewrite <- (sqrt_square (bpow radix2 (-59))) by apply bpow_ge_0. apply sqrt_le_1_alt. rewrite <- bpow_plus. eapply Rle_trans; [exact G2|]. apply bpow_le. lia. }
    assert (val (v3len p) <= bpow radix2 (-59)). { rewrite V. rewrite <- (rnd_bpow (-59)) by lia. apply rnd_le, Q. }
    assert (0 <= val (v3len p)) by (rewrite V; apply rnd_nonneg, sqrt_pos).
    assert (bpow radix2 (-60) <= bpow radix2 (-59)) by (apply bpow_le; lia). assert (0 <= 4 * u32 * norm3 (rval3 p)) by (apply Rmult_le_pos; lra). apply Rabs_le. lra.
Qed.

Lemma norm3_rel (v w : pt3) : (forall f, In f (x3 :: y3 :: z3 :: nil)%list -> Rabs (f v - f w) <= u32 * Rabs (f w)) -> Rabs (norm3 v - norm3 w) <= u32 * norm3 w.
Proof.
  intro H. assert (D : norm3 (sub3 v w) <= u32 * norm3 w).
  { pose proof u32_pos as U. replace (u32 * norm3 w) with (norm3 (scale3 u32 w)) by (rewrite norm3_scale, Rabs_pos_eq by lra; reflexivity). apply norm3_le_norm.
    pose proof (H x3 ltac:(cbn; auto)) as X. pose proof (H y3 ltac:(cbn; auto)) as Y. pose proof (H z3 ltac:(cbn; auto)) as Z.
    assert (Q : forall a b, Rabs a <= u32 * Rabs b -> a * a <= u32 * b * (u32 * b)).
    { intros a b K. pose proof (Rsqr_abs a) as R1. pose proof (Rsqr_abs b) as R2. unfold Rsqr in * . replace (u32 * b * (u32 * b)) with (u32 * u32 * (b * b)) by ring. rewrite R1, R2.
      replace (u32 * u32 * (Rabs b * Rabs b)) with ((u32 * Rabs b) * (u32 * Rabs b)) by ring. apply Rmult_le_compat; try apply Rabs_pos; assumption. }
    pose proof (Q _ _ X). pose proof (Q _ _ Y). pose proof (Q _ _ Z).
    change ((x3 v - x3 w) * (x3 v - x3 w) + (y3 v - y3 w) * (y3 v - y3 w) + (z3 v - z3 w) * (z3 v - z3 w) <= u32 * x3 w * (u32 * x3 w) + u32 * y3 w * (u32 * y3 w) + u32 * z3 w * (u32 * z3 w)). lra. }
  pose proof (norm3_triangle (sub3 v w) w) as T1. pose proof (norm3_triangle (sub3 w v) v) as T2.
  replace (add3 (sub3 v w) w) with v in T1 by (apply pt3_eq; unfold add3, sub3, x3, y3, z3; cbn [fst snd]; ring).
  replace (add3 (sub3 w v) v) with w in T2 by (apply pt3_eq; unfold add3, sub3, x3, y3, z3; cbn [fst snd]; ring).
  replace (norm3 (sub3 w v)) with (norm3 (sub3 v w)) in T2 by (rewrite <- (norm3_neg (sub3 v w)); f_equal; apply pt3_eq; unfold neg3, sub3, x3, y3, z3; cbn [fst snd]; ring).
  apply Rabs_le. lra.
Qed.
Lemma fac_rel a A e : Rabs e <= u32 -> a = A * (1 + e) -> Rabs (a - A) <= u32 * Rabs A.
Proof. intros He ->. replace (A * (1 + e) - A) with (e * A) by ring. rewrite Rabs_mult. apply Rmult_le_compat_r; [apply Rabs_pos | exact He]. Qed.
Lemma two_steps (l N0 N1 b : R) : 0 <= N0 -> Rabs (N1 - N0) <= u32 * N0 -> Rabs (l - N1) <= 4 * u32 * N1 + b -> Rabs (l - N0) <= 6 * u32 * N0 + b.
Proof.
  intros P H K. pose proof u32_pos. pose proof u32_small. apply abs_le2' in H. apply abs_le2' in K. assert (u32 * N1 <= u32 * (101 / 100 * N0)) by nra. apply Rabs_le. lra.
Qed.
Section BoxSdf.
Context {T : Type} {TR : Transformation3d b32 T}.
Variables (h : vec3 b32) (rel : T).
Let p := apply_origin3 rel.
Let q := rval3 p.
Hypotheses (Fp : small3 p 59) (Fh : half3_ok h).
Lemma box3_sdf_core : ~ (Rabs (x3 q) < val (wx h) /\ Rabs (y3 q) < val (wy h) /\ val (wz h) <= Rabs (z3 q)) ->
  let x := sdf_rel3 (Box3d h) PointS rel in
  fin x /\ (val x < 0 <-> overlaps3 (solid_box h) (single3 q)) /\
  exists d, is_signed_distance3 d (solid_box h) (single3 q) /\ Rabs (val x - d) <= 6 * u32 * Rabs d + bpow radix2 (-59).
Proof.
  intros NB x. destruct (box3_core h rel Fp Fh) as (IFF & _). fold p in IFF. fold q in IFF.
  destruct Fp as ((Px & Py & Pz) & Sx & Sy & Sz). destruct Fh as (((Ex & Ey & Ez) & Tx & Ty & Tz) & Hx & Hy & Hz).
  destruct (slack_ok _ _ Px Ex Sx Tx) as (Dx & Kx & Rx & ex & Ux & Vx). destruct (slack_ok _ _ Py Ey Sy Ty) as (Dy & Ky & Ry & ey & Uy & Vy). destruct (slack_ok _ _ Pz Ez Sz Tz) as (Dz & Kz & Rz & ez & Uz & Vz).
  set (dx := fsub (fabs (wx p)) (wx h)) in * . set (dy := fsub (fabs (wy p)) (wy h)) in * . set (dz := fsub (fabs (wz p)) (wz h)) in * .
  pose proof u32_pos as Up. pose proof u32_small as Us. pose proof (bpow_gt_0 radix2 (-59)) as B0.
  assert (O : apply_origin3 (inj3 q) = inj3 q) by (unfold inj3, apply_origin3; cbn; rewrite ?Rplus_0_l, ?Rplus_0_r; reflexivity).
  destruct (Props_3d.C48_box3_point_sdf _ _ _ q Hx Hy Hz NB _ _ (inj3 q) O) as (d & D1 & D2 & _).
  rewrite (Props_3d.box3_sdf_cases _ _ _ q _ _ (inj3 q) O) in D1.
  destruct (Props_3d.C48_box3_point_exact _ _ _ q Hx Hy Hz _ _ (inj3 q) O) as [_ EX].
  assert (CC : collides_rel3 (Props_3d.mbox3 (val (wx h)) (val (wy h)) (val (wz h))) PointS (inj3 q) = collides_rel3 (Box3d h) PointS rel).
  { apply Bool.eq_iff_eq_true. rewrite IFF, EX. unfold solid_box. rewrite box3_inside. reflexivity. }
  rewrite CC in D1. clear CC EX. unfold x, sdf_rel3, Sdf3_BoxPoint. cbn [halfsize3]. fold p. fold dx dy dz.
  change (val (wx p)) with (x3 q) in Vx, Rx. change (val (wy p)) with (y3 q) in Vy, Ry. change (val (wz p)) with (z3 q) in Vz, Rz.
  set (ax := Rabs (x3 q) - val (wx h)) in * . set (ay := Rabs (y3 q) - val (wy h)) in * . set (az := Rabs (z3 q) - val (wz h)) in * .
  assert (sx : val dx < 0 <-> ax < 0) by (rewrite Vx; pose proof (fac_pos _ Ux); split; intro; nra).
  assert (sy : val dy < 0 <-> ay < 0) by (rewrite Vy; pose proof (fac_pos _ Uy); split; intro; nra).
  assert (sz : val dz < 0 <-> az < 0) by (rewrite Vz; pose proof (fac_pos _ Uz); split; intro; nra).
  destruct (collides_rel3 (Box3d h) PointS rel) eqn:E.
  - assert (Ov : overlaps3 (solid_box h) (single3 q)) by (apply IFF; reflexivity).
    pose proof Ov as Ov'. unfold solid_box in Ov'. rewrite box3_inside in Ov'. destruct Ov' as (X & Y & Z).
    destruct (fmax_fin32 dx dy Dx Dy) as [F1 V1]. destruct (fmax_fin32 _ dz F1 Dz) as [F2 V2]. split; [exact F2|].
    assert (VV : val (fmax (fmax dx dy) dz) = rnd (Rmax (Rmax ax ay) az)).
    { rewrite V2, V1, Rx, Ry, Rz. assert (M : forall a b, Rmax (rnd a) (rnd b) = rnd (Rmax a b)).
      { intros a b. destruct (Rle_or_lt a b) as [K|K]; [rewrite !Rmax_right; try reflexivity; try exact K; apply rnd_le, K | rewrite !Rmax_left; try reflexivity; try lra; apply rnd_le; lra]. }
      rewrite !M. reflexivity. }
    injection D1 as D1. rewrite D1 in VV.
    assert (ER : exists e, Rabs e <= u32 /\ val (fmax (fmax dx dy) dz) = d * (1 + e)).
    { rewrite <- D1 in * . rewrite VV. unfold Rmax. destruct (Rle_dec ax ay); [destruct (Rle_dec ay az) | destruct (Rle_dec ax az)]; rewrite <- ?Rx, <- ?Ry, <- ?Rz; rewrite ?Vx, ?Vy, ?Vz; eauto. }
    destruct ER as (e & He & Ve). assert (Dn : d < 0) by (rewrite <- D1; unfold ax, ay, az; repeat apply Rmax_lub_lt; lra).
    split. { split; [intros _; exact Ov | intros _]. rewrite Ve. pose proof (fac_pos _ He). nra. }
    exists d. split; [exact D2|]. pose proof (fac_rel _ d e He Ve). pose proof (Rabs_pos d). nra.
  - assert (NO : ~ overlaps3 (solid_box h) (single3 q)) by (intro K; apply IFF in K; discriminate).
    assert (OUT : ~ (ax < 0 /\ ay < 0 /\ az < 0)) by (intros (X & Y & Z); apply NO; unfold solid_box; rewrite box3_inside; unfold ax, ay, az in *; repeat split; lra).
    assert (NBa : ~ (ax < 0 /\ ay < 0 /\ 0 <= az)) by (intros (X & Y & Z); apply NB; unfold ax, ay, az in *; repeat split; lra).
    assert (F0 : fin (@f0 b32 _)) by reflexivity. rewrite !flt_fin by assumption. change (val (@f0 b32 _)) with 0.
    assert (Len2 : forall (a b : b32) A B ea eb, fin a -> fin b -> small (val a) 60 -> small (val b) 60 -> Rabs ea <= u32 -> Rabs eb <= u32 -> val a = A * (1 + ea) -> val b = B * (1 + eb) ->
      fin (v2len (V2 a b)) /\ 0 <= val (v2len (V2 a b)) /\ Rabs (val (v2len (V2 a b)) - norm3 (A, B, 0)) <= 6 * u32 * norm3 (A, B, 0) + bpow radix2 (-59)).
    { intros a b A B ea eb Fa Fb Sa Sb Ha Hb Va Vb. assert (S2 : small2 (V2 a b) 60) by (repeat split; assumption).
      destruct (len_nonneg _ S2) as [L1 L2]. destruct (len_any _ S2) as [_ L3]. split; [exact L1|]. split; [exact L2|].
      apply (two_steps _ _ (norm (rval (V2 a b))) _ (norm3_nonneg _)); [|exact L3].
      replace (norm (rval (V2 a b))) with (norm3 (val a, val b, 0)).
      - apply norm3_rel. intros f [<- | [<- | [<- | []]]]; unfold x3, y3, z3; cbn [fst snd]; [apply (fac_rel _ _ ea); assumption | apply (fac_rel _ _ eb); assumption | rewrite Rminus_0_r, Rabs_R0; lra].
      - unfold norm3, norm. f_equal. unfold dot3, pdot, rval, x3, y3, z3; cbn [fst snd vx vy]. ring. }
    assert (Sw : forall a b, norm3 (0, b, a) = norm3 (a, b, 0)) by (intros; unfold norm3; f_equal; unfold dot3, x3, y3, z3; cbn [fst snd]; ring).
    assert (Sw' : forall a b, norm3 (b, 0, a) = norm3 (a, b, 0)) by (intros; unfold norm3; f_equal; unfold dot3, x3, y3, z3; cbn [fst snd]; ring).
    assert (Fin : forall l : b32, fin l -> 0 <= val l -> 0 <= d -> Rabs (val l - d) <= 6 * u32 * d + bpow radix2 (-59) -> fin l /\ (val l < 0 <-> overlaps3 (solid_box h) (single3 q)) /\
      exists d0, is_signed_distance3 d0 (solid_box h) (single3 q) /\ Rabs (val l - d0) <= 6 * u32 * Rabs d0 + bpow radix2 (-59)).
    { intros l Fl Pl Pd El. split; [exact Fl|]. split; [split; [lra | intro K; contradiction]|]. exists d. split; [exact D2|]. rewrite (Rabs_pos_eq d) by exact Pd. exact El. }
    assert (One : forall (l : b32) A e, fin l -> Rabs e <= u32 -> val l = A * (1 + e) -> 0 <= A -> d = A -> 0 <= val l /\ 0 <= d /\ Rabs (val l - d) <= 6 * u32 * d + bpow radix2 (-59)).
    { intros l A e Fl He Vl PA ->. split; [rewrite Vl; pose proof (fac_pos _ He); nra|]. split; [exact PA|]. pose proof (fac_rel _ A e He Vl) as K. rewrite (Rabs_pos_eq A) in K by exact PA. nra. }
    destruct (Rltb_spec (val dz) 0) as [Lz|Lz], (Rltb_spec (val dx) 0) as [Lx|Lx], (Rltb_spec (val dy) 0) as [Ly|Ly]; rewrite ?sz in Lz; rewrite ?sx in Lx; rewrite ?sy in Ly;
      rewrite ?(Rltb_true az 0), ?(Rltb_false az 0), ?(Rltb_true ax 0), ?(Rltb_false ax 0), ?(Rltb_true ay 0), ?(Rltb_false ay 0) in D1 by lra; injection D1 as D1; symmetry in D1;
      try (exfalso; apply OUT; repeat split; lra); try (exfalso; apply NBa; repeat split; lra).
    + destruct (One dy ay ey Dy Uy Vy ltac:(lra) D1) as (O1 & O2 & O3). apply Fin; assumption.
    + destruct (One dx ax ex Dx Ux Vx ltac:(lra) D1) as (O1 & O2 & O3). apply Fin; assumption.
    + destruct (Len2 dx dy ax ay ex ey Dx Dy Kx Ky Ux Uy Vx Vy) as (L1 & L2 & L3). rewrite <- D1 in L3. apply Fin; try assumption. rewrite D1. apply norm3_nonneg.
    + rewrite Sw in D1. destruct (Len2 dz dy az ay ez ey Dz Dy Kz Ky Uz Uy Vz Vy) as (L1 & L2 & L3). rewrite <- D1 in L3. apply Fin; try assumption. rewrite D1. apply norm3_nonneg.
    + rewrite Sw' in D1. destruct (Len2 dz dx az ax ez ex Dz Dx Kz Kx Uz Ux Vz Vx) as (L1 & L2 & L3). rewrite <- D1 in L3. apply Fin; try assumption. rewrite D1. apply norm3_nonneg.
    + destruct (len3_any (V3 dx dy dz)) as (L1 & L2 & L3); [repeat split; assumption|]. apply Fin; try assumption; [rewrite D1; apply norm3_nonneg|].
      rewrite D1. apply (two_steps _ _ (norm3 (rval3 (V3 dx dy dz))) _ (norm3_nonneg _)); [|exact L3].
      apply norm3_rel. intros f [<- | [<- | [<- | []]]]; unfold rval3, x3, y3, z3; cbn [fst snd wx wy wz]; [apply (fac_rel _ _ ex) | apply (fac_rel _ _ ey) | apply (fac_rel _ _ ez)]; assumption.
Qed.
End BoxSdf.

(** ** Balls *)
Definition ball3_true (r : R) (q : pt3) : pt3 := if Rltb 0 (norm3 q) then scale3 ((norm3 q - r) / norm3 q) q else (r, 0, 0).
Lemma ball3_true_ok r q : 0 <= r -> true_answer3 (ball3 r) (single3 q) (ball3_true r q) /\ norm3 (ball3_true r q) = Rabs (norm3 q - r) /\ is_signed_distance3 (norm3 q - r) (ball3 r) (single3 q).
Proof.
  intro H. assert (O : apply_origin3 (inj3 q) = inj3 q) by (unfold inj3, apply_origin3; cbn; rewrite ?Rplus_0_l, ?Rplus_0_r; reflexivity).
  destruct (Props_3d.C48_ball3_point_exact r q H _ _ (inj3 q) O) as (A & _ & d & D1 & D2 & v & V1 & V2).
  assert (SV : sdfv_rel3 (pball r) PointS (inj3 q) = inj3 (ball3_true r q)) by (rewrite (Props_3d.ball3_sdfv_fin r q _ _ (inj3 q) O); unfold ball3_true; destruct (Rltb 0 (norm3 q)); reflexivity).
  assert (ED : d = norm3 q - r). { unfold sdf_rel3, Sdf3_BallPoint in D1. rewrite O, Props_3d.v3len_fin in D1. injection D1 as D1. symmetry. exact D1. }
  rewrite SV in V1. apply inj3_inj in V1. subst v d. split; [|split; [exact V2 | exact D2]].
  pose proof u32_pos as U. destruct A as [(Ov & v & M & _ & _ & S) | (NO & v & M & _ & _ & S)]; rewrite SV in S; apply inj3_inj in S; subst v.
  - left. split; [exact Ov|]. split; [exact (proj1 M)|]. intros w W. pose proof (proj2 M w W). pose proof (norm3_nonneg w). nra.
  - right. split; [exact NO | exact M].
Qed.
Lemma norm_parts3 p k L al be : L = norm3 k -> 0 < L -> 0 <= al -> 0 <= be ->
  Rabs (x3 p) <= Rabs (x3 k) / L * al + be -> Rabs (y3 p) <= Rabs (y3 k) / L * al + be -> Rabs (z3 p) <= Rabs (z3 k) / L * al + be -> norm3 p <= al + 2 * be.
Proof.
  intros EL HL Hal Hbe H1 H2 H3. set (K := (Rabs (x3 k), Rabs (y3 k), Rabs (z3 k)) : pt3).
  assert (NK : norm3 K = L).
  { rewrite EL. unfold norm3. f_equal. unfold dot3, K, x3 at 1 2, y3 at 1 2, z3 at 1 2; cbn [fst snd]. pose proof (Rsqr_abs (x3 k)) as R1. pose proof (Rsqr_abs (y3 k)) as R2. pose proof (Rsqr_abs (z3 k)) as R3. unfold Rsqr in * . rewrite R1, R2, R3. reflexivity. }
  assert (Ai : 0 <= al / L) by (apply Rmult_le_pos; [exact Hal | left; apply Rinv_0_lt_compat, HL]).
  assert (Q : norm3 (scale3 (al / L) K) = al) by (rewrite norm3_scale, NK, Rabs_pos_eq by exact Ai; field; lra).
  assert (B : norm3 (be, be, be) <= 2 * be) by (apply norm3_le_sq; [lra|]; unfold dot3, x3, y3, z3; cbn [fst snd]; nra).
  apply Rle_trans with (norm3 (add3 (scale3 (al / L) K) (be, be, be))); [|eapply Rle_trans; [apply norm3_triangle|]; lra].
  assert (X : forall a c, 0 <= c -> Rabs a <= Rabs c / L * al + be -> a * a <= (al / L * c + be) * (al / L * c + be)).
  { intros a c Pc Ha. rewrite (Rabs_pos_eq c Pc) in Ha. replace (c / L * al + be) with (al / L * c + be) in Ha by (field; lra). pose proof (Rsqr_abs a) as R1. unfold Rsqr in R1. rewrite R1. apply Rmult_le_compat; try apply Rabs_pos; exact Ha. }
  apply norm3_le_norm. unfold K, dot3, add3, scale3. unfold x3 at 3 4, y3 at 3 4, z3 at 3 4. cbn [fst snd]. unfold x3 at 3 5, y3 at 3 5, z3 at 3 5. cbn [fst snd].
  pose proof (X (x3 p) (Rabs (x3 k)) (Rabs_pos _) ltac:(rewrite Rabs_Rabsolu; exact H1)) as X1. pose proof (X (y3 p) (Rabs (y3 k)) (Rabs_pos _) ltac:(rewrite Rabs_Rabsolu; exact H2)) as X2. pose proof (X (z3 p) (Rabs (z3 k)) (Rabs_pos _) ltac:(rewrite Rabs_Rabsolu; exact H3)) as X3.
  unfold x3, y3, z3 in *; cbn [fst snd] in * . lra.
Qed.
(** the factor (l - r) / l, l being a computed length *)
Section Factor.
Variables (l r : b32) (L : R).
Let rho := val r.
Hypotheses (Fl : fin l) (El : Rabs (val l - L) <= 4 * u32 * L) (L60 : bpow radix2 (-60) <= L) (L62 : L <= 4 * bpow radix2 60) (Fr : fin r) (Sr : small (val r) 60) (Hr : 0 <= val r).
Let d := fsub l r.
Let q := fdiv d l.
Lemma factor_parts : fin d /\ val d = rnd (val l - val r) /\ small (val d) 64 /\ 0 < val l /\ fin q /\ val q = rnd (val d / val l) /\ Rabs (rnd (val d / val l)) < big /\
  Rabs (val d - (L - rho)) <= 61 / 10 * u32 * (L + rho) /\
  forall x : b32, fin x -> Rabs (val x) <= L ->
    fin (fmul x q) /\ val (fmul x q) = rnd (val x * val q) /\ Rabs (rnd (val x * val q)) < big /\ Rabs (val (fmul x q) - val x * (L - rho) / L) <= Rabs (val x) / L * ((124 / 10 * u32) * (L + rho)) + u32 / 40 * L.
Proof.
  pose proof u32_pos as Up. pose proof u32_small as Us. pose proof tiny_pos as Tp.
  assert (HL : 0 < L) by (eapply Rlt_le_trans; [apply bpow_gt_0 | exact L60]).
  assert (Ls : small (val l) 63).
  { unfold small. apply abs_le2' in El. apply Rabs_le. replace (bpow radix2 63) with (8 * bpow radix2 60) by (replace 63%Z with (3 + 60)%Z by reflexivity; rewrite bpow_plus; reflexivity). nra. }
  assert (Sm : small (rnd (val l - val r)) 64).
  { apply rnd_small; [lia|]. apply (small_add _ _ 63); [exact Ls | apply small_opp; eapply small_weak; [|exact Sr]; lia]. }
  destruct (sub_ok l r Fl Fr ltac:(eapply small_big; [|exact Sm]; lia)) as [D1 D2]. fold d in D1, D2.
  assert (D3 : Rabs (val d - (L - rho)) <= 61 / 10 * u32 * (L + rho)).
  { destruct (rnd_error_sub l r) as (e & He & Ee). rewrite D2, Ee. pose proof (diff_pert L (val l) rho (4 * u32) e HL Hr ltac:(lra) El He) as B. fold rho. eapply Rle_trans; [exact B|]. apply Rmult_le_compat_r; [unfold rho in *; lra|]. lra. }
  assert (D4 : small (val d) 64) by (rewrite D2; exact Sm).
  destruct (inv_pert L _ (4 * u32) HL ltac:(lra) El) as [P2 I2]. set (L2 := val l) in * .
  assert (Pl : bpow radix2 (-61) <= L2).
  { apply abs_le2' in El. replace (bpow radix2 (-61)) with (bpow radix2 (-60) / 2); [nra|]. replace (-60)%Z with (1 + -61)%Z by reflexivity. rewrite bpow_plus. cbn [bpow]. cbn. field. }
  assert (Sq : small (rnd (val d / L2)) 125).
  { apply rnd_small; [lia|]. unfold small, Rdiv. rewrite Rabs_mult, (Rabs_pos_eq (/ L2)) by (left; apply Rinv_0_lt_compat, P2).
    replace 125%Z with (64 + 61)%Z by reflexivity. rewrite bpow_plus. apply Rmult_le_compat; [apply Rabs_pos | left; apply Rinv_0_lt_compat, P2 | exact D4 |].
    replace (bpow radix2 61) with (/ bpow radix2 (-61)) by (rewrite <- bpow_opp; reflexivity). apply Rinv_le; [apply bpow_gt_0 | exact Pl]. }
  assert (Bq : Rabs (rnd (val d / L2)) < big) by (eapply small_big; [|exact Sq]; lia).
  destruct (div_ok d l D1 ltac:(fold L2; apply Rgt_not_eq; exact P2) Bq) as [Q1 Q2]. fold L2 in Q2. fold q in Q1, Q2.
  split; [exact D1|]. split; [exact D2|]. split; [exact D4|]. split; [exact P2|]. split; [exact Q1|]. split; [exact Q2|]. split; [exact Bq|]. split; [exact D3|].
  destruct (rnd_error (val d / L2)) as (e2 & t2 & He2 & Ht2 & Eq). rewrite Eq in Q2.
  assert (Dd : Rabs (val d) <= 2 * (L + rho)).
  { apply abs_le2' in D3. apply Rabs_le. unfold rho in * . nra. }
  intros x Fx Bx.
  assert (Bp : Rabs (val x * val q) <= bpow radix2 67).
  { rewrite Q2, Rabs_mult.
    assert (Rabs (val x) * Rabs (val d / L2 * (1 + e2) + t2) <= L * (Rabs (val d) / L2 * 2 + tiny)).
    { apply Rmult_le_compat; try apply Rabs_pos; [exact Bx|]. eapply Rle_trans; [apply Rabs_triang|]. apply Rplus_le_compat; [|exact Ht2].
      rewrite Rabs_mult. unfold Rdiv. rewrite Rabs_mult, (Rabs_pos_eq (/ L2)) by (left; apply Rinv_0_lt_compat, P2). apply Rmult_le_compat_l.
      - apply Rmult_le_pos; [apply Rabs_pos | left; apply Rinv_0_lt_compat, P2].
      - apply abs_le2' in He2. apply Rabs_le. lra. }
    assert (LL : L / L2 <= 102 / 100) by (apply abs_le2' in I2; lra).
    assert (L * (Rabs (val d) / L2 * 2 + tiny) <= 3 * Rabs (val d) + L).
    { replace (L * (Rabs (val d) / L2 * 2 + tiny)) with (2 * Rabs (val d) * (L / L2) + L * tiny) by (field; lra). pose proof (Rabs_pos (val d)). pose proof tiny_u.
      assert (2 * Rabs (val d) * (L / L2) <= 2 * Rabs (val d) * (102 / 100)) by (apply Rmult_le_compat_l; lra). nra. }
    unfold small in D4.
    replace (bpow radix2 67) with (8 * bpow radix2 64) by (replace 67%Z with (3 + 64)%Z by reflexivity; rewrite bpow_plus; reflexivity).
    replace (bpow radix2 64) with (16 * bpow radix2 60) in * by (replace 64%Z with (4 + 60)%Z by reflexivity; rewrite bpow_plus; reflexivity). pose proof (bpow_ge_0 radix2 60). lra. }
  assert (Sx : small (rnd (val x * val q)) 67) by (apply rnd_small; [lia | exact Bp]).
  assert (Bm : Rabs (rnd (val x * val q)) < big) by (eapply small_big; [|exact Sx]; lia).
  destruct (mul_ok x q Fx Q1 Bm) as [M1 M2]. split; [exact M1|]. split; [exact M2|]. split; [exact Bm|]. rewrite M2.
  destruct (rnd_error (val x * val q)) as (e3 & t3 & He3 & Ht3 & ->). rewrite Q2.
  set (f := L / L2 * ((1 + e2) * (1 + e3))).
  assert (Bf : Rabs (f - 1) <= 62 / 10 * u32).
  { unfold f. pose proof (pert (1 + e2) (1 + e3) u32 u32 (Rlt_le _ _ Up) (one_pert _ He2) (one_pert _ He3)) as P23.
    pose proof (pert (L / L2) _ (101 / 100 * (4 * u32)) _ ltac:(lra) I2 P23) as PF. eapply Rle_trans; [exact PF|]. nra. }
  replace (val x * (val d / L2 * (1 + e2) + t2) * (1 + e3) + t3 - val x * (L - rho) / L)
    with ((val x / L * (val d * f) - val x * (L - rho) / L) + (val x * t2 * (1 + e3) + t3)) by (unfold f; field; split; lra).
  eapply Rle_trans; [apply Rabs_triang|]. apply Rplus_le_compat.
  - eapply Rle_trans; [apply (comp_pert (val x) L rho (val d) f (61 / 10 * u32) (62 / 10 * u32) HL Hr); [split; lra | split; lra | exact D3 | exact Bf]|].
    apply Rmult_le_compat_l; [apply Rmult_le_pos; [apply Rabs_pos | left; apply Rinv_0_lt_compat, HL]|]. apply Rmult_le_compat_r; [unfold rho; lra|]. nra.
  - eapply Rle_trans; [apply Rabs_triang|]. rewrite !Rabs_mult.
    assert (Rabs (1 + e3) <= 101 / 100) by (apply abs_le2' in He3; apply Rabs_le; lra).
    assert (Rabs (val x) * Rabs t2 <= L * tiny) by (apply Rmult_le_compat; try apply Rabs_pos; assumption).
    assert (Rabs (val x) * Rabs t2 * Rabs (1 + e3) <= (L * tiny) * (101 / 100)).
    { apply Rmult_le_compat; try apply Rabs_pos; try assumption. apply Rmult_le_pos; apply Rabs_pos. }
    pose proof (bpow_small_u L L60). pose proof tiny_u. nra.
Qed.
End Factor.

Lemma zero_sq (x : b32) : fin x -> val x = 0 -> fin (fmul x x) /\ val (fmul x x) = 0.
Proof. intros F V. destruct (mul_ok x x F F) as [A B]; [rewrite V, Rmult_0_l, rnd_0, Rabs_R0; apply bpow_gt_0|]. split; [exact A|]. rewrite B, V, Rmult_0_l. apply rnd_0. Qed.
Lemma zero_sum (x y : b32) : fin x -> fin y -> val x = 0 -> val y = 0 -> fin (fadd x y) /\ val (fadd x y) = 0.
Proof. intros F G V W. destruct (add_ok x y F G) as [A B]; rewrite ?V, ?W, ?Rplus_0_r, ?rnd_0, ?Rabs_R0 in *; [apply bpow_gt_0|]. split; assumption. Qed.
Lemma zero3_len (p : vec3 b32) : fin3 p -> rval3 p = (0, 0, 0) -> fin (v3dot p p) /\ val (v3dot p p) = 0 /\ fin (v3len p) /\ val (v3len p) = 0.
Proof.
  intros (F1 & F2 & F3) E. injection E as Ex Ey Ez. destruct (zero_sq _ F1 Ex) as [A1 B1]. destruct (zero_sq _ F2 Ey) as [A2 B2]. destruct (zero_sq _ F3 Ez) as [A3 B3].
  destruct (zero_sum _ _ A1 A2 B1 B2) as [A4 B4]. destruct (zero_sum _ _ A4 A3 B4 B3) as [A5 B5].
  change (fin (v3dot p p)) in A5. change (val (v3dot p p) = 0) in B5. split; [exact A5|]. split; [exact B5|].
  destruct (sqrt_fin _ A5 ltac:(lra)) as [A6 B6]. split; [exact A6|]. unfold v3len. rewrite B6, B5, sqrt_0. apply rnd_0.
Qed.
(** a ball of radius zero or at least 2^-60 *)
Definition radius3_ok (r : b32) : Prop := radius_ok r /\ (val r = 0 \/ bpow radix2 (-60) <= val r).
Section BallAny.
Context {T : Type} {TR : Transformation3d b32 T}.
Variables (r : b32) (rel : T).
Let p := apply_origin3 rel.
Let q := rval3 p.
Let L := norm3 q.
Hypotheses (Fp : small3 p 59).
Lemma wide3 : small3 p 60. Proof. eapply small3_wide; [|exact Fp]. lia. Qed.
Lemma len3_hi : L <= 4 * bpow radix2 60.
Proof.
  destruct wide3 as (_ & X & Y & Z). pose proof (bpow_gt_0 radix2 60) as B. unfold L. apply norm3_le_sq; [lra|]. unfold small in * .
  assert (K : forall a, Rabs a <= bpow radix2 60 -> a * a <= bpow radix2 60 * bpow radix2 60).
  { intros a H. pose proof (Rsqr_abs a) as R1. unfold Rsqr in R1. rewrite R1. apply Rmult_le_compat; try apply Rabs_pos; exact H. }
  pose proof (K _ X). pose proof (K _ Y). pose proof (K _ Z). unfold q, dot3, rval3, x3, y3, z3; cbn [fst snd]. nra.
Qed.
Hypothesis (Hr : radius_ok r).
Lemma ball3_sdf : let x := sdf_rel3 (Ball r) PointS rel in fin x /\ Rabs (val x - (L - val r)) <= 8 * u32 * (Rabs (L - val r) + 2 * val r) + bpow radix2 (-57).
Proof.
  destruct Hr as (FR & SR & PR). destruct (len3_any p wide3) as (F1 & P1 & E1). fold q in E1. fold L in E1. pose proof u32_pos as Up. pose proof u32_small as Us. pose proof (norm3_nonneg q) as LP. fold L in LP.
  pose proof len3_hi as HH. assert (B : bpow radix2 (-59) <= bpow radix2 60) by (apply bpow_le; lia).
  change (sdf_rel3 (Ball r) PointS rel) with (fsub (v3len p) r). cbv zeta. apply less_radius; try assumption.
  - unfold small. apply abs_le2' in E1. apply Rabs_le. replace (bpow radix2 63) with (8 * bpow radix2 60) by (replace 63%Z with (3 + 60)%Z by reflexivity; rewrite bpow_plus; reflexivity). nra.
  - eapply small_weak; [|exact SR]; lia.
  - rewrite Rminus_eq_0, Rabs_R0. apply Rmult_le_pos; lra.
  - rewrite (Rabs_pos_eq L) by exact LP. assert (0 <= u32 * L) by (apply Rmult_le_pos; lra). assert (bpow radix2 (-59) <= bpow radix2 (-58)) by (apply bpow_le; lia). lra.
Qed.
End BallAny.
Section BallCore.
Context {T : Type} {TR : Transformation3d b32 T}.
Variables (r : b32) (rel : T).
Let p := apply_origin3 rel.
Let q := rval3 p.
Let L := norm3 q.
Hypotheses (Fp : centre3_ok p) (Hr : radius3_ok r).
Let v := sdfv_rel3 (Ball r) PointS rel.
Lemma wide : small3 p 60. Proof. exact (wide3 rel (proj1 Fp)). Qed.
Lemma high : L <= 4 * bpow radix2 60. Proof. exact (len3_hi rel (proj1 Fp)). Qed.
(** the far case *)
Lemma ball3_far : bpow radix2 (-60) <= L -> fin (v3len p) /\ 0 < val (v3len p) /\ Rabs (val (v3len p) - L) <= 4 * u32 * L /\ v = v3muls p (fdiv (fsub (v3len p) r) (v3len p)).
Proof.
  intro H. destruct (length3_ok p wide H) as [F E]. fold q in E. fold L in E. assert (P : 0 < val (v3len p)).
  { assert (0 < L) by (eapply Rlt_le_trans; [apply bpow_gt_0 | exact H]). pose proof u32_small. apply abs_le2' in E. nra. }
  split; [exact F|]. split; [exact P|]. split; [exact E|]. unfold v, sdfv_rel3, Sdfv3_BallPoint. fold p. rewrite flt_fin by (assumption || reflexivity). change (val (@f0 b32 _)) with 0. rewrite Rltb_true by exact P. reflexivity.
Qed.
Lemma ball3_near : q = (0, 0, 0) -> fin3 v /\ rval3 v = (val r, 0, 0).
Proof.
  intro E. destruct (zero3_len p (proj1 (proj1 Fp)) E) as (_ & _ & L1 & L2). unfold v, sdfv_rel3, Sdfv3_BallPoint. fold p. rewrite flt_fin by (assumption || reflexivity). change (val (@f0 b32 _)) with 0. rewrite L2, Rltb_false by lra.
  destruct Hr as ((FR & _ & _) & _). unfold v3smul, v3X. cbn [wx wy wz b_radius]. destruct (mul_one_r true r FR) as [A1 A2]. cbn [one] in A1, A2. unfold sg in A2.
  assert (Fz : fin (@f0 b32 _)) by reflexivity. destruct (mul_ok r f0 FR Fz) as [B1 B2]; [change (val (@f0 b32 _)) with 0; rewrite Rmult_0_r, rnd_0, Rabs_R0; apply bpow_gt_0|].
  split; [repeat split; assumption|]. unfold rval3. cbn [wx wy wz]. rewrite A2, B2. change (val (@f0 b32 _)) with 0. rewrite Rmult_0_r, rnd_0, Rmult_1_r. reflexivity.
Qed.
Lemma ball3_vector : fin3 v /\ norm3 (sub3 (rval3 v) (ball3_true (val r) q)) <= 16 * u32 * (norm3 (ball3_true (val r) q) + 2 * val r).
Proof.
  pose proof u32_pos as Up. pose proof u32_small as Us. destruct Hr as ((FR & SR & PR) & _). destruct (ball3_true_ok (val r) q PR) as (_ & NW & _). rewrite NW.
  destruct Fp as [S [E|H]].
  - destruct (ball3_near E) as [V1 V2]. split; [exact V1|]. rewrite V2. unfold ball3_true. fold q in E. rewrite E, norm3_axis_x, Rabs_R0, Rltb_false by lra.
    replace (sub3 (val r, 0, 0) (val r, 0, 0)) with ((0, 0, 0) : pt3) by (apply pt3_eq; unfold sub3, x3, y3, z3; cbn [fst snd]; ring). rewrite norm3_axis_x, Rabs_R0.
    pose proof (Rabs_pos (0 - val r)). apply Rmult_le_pos; lra.
  - fold q in H. fold L in H. destruct (ball3_far H) as (F1 & P1 & E1 & EV).
    destruct (factor_parts (v3len p) r L F1 E1 H high FR ltac:(eapply small_weak; [|exact SR]; lia) PR) as (_ & _ & _ & _ & _ & _ & _ & _ & C).
    set (k := fdiv (fsub (v3len p) r) (v3len p)) in * . assert (HL : 0 < L) by (eapply Rlt_le_trans; [apply bpow_gt_0 | exact H]).
    destruct (coord_le_norm3 q) as (C1 & C2 & C3). fold L in C1, C2, C3. destruct S as ((Fx & Fy & Fz) & _).
    destruct (C (wx p) Fx C1) as (X1 & _ & _ & X2). destruct (C (wy p) Fy C2) as (Y1 & _ & _ & Y2). destruct (C (wz p) Fz C3) as (Z1 & _ & _ & Z2).
    rewrite EV. split; [repeat split; assumption|]. unfold ball3_true. fold L. rewrite Rltb_true by exact HL.
    assert (QQ : L + val r <= Rabs (L - val r) + 2 * val r) by (unfold Rabs; destruct Rcase_abs; lra).
    eapply Rle_trans; [apply (norm_parts3 _ q L ((124 / 10 * u32) * (L + val r)) (u32 / 40 * L)); [reflexivity | exact HL | | | | |]|].
    + apply Rmult_le_pos; lra.
    + apply Rmult_le_pos; lra.
    + change (Rabs (val (fmul (wx p) k) - (L - val r) / L * val (wx p)) <= Rabs (val (wx p)) / L * (124 / 10 * u32 * (L + val r)) + u32 / 40 * L). replace ((L - val r) / L * val (wx p)) with (val (wx p) * (L - val r) / L) by (field; lra). exact X2.
    + change (Rabs (val (fmul (wy p) k) - (L - val r) / L * val (wy p)) <= Rabs (val (wy p)) / L * (124 / 10 * u32 * (L + val r)) + u32 / 40 * L). replace ((L - val r) / L * val (wy p)) with (val (wy p) * (L - val r) / L) by (field; lra). exact Y2.
    + change (Rabs (val (fmul (wz p) k) - (L - val r) / L * val (wz p)) <= Rabs (val (wz p)) / L * (124 / 10 * u32 * (L + val r)) + u32 / 40 * L). replace ((L - val r) / L * val (wz p)) with (val (wz p) * (L - val r) / L) by (field; lra). exact Z2.
    + assert (0 <= u32 * (L + val r)) by (apply Rmult_le_pos; lra). assert (u32 * (L + val r) <= u32 * (Rabs (L - val r) + 2 * val r)) by (apply Rmult_le_compat_l; lra). assert (u32 * L <= u32 * (L + val r)) by (apply Rmult_le_compat_l; lra). lra.
Qed.
Lemma ball3_flag : 16 * u32 * (Rabs (L - val r) + 2 * val r) < Rabs (L - val r) -> (collides_rel3 (Ball r) PointS rel = true <-> overlaps3 (ball3 (val r)) (single3 q)).
Proof.
  intro H. pose proof u32_pos as Up. pose proof u32_small as Us. pose proof tiny_pos as Tp. destruct Hr as ((FR & SR & PR) & RR).
  rewrite overlaps3_single0, ball3_interior. fold L. unfold collides_rel3, Col3_BallPoint. cbn [b_radius]. fold p. unfold v3lensq.
  assert (Sq : small (rnd (val r * val r)) 118) by (apply rnd_small; [lia|]; apply (small_mul _ _ 59 59); assumption).
  destruct (mul_ok r r FR FR ltac:(eapply small_big; [|exact Sq]; lia)) as [M1 M2].
  destruct (rnd_error (val r * val r)) as (e & t & He & Ht & Er). apply abs_le2' in He. apply abs_le2' in Ht.
  assert (Goal0 : fin (v3dot p p) -> (val (v3dot p p) < val (fmul r r) <-> L < val r) -> (flt (v3dot p p) (fmul r r) = true <-> L < val r)).
  { intros F K. rewrite flt_fin by assumption. rewrite <- K. destruct (Rltb_spec (val (v3dot p p)) (val (fmul r r))); split; intro; (reflexivity || assumption || discriminate || contradiction). }
  destruct Fp as [S [E|Hl]].
  - fold q in E. destruct (zero3_len p (proj1 S) E) as (D1 & D2 & _). apply Goal0; [exact D1|]. rewrite D2.
    assert (L0 : L = 0) by (unfold L; rewrite E, norm3_axis_x; apply Rabs_R0). rewrite L0 in * . rewrite Rminus_0_l, Rabs_Ropp, Rabs_pos_eq in H by exact PR.
    destruct RR as [RR|RR]; [rewrite RR in H; lra|]. assert (0 < val r) by (eapply Rlt_le_trans; [apply bpow_gt_0 | exact RR]). split; [intros _; assumption | intros _].
    rewrite M2. apply Rlt_le_trans with (bpow radix2 (-120)); [apply bpow_gt_0|]. rewrite <- (rnd_bpow (-120)) by lia. apply rnd_le. replace (-120)%Z with (-60 + -60)%Z by reflexivity. rewrite bpow_plus. apply Rmult_le_compat; try apply bpow_ge_0; exact RR.
  - fold q in Hl. fold L in Hl. destruct (sq_rel p wide Hl) as (D1 & HL & D2 & D3). fold q in HL, D2, D3. fold L in HL, D2, D3. apply Goal0; [exact D1|]. apply abs_le2' in D2. rewrite M2, Er.
    set (X := val (v3dot p p)) in * . set (rr := val r) in * .
    assert (E1 : - (u32 * (rr * rr) + tiny) <= rr * rr * (1 + e) + t - rr * rr <= u32 * (rr * rr) + tiny). { assert (0 <= rr * rr) by nra. assert (rr * rr * e <= rr * rr * u32) by (apply Rmult_le_compat_l; lra). assert (rr * rr * (- u32) <= rr * rr * e) by (apply Rmult_le_compat_l; lra). lra. }
    set (Y := rr * rr * (1 + e) + t) in * .
    assert (LL : 0 <= L * L) by nra. assert (RQ : 0 <= rr * rr) by nra. assert (LR : 0 <= L * rr) by (apply Rmult_le_pos; lra).
    assert (B1 : X <= L * L + 42 / 10 * u32 * (L * L)) by lra. assert (B2 : L * L - 42 / 10 * u32 * (L * L) <= X) by lra.
    assert (UL : 0 <= u32 * (L * L)) by (apply Rmult_le_pos; lra). assert (UR : 0 <= u32 * (rr * rr)) by (apply Rmult_le_pos; lra). assert (ULR : 0 <= u32 * (L * rr)) by (apply Rmult_le_pos; lra).
    destruct (Rlt_or_le L rr) as [C|C].
    + rewrite Rabs_left in H by lra. split; [intros _; exact C | intros _].
      assert (G : 16 * u32 * (L + rr) * (L + rr) < (rr - L) * (L + rr)). { apply Rmult_lt_compat_r; [lra|]. apply Rle_lt_trans with (16 * u32 * (- (L - rr) + 2 * rr)); [apply Rmult_le_compat_l; lra | lra]. }
      assert (16 * (u32 * (L * L)) + 32 * (u32 * (L * rr)) + 16 * (u32 * (rr * rr)) < rr * rr - L * L) by lra. lra.
    + rewrite Rabs_pos_eq in H by lra. split; [intro K; exfalso | lra].
      assert (G : 16 * u32 * (L + rr) * (L + rr) < (L - rr) * (L + rr)). { apply Rmult_lt_compat_r; [lra|]. apply Rle_lt_trans with (16 * u32 * ((L - rr) + 2 * rr)); [apply Rmult_le_compat_l; lra | lra]. }
      assert (16 * (u32 * (L * L)) + 32 * (u32 * (L * rr)) + 16 * (u32 * (rr * rr)) < L * L - rr * rr) by lra. lra.
Qed.
(** penetrates computes the same vector by a different formula *)
Lemma ball3_pen : L = 0 \/ bpow radix2 (-22) <= L ->
  match penetrates_rel3 (Ball r) PointS rel with Some u => collides_rel3 (Ball r) PointS rel = true /\ fin3 u /\ rval3 u = rval3 v | None => collides_rel3 (Ball r) PointS rel = false end.
Proof.
  intro H. unfold penetrates_rel3, Pen3_BallPoint. destruct (collides_rel3 (Ball r) PointS rel); [|reflexivity]. cbn [b_radius]. fold p.
  assert (FE : fin (@feps b32 _)) by reflexivity. assert (VE : val (@feps b32 _) = bpow radix2 (-23)) by (unfold feps; cbn [FloatB32]; destruct (val_of 1 (-23)) as [_ V]; [lia | lia |]; rewrite V; ring).
  pose proof (proj1 (proj1 Hr)) as FR. destruct H as [H|H].
  - assert (E : q = (0, 0, 0)) by (apply norm3_0, H). destruct (zero3_len p (proj1 (proj1 Fp)) E) as (_ & _ & L1 & L2). destruct (ball3_near E) as [_ V2]. rewrite flt_fin by assumption. rewrite L2, VE, Rltb_true by apply bpow_gt_0.
    split; [reflexivity|]. split; [repeat split; (exact FR || reflexivity)|]. rewrite V2. reflexivity.
  - assert (H60 : bpow radix2 (-60) <= L) by (eapply Rle_trans; [|exact H]; apply bpow_le; lia). destruct (ball3_far H60) as (F1 & P1 & E1 & EV).
    pose proof u32_pos as Up. pose proof u32_small as Us. rewrite flt_fin by assumption. rewrite VE, Rltb_false.
    2:{ apply abs_le2' in E1. replace (bpow radix2 (-23)) with (bpow radix2 (-22) / 2); [|replace (-22)%Z with (1 + -23)%Z by reflexivity; rewrite bpow_plus; cbn [bpow]; cbn; field]. pose proof (bpow_gt_0 radix2 (-22)). nra. }
    split; [reflexivity|]. destruct Hr as ((_ & SR & PR) & _).
    destruct (factor_parts (v3len p) r L F1 E1 H60 high FR ltac:(eapply small_weak; [|exact SR]; lia) PR) as (D1 & D2 & D4 & _ & Q1 & Q2 & Q3 & _ & C).
    set (l := v3len p) in * . set (d := fsub l r) in * . set (k := fdiv d l) in * .
    assert (N1 : rnd (val r - val l) = - val d) by (rewrite D2, <- rnd_opp; f_equal; ring).
    destruct (sub_ok r l FR F1) as [A1 A2]. { rewrite N1, Rabs_Ropp. eapply small_big; [|exact D4]. lia. } rewrite N1 in A2.
    assert (N2 : rnd (val (fsub r l) / val l) = - val k) by (rewrite A2, Q2, <- rnd_opp; f_equal; field; lra).
    destruct (div_ok (fsub r l) l A1 ltac:(lra)) as [B1 B2]. { rewrite N2, Rabs_Ropp, Q2. exact Q3. } rewrite N2 in B2.
    set (k' := fdiv (fsub r l) l) in * .
    assert (Comp : forall x : b32, fin x -> Rabs (val x) <= L -> fin (fneg (fmul x k')) /\ val (fneg (fmul x k')) = val (fmul x k)).
    { intros x Fx Bx. destruct (C x Fx Bx) as (_ & C2 & C3 & _). assert (N3 : rnd (val x * val k') = - val (fmul x k)) by (rewrite B2, C2, <- rnd_opp; f_equal; ring).
      destruct (mul_ok x k' Fx B1) as [M1 M2]; [rewrite N3, Rabs_Ropp, C2; exact C3|]. split; [apply fin_neg, M1|]. rewrite val_neg, M2, N3. ring. }
    destruct (coord_le_norm3 q) as (C1 & C2 & C3). fold L in C1, C2, C3. destruct Fp as [((Fx & Fy & Fz) & _) _].
    destruct (Comp _ Fx C1) as [X1 X2]. destruct (Comp _ Fy C2) as [Y1 Y2]. destruct (Comp _ Fz C3) as [Z1 Z2].
    split; [repeat split; assumption|]. rewrite EV. unfold rval3, v3neg, v3muls. cbn [wx wy wz]. rewrite X2, Y2, Z2. reflexivity.
Qed.
End BallCore.
