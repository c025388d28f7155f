(** * C61: the closed-form pairs in f32 — Box v Point, RoundedBox v Point, Box v Ball, Ball v Point, Ball v Ball, Point v Box, Point v Ball:
    flag and vector of every query are nearly right.  The vocabulary ([true_answer], [close_answer], [reports]) is in Spec32.v. *)
From Coq Require Import Reals ZArith Bool Lra Lia List Psatz.
From Flocq Require Import IEEE754.BinarySingleNaN Core Relative.
From Verif Require Import Num NumXR NumB32 Glam Transform2 Shapes2 Gjk Detect2 Spec SpecLink P_Base P_Transform P_Shapes P_Geo P_Analytic P_B32 Props_F32 Props_F32Gjk Props_Lerp Props_F32Ball P_F32Box P_Drift Spec32 P_Closed32 Props_Drift.
Import ListNotations.
Local Open Scope R_scope.

(** a centre c diagonally beyond a corner of the box is not closer than 2^-59 to it *)
Definition clear_of_corners (h : vec2 b32) (c : pt) : Prop :=
  let X := Rabs (fst c) - val (vx h) in let Y := Rabs (snd c) - val (vy h) in 0 < X -> 0 < Y -> bpow radix2 (-59) <= norm (X, Y).
(** c is exactly on the line of the left or right side and strictly between top and bottom: the vector is wrong there even without rounding
    (C17_exact_line_refuted) *)
Definition on_bad_line (h : vec2 b32) (c : pt) : Prop := Rabs (fst c) = val (vx h) /\ Rabs (snd c) < val (vy h).
Definition half_ok (h : vec2 b32) : Prop := small2 h 59 /\ 0 <= val (vx h) /\ 0 <= val (vy h).
Definition radius_ok (r : b32) : Prop := fin r /\ small (val r) 59 /\ 0 <= val r.

Lemma reports_const {X Y T : Type} (SD : SdfvCommonRel2d b32 X Y T) (a : X) (b : Y) (rel : T) c v :
  (forall P D, sdfv_common_rel (F:=b32) P D a b rel = Ok (c, v)) -> reports a b rel c v.
Proof. intro H. unfold reports, collides_rel, penetrates_rel, distance_to_rel, sdfv_rel. rewrite !H. repeat split. Qed.
Lemma shift_single c : same_set (shift c (single origin)) (single c).
Proof. intro q. unfold shift, single. split; intro H; [|subst; apply pt_eq; cbn; ring]. pose proof (f_equal fst H) as A. pose proof (f_equal snd H) as B. cbn in A, B. apply pt_eq; lra. Qed.
Lemma shift_disc r c : same_set (image (place c 1 0 1 1) (disc r)) (shift c (disc r)).
Proof.
  intro q. split.
  - intros (p & Hp & ->). unfold shift, disc in * . replace (psub (place c 1 0 1 1 p) c) with p by (apply pt_eq; cbn; ring). exact Hp.
  - intro H. exists (psub q c). split; [exact H | apply pt_eq; cbn; ring].
Qed.

(** Box v Point: the flag is always right, the vector has relative error 2^-24 *)
Theorem C61_box_point : forall (T : Type) (TR : Transformation2d b32 T) (h : vec2 b32) (rel : T), half_ok h -> small2 (apply_origin rel) 59 ->
  let A := rect (val (vx h)) (val (vy h)) in let B := single (rval (apply_origin rel)) in
  exists c v, reports (Box2d h) PointS rel c v /\ fin2 v /\ (c = true <-> overlaps A B) /\
  exists w, true_answer A B w /\ norm (psub (rval v) w) <= u32 * norm w.
Proof.
  intros T TR h rel (Sh & Hx & Hy) Sp A B. destruct (box_core h rel Sp Sh Hx Hy) as (c & v & E & F & V & G). exists c, v. split; [|split; [exact F | split; [exact V | exact G]]].
  unfold reports, collides_rel, penetrates_rel, distance_to_rel, sdfv_rel, sdfv_common_rel, Sdfv_BoxPoint. rewrite !E. destruct c; repeat split.
Qed.
Print Assumptions C61_box_point.
Theorem C61_rounded_point : forall (T : Type) (TR : Transformation2d b32 T) (h : vec2 b32) (r : b32) (rel : T), let c0 := rval (apply_origin rel) in
  half_ok h -> radius_ok r -> small2 (apply_origin rel) 59 -> ~ on_bad_line h c0 -> clear_of_corners h c0 ->
  exists c v, reports (RoundedBox2d h r) PointS rel c v /\
    close_answer (val r) (rounded_rect (val (vx h)) (val (vy h)) (val r)) (single c0) c v.
Proof.
  intros T TR h r rel c0 (Sh & Hx & Hy) (Fr & Sr & Hr) Sp NL CC.
  destruct (rounded_core h r rel Sp Sh Hx Hy Fr Sr Hr) as (c & v & E & F); [intros [A B]; apply NL; split; fold c0 in A, B; lra | exact CC |].
  exists c, v. split; [|exact F]. apply reports_const. intros P D. unfold sdfv_common_rel, Sdfv_RoundedPoint. rewrite E. reflexivity.
Qed.
Print Assumptions C61_rounded_point.
(** Box v Ball: the ball sits at the image of the origin, whatever rotation and scale the transform has *)
Theorem C61_box_ball : forall (T : Type) (TR : Transformation2d b32 T) (h : vec2 b32) (r : b32) (rel : T), let c0 := rval (apply_origin rel) in
  half_ok h -> radius_ok r -> small2 (apply_origin rel) 59 -> ~ on_bad_line h c0 -> clear_of_corners h c0 ->
  exists c v, reports (Box2d h) (Ball r) rel c v /\ close_answer (val r) (rect (val (vx h)) (val (vy h))) (shift c0 (disc (val r))) c v.
Proof.
  intros T TR h r rel c0 (Sh & Hx & Hy) (Fr & Sr & Hr) Sp NL CC.
  destruct (rounded_core h r rel Sp Sh Hx Hy Fr Sr Hr) as (c & v & E & F); [intros [A B]; apply NL; split; fold c0 in A, B; lra | exact CC |].
  exists c, v. split.
  - apply reports_const. intros P D. unfold sdfv_common_rel, Sdfv_BoxBall, box_ball_sdfv. cbn [halfsize b_radius]. rewrite E. reflexivity.
  - assert (D : same_set (minkowski_diff (rounded_rect (val (vx h)) (val (vy h)) (val r)) (single c0)) (minkowski_diff (rect (val (vx h)) (val (vy h))) (shift c0 (disc (val r))))).
    { intro q. pose proof (diff_rect_disc (val (vx h)) (val (vy h)) (val r) c0 1 0 Hr ltac:(lra) q) as Q. rewrite Q. apply diff_ext; [intro; reflexivity | apply shift_disc]. }
    exact (close_same _ _ _ _ _ _ _ D F).
Qed.
Print Assumptions C61_box_ball.
(** the corner condition is met by every box with a side of at least 2^-33: f32 numbers of that size are multiples of 2^-57 *)
Lemma lattice x k : bpow radix2 k <= Rabs (val x) -> (-100 <= k)%Z -> exists m : Z, val x = IZR m * bpow radix2 (k - 23).
Proof.
  intros H Hk. pose proof (generic_format_B2R 24 128 x) as G. fold (val x) in G. unfold generic_format in G. unfold F2R in G. cbn [Fnum Fexp] in G.
  set (e := cexp radix2 (SpecFloat.fexp 24 128) (val x)) in * . set (m := Ztrunc (scaled_mantissa radix2 (SpecFloat.fexp 24 128) (val x))) in * .
  assert (L : (k - 23 <= e)%Z).
  { unfold e, cexp, SpecFloat.fexp, SpecFloat.emin. assert ((k + 1 <= mag radix2 (val x))%Z); [|lia].
    apply mag_ge_bpow. replace (k + 1 - 1)%Z with k by ring. exact H. }
  exists (m * 2 ^ (e - (k - 23)))%Z. rewrite G at 1. rewrite mult_IZR. replace (2 ^ (e - (k - 23)))%Z with (radix2 ^ (e - (k - 23)))%Z by reflexivity.
  rewrite IZR_Zpower by lia. rewrite Rmult_assoc, <- bpow_plus. f_equal. f_equal. lia.
Qed.
Lemma apart x h k : (-100 <= k)%Z -> bpow radix2 k <= val h -> val h < Rabs (val x) -> bpow radix2 (k - 23) <= Rabs (val x) - val h.
Proof.
  intros Hk Hh L. pose proof (bpow_gt_0 radix2 k) as P.
  destruct (lattice h k) as (m & Em); [rewrite Rabs_pos_eq; lra | exact Hk|].
  destruct (lattice (fabs x) k) as (n & En); [rewrite val_abs, Rabs_Rabsolu; lra | exact Hk|]. rewrite val_abs in En.
  pose proof (bpow_gt_0 radix2 (k - 23)) as Q. rewrite Em, En in L |- * . apply Rmult_lt_reg_r in L; [|exact Q]. apply lt_IZR in L.
  assert (IZR (m + 1) <= IZR n) as K by (apply IZR_le; lia). rewrite plus_IZR in K. nra.
Qed.
Theorem C61_corners_are_clear : forall (h : vec2 b32) (p : vec2 b32), bpow radix2 (-34) <= val (vx h) \/ bpow radix2 (-34) <= val (vy h) -> clear_of_corners h (rval p).
Proof.
  intros h p H. unfold clear_of_corners, rval. cbn [fst snd]. set (X := Rabs (val (vx p)) - val (vx h)). set (Y := Rabs (val (vy p)) - val (vy h)). intros PX PY. assert (B : bpow radix2 (-59) <= bpow radix2 (-34 - 23)) by (apply bpow_le; lia). destruct H as [H|H].
  - pose proof (norm_x (X, Y)) as N. cbn [fst] in N. rewrite Rabs_pos_eq in N by lra.
    pose proof (apart (vx p) (vx h) (-34) ltac:(lia) H ltac:(unfold X in PX; lra)) as K. fold X in K. lra.
  - pose proof (norm_y (X, Y)) as N. cbn [snd] in N. rewrite Rabs_pos_eq in N by lra.
    pose proof (apart (vy p) (vy h) (-34) ltac:(lia) H ltac:(unfold Y in PY; lra)) as K. fold Y in K. lra.
Qed.
Print Assumptions C61_corners_are_clear.
(** closer to a corner the squares underflow: the flag is right but the vector is infinite *)
Theorem C61_tiny_corner_refuted : exists (h : vec2 b32) (r : b32) (rel v : vec2 b32), half_ok h /\ radius_ok r /\ small2 rel 59 /\ ~ on_bad_line h (rval rel) /\
  penetrates_rel (F:=b32) (Box2d h) (Ball r) rel = Ok (Some v) /\ ~ fin (vx v) /\ ~ fin (vy v).
Proof.
  exists (V2 (b32_of 1 (-100)) (b32_of 1 (-100))), (b32_of 1 0), (V2 (b32_of 1 (-99)) (b32_of 1 (-99))). eexists.
  assert (V : forall e, (-149 <= e <= 0)%Z -> fin (b32_of 1 e) /\ val (b32_of 1 e) = bpow radix2 e /\ small (val (b32_of 1 e)) 59).
  { intros e He. destruct (val_of 1 e ltac:(lia) ltac:(lia)) as [F E]. rewrite Rmult_1_l in E. split; [exact F|]. split; [exact E|]. rewrite E. unfold small.
    rewrite Rabs_pos_eq by apply bpow_ge_0. apply bpow_le. lia. }
  destruct (V (-100)%Z ltac:(lia)) as (A1 & A2 & A3). destruct (V (-99)%Z ltac:(lia)) as (B1 & B2 & B3). destruct (V 0%Z ltac:(lia)) as (C1 & C2 & C3).
  pose proof (bpow_gt_0 radix2 (-100)) as P. pose proof (bpow_gt_0 radix2 0) as P0.
  split; [split; [split; [split; assumption | split; assumption] | cbn [vx vy]; lra]|]. split; [split; [exact C1 | split; [exact C3 | lra]]|].
  split; [split; [split; assumption | split; assumption]|]. split.
  - intros [E _]. unfold rval in E. cbn [fst vx] in E. rewrite A2, B2 in E. rewrite Rabs_pos_eq in E by apply bpow_ge_0.
    assert (bpow radix2 (-100) < bpow radix2 (-99)) by (apply bpow_lt; lia). lra.
  - split; [vm_compute; reflexivity|]. split; vm_compute; discriminate.
Qed.
Print Assumptions C61_tiny_corner_refuted.

(** Ball v Point and Ball v Ball *)
Definition centre_ok (p : vec2 b32) : Prop := fin2 p /\ (rval p = origin \/ mid_range p).
Theorem C61_ball_point : forall (T : Type) (TR : Transformation2d b32 T) (r : b32) (rel : T), radius_ok r -> centre_ok (apply_origin rel) ->
  exists c v, reports (Ball r) PointS rel c v /\ close_answer (val r) (disc (val r)) (single (rval (apply_origin rel))) c v.
Proof.
  intros T TR r rel (Fr & Sr & Hr) [Fp Mp]. set (p := apply_origin rel) in * . exists (fst (ball_code r p)), (snd (ball_code r p)). split.
  - apply reports_const. intros P D. unfold sdfv_common_rel, Sdfv_BallPoint, ball_point_sdfv, ball_code. cbn [b_radius]. fold p. destruct (flt f0 (v2len p)); reflexivity.
  - apply ball_answer; try assumption; [eapply small_weak; [|exact Sr]; lia|]. rewrite Rminus_diag_eq, Rabs_R0 by reflexivity. pose proof u32_pos. apply Rmult_le_pos; lra.
Qed.
Print Assumptions C61_ball_point.
Theorem C61_ball_ball : forall (T : Type) (TR : Transformation2d b32 T) (r1 r2 : b32) (rel : T), radius_ok r1 -> radius_ok r2 -> centre_ok (apply_origin rel) ->
  exists c v, reports (Ball r1) (Ball r2) rel c v /\ close_answer (val r1 + val r2) (disc (val r1)) (shift (rval (apply_origin rel)) (disc (val r2))) c v.
Proof.
  intros T TR r1 r2 rel (F1 & S1 & H1) (F2 & S2 & H2) [Fp Mp]. set (p := apply_origin rel) in * .
  assert (Sm : small (rnd (val r1 + val r2)) 60) by (apply rnd_small; [lia|]; apply (small_add _ _ 59); assumption).
  destruct (add_ok r1 r2 F1 F2 ltac:(eapply small_big; [|exact Sm]; lia)) as [A1 A2]. destruct (rnd_error_add r1 r2) as (e & He & Ee).
  set (R0 := fadd r1 r2) in * . exists (fst (ball_code R0 p)), (snd (ball_code R0 p)). split.
  - apply reports_const. intros P D. unfold sdfv_common_rel, Sdfv_BallBall, ball_ball_sdfv, ball_code. cbn [b_radius]. fold p. fold R0. destruct (flt f0 (v2len p)); reflexivity.
  - apply (close_same _ (disc (val r1 + val r2)) (single (rval p))).
    + intro q. rewrite (diff_disc_disc _ _ (rval p) 1 0 H1 H2 ltac:(lra) q). apply diff_ext; [intro; reflexivity | apply shift_disc].
    + apply ball_answer; try assumption; [rewrite A2; eapply small_weak; [|exact Sm]; lia | lra |].
      rewrite A2, Ee. pose proof (err_rel (val r1 + val r2) e He) as Q. rewrite (Rabs_pos_eq (val r1 + val r2)) in Q by lra. exact Q.
Qed.
Print Assumptions C61_ball_ball.

(** ** Point v Box and Point v Ball, relative translations *)
Lemma swap_true A B w : true_answer A B w -> true_answer B A (pneg w).
Proof.
  assert (NN : forall p, norm (pneg p) = norm p) by (intro q; unfold norm, pneg, pdot; cbn [fst snd]; f_equal; ring).
  intros [(O & S & M)|(O & M)]; [left | right].
  - split; [apply swap_overlaps, O|]. split.
    + intro K. exact (S (proj2 (swap_overlaps_shift A B w) K)).
    + intros v V. rewrite NN, <- (NN v). apply M. intro K. exact (V (proj2 (swap_overlaps_shift B A v) K)).
  - split; [rewrite swap_overlaps; exact O | apply swap_min_contact, M].
Qed.
Lemma neg_val (v : vec2 b32) : (fin2 (v2neg v) <-> fin2 v) /\ rval (v2neg v) = pneg (rval v).
Proof. split; [unfold fin2, v2neg; cbn [vx vy]; rewrite !fin_neg; reflexivity|]. unfold rval, v2neg, pneg. cbn [vx vy fst snd]. rewrite !val_neg. reflexivity. Qed.
Lemma rev_diff (B : pset) c : same_set (minkowski_diff B (single (pneg c))) (minkowski_diff (shift c B) (single origin)).
Proof.
  intro q. split; intros (a & b & Ha & -> & ->).
  - exists (padd a c), origin. split; [unfold shift; replace (psub (padd a c) c) with a by (apply pt_eq; cbn; ring); exact Ha|]. split; [reflexivity | apply pt_eq; cbn; ring].
  - exists (psub a c), (pneg c). split; [exact Ha|]. split; [reflexivity | apply pt_eq; cbn; ring].
Qed.
Lemma close_reverse r B (p v : vec2 b32) c : close_answer r B (single (rval (v2neg p))) c v -> close_answer r (single origin) (shift (rval p) B) c (v2neg v).
Proof.
  destruct (neg_val p) as [_ ->]. intro H. apply (close_same _ _ _ _ _ _ _ (rev_diff B (rval p))) in H. destruct H as (F & w & Tr & N & V).
  destruct (neg_val v) as [Fv Ev]. assert (NN : forall p, norm (pneg p) = norm p) by (intro q; unfold norm, pneg, pdot; cbn [fst snd]; f_equal; ring).
  split; [apply Fv, F|]. exists (pneg w). rewrite NN. split; [apply swap_true, Tr|]. split.
  - rewrite Ev. replace (psub (pneg (rval v)) (pneg w)) with (pneg (psub (rval v) w)) by (apply pt_eq; cbn; ring). rewrite NN. exact N.
  - intro K. rewrite (V K). apply swap_overlaps.
Qed.
Lemma rev_code (f : vec2 b32 -> bool * vec2 b32) (rel : vec2 b32) : reverse_sdfv (T:=vec2 b32) f rel = (fst (f (v2neg rel)), v2neg (snd (f (v2neg rel)))).
Proof. unfold reverse_sdfv. change (inverse rel) with (v2neg rel). destruct (f (v2neg rel)). reflexivity. Qed.
Lemma small_neg p k : small2 p k -> small2 (v2neg p) k.
Proof. intros [F [A B]]. split; [apply neg_val, F|]. cbn [v2neg vx vy]. rewrite !val_neg. split; apply small_opp; assumption. Qed.
Theorem C61_point_ball : forall (r : b32) (rel : vec2 b32), radius_ok r -> centre_ok rel ->
  exists c v, reports (T:=vec2 b32) PointS (Ball r) rel c v /\ close_answer (val r) (single origin) (shift (rval rel) (disc (val r))) c v.
Proof.
  intros r rel (Fr & Sr & Hr) [Fp Mp]. set (p := v2neg rel). exists (fst (ball_code r p)), (v2neg (snd (ball_code r p))).
  assert (Cp : fin2 p /\ (rval p = origin \/ mid_range p)).
  { destruct (neg_val rel) as [A B]. split; [apply A, Fp|]. destruct Mp as [E|[S L]]; [left; unfold p; rewrite B, E; apply pneg_origin | right].
    split; [apply small_neg, S|]. unfold p. rewrite rlen_norm, B. replace (norm (pneg (rval rel))) with (rlen rel); [exact L|]. unfold rlen, norm, pneg, pdot, rval. cbn [fst snd]. f_equal. ring. }
  split.
  - apply reports_const. intros P D. unfold sdfv_common_rel, Sdfv_PointBall. rewrite rev_code. fold p. unfold ball_point_sdfv, ball_code. cbn [apply_origin Tr_Vec2 b_radius].
    destruct (flt f0 (v2len p)); reflexivity.
  - apply close_reverse. fold p. apply ball_answer; try apply Cp; try assumption; [eapply small_weak; [|exact Sr]; lia|].
    rewrite Rminus_diag_eq, Rabs_R0 by reflexivity. pose proof u32_pos. apply Rmult_le_pos; lra.
Qed.
Print Assumptions C61_point_ball.
Theorem C61_point_box : forall (h rel : vec2 b32), half_ok h -> small2 rel 59 ->
  let A := single origin in let B := shift (rval rel) (rect (val (vx h)) (val (vy h))) in
  exists c v, reports (T:=vec2 b32) PointS (Box2d h) rel c v /\ fin2 v /\ (c = true <-> overlaps A B) /\
  exists w, true_answer A B w /\ norm (psub (rval v) w) <= u32 * norm w.
Proof.
  intros h rel (Sh & Hx & Hy) Sp A B. set (p := v2neg rel).
  destruct (@box_core _ Tr_Vec2 h p (small_neg _ _ Sp) Sh Hx Hy) as (c & v & E & F & V & w & W & N).
  exists c, (v2neg v). unfold reports, collides_rel, penetrates_rel, distance_to_rel, sdfv_rel, sdfv_common_rel, Sdfv_PointBox. rewrite !rev_code. fold p. rewrite !E.
  destruct (neg_val v) as [Fv Ev]. destruct (neg_val rel) as [_ Ep]. assert (NN : forall p, norm (pneg p) = norm p) by (intro q; unfold norm, pneg, pdot; cbn [fst snd]; f_equal; ring).
  pose proof (rev_diff (rect (val (vx h)) (val (vy h))) (rval rel)) as RD.
  change (apply_origin p) with p in V, W. unfold p in V, W. rewrite Ep in V, W.
  split; [destruct c; repeat split|]. split; [apply Fv, F|]. split.
  - rewrite V. rewrite (same_overlaps _ _ _ _ RD). apply swap_overlaps.
  - exists (pneg w). rewrite NN, Ev. split.
    + apply swap_true. destruct W as [(O & S & M)|(O & M)]; [left | right].
      * split; [apply (same_overlaps _ _ _ _ RD), O|]. split; [apply (same_separates _ _ _ _ RD), S|]. intros u U. apply M. apply (same_separates _ _ _ _ RD), U.
      * split; [intro K; apply O, (same_overlaps _ _ _ _ RD), K | apply (same_min_contact _ _ _ _ RD), M].
    + replace (psub (pneg (rval v)) (pneg w)) with (pneg (psub (rval v) w)) by (apply pt_eq; cbn; ring). rewrite NN. exact N.
Qed.
Print Assumptions C61_point_box.

(** ** Colliders: the transforms of self and other come out of any two chains of constructors, compositions and inversions (C60).
    In self's frame the other body's origin belongs at ga (fb origin); the queries answer nearly exactly for a body displaced from there by e, with
    e bounded by the drift of C60.  [collides], [penetrates] and [distance_to] give the vector in self's frame; [sdfv] turns it into the world. *)
Definition collider_reports {X Y : Type} {SD : SdfvCommonRel2d b32 X Y (transform2d b32)} (a : X) (b : Y) (ta tb : transform2d b32) (c : bool) (v : vec2 b32) : Prop :=
  collides (F:=b32) (Collider2d a ta) (Collider2d b tb) = Ok c /\
  penetrates (F:=b32) (Collider2d a ta) (Collider2d b tb) = Ok (if c then Some v else None) /\
  distance_to (F:=b32) (Collider2d a ta) (Collider2d b tb) = Ok (if c then None else Some v) /\
  sdfv (F:=b32) (Collider2d a ta) (Collider2d b tb) = Ok (c, apply_normal ta v).
Lemma reports_colliders {X Y : Type} (SD : SdfvCommonRel2d b32 X Y (transform2d b32)) (a : X) (b : Y) ta tb c v :
  reports a b (delta_transform ta tb) c v -> collider_reports a b ta tb c v.
Proof.
  intros (H1 & H2 & H3 & H4). unfold collider_reports, collides, penetrates, distance_to, sdfv. cbn [c_shape c_transform]. rewrite H4. repeat split; assumption.
Qed.
Definition drift (d : R) (m : chain) : R := (growth d ^ weight m - 1) * reach m.
Section Colliders.
Variables (d : R) (ma mb : chain) (fa ga fb : pt -> pt).
Hypotheses (Hd : 0 <= d) (Ma : moves d ma fa) (Mb : moves d mb fb) (Inv : forall p, fa (ga p) = p).
Let m := Then (Back ma) mb.
Hypotheses (W : growth d ^ weight m <= 2) (Rc : reach m <= bpow radix2 58).
Let rel := delta_transform (build ma) (build mb).
Lemma rel_centre : small2 (apply_origin rel) 59 /\ norm (psub (rval (apply_origin rel)) (ga (fb origin))) <= drift d m.
Proof.
  assert (M : moves d m (fun p => ga (fb p))) by (apply moves_then; [apply moves_back with (f := fa); assumption | exact Mb]).
  assert (Rc' : reach m <= bpow radix2 100) by (eapply Rle_trans; [exact Rc | apply bpow_le; lia]).
  destruct (tracks_all d Hd m _ M W Rc') as (R0 & P & F & N & HR & HP & Sc). pose proof (near_norm _ _ _ _ HP) as NP. pose proof (reach_bot m) as RB. pose proof bot_pos.
  change (t_pos (build m)) with (apply_origin rel) in * . destruct HP as (Ff & E & _). split.
  - split; [exact Ff|]. apply fin_small2. replace (bpow radix2 59) with (2 * bpow radix2 58) by (replace 59%Z with (1 + 58)%Z by reflexivity; rewrite bpow_plus; reflexivity).
    eapply Rle_trans; [exact NP|]. pose proof (bpow_ge_0 radix2 58). apply Rmult_le_compat; try lra. apply pow_le. pose proof (growth_ge d Hd). lra.
  - rewrite F. replace (padd (cmul R0 origin) P) with P by (apply pt_eq; unfold padd, cmul, origin; cbn [fst snd]; ring). exact E.
Qed.
Lemma rel_shifted : exists e, norm e <= drift d m /\ rval (apply_origin rel) = padd (ga (fb origin)) e.
Proof. exists (psub (rval (apply_origin rel)) (ga (fb origin))). split; [apply rel_centre | apply pt_eq; cbn; ring]. Qed.
End Colliders.
Theorem C61_box_point_colliders : forall d ma mb fa ga fb, 0 <= d -> moves d ma fa -> moves d mb fb -> (forall p, fa (ga p) = p) ->
  growth d ^ weight (Then (Back ma) mb) <= 2 -> reach (Then (Back ma) mb) <= bpow radix2 58 ->
  forall h, half_ok h -> let A := rect (val (vx h)) (val (vy h)) in
  exists e c v, norm e <= drift d (Then (Back ma) mb) /\ collider_reports (Box2d h) PointS (build ma) (build mb) c v /\
  let B := single (padd (ga (fb origin)) e) in
  fin2 v /\ (c = true <-> overlaps A B) /\ exists w, true_answer A B w /\ norm (psub (rval v) w) <= u32 * norm w.
Proof.
  intros d ma mb fa ga fb Hd Ma Mb Inv W Rc h Hh A. destruct (rel_centre d ma mb fa ga fb Hd Ma Mb Inv W Rc) as [Sp _]. destruct (rel_shifted d ma mb fa ga fb Hd Ma Mb Inv W Rc) as (e & He & Ee).
  destruct (C61_box_point _ _ h _ Hh Sp) as (c & v & Rp & K). exists e, c, v. split; [exact He|]. split; [apply reports_colliders, Rp|]. rewrite <- Ee. exact K.
Qed.
Print Assumptions C61_box_point_colliders.
Theorem C61_box_ball_colliders : forall d ma mb fa ga fb, 0 <= d -> moves d ma fa -> moves d mb fb -> (forall p, fa (ga p) = p) ->
  growth d ^ weight (Then (Back ma) mb) <= 2 -> reach (Then (Back ma) mb) <= bpow radix2 58 ->
  forall h r, half_ok h -> radius_ok r -> bpow radix2 (-34) <= val (vx h) ->
  ~ on_bad_line h (rval (apply_origin (delta_transform (build ma) (build mb)))) ->
  exists e c v, norm e <= drift d (Then (Back ma) mb) /\ collider_reports (Box2d h) (Ball r) (build ma) (build mb) c v /\
  close_answer (val r) (rect (val (vx h)) (val (vy h))) (shift (padd (ga (fb origin)) e) (disc (val r))) c v.
Proof.
  intros d ma mb fa ga fb Hd Ma Mb Inv W Rc h r Hh Hr Sz NL. destruct (rel_centre d ma mb fa ga fb Hd Ma Mb Inv W Rc) as [Sp _]. destruct (rel_shifted d ma mb fa ga fb Hd Ma Mb Inv W Rc) as (e & He & Ee).
  destruct (C61_box_ball _ _ h r _ Hh Hr Sp NL (C61_corners_are_clear _ _ (or_introl Sz))) as (c & v & Rp & K). exists e, c, v. split; [exact He|]. split; [apply reports_colliders, Rp|]. rewrite <- Ee. exact K.
Qed.
Print Assumptions C61_box_ball_colliders.
Theorem C61_ball_ball_colliders : forall d ma mb fa ga fb, 0 <= d -> moves d ma fa -> moves d mb fb -> (forall p, fa (ga p) = p) ->
  growth d ^ weight (Then (Back ma) mb) <= 2 -> reach (Then (Back ma) mb) <= bpow radix2 58 ->
  forall r1 r2, radius_ok r1 -> radius_ok r2 -> drift d (Then (Back ma) mb) + bpow radix2 (-60) <= norm (ga (fb origin)) ->
  exists e c v, norm e <= drift d (Then (Back ma) mb) /\ collider_reports (Ball r1) (Ball r2) (build ma) (build mb) c v /\
  close_answer (val r1 + val r2) (disc (val r1)) (shift (padd (ga (fb origin)) e) (disc (val r2))) c v.
Proof.
  intros d ma mb fa ga fb Hd Ma Mb Inv W Rc r1 r2 H1 H2 Far. destruct (rel_centre d ma mb fa ga fb Hd Ma Mb Inv W Rc) as [Sp Nr]. destruct (rel_shifted d ma mb fa ga fb Hd Ma Mb Inv W Rc) as (e & He & Ee).
  set (rel := delta_transform (build ma) (build mb)) in * .
  assert (Cp : centre_ok (apply_origin rel)).
  { split; [exact (proj1 Sp)|]. right. split.
    - destruct Sp as [F [A B]]. split; [exact F|]. split; (eapply small_weak; [|eassumption]; lia).
    - rewrite rlen_norm. pose proof (norm_sub_add (ga (fb origin)) (rval (apply_origin rel))) as Q.
      replace (norm (psub (ga (fb origin)) (rval (apply_origin rel)))) with (norm (psub (rval (apply_origin rel)) (ga (fb origin)))) in Q; [lra|].
      rewrite <- norm_neg. f_equal. apply pt_eq; cbn; ring. }
  destruct (C61_ball_ball _ _ r1 r2 _ H1 H2 Cp) as (c & v & Rp & K). exists e, c, v. split; [exact He|]. split; [apply reports_colliders, Rp|]. rewrite <- Ee. exact K.
Qed.
Print Assumptions C61_ball_ball_colliders.

(** Cases that meet the hypotheses.  Box of half sizes (3, 1/2), ball of radius 1 at (5, 3), beyond a corner; and two colliders whose transforms
    come from the turning transform of C60's example, self placed by it once and other twice: other belongs at (3, 4) in self's frame. *)
Definition case_h : vec2 b32 := V2 (b32_of 3 0) (b32_of 1 (-1)).
Definition case_p : vec2 b32 := V2 (b32_of 5 0) (b32_of 3 0).
Lemma case_num m e : (Z.abs m <= 2 ^ 3)%Z -> (-1 <= e <= 0)%Z -> fin (b32_of m e) /\ val (b32_of m e) = IZR m * bpow radix2 e /\ small (val (b32_of m e)) 59.
Proof.
  intros Hm He. destruct (val_of m e ltac:(lia) ltac:(lia)) as [F V]. split; [exact F|]. split; [exact V|]. rewrite V. unfold small. rewrite Rabs_mult, (Rabs_pos_eq (bpow radix2 e)) by apply bpow_ge_0.
  replace (bpow radix2 59) with (bpow radix2 3 * bpow radix2 56) by (rewrite <- bpow_plus; reflexivity). rewrite <- abs_IZR. apply Rmult_le_compat; [apply IZR_le; lia | apply bpow_ge_0 | apply IZR_le in Hm; exact Hm | apply bpow_le; lia].
Qed.
Example C61_case : half_ok case_h /\ radius_ok (b32_of 1 0) /\ small2 case_p 59 /\ ~ on_bad_line case_h (rval case_p) /\ clear_of_corners case_h (rval case_p) /\ centre_ok case_p /\
  ~ overlaps (rect 3 (/ 2)) (shift (5, 3) (disc 1)).
Proof.
  destruct (case_num 3 0 ltac:(lia) ltac:(lia)) as (F3 & V3 & S3). destruct (case_num 5 0 ltac:(lia) ltac:(lia)) as (F5 & V5 & S5). destruct (case_num 1 0 ltac:(lia) ltac:(lia)) as (F1 & V1 & S1).
  destruct (case_num 1 (-1) ltac:(lia) ltac:(lia)) as (Fh & Vh & Sh). assert (B1 : bpow radix2 (-1) = / 2) by (cbn; lra). assert (B0 : bpow radix2 0 = 1) by reflexivity.
  rewrite B0 in V3, V5, V1. rewrite B1 in Vh.
  split; [split; [split; [split; assumption | split; assumption] | cbn [case_h vx vy]; rewrite V3, Vh; lra]|]. split; [split; [exact F1 | split; [exact S1 | rewrite V1; lra]]|].
  split; [split; [split; assumption | split; assumption]|]. split.
  { intros [E _]. unfold rval, case_p, case_h in E. cbn [fst vx] in E. rewrite V5, V3 in E. rewrite Rabs_pos_eq in E; lra. }
  split; [apply C61_corners_are_clear; left; unfold case_h; cbn [vx]; rewrite V3; apply Rle_trans with (bpow radix2 0); [apply bpow_le; lia | rewrite B0; lra]|]. split.
  { split; [split; assumption|]. right. split; [split; [split; assumption | split; (eapply small_weak; [|eassumption]; lia)]|]. rewrite rlen_norm.
    pose proof (norm_x (rval case_p)) as N. unfold rval at 1, case_p at 1 in N. cbn [fst vx] in N. rewrite V5, Rabs_pos_eq in N by lra.
    apply Rle_trans with (bpow radix2 0); [apply bpow_le; lia | rewrite B0; lra]. }
  intros (e & He & H). destruct (H origin) as ((x & y) & Hq & Hs).
  { unfold norm, origin, pdot. cbn [fst snd]. replace (0 * 0 + 0 * 0) with 0 by ring. rewrite sqrt_0. exact He. }
  unfold rect, shift, disc in Hq, Hs. pose proof (norm_x (psub (x, y) (5, 3))) as N. pose proof (Rle_trans _ _ _ N Hs) as N'.
  clear N. unfold psub, origin in * . cbn [fst snd] in * . apply abs_le2' in N'. lra.
Qed.
Definition case_self : chain := Given case_t.
Definition case_other : chain := Then (Given case_t) (Given case_t).
Example C61_case_colliders : let m := Then (Back case_self) case_other in exists fa ga fb, moves (/ 2 ^ 22) case_self fa /\ moves (/ 2 ^ 22) case_other fb /\ (forall p, fa (ga p) = p) /\
  growth (/ 2 ^ 22) ^ weight m <= 2 /\ reach m <= bpow radix2 58 /\ ga (fb origin) = (3, 4) /\ drift (/ 2 ^ 22) m + bpow radix2 (-60) <= norm (ga (fb origin)) /\ drift (/ 2 ^ 22) m <= / 2 ^ 12.
Proof.
  set (a := asin (4 / 5)). assert (Sa : sin a = 4 / 5) by (apply sin_asin; lra).
  assert (Ca : cos a = 3 / 5). { unfold a. rewrite cos_asin by lra. replace (1 - (4 / 5)²) with ((3 / 5) * (3 / 5)) by (unfold Rsqr; field). apply sqrt_square; lra. }
  assert (V : forall m e, (Z.abs m <= 2 ^ 24)%Z -> (-149 <= e <= 103)%Z -> fin (b32_of m e) /\ val (b32_of m e) = IZR m * bpow radix2 e) by (intros; apply val_of; assumption).
  destruct (V 3%Z 0%Z ltac:(lia) ltac:(lia)) as [F3 V3]. destruct (V 4%Z 0%Z ltac:(lia) ltac:(lia)) as [F4 V4].
  destruct (V 10066330%Z (-24)%Z ltac:(lia) ltac:(lia)) as [Fc Vc]. destruct (V 13421773%Z (-24)%Z ltac:(lia) ltac:(lia)) as [Fs Vs].
  cbn [bpow radix_val radix2 Z.pow_pos Pos.iter Z.mul Pos.mul] in V3, V4, Vc, Vs.
  set (h := fun p => padd (rotate (cos a) (sin a) p) (rval (t_pos case_t))).
  assert (M1 : moves (/ 2 ^ 22) (Given case_t) h).
  { apply moves_given; [split; assumption | split; assumption | reflexivity|]. eapply Rle_trans; [apply (norm_box _ (/ 2 ^ 24))|].
    - cbn [psub fst snd rval ra t_rot case_t vx vy]. rewrite Vc, Ca. cbn. apply Rabs_le. lra.
    - cbn [psub fst snd rval ra t_rot case_t vx vy]. rewrite Vs, Sa. cbn. apply Rabs_le. lra.
    - cbn. lra. }
  set (k := fun p => rotate (cos a) (- sin a) (psub p (rval (t_pos case_t)))).
  assert (HK : forall p, h (k p) = p /\ k (h p) = p).
  { intros [x y]. unfold h, k. rewrite Ca, Sa. split; apply pt_eq; unfold padd, psub, rotate; cbn [fst snd]; field. }
  assert (N : norm (rval (V2 (b32_of 3 0) (b32_of 4 0))) = 5).
  { unfold norm, pdot, rval. cbn [fst snd vx vy]. rewrite V3, V4. replace (3 * 1 * (3 * 1) + 4 * 1 * (4 * 1)) with (5 * 5) by ring. apply sqrt_square. lra. }
  assert (H0 : k (h (h origin)) = (3, 4)).
  { rewrite (proj2 (HK _)). unfold h, origin. rewrite Ca, Sa. unfold case_t, rval. cbn [t_pos vx vy]. rewrite V3, V4. apply pt_eq; unfold padd, rotate; cbn [fst snd]; lra. }
  intro m. assert (E4 : bpow radix2 (-100) <= bpow radix2 (-4)) by (apply bpow_le; lia). assert (E4' : bpow radix2 (-4) = / 16) by (cbn; lra).
  assert (Rm : 0 <= reach m <= 16). { split; [apply Rle_trans with (bpow radix2 (-100)); [apply bpow_ge_0 | apply reach_bot]|]. cbn [reach m case_self case_other case_t t_pos]. rewrite N. lra. }
  assert (W16 : (weight m <= 2 ^ 4)%nat) by (vm_compute; lia). assert (W17 : (2 ^ 4 <= 2 ^ 17)%nat) by (apply Nat.pow_le_mono_r; lia).
  destruct (growth_linear (/ 2 ^ 22) (weight m) ltac:(split; [apply Rlt_le, Rinv_0_lt_compat; cbn; lra | lra]) ltac:(etransitivity; [exact W16|]; etransitivity; [exact W17|]; apply Nat.le_add_r)) as [L W].
  assert (Wm : INR (weight m) <= 16) by (apply le_INR in W16; cbn [Nat.pow Nat.mul Nat.add INR] in W16; lra).
  assert (Dm : drift (/ 2 ^ 22) m <= / 2 ^ 12).
  { unfold drift. apply Rle_trans with (16 / 2 ^ 20 * 16); [|replace (16 / 2 ^ 20 * 16) with (/ 2 ^ 12) by (cbn; field); apply Rle_refl]. apply Rmult_le_compat; try lra.
    - pose proof (growth_ge (/ 2 ^ 22) ltac:(apply Rlt_le, Rinv_0_lt_compat; cbn; lra)) as (_ & _ & G). pose proof (pow_R1_Rle _ (weight m) G). lra. }
  exists h, k, (fun p => h (h p)). split; [exact M1|]. split; [apply (moves_then _ _ _ h h); exact M1|]. split; [intro p; apply HK|]. split; [exact W|].
  split; [apply Rle_trans with (bpow radix2 4); [change (bpow radix2 4) with 16; lra | apply bpow_le; lia]|]. split; [exact H0|]. split; [|exact Dm].
  rewrite H0. assert (bpow radix2 (-60) <= bpow radix2 (-4)) by (apply bpow_le; lia). pose proof (norm_x (3, 4)) as NX. cbn [fst] in NX. rewrite Rabs_pos_eq in NX by lra. set (D := drift (/ 2 ^ 22) m) in * . clearbody D. cbn in Dm. lra.
Qed.
