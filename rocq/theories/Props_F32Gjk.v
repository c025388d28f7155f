(** * C33: GJK queries in binary32: defects by computation *)
From Coq Require Import Reals ZArith Bool Lra Lia List.
From Flocq Require Import IEEE754.BinarySingleNaN Core.
From Verif Require Import Num NumXR NumB32 Glam Transform2 Shapes2 Gjk Detect2 Spec P_B32 P_Base P_Shapes.
Import ListNotations.
Local Open Scope R_scope.

Definition rval (v : vec2 b32) : pt := (val (vx v), val (vy v)).
(** the point set of a shape with f32 coordinates *)
Definition points_of (s : shape2d b32) : pset :=
  match s with
  | SBall b => disc (val (b_radius b))
  | SBox b => rect (val (vx (halfsize b))) (val (vy (halfsize b)))
  | SPoly p => hull (map rval (points p))
  end.
(** self moved by any vector shorter than [gap] still does not touch the other shape, placed at [rel] *)
Definition gap_exceeds (gap : R) (a b : shape2d b32) (rel : vec2 b32) : Prop :=
  forall w, norm w < gap -> ~ meets (shift w (points_of a)) (shift (rval rel) (points_of b)).
Lemma norm_x w : Rabs (fst w) <= norm w.
Proof. unfold norm, pdot. rewrite <- sqrt_Rsqr_abs. apply sqrt_le_1_alt. unfold Rsqr. nra. Qed.
Lemma norm_y w : Rabs (snd w) <= norm w.
Proof. unfold norm, pdot. rewrite <- sqrt_Rsqr_abs. apply sqrt_le_1_alt. unfold Rsqr. nra. Qed.
Ltac bval := b32_vals; cbn.

Definition ta0 : shape2d b32 := SBox (Box2d (V2 (b32_of (9620727) (-37)) (b32_of (8246337) (-35)))).
Definition tb0 : shape2d b32 := SBox (Box2d (V2 (b32_of (6184753) (-34)) (b32_of (6184753) (-35)))).
Definition tr0 : vec2 b32 := (V2 (b32_of (3006477) (-33)) (b32_of (-8761733) (-34))).
Definition ta1 : shape2d b32 := SBox (Box2d (V2 (b32_of (11682311) (-36)) (b32_of (11682311) (-35)))).
Definition tb1 : shape2d b32 := SBox (Box2d (V2 (b32_of (8246337) (-38)) (b32_of (8246337) (-36)))).
Definition tr1 : vec2 b32 := (V2 (b32_of (2491081) (-33)) (b32_of (-5153961) (-34))).
Definition pa : shape2d b32 := SPoly (Poly2d [(V2 (b32_of (9) (1)) (b32_of (1) (1)));(V2 (b32_of (1) (3)) (b32_of (19) (0)));(V2 (b32_of (1) (3)) (b32_of (5) (0)))]).
Definition pb : shape2d b32 := SPoly (Poly2d [(V2 (b32_of (-29) (0)) (b32_of (-13) (1)));(V2 (b32_of (11) (1)) (b32_of (-15) (1)));(V2 (b32_of (15) (1)) (b32_of (3) (2)))]).
Definition pr : vec2 b32 := (V2 (b32_of (35) (0)) (b32_of (-47) (0))).

(** Two boxes of size 1e-4, 0.08 mm apart if lengths are metres: sdfv panics; distance_to says they collide, collides says they do not. *)
Theorem C33_tiny_boxes_panic_refuted : gap_exceeds (8 / 100000) ta0 tb0 tr0 /\
  sdfv_rel (F:=b32) ta0 tb0 tr0 = Panic PCollidedLate /\ distance_to_rel (F:=b32) ta0 tb0 tr0 = Ok None /\ collides_rel (F:=b32) ta0 tb0 tr0 = Ok false.
Proof.
  split; [|repeat split; vm_compute; reflexivity].
  intros w Hw (p & [Hx Hy] & [Kx Ky]). pose proof (norm_y w) as Ny. revert Hy Ky. unfold ta0, tb0, tr0, rval. cbn [halfsize vx vy fst snd psub]. bval.
  intros. assert (Rabs (snd w) < 8 / 100000) by lra. apply Rabs_def2 in H. lra.
Qed.
Print Assumptions C33_tiny_boxes_panic_refuted.
(** Two boxes of size 1e-4 that are apart: every query reports a collision. *)
Theorem C33_tiny_boxes_collide_refuted : gap_exceeds (8 / 100000) ta1 tb1 tr1 /\
  collides_rel (F:=b32) ta1 tb1 tr1 = Ok true /\ distance_to_rel (F:=b32) ta1 tb1 tr1 = Ok None /\
  match penetrates_rel (F:=b32) ta1 tb1 tr1 with Ok (Some _) => True | _ => False end /\ match sdfv_rel (F:=b32) ta1 tb1 tr1 with Ok (true, _) => True | _ => False end.
Proof.
  split; [|split; [vm_compute; reflexivity | split; [vm_compute; reflexivity | split; vm_compute; exact I]]].
  intros w Hw (p & [Hx Hy] & [Kx Ky]). pose proof (norm_x w) as Nx. revert Hx Kx. unfold ta1, tb1, tr1, rval. cbn [halfsize vx vy fst snd psub]. bval.
  intros. assert (Rabs (fst w) < 8 / 100000) by lra. apply Rabs_def2 in H. lra.
Qed.
Print Assumptions C33_tiny_boxes_collide_refuted.
(** Two triangles with integer coordinates below 50, more than 50 apart: distance_to reports a collision. *)
Theorem C33_distance_to_refuted : gap_exceeds 50 pa pb pr /\ distance_to_rel (F:=b32) pa pb pr = Ok None /\ collides_rel (F:=b32) pa pb pr = Ok false.
Proof.
  split; [|repeat split; vm_compute; reflexivity].
  intros w Hw (p & HA & HB). unfold shift, points_of, pa, pb, points in HA, HB. cbn [map] in HA, HB.
  set (n := (38, -59)).
  assert (GA : pdot n (psub p w) <= 566).
  { revert HA. apply hull_bound. intros q Hq. revert Hq. unfold rval; cbn [vx vy]. bval.
    intros [<-|[<-|[<-|[]]]]; unfold pdot, n; cbn; lra. }
  assert (GB : pdot (pneg n) (psub p (rval pr)) <= -432).
  { revert HB. apply hull_bound. intros q Hq. revert Hq. unfold rval; cbn [vx vy]. bval.
    intros [<-|[<-|[<-|[]]]]; unfold pdot, n; cbn; lra. }
  assert (Er : rval pr = (35, -47)) by (unfold rval, pr; cbn [vx vy]; bval; f_equal; lra). rewrite Er in GB.
  pose proof (cauchy n w) as C. assert (norm n <= 71).
  { unfold norm, pdot, n; cbn. rewrite <- (sqrt_square 71) by lra. apply sqrt_le_1_alt. lra. }
  assert (norm n * norm w < 71 * 50). { pose proof (norm_nonneg n). pose proof (norm_nonneg w). nra. }
  unfold pdot, n in *; cbn in * . lra.
Qed.
Print Assumptions C33_distance_to_refuted.

(** ** C30: the distance vector of two polygons can be more than twice too long *)
Definition long_a : shape2d b32 := SPoly (Poly2d [V2 (b32_of 13 0) (b32_of 2 0); V2 (b32_of 3 0) (b32_of (-2) 0); V2 (b32_of 15 0) (b32_of (-85) 0); V2 (b32_of 3 0) (b32_of 0 0)]).
Definition long_b : shape2d b32 := SPoly (Poly2d [V2 (b32_of 0 0) (b32_of 0 0)]).
Definition long_t : vec2 b32 := V2 (b32_of 2 0) (b32_of 0 0).
Definition same_vec (v : vec2 b32) (p : pt) : Prop := is_finite (vx v) = true /\ is_finite (vy v) = true /\ rval v = p.
Definition is_m1_2 (v : vec2 b32) : Prop := B2SF (vx v) = SpecFloat.S754_finite true 8388608 (-23) /\ B2SF (vy v) = SpecFloat.S754_finite false 8388608 (-22).
Lemma is_m1_2_same v : is_m1_2 v -> same_vec v (-1, 2).
Proof.
  intros [X Y]. split; [rewrite <- is_finite_SF_B2SF, X; reflexivity|]. split; [rewrite <- is_finite_SF_B2SF, Y; reflexivity|].
  unfold rval, val. rewrite <- !SF2R_B2SF, X, Y. unfold SF2R, F2R; cbn. f_equal; lra.
Qed.
(** Moving self by (-1, 0) brings the shapes into contact, yet distance_to and sdfv both answer (-1, 2). *)
Theorem C30_minimal_refuted :
  meets (shift (-1, 0) (points_of long_a)) (shift (rval long_t) (points_of long_b)) /\
  2 * norm (-1, 0) < norm (-1, 2) /\
  (exists v, distance_to_rel (F:=b32) long_a long_b long_t = Ok (Some v) /\ same_vec v (-1, 2)) /\
  (exists v, sdfv_rel (F:=b32) long_a long_b long_t = Ok (false, v) /\ same_vec v (-1, 2)).
Proof.
  split; [|split; [|split]].
  - exists (2, 0). unfold shift, points_of, long_a, long_b, long_t, points. cbn [map]. unfold rval; cbn [vx vy]. bval. split.
    + exists [0; 0; 0; 1]. split; [reflexivity|]. split; [repeat constructor; lra|]. split; [cbn; lra|]. apply pt_eq; cbn; lra.
    + exists [1]. split; [reflexivity|]. split; [repeat constructor; lra|]. split; [cbn; lra|]. apply pt_eq; cbn; lra.
  - replace (norm (-1, 0)) with 1.
    + unfold norm, pdot; cbn. rewrite <- (sqrt_square (2 * 1)) by lra. apply sqrt_lt_1_alt. lra.
    + unfold norm, pdot; cbn. replace (-1 * -1 + 0 * 0) with (1 * 1) by ring. rewrite sqrt_square; lra.
  - assert (H : match distance_to_rel (F:=b32) long_a long_b long_t with Ok (Some v) => is_m1_2 v | _ => False end) by (vm_compute; split; reflexivity).
    destruct (distance_to_rel (F:=b32) long_a long_b long_t) as [[v|]|]; try contradiction. exists v. split; [reflexivity | apply is_m1_2_same, H].
  - assert (H : match sdfv_rel (F:=b32) long_a long_b long_t with Ok (false, v) => is_m1_2 v | _ => False end) by (vm_compute; split; reflexivity).
    destruct (sdfv_rel (F:=b32) long_a long_b long_t) as [[[|] v]|]; try contradiction. exists v. split; [reflexivity | apply is_m1_2_same, H].
Qed.
Print Assumptions C30_minimal_refuted.
