(** * C45 in binary32: what simple_resolve does not promise (several tiles) *)
From Coq Require Import Reals ZArith Bool Lra Lia List.
From Flocq Require Import IEEE754.BinarySingleNaN Core.
From Verif Require Import Num NumXR NumB32 Glam Transform2 Shapes2 Gjk Detect2 Publisher Rect Tilemap Spec SpecLink P_B32 P_Base P_Shapes P_Geo SpecGjk P_Gjk P_Scene Props_Util Props_Tilemap Props_TileGeo Props_F32Gjk Props_Box.
Import ListNotations.
Local Open Scope R_scope.

(** all that is assumed of round_to_i32 on finite f32: it returns a nearest integer (ties either way) *)
Definition rounds_near32 (round : b32 -> Z) : Prop := forall x, fin x -> Rabs (IZR (round x) - val x) <= 1 / 2.
Example near32_met : exists round, rounds_near32 round.
Proof. destruct rounding_met as (f & Hf). exists (fun x => f (XFin (val x))). intros x _. apply Hf. Qed.
(** x/64 as f32 *)
Definition q64 (x : Z) : b32 := b32_of x (-6).
Lemma round_at round x y z : rounds_near32 round -> B2SF x = B2SF (q64 y) -> fin (q64 y) -> val (q64 y) = IZR y / 64 ->
  Rabs (IZR z - IZR y / 64) < 1 / 2 -> round x = z.
Proof.
  intros H E F V Q. apply B2SF_inj in E. subst x. specialize (H _ F). rewrite V in H.
  assert (L : -1 < IZR (round (q64 y)) - IZR z < 1) by (unfold Rabs in H, Q; destruct (Rcase_abs (IZR (round (q64 y)) - IZR y / 64)); destruct (Rcase_abs (IZR z - IZR y / 64)); lra).
  rewrite <- minus_IZR in L. destruct L as [L1 L2]. apply (lt_IZR (-1)) in L1. apply (lt_IZR _ 1) in L2. lia.
Qed.
Lemma val64 y : In y [16; 30; 62; 56; 64; 94; 24; 88; 112; -48; 48; 0]%Z -> fin (q64 y) /\ val (q64 y) = IZR y / 64.
Proof. intro I. repeat (destruct I as [<-|I]; [split; [reflexivity | unfold q64; bval; lra]|]). destruct I. Qed.
Lemma val64' y : existsb (Z.eqb y) [16; 30; 62; 56; 64; 94; 24; 88; 112; -48; 48; 0]%Z = true -> val (q64 y) = IZR y / 64.
Proof. intro E. apply val64. apply existsb_exists in E. destruct E as (z & I & E). apply Z.eqb_eq in E. subst z. exact I. Qed.
Ltac rnd H y := apply (round_at _ _ y _ H); [vm_compute; reflexivity | apply val64; cbn; tauto | apply val64; cbn; tauto | apply Rabs_def1; lra].
Lemma tile_overlap hx hy p q : 0 < hx -> 0 < hy -> (overlaps (shift p (rect hx hy)) (tile_square q) <-> Rabs (IZR (fst q) - fst p) < hx + 1 / 2 /\ Rabs (IZR (snd q) - snd p) < hy + 1 / 2).
Proof.
  intros Hx Hy. unfold tile_square. rewrite (overlaps_0 (shift p (rect hx hy))), rel_overlaps, <- overlaps_0, overlaps_B. rewrite C32_boxes_overlap_iff by lra. reflexivity.
Qed.

(** Two solid tiles with a gap of one tile between them, and a box of side 3/2 at the middle of the gap *)
Definition gap_map : tilemap := tm_run euclid_decompose [SetTile (0, 0)%Z 1%Z; SetTile (2, 0)%Z 1%Z].
Definition wide_box : box2d b32 := Box2d (V2 (q64 48) (q64 48)).
(** Resolving leaves the box inside a tile, although lifting it by 2 would free it *)
Theorem C45_between_tiles_refuted : forall round, rounds_near32 round -> forall dy : b32, flt dy f0 = false ->
  exists p, simple_resolve_box euclid_decompose round gap_map wide_box (V2 (q64 64) (q64 0)) (V2 f0 dy) = Ok p /\
  overlaps (shift (rval p) (rect (3/4) (3/4))) (tile_square (0, 0)%Z) /\ get_tile euclid_decompose gap_map (0, 0)%Z = 1%Z /\
  (forall q, (0 < get_tile euclid_decompose gap_map q)%Z -> ~ overlaps (shift (1, 2) (rect (3/4) (3/4))) (tile_square q)).
Proof.
  intros round H dy Hd. unfold simple_resolve_box.
  assert (Q : quantize round wide_box (V2 (q64 64) (q64 0)) = Rect2 (0, -1)%Z (2, 1)%Z).
  { unfold quantize, world_to_tile_pos. f_equal; f_equal; cbn [vx vy v2sub v2add]; [rnd H 16%Z | rnd H (-48)%Z | rnd H 112%Z | rnd H 48%Z]. }
  rewrite Q. unfold tiles_in_rect. cbn [vx vy]. rewrite Hd.
  set (r := resolve_all _ _ _).
  assert (E : match r with Ok p => B2SF (vx p) = B2SF (q64 48) /\ B2SF (vy p) = B2SF (q64 0) | _ => False end) by (unfold r; vm_compute; split; reflexivity).
  destruct r as [[px py]|]; [|contradiction]. cbn [vx vy] in E. destruct E as [E1 E2]. apply B2SF_inj in E1. apply B2SF_inj in E2. subst px py.
  exists (V2 (q64 48) (q64 0)). split; [reflexivity|]. split; [|split].
  - apply tile_overlap; try lra. unfold rval; cbn [fst snd vx vy]. rewrite !val64' by reflexivity. split; apply Rabs_def1; lra.
  - vm_compute. reflexivity.
  - intros q P O. unfold gap_map in P. rewrite (C42_tilemap_is_a_map _ euclid_good) in P. unfold expected in P. cbn [fold_left] in P.
    apply tile_overlap in O; try lra. destruct O as [_ O]. cbn in O. apply Rabs_def2 in O.
    assert (Y : snd q = 0%Z).
    { destruct (v2i_eqb (2, 0)%Z q) eqn:E2; [apply v2i_eqb_spec in E2; subst q; reflexivity|]. destruct (v2i_eqb (0, 0)%Z q) eqn:E1; [apply v2i_eqb_spec in E1; subst q; reflexivity | lia]. }
    rewrite Y in O. lra.
Qed.
Print Assumptions C45_between_tiles_refuted.

(** A flat floor of two tiles and a unit box sunk into it by 1/8, its left edge 1/32 inside the first tile's column *)
Definition floor_map : tilemap := tm_run euclid_decompose [SetTile (0, 0)%Z 1%Z; SetTile (1, 0)%Z 1%Z].
Definition unit_box : box2d b32 := Box2d (V2 (b32_of 1 (-1)) (b32_of 1 (-1))).
(** Lifting the box by 1/8 frees it of both tiles, and this is what happens when the tiles are visited from the right;
    visited from the left the box is also pushed sideways, by 1/32, by the seam in the flat floor. *)
Theorem C45_flat_floor_refuted : forall round, rounds_near32 round ->
  (forall q, (0 < get_tile euclid_decompose floor_map q)%Z -> ~ overlaps (shift (62/64, 1) (rect (1/2) (1/2))) (tile_square q)) /\
  (exists p, simple_resolve_box euclid_decompose round floor_map unit_box (V2 (q64 62) (q64 56)) (V2 (fneg f1) f0) = Ok p /\ rval p = (62/64, 1)) /\
  (exists p, simple_resolve_box euclid_decompose round floor_map unit_box (V2 (q64 62) (q64 56)) (V2 f1 f0) = Ok p /\ rval p = (1, 1)).
Proof.
  intros round H. split; [|].
  { intros q P O. unfold floor_map in P. rewrite (C42_tilemap_is_a_map _ euclid_good) in P. unfold expected in P. cbn [fold_left] in P.
    apply tile_overlap in O; try lra. destruct O as [_ O]. cbn in O. apply Rabs_def2 in O.
    assert (Y : snd q = 0%Z).
    { destruct (v2i_eqb (1, 0)%Z q) eqn:E2; [apply v2i_eqb_spec in E2; subst q; reflexivity|]. destruct (v2i_eqb (0, 0)%Z q) eqn:E1; [apply v2i_eqb_spec in E1; subst q; reflexivity | lia]. }
    rewrite Y in O. lra. }
  assert (Q : quantize round unit_box (V2 (q64 62) (q64 56)) = Rect2 (0, 0)%Z (1, 1)%Z).
  { unfold quantize, world_to_tile_pos. f_equal; f_equal; cbn [vx vy v2sub v2add]; [rnd H 30%Z | rnd H 24%Z | rnd H 94%Z | rnd H 88%Z]. }
  unfold simple_resolve_box. rewrite Q. split.
  - set (r := resolve_all _ _ _).
    assert (E : match r with Ok p => B2SF (vx p) = B2SF (q64 62) /\ B2SF (vy p) = B2SF (q64 64) | _ => False end) by (unfold r; vm_compute; split; reflexivity).
    destruct r as [[px py]|]; [|contradiction]. cbn [vx vy] in E. destruct E as [E1 E2]. apply B2SF_inj in E1. apply B2SF_inj in E2. subst px py.
    eexists. split; [reflexivity|]. unfold rval; cbn [vx vy]. rewrite !val64' by reflexivity. apply pt_eq; cbn; lra.
  - set (r := resolve_all _ _ _).
    assert (E : match r with Ok p => B2SF (vx p) = B2SF (q64 64) /\ B2SF (vy p) = B2SF (q64 64) | _ => False end) by (unfold r; vm_compute; split; reflexivity).
    destruct r as [[px py]|]; [|contradiction]. cbn [vx vy] in E. destruct E as [E1 E2]. apply B2SF_inj in E1. apply B2SF_inj in E2. subst px py.
    eexists. split; [reflexivity|]. unfold rval; cbn [vx vy]. rewrite !val64' by reflexivity. apply pt_eq; cbn; lra.
Qed.
Print Assumptions C45_flat_floor_refuted.

(** ** Cases for C44 and C45 (exact arithmetic): one solid tile at the origin *)
Definition one_tile : tilemap := tm_run euclid_decompose [SetTile (0, 0)%Z 7%Z].
Lemma one_tile_spec q : (0 < get_tile euclid_decompose one_tile q)%Z -> q = (0, 0)%Z.
Proof.
  unfold one_tile. rewrite (C42_tilemap_is_a_map _ euclid_good). unfold expected. cbn [fold_left].
  destruct (v2i_eqb (0, 0)%Z q) eqn:E; [intros _; symmetry; apply v2i_eqb_spec, E | lia].
Qed.
Example C44_case : forall round, rounds_to_nearest round ->
  overlaps (shift (1/2, 1/8) (rect (1/4) (1/4))) (tile_square (0, 0)%Z) /\ inside (quantize round (pbox (1/4) (1/4)) (inj (1/2, 1/8))) (0, 0)%Z.
Proof.
  intros round H. assert (O : overlaps (shift (1/2, 1/8) (rect (1/4) (1/4))) (tile_square (0, 0)%Z)) by (apply tile_overlap; try lra; split; apply Rabs_def1; cbn; lra).
  split; [exact O|]. apply C44_quantize_covers; try lra; assumption.
Qed.
(** a half-unit box that overlaps the tile is moved out; one at (3, 0) is not moved, nor is a ball there *)
Example C45_single_case : forall round, rounds_to_nearest round -> exists p,
  simple_resolve_box euclid_decompose round one_tile (pbox (1/4) (1/4)) (inj (1/2, 1/8)) (inj (1, 0)) = Ok (inj p) /\
  ~ overlaps (shift p (rect (1/4) (1/4))) (tile_square (0, 0)%Z).
Proof.
  intros round H. destruct (C45_single_tile_resolved euclid_decompose round H one_tile (1/4) (1/4) (1/2, 1/8) (1, 0) (0, 0)%Z) as (p & E & N & _).
  - unfold world; lra.
  - unfold world; lra.
  - split; exists 32%Z; cbn; lra.
  - split; [exists 64%Z | exists 16%Z]; cbn; lra.
  - vm_compute. reflexivity.
  - exact (proj1 (C44_case round H)).
  - intros q P _. apply one_tile_spec, P.
  - exists p. split; assumption.
Qed.
Example C45_clear_case : forall round, rounds_to_nearest round ->
  simple_resolve_box euclid_decompose round one_tile (pbox (1/4) (1/4)) (inj (3, 0)) (inj (1, 0)) = Ok (inj (3, 0)) /\
  simple_resolve_ball euclid_decompose round one_tile (pball 1) (inj (3, 0)) (inj (1, 0)) = Ok (inj (3, 0)).
Proof.
  assert (W : forall w, norm w * norm w * norm w < eps -> norm w < 1).
  { intros w L. apply Rnot_le_lt. intro Q. assert (eps < 1). { pose proof eps_grid. nra. } assert (1 <= norm w * norm w) by nra. nra. }
  intros round H. split; [apply C45_clear_box_unmoved | apply C45_clear_ball_unmoved]; try assumption; try (unfold world; lra).
  - intros q w P L (p & A & B). apply one_tile_spec in P. subst q. apply W in L. destruct A as [A _]. destruct B as [B _]. cbn in A, B.
    pose proof (norm_x w) as X. pose proof (Rle_abs (- fst w)) as Y. rewrite Rabs_Ropp in Y. lra.
  - intros q w P L (p & A & B). apply one_tile_spec in P. subst q. apply W in L. destruct B as [B _]. cbn in B. unfold shift, disc in A.
    pose proof (norm_x (psub (psub p w) (3, 0))) as X'. cbn in X'. pose proof (Rle_abs (- (fst p - fst w - 3))) as Y'. rewrite Rabs_Ropp in Y'.
    pose proof (norm_x w) as X. pose proof (Rle_abs (- fst w)) as Y. rewrite Rabs_Ropp in Y. lra.
Qed.
