(** * Property theorems C44, C45: tile coordinates, broad phase and resolving against tiles (exact arithmetic). *)
From Coq Require Import Reals Lra Lia ZArith List Bool.
From Verif Require Import Num NumXR Glam Transform2 Shapes2 Gjk Detect2 Publisher Rect Tilemap Spec SpecLink P_Base P_Shapes P_Geo SpecGjk P_Gjk P_Gjk2 P_Gjk3 P_Scene P_Epa
  Props_Gjk Props_Epa Props_NoPanic Props_Util Props_Tilemap.
Import ListNotations.
Local Open Scope R_scope.

(** all that is assumed of round_to_i32: it returns an integer nearest to the number (ties either way) *)
Definition rounds_to_nearest (round : XR -> Z) : Prop := forall x, Rabs (IZR (round (XFin x)) - x) <= 1 / 2.
(** the centre and the unit square of a tile *)
Definition tile_centre (q : v2i) : pt := (IZR (fst q), IZR (snd q)).
Definition tile_square (q : v2i) : pset := shift (tile_centre q) (rect (1 / 2) (1 / 2)).

(** rounding half away from zero is such a function *)
Example rounding_met : exists round, rounds_to_nearest round.
Proof.
  exists (fun x => match x with XFin r => (up (r - 1 / 2))%Z | _ => 0%Z end). intro x. pose proof (archimed (x - 1 / 2)).
  apply Rabs_le_iff. lra.
Qed.

(** ** C44 *)
Theorem C44_tile_world_tile : forall round, rounds_to_nearest round -> forall q, world_to_tile_pos round (tile_to_world_pos (F:=XR) q) = q.
Proof.
  intros round H [x y]. unfold world_to_tile_pos, tile_to_world_pos. cbn.
  assert (G : forall z : Z, round (XFin (IZR z)) = z); [|rewrite !G; reflexivity].
  intro z. specialize (H (IZR z)). rewrite <- minus_IZR in H. apply Rabs_le_iff in H. destruct H as [H1 H2].
  assert (-1 < round (XFin (IZR z)) - z < 1)%Z by (split; apply lt_IZR; lra). lia.
Qed.
Print Assumptions C44_tile_world_tile.
(** a world position lies in the square of its tile *)
Theorem C44_position_in_tile : forall round, rounds_to_nearest round -> forall p, tile_square (world_to_tile_pos round (inj p)) p.
Proof.
  intros round H [x y]. unfold tile_square, shift, rect. cbn. pose proof (H x) as Hx. pose proof (H y) as Hy. apply Rabs_le_iff in Hx. apply Rabs_le_iff in Hy. lra.
Qed.
Print Assumptions C44_position_in_tile.

Lemma round_ge round x z : rounds_to_nearest round -> IZR z - 1 / 2 < x -> (z <= round (XFin x))%Z.
Proof. intros H L. specialize (H x). apply Rabs_le_iff in H. assert (z < round (XFin x) + 1)%Z; [|lia]. apply lt_IZR. rewrite plus_IZR. lra. Qed.
Lemma round_le round x z : rounds_to_nearest round -> x < IZR z + 1 / 2 -> (round (XFin x) <= z)%Z.
Proof. intros H L. specialize (H x). apply Rabs_le_iff in H. assert (round (XFin x) < z + 1)%Z; [|lia]. apply lt_IZR. rewrite plus_IZR. lra. Qed.
Lemma overlap_axes A B : overlaps A B -> exists e, 0 < e /\ forall w, norm w <= e -> exists p, A (psub p w) /\ B p.
Proof. intros (e & He & H). exists (e / 2). split; [lra|]. intros w Hw. destruct (H w ltac:(lra)) as (p & P1 & P2). exists p. auto. Qed.

(** quantize covers the body: every tile square that overlaps the box lies in the returned rectangle, and every tile of the
    rectangle at least touches the box *)
Theorem C44_quantize_covers : forall round, rounds_to_nearest round -> forall hx hy pos q, 0 <= hx -> 0 <= hy ->
  overlaps (shift pos (rect hx hy)) (tile_square q) -> inside (quantize round (pbox hx hy) (inj pos)) q.
Proof.
  intros round H hx hy [px py] [x y] Hx Hy O. apply overlap_axes in O. destruct O as (e & He & O).
  assert (Hxs : IZR x - 1 / 2 < px + hx /\ px - hx < IZR x + 1 / 2).
  { destruct (O (e, 0)) as ([u v] & P1 & P2); [rewrite norm_xaxis, Rabs_right; lra|]. destruct (O (- e, 0)) as ([u' v'] & P1' & P2'); [rewrite norm_xaxis, Rabs_left; lra|].
    unfold shift, rect, tile_square in *; cbn in * . unfold shift, rect in *; cbn in * . lra. }
  assert (Hys : IZR y - 1 / 2 < py + hy /\ py - hy < IZR y + 1 / 2).
  { destruct (O (0, e)) as ([u v] & P1 & P2); [rewrite norm_yaxis, Rabs_right; lra|]. destruct (O (0, - e)) as ([u' v'] & P1' & P2'); [rewrite norm_yaxis, Rabs_left; lra|].
    unfold shift, rect, tile_square in *; cbn in * . unfold shift, rect in *; cbn in * . lra. }
  unfold inside, quantize, world_to_tile_pos; cbn. split; split; [apply round_le | apply round_ge | apply round_le | apply round_ge]; try assumption; lra.
Qed.
Print Assumptions C44_quantize_covers.
Lemma inside_bounds round hx hy pos q : rounds_to_nearest round -> inside (quantize round (pbox hx hy) (inj pos)) q ->
  Rabs (IZR (fst q) - fst pos) <= hx + 1 / 2 /\ Rabs (IZR (snd q) - snd pos) <= hy + 1 / 2.
Proof.
  intros H [[X1 X2] [Y1 Y2]]. unfold quantize, world_to_tile_pos in *; cbn in X1, X2, Y1, Y2.
  pose proof (H (fst pos - hx)) as A1. pose proof (H (fst pos + hx)) as A2. pose proof (H (snd pos - hy)) as A3. pose proof (H (snd pos + hy)) as A4.
  apply IZR_le in X1, X2, Y1, Y2. apply Rabs_le_iff in A1, A2, A3, A4. split; apply Rabs_le_iff; lra.
Qed.
Theorem C44_quantize_touches : forall round, rounds_to_nearest round -> forall hx hy pos q, 0 <= hx -> 0 <= hy ->
  inside (quantize round (pbox hx hy) (inj pos)) q -> meets (shift pos (rect hx hy)) (tile_square q).
Proof.
  intros round H hx hy pos q Hx Hy I. destruct (inside_bounds round hx hy pos q H I) as [A1 A2]. apply Rabs_le_iff in A1, A2.
  assert (G : forall c z h, 0 <= h -> - (h + 1 / 2) <= z - c <= h + 1 / 2 -> exists u, - h <= u - c <= h /\ - (1 / 2) <= u - z <= 1 / 2).
  { intros c z h Hh B. destruct (Rle_dec z (c - h)); [exists (c - h); lra|]. destruct (Rle_dec z (c + h)); [exists z; lra | exists (c + h); lra]. }
  destruct (G (fst pos) (IZR (fst q)) hx Hx ltac:(lra)) as (u & U1 & U2). destruct (G (snd pos) (IZR (snd q)) hy Hy ltac:(lra)) as (v & V1 & V2).
  exists (u, v). unfold tile_square, shift, rect; cbn. lra.
Qed.
Print Assumptions C44_quantize_touches.
(** Tilemap v Point: inside the square of a tile the answer is whether that tile is set *)
Theorem C44_point_query : forall dec round, rounds_to_nearest round -> forall (T : Type) (TR : Transformation2d XR T) m (t : T) v, apply_origin t = inj v ->
  forall q, Rabs (fst v - IZR (fst q)) < 1 / 2 -> Rabs (snd v - IZR (snd q)) < 1 / 2 -> forall P,
  fst (tilemap_point_sdfv dec round P m t) = true <-> get_tile dec m q <> 0%Z.
Proof.
  intros dec round H T TR m t v O q Q1 Q2 P. unfold tilemap_point_sdfv. rewrite O. cbn [fst].
  assert (world_to_tile_pos round (inj v) = q) as ->.
  { destruct q as [x y]. cbn in Q1, Q2. apply Rabs_def2 in Q1, Q2. unfold world_to_tile_pos; cbn.
    f_equal; apply Z.le_antisymm; first [apply round_le | apply round_ge]; try assumption; lra. }
  destruct (Z.eqb_spec (get_tile dec m q) 0); cbn; split; congruence.
Qed.
Print Assumptions C44_point_query.
Example point_query_met : apply_origin (T:=vec2 XR) (inj (3 + 1 / 4, 2)) = inj (3 + 1 / 4, 2) /\ Rabs (3 + 1 / 4 - IZR 3) < 1 / 2 /\ Rabs (2 - IZR 2) < 1 / 2.
Proof. split; [reflexivity|]. split; apply Rabs_def1; lra. Qed.

(** ** C45 *)
Lemma rel_diff A B pos c : same_set (minkowski_diff (shift pos A) (shift c B)) (minkowski_diff A (image (place (psub c pos) 1 0 1 1) B)).
Proof.
  intro d. split.
  - intros (a & b & Ha & Hb & ->). exists (psub a pos), (psub b pos). split; [exact Ha|]. split; [|apply pt_eq; cbn; ring].
    exists (psub b c). split; [exact Hb | apply pt_eq; cbn; ring].
  - intros (a & b & Ha & (b' & Hb & ->) & ->). exists (padd a pos), (padd b' c). split; [|split].
    + unfold shift. replace (psub (padd a pos) pos) with a by (apply pt_eq; cbn; ring). exact Ha.
    + unfold shift. replace (psub (padd b' c) c) with b' by (apply pt_eq; cbn; ring). exact Hb.
    + apply pt_eq; cbn; ring.
Qed.
Lemma rel_meets A B pos c w : meets (shift w (shift pos A)) (shift c B) <-> meets (shift w A) (image (place (psub c pos) 1 0 1 1) B).
Proof. rewrite !meets_diff. apply rel_diff. Qed.
Lemma rel_overlaps A B pos c w : overlaps (shift w (shift pos A)) (shift c B) <-> overlaps (shift w A) (image (place (psub c pos) 1 0 1 1) B).
Proof. rewrite !overlaps_diff. split; intros (e & He & H); exists e; (split; [exact He|]); intros u U; apply rel_diff, H, U. Qed.

Lemma tile_scene (a : shape2d XR) A pos c : body world a A -> norm (psub c pos) <= world ->
  scene a (SBox (pbox (1 / 2) (1 / 2))) (inj (psub c pos)) A (image (place (psub c pos) 1 0 1 1) (rect (1 / 2) (1 / 2))).
Proof.
  intros HA N. apply (Scene _ _ _ _ _ 1 (psub c pos) 1 0 1 (rect (1/2) (1/2))); try reflexivity; try lra; try (unfold world; lra); try assumption.
  - apply body_box; try lra. apply norm_le_sq; unfold pdot; cbn; lra.
  - apply acts_vec2.
Qed.

Lemma tiles_spec dec (m : tilemap) r (dx dy : XR) : exists l, tiles_in_rect dec m r dx dy = map (fun p => (p, get_tile dec m p)) l /\ (forall p, In p l <-> inside r p) /\ NoDup l.
Proof.
  unfold tiles_in_rect. destruct (C40_iterate_boxed r (flt dx f0) (flt dy f0)) as (I & N & _). unfold iterate_boxed in * .
  exists (if flt dy f0 then if flt dx f0 then iterate_south_west r else iterate_south_east r else if flt dx f0 then iterate_north_west r else iterate_north_east r).
  split; [reflexivity | split; assumption].
Qed.

(** The visited tiles are those of the rectangle, each once, in the order of the direction (in any arithmetic). *)
Theorem C45_visit_order : forall (F : Type) (FL : Float F) dec m r (dx dy : F),
  exists l, tiles_in_rect dec m r dx dy = map (fun p => (p, get_tile dec m p)) l /\ visits r (flt dx f0) (flt dy f0) l.
Proof.
  intros. exists (iterate_boxed r (flt dx f0) (flt dy f0)). split; [reflexivity | apply C40_iterate_boxed].
Qed.
Print Assumptions C45_visit_order.

Section Steps.
Context {A : Type} {SD : SdfvCommonRel2d XR A (box2d XR) (vec2 XR)}.
Lemma all_skip (col : A) pos ts : (forall t, In t ts -> resolve_step col pos t = Ok pos) -> resolve_all col pos ts = Ok pos.
Proof. induction ts as [|t ts IH]; intro H; cbn [resolve_all]; [reflexivity|]. rewrite (H t (or_introl eq_refl)). cbn. apply IH. intros. apply H. right. assumption. Qed.
Lemma skip_app (col : A) pos ts us : (forall t, In t ts -> resolve_step col pos t = Ok pos) -> resolve_all col pos (ts ++ us) = resolve_all col pos us.
Proof. induction ts as [|t ts IH]; intro H; cbn [app resolve_all]; [reflexivity|]. rewrite (H t (or_introl eq_refl)). cbn. apply IH. intros. apply H. right. assumption. Qed.
Lemma empty_step (col : A) pos q t : ~ (0 < t)%Z -> resolve_step col pos (q, t) = Ok pos.
Proof. intro N. unfold resolve_step. cbn [snd]. rewrite (proj2 (Z.ltb_ge 0 t)) by lia. reflexivity. Qed.
Lemma solid_step (col : A) pos q t : (0 < t)%Z -> resolve_step col pos (q, t) =
  bind (penetrates_rel (F:=XR) col (pbox (1 / 2) (1 / 2)) (v2sub (tile_to_world_pos q) pos)) (fun e => match e with Some error => Ok (v2add pos error) | None => Ok pos end).
Proof. intro N. unfold resolve_step. cbn [snd fst]. rewrite (proj2 (Z.ltb_lt 0 t) N). reflexivity. Qed.
End Steps.

(** a body that stays clear of every solid tile (by more than the tolerance 2^-23 of the search, cube-rooted: about 0.005) is not moved *)
Lemma clear_none (a : shape2d XR) A pos q : body world a A -> norm (psub (tile_centre q) pos) <= world ->
  (forall w, norm w * norm w * norm w < eps -> ~ meets (shift w (shift pos A)) (tile_square q)) ->
  penetrates_rel (F:=XR) a (SBox (pbox (1 / 2) (1 / 2))) (inj (psub (tile_centre q) pos)) = Ok None.
Proof.
  intros HA N C. pose proof (tile_scene a A pos (tile_centre q) HA N) as S.
  destruct (C51_queries_return XR _ _ _ a (SBox (pbox (1 / 2) (1 / 2))) (inj (psub (tile_centre q) pos))) as (_ & ([v|] & E) & _); [|exact E].
  exfalso. destruct (C28_penetrates_some_sound _ _ _ _ _ _ _ _ S E) as [(w & W1 & W2) _]. apply (C w W1). apply rel_meets. exact W2.
Qed.
Lemma bounds_norm hx hy pos q : Rabs (IZR (fst q) - fst pos) <= hx + 1 / 2 /\ Rabs (IZR (snd q) - snd pos) <= hy + 1 / 2 -> hx <= world / 4 -> hy <= world / 4 ->
  norm (psub (tile_centre q) pos) <= world.
Proof.
  intros [B1 B2] Hx Hy. replace (psub (tile_centre q) pos) with (padd (IZR (fst q) - fst pos, 0) (0, IZR (snd q) - snd pos)) by (apply pt_eq; cbn; ring).
  eapply Rle_trans; [apply norm_triangle|]. rewrite norm_xaxis, norm_yaxis. unfold world in * . lra.
Qed.
Theorem C45_clear_box_unmoved : forall dec round, rounds_to_nearest round -> forall m hx hy pos dir, 0 <= hx <= world / 4 -> 0 <= hy <= world / 4 ->
  (forall q w, (0 < get_tile dec m q)%Z -> norm w * norm w * norm w < eps -> ~ meets (shift w (shift pos (rect hx hy))) (tile_square q)) ->
  simple_resolve_box dec round m (pbox hx hy) (inj pos) (inj dir) = Ok (inj pos).
Proof.
  intros dec round H m hx hy pos dir Hx Hy C. unfold simple_resolve_box. destruct (tiles_spec dec m (quantize round (pbox hx hy) (inj pos)) (vx (inj dir)) (vy (inj dir))) as (l & -> & I & _).
  apply all_skip. intros t It. apply in_map_iff in It. destruct It as (q & <- & Iq). apply I in Iq.
  destruct (Z_lt_dec 0 (get_tile dec m q)) as [P|P]; [|apply empty_step, P]. rewrite solid_step by exact P.
  assert (B : body world (SBox (pbox hx hy)) (rect hx hy)).
  { apply body_box; try lra. replace (hx, hy) with (padd (hx, 0) (0, hy)) by (apply pt_eq; cbn; ring). eapply Rle_trans; [apply norm_triangle|]. rewrite norm_xaxis, norm_yaxis, !Rabs_right by lra. unfold world in *; lra. }
  pose proof (clear_none (SBox (pbox hx hy)) (rect hx hy) pos q B (bounds_norm hx hy pos q (inside_bounds round hx hy pos q H Iq) ltac:(lra) ltac:(lra)) (fun w => C q w P)) as E.
  change (penetrates_rel (F:=XR) (pbox hx hy) (pbox (1 / 2) (1 / 2)) (v2sub (tile_to_world_pos q) (inj pos)) = Ok None) in E. rewrite E. reflexivity.
Qed.
Print Assumptions C45_clear_box_unmoved.
Theorem C45_clear_ball_unmoved : forall dec round, rounds_to_nearest round -> forall m r pos dir, 0 <= r <= world / 4 ->
  (forall q w, (0 < get_tile dec m q)%Z -> norm w * norm w * norm w < eps -> ~ meets (shift w (shift pos (disc r))) (tile_square q)) ->
  simple_resolve_ball dec round m (pball r) (inj pos) (inj dir) = Ok (inj pos).
Proof.
  intros dec round H m r pos dir Hr C. unfold simple_resolve_ball. destruct (tiles_spec dec m (quantize round (pbox r r) (inj pos)) (vx (inj dir)) (vy (inj dir))) as (l & E & I & _).
  change (symmetric_bounding_box (pball r)) with (pbox r r). rewrite E.
  apply all_skip. intros t It. apply in_map_iff in It. destruct It as (q & <- & Iq). apply I in Iq.
  destruct (Z_lt_dec 0 (get_tile dec m q)) as [P|P]; [|apply empty_step, P]. rewrite solid_step by exact P.
  assert (B : body world (SBall (pball r)) (disc r)) by (apply body_ball; unfold world in *; lra).
  pose proof (clear_none (SBall (pball r)) (disc r) pos q B (bounds_norm r r pos q (inside_bounds round r r pos q H Iq) ltac:(lra) ltac:(lra)) (fun w => C q w P)) as E2.
  change (penetrates_rel (F:=XR) (pball r) (pbox (1 / 2) (1 / 2)) (v2sub (tile_to_world_pos q) (inj pos)) = Ok None) in E2. rewrite E2. reflexivity.
Qed.
Print Assumptions C45_clear_ball_unmoved.

Lemma overlaps_ext (A A' B B' : pset) : (forall p, A p <-> A' p) -> (forall p, B p <-> B' p) -> overlaps A B -> overlaps A' B'.
Proof.
  intros H1 H2. apply same_overlaps. intro p. unfold minkowski_diff.
  split; intros (a & b & Ha & Hb & E); exists a, b; (split; [apply H1; exact Ha | split; [apply H2; exact Hb | exact E]]).
Qed.
(** a box overlapping exactly one solid tile in reach is moved out of it, within 1% of the shortest such move;
    the box's half sizes and position are multiples of 1/128, so that the search tolerance cannot interfere *)
Theorem C45_single_tile_resolved : forall dec round, rounds_to_nearest round -> forall m hx hy pos dir q, 0 <= hx <= world / 4 -> 0 <= hy <= world / 4 ->
  pt_on_grid (hx, hy) -> pt_on_grid pos ->
  (0 < get_tile dec m q)%Z -> overlaps (shift pos (rect hx hy)) (tile_square q) ->
  (forall q', (0 < get_tile dec m q')%Z -> inside (quantize round (pbox hx hy) (inj pos)) q' -> q' = q) ->
  exists pos', simple_resolve_box dec round m (pbox hx hy) (inj pos) (inj dir) = Ok (inj pos') /\
    ~ overlaps (shift pos' (rect hx hy)) (tile_square q) /\
    forall pos2, ~ overlaps (shift pos2 (rect hx hy)) (tile_square q) -> norm (psub pos' pos) <= 101 / 100 * norm (psub pos2 pos).
Proof.
  intros dec round H m hx hy pos dir q Hx Hy Gh Gp P O U. pose proof (C44_quantize_covers round H hx hy pos q ltac:(lra) ltac:(lra) O) as Iq.
  assert (B : body world (SBox (pbox hx hy)) (rect hx hy)).
  { apply body_box; try lra. replace (hx, hy) with (padd (hx, 0) (0, hy)) by (apply pt_eq; cbn; ring). eapply Rle_trans; [apply norm_triangle|]. rewrite norm_xaxis, norm_yaxis, !Rabs_right by lra. unfold world in *; lra. }
  pose proof (bounds_norm hx hy pos q (inside_bounds round hx hy pos q H Iq) ltac:(lra) ltac:(lra)) as Nq.
  pose proof (tile_scene (SBox (pbox hx hy)) (rect hx hy) pos (tile_centre q) B Nq) as S.
  assert (Fv : few_values (SBox (pbox hx hy)) (SBox (pbox (1 / 2) (1 / 2))) (inj (psub (tile_centre q) pos))) by exact (few_corners _ _ _ _ _ 4 4 S eq_refl eq_refl ltac:(lia)).
  assert (Gq : pt_on_grid (psub (tile_centre q) pos)).
  { apply grid_sub; [|exact Gp]. split; [exists (128 * fst q)%Z | exists (128 * snd q)%Z]; rewrite mult_IZR; cbn; field. }
  assert (Gt : on_grid (1 / 2)) by (exists 64%Z; lra).
  assert (Rs : resolved (SBox (pbox hx hy)) (SBox (pbox (1 / 2) (1 / 2))) (inj (psub (tile_centre q) pos))).
  { refine (resolved_grid _ _ _ _ _ (psub (tile_centre q) pos) 4 4 S eq_refl eq_refl _ _ (acts_vec2 _) Gq).
    - exists (hx, hy). split; [reflexivity | exact Gh].
    - exists (1 / 2, 1 / 2). split; [reflexivity | split; exact Gt]. }
  assert (O' : overlaps (rect hx hy) (image (place (psub (tile_centre q) pos) 1 0 1 1) (rect (1 / 2) (1 / 2)))).
  { apply overlaps_0, rel_overlaps, (proj1 (overlaps_0 _ _)), O. }
  destruct (C31_penetration_complete _ _ _ _ _ _ _ S Fv Rs O') as [(v & E & V1 & V2) _].
  exists (padd pos v). split; [|split].
  - unfold simple_resolve_box. destruct (tiles_spec dec m (quantize round (pbox hx hy) (inj pos)) (vx (inj dir)) (vy (inj dir))) as (l & -> & I & N).
    apply I in Iq. destruct (in_split _ _ Iq) as (l1 & l2 & ->). rewrite map_app. cbn [map].
    assert (Sk : forall (ps : vec2 XR) q', In q' (l1 ++ l2) -> resolve_step (pbox hx hy) ps (q', get_tile dec m q') = Ok ps).
    { intros ps q' I'. apply empty_step. intro P'. assert (q' = q).
      { apply U; [exact P'|]. apply I. apply in_or_app. apply in_app_or in I'. cbn. tauto. }
      subst q'. apply NoDup_remove_2 in N. contradiction. }
    rewrite skip_app.
    + cbn [resolve_all]. rewrite solid_step by exact P.
      change (penetrates_rel (F:=XR) (pbox hx hy) (pbox (1 / 2) (1 / 2)) (v2sub (tile_to_world_pos q) (inj pos)) = Ok (Some (inj v))) in E. rewrite E. cbn [bind].
      rewrite v2add_inj. apply all_skip. intros t It. apply in_map_iff in It. destruct It as (q' & <- & I'). apply Sk, in_or_app. right. exact I'.
    + intros t It. apply in_map_iff in It. destruct It as (q' & <- & I'). apply Sk, in_or_app. left. exact I'.
  - intro C. apply V1. apply rel_overlaps. unfold tile_square in C. revert C.
    apply (overlaps_ext (shift (padd pos v) (rect hx hy)) (shift v (shift pos (rect hx hy))) (shift (tile_centre q) (rect (1/2) (1/2))) (shift (tile_centre q) (rect (1/2) (1/2)))).
    + intro p. symmetry. apply shift_shift.
    + intro p. reflexivity.
  - intros pos2 C. replace (psub (padd pos v) pos) with v by (apply pt_eq; cbn; ring). apply V2. intro C2. apply C. apply rel_overlaps in C2. revert C2.
    apply (overlaps_ext (shift (psub pos2 pos) (shift pos (rect hx hy))) (shift pos2 (rect hx hy)) (shift (tile_centre q) (rect (1/2) (1/2))) (shift (tile_centre q) (rect (1/2) (1/2)))).
    + intro p. rewrite shift_shift. replace (padd pos (psub pos2 pos)) with pos2 by (apply pt_eq; cbn; ring). reflexivity.
    + intro p. reflexivity.
Qed.
Print Assumptions C45_single_tile_resolved.
(** simple_resolve never panics, in any arithmetic *)
Theorem C45_resolve_returns : forall (F : Type) (FL : Float F) dec round m (b : box2d F) (r : ball F) pos dir,
  (exists p, simple_resolve_box dec round m b pos dir = Ok p) /\ (exists p, simple_resolve_ball dec round m r pos dir = Ok p).
Proof.
  intros F FL dec round m b r pos dir. unfold simple_resolve_box, simple_resolve_ball.
  assert (G1 : forall ts p, exists p', resolve_all b p ts = Ok p').
  { induction ts as [|[q t] ts IH]; intro p; cbn [resolve_all]; [eexists; reflexivity|]. unfold resolve_step; cbn [snd fst].
    destruct (0 <? t)%Z; [|apply IH].
    destruct (C51_queries_return F FL _ _ (SBox b) (SBox (box_with_halfdims fhalf fhalf)) (v2sub (tile_to_world_pos q) p)) as (_ & (e & E) & _).
    change (penetrates_rel (F:=F) b (box_with_halfdims fhalf fhalf) (v2sub (tile_to_world_pos q) p) = Ok e) in E. rewrite E. destruct e; cbn; apply IH. }
  assert (G2 : forall ts p, exists p', resolve_all r p ts = Ok p').
  { induction ts as [|[q t] ts IH]; intro p; cbn [resolve_all]; [eexists; reflexivity|]. unfold resolve_step; cbn [snd fst].
    destruct (0 <? t)%Z; [|apply IH].
    destruct (C51_queries_return F FL _ _ (SBall r) (SBox (box_with_halfdims fhalf fhalf)) (v2sub (tile_to_world_pos q) p)) as (_ & (e & E) & _).
    change (penetrates_rel (F:=F) r (box_with_halfdims fhalf fhalf) (v2sub (tile_to_world_pos q) p) = Ok e) in E. rewrite E. destruct e; cbn; apply IH. }
  split; [apply G1 | apply G2].
Qed.
Print Assumptions C45_resolve_returns.
