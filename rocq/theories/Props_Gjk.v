(** * Property theorems C27-C29 (GJK collision search, exact arithmetic).

    [scene a b t A B] (SpecGjk.v): shapes a and b (ball, box or polygon) are the point sets A and, placed by t, B. *)
From Coq Require Import Reals Lra Psatz Bool List Lia Arith.
From Verif Require Import Num NumXR Glam Transform2 Shapes2 Gjk Detect2 Spec SpecLink P_Base P_Shapes P_Geo P_GjkShape SpecGjk P_Gjk P_Gjk2 P_Gjk3 P_Scene.
Import ListNotations.
Local Open Scope R_scope.

(** Box2d/Poly2d/Ball pairs handled by GJK give the same answers as the Shape2d union, in every arithmetic, so the
    theorems below speak about them too. *)
Theorem C27_pairs_share_search : forall (F : Type) (FL : Float F) (T : Type) (TR : Transformation2d F T) P D
  (x y : box2d F) (p q : poly2d F) (r : ball F) (rel : T),
  sdfv_common_rel (F:=F) P D x y rel = sdfv_common_rel (F:=F) P D (SBox x) (SBox y) rel /\
  sdfv_common_rel (F:=F) P D x p rel = sdfv_common_rel (F:=F) P D (SBox x) (SPoly p) rel /\
  sdfv_common_rel (F:=F) P D p x rel = sdfv_common_rel (F:=F) P D (SPoly p) (SBox x) rel /\
  sdfv_common_rel (F:=F) P D p q rel = sdfv_common_rel (F:=F) P D (SPoly p) (SPoly q) rel /\
  sdfv_common_rel (F:=F) P D r x rel = sdfv_common_rel (F:=F) P D (SBall r) (SBox x) rel.
Proof. intros. repeat split. Qed.
Print Assumptions C27_pairs_share_search.

(** C27: an answer 'not colliding' that was not given because the 20 iterations ran out is right. *)
Theorem C27_collides_false_sound : forall (T : Type) (TR : Transformation2d XR T) a b (t : T) A B, scene a b t A B ->
  collides_rel (F:=XR) a b t = Ok false ->
  ~ overlaps A B \/ exists l, run_ff (lmd_extreme_point a b t) 20 [] (lmd_initial_direction t) = Exhausted l.
Proof. intros T TR a b t A B. exact (q_collides_false a b t A B). Qed.
Print Assumptions C27_collides_false_sound.
Theorem C27_penetrates_none_sound : forall (T : Type) (TR : Transformation2d XR T) a b (t : T) A B, scene a b t A B ->
  penetrates_rel (F:=XR) a b t = Ok None ->
  ~ overlaps A B \/ exists l, run_tf (lmd_extreme_point a b t) 20 [] (lmd_initial_direction t) = Exhausted l.
Proof. intros T TR a b t A B. exact (q_penetrates_none a b t A B). Qed.
Print Assumptions C27_penetrates_none_sound.
Theorem C27_distance_some_sound : forall (T : Type) (TR : Transformation2d XR T) a b (t : T) A B v, scene a b t A B ->
  distance_to_rel (F:=XR) a b t = Ok (Some v) ->
  ~ overlaps A B \/ exists l, start_ft (lmd_extreme_point a b t) (lmd_initial_direction t) = Exhausted l.
Proof. intros T TR a b t A B v H. exact (q_distance_some a b t A B H v). Qed.
Print Assumptions C27_distance_some_sound.
Theorem C27_sdfv_false_sound : forall (T : Type) (TR : Transformation2d XR T) a b (t : T) A B v, scene a b t A B ->
  sdfv_rel (F:=XR) a b t = Ok (false, v) ->
  ~ overlaps A B \/ exists l, start_tt (lmd_extreme_point a b t) (lmd_initial_direction t) = Exhausted l.
Proof. intros T TR a b t A B v H. exact (q_sdfv_false a b t A B H v). Qed.
Print Assumptions C27_sdfv_false_sound.

(** C28: an answer 'colliding' means contact, up to a translation w with |w|^3 < 2^-23; and exact contact when the
    tolerance cannot interfere. *)
Theorem C28_collides_true_sound : forall (T : Type) (TR : Transformation2d XR T) a b (t : T) A B, scene a b t A B ->
  collides_rel (F:=XR) a b t = Ok true ->
  (exists w, norm w * norm w * norm w < eps /\ meets (shift w A) B) /\ (resolved a b t -> meets A B).
Proof. intros T TR a b t A B. exact (q_collides_true a b t A B). Qed.
Print Assumptions C28_collides_true_sound.
Theorem C28_penetrates_some_sound : forall (T : Type) (TR : Transformation2d XR T) a b (t : T) A B v, scene a b t A B ->
  penetrates_rel (F:=XR) a b t = Ok (Some v) ->
  (exists w, norm w * norm w * norm w < eps /\ meets (shift w A) B) /\ (resolved a b t -> meets A B).
Proof. intros T TR a b t A B v H. exact (q_penetrates_some a b t A B H v). Qed.
Print Assumptions C28_penetrates_some_sound.

(** C29: overlapping shapes whose support function has at most 20 values are found by collides_rel, always; and by the
    other three queries when the tolerance cannot interfere. *)
Theorem C29_collides_complete : forall (T : Type) (TR : Transformation2d XR T) a b (t : T) A B, scene a b t A B ->
  few_values a b t -> overlaps A B -> collides_rel (F:=XR) a b t = Ok true.
Proof. intros T TR a b t A B. exact (q_overlap_collides a b t A B). Qed.
Print Assumptions C29_collides_complete.
Theorem C29_all_queries_complete : forall (T : Type) (TR : Transformation2d XR T) a b (t : T) A B, scene a b t A B ->
  few_values a b t -> resolved a b t -> overlaps A B ->
  (exists v, penetrates_rel (F:=XR) a b t = Ok (Some v)) /\ distance_to_rel (F:=XR) a b t = Ok None /\
  (exists v, sdfv_rel (F:=XR) a b t = Ok (true, v)).
Proof. intros T TR a b t A B. exact (q_overlap_all a b t A B). Qed.
Print Assumptions C29_all_queries_complete.
(** boxes and polygons with (corners of a) x (corners of b) <= 20 qualify *)
Theorem C29_corner_bound : forall (T : Type) (TR : Transformation2d XR T) a b (t : T) A B n m, scene a b t A B ->
  corners a = Some n -> corners b = Some m -> (n * m <= 20)%nat -> few_values a b t.
Proof. exact @few_corners. Qed.
Print Assumptions C29_corner_bound.
(** and shapes with all coordinates on the 1/128 grid, moved by a grid translation, are resolved *)
Theorem C29_grid_resolved : forall (T : Type) (TR : Transformation2d XR T) a b (t : T) A B v n m, scene a b t A B ->
  corners a = Some n -> corners b = Some m -> shape_on_grid a -> shape_on_grid b -> acts_as t v 1 0 1 -> pt_on_grid v ->
  resolved a b t.
Proof. exact @resolved_grid. Qed.
Print Assumptions C29_grid_resolved.
(** so collides_rel decides overlap of such shapes up to grazing contact *)
Theorem C29_collides_decides : forall (T : Type) (TR : Transformation2d XR T) a b (t : T) A B v n m, scene a b t A B ->
  corners a = Some n -> corners b = Some m -> (n * m <= 20)%nat -> shape_on_grid a -> shape_on_grid b ->
  acts_as t v 1 0 1 -> pt_on_grid v ->
  (overlaps A B -> collides_rel (F:=XR) a b t = Ok true) /\ (collides_rel (F:=XR) a b t = Ok true -> meets A B).
Proof.
  intros T TR a b t A B v n m S Ca Cb NM Ga Gb Ac Gv. split.
  - apply q_overlap_collides; [exact S | apply (few_corners a b t A B n m); assumption].
  - intro H. apply (q_collides_true a b t A B S H). apply (resolved_grid a b t A B v n m); assumption.
Qed.
Print Assumptions C29_collides_decides.

(** ** The hypotheses are met: a unit box and a triangle moved by (3/2, 0), which overlap *)
Definition ex_tri : list pt := [(-1, 0); (1, 1); (1, -1)].
Example scene_met : scene (SBox (pbox 1 1)) (SPoly (ppoly ex_tri)) (inj (3/2, 0)) (rect 1 1) (image (place (3/2, 0) 1 0 1 1) (hull ex_tri)).
Proof.
  apply (Scene _ _ _ _ _ 2 (3/2, 0) 1 0 1 (hull ex_tri)); try reflexivity; try lra; try (unfold world; lra).
  - apply body_box; try lra. apply norm_le_sq; unfold pdot, world; cbn; lra.
  - apply body_poly; [discriminate|]. intros p [<-|[<-|[<-|[]]]]; apply norm_le_sq; unfold pdot; cbn; lra.
  - apply acts_vec2.
  - apply norm_le_sq; unfold pdot, world; cbn; lra.
Qed.
Lemma grid_of z x : x = IZR z / 128 -> on_grid x. Proof. intro H. exists z. exact H. Qed.
Example grid_met : shape_on_grid (SBox (pbox 1 1)) /\ shape_on_grid (SPoly (ppoly ex_tri)) /\ pt_on_grid (3/2, 0).
Proof.
  assert (G1 : on_grid 1) by (apply (grid_of 128); lra). assert (G0 : on_grid 0) by (apply (grid_of 0); lra).
  assert (Gm : on_grid (-1)) by (apply (grid_of (-128)); lra).
  split; [|split].
  - exists (1, 1). split; [reflexivity | split; assumption].
  - intros q [<-|[<-|[<-|[]]]]; eexists; (split; [reflexivity | split; assumption]).
  - split; [apply (grid_of 192); cbn; lra | exact G0].
Qed.
Example overlap_met : overlaps (rect 1 1) (image (place (3/2, 0) 1 0 1 1) (hull ex_tri)).
Proof.
  apply overlaps_0. apply overlaps_diff. exists (1/4). split; [lra|]. intros u U. rewrite psub_0.
  exists (padd (3/4, 0) u), (3/4, 0). split; [|split].
  - pose proof (norm_x u) as X. pose proof (norm_y u) as Y. assert (X' : Rabs (fst u) <= 1/4) by lra. assert (Y' : Rabs (snd u) <= 1/4) by lra.
    apply Rabs_le_iff in X'. apply Rabs_le_iff in Y'. unfold rect; cbn; lra.
  - exists (-3/4, 0). split; [|apply pt_eq; cbn; lra].
    exists [7/8; 1/16; 1/16]. repeat split; [repeat constructor; lra | cbn; lra | apply pt_eq; cbn; lra].
  - apply pt_eq; cbn; lra.
Qed.
Example collides_of_example : collides_rel (F:=XR) (SBox (pbox 1 1)) (SPoly (ppoly ex_tri)) (inj (3/2, 0)) = Ok true.
Proof.
  destruct grid_met as (G1 & G2 & G3).
  apply (C29_collides_decides _ _ _ _ _ _ _ (3/2, 0) 4 3 scene_met eq_refl eq_refl ltac:(lia) G1 G2 (acts_vec2 _) G3), overlap_met.
Qed.
