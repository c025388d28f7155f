(** * Property theorems C31 (penetration vectors of GJK pairs, exact arithmetic). *)
From Coq Require Import Reals Lra Psatz Bool List Lia Arith.
From Verif Require Import Num NumXR Glam Transform2 Shapes2 Gjk Detect2 Spec SpecLink P_Base P_Shapes P_Geo P_GjkShape SpecGjk P_Gjk P_Gjk2 P_Gjk3 P_Scene P_Epa P_Vec Props_Gjk.
Import ListNotations.
Local Open Scope R_scope.

(** v resolves the overlap and no resolving translation is shorter than |v| / 1.01 *)
Definition is_near_min_separation (v : pt) (A B : pset) : Prop :=
  separates v A B /\ forall w, separates w A B -> norm v <= 101 / 100 * norm w.

Lemma good_separates A B v : good_vector (minkowski_diff A B) v -> is_near_min_separation v A B.
Proof.
  intros [(n & N & H) L]. split.
  - apply behind_not_overlaps. exists n. split; [exact N|]. intros m (p & q & Hp & Hq & ->).
    replace (psub p q) with (padd (psub (psub p v) q) v) by (apply pt_eq; cbn; ring). apply H.
    exists (psub p v), q. auto.
  - intros w W. apply L. intro C. apply W. apply overlaps_diff. exact C.
Qed.

Section Scene.
Context {T : Type} {TR : Transformation2d XR T}.
Variables (a b : shape2d XR) (t : T) (A B : pset).
Hypothesis SC : scene a b t A B.
Let M := minkowski_diff A B.
Let s := sreal a b t.
Let sup := lmd_extreme_point a b t.
Let Hsup : forall d, norm d <= reach -> sup (inj d) = inj (s d) := proj1 (scene_facts a b t A B SC).
Let Hfar : forall d, norm d <= reach -> is_farthest M d (s d) := proj1 (proj2 (scene_facts a b t A B SC)).
Let HM : forall m, M m -> norm m <= 3 * world := proj1 (proj2 (proj2 (scene_facts a b t A B SC))).
Let HC : convex M := proj1 (proj2 (proj2 (proj2 (scene_facts a b t A B SC)))).
Let H0 := proj2 (proj2 (proj2 (proj2 (scene_facts a b t A B SC)))).

Lemma tri_result x y z pts : tri M s reach x y z -> enforce_ccw (map inj [x; y; z]) = Ok pts ->
  epa sup 20 pts = v2zero \/ exists v, epa sup 20 pts = inj v /\ is_near_min_separation v A B.
Proof.
  intros T3 E. pose proof (tri_origin M s reach x y z HC T3) as HO.
  destruct (tri_ccw M s reach x y z T3) as (p & q & r & E2 & CC). rewrite E2 in E. injection E as <-.
  unfold epa. destruct (epa_run sup 20 (map inj [p; q; r])) as [u|] eqn:R; cbn [map] in * ; rewrite R; [right | left; reflexivity].
  destruct (epa_good M s sup reach (3 * world) Hsup Hfar HM K1' HC HO 20 p [q; r] u (ccw_poly M s reach p q r CC) R) as (v & -> & G).
  exists v. split; [reflexivity | apply good_separates, G].
Qed.
Lemma q_penetrates_vector p : resolved a b t -> penetrates_rel (F:=XR) a b t = Ok (Some p) ->
  p = v2zero \/ exists v, p = inj v /\ is_near_min_separation v A B.
Proof.
  intro R. unfold penetrates_rel, sdfv_common_rel, Sdfv_ShapeShape, minkowski_sdfv, gjk, gjk_tf. fold sup.
  destruct H0 as (d0 & -> & N0 & L0). intro E.
  pose proof (tf_true M s sup reach (3 * world) Hsup Hfar HM K1' K3' 20 HC [] d0 (empty_inv a b t A B d0 L0 N0)) as Q. cbn [map] in Q.
  pose proof (tf_not_small sup 20 [] (inj d0)) as NS.
  destruct (run_tf sup 20 [] (inj d0)) as [l d|l|l d|l|e]; try discriminate E; [|exfalso; apply (NS l d eq_refl)].
  destruct (Q l eq_refl) as [_ Q2]. destruct (Q2 (resolved_values a b t A B SC R)) as (x & y & z & -> & T3).
  destruct (ccw_tri x y z) as (pts & EC). pose proof EC as EC2. cbn [map] in EC2. rewrite ?EC, ?EC2 in E. cbn in E. injection E as <-.
  apply (tri_result x y z pts T3 EC).
Qed.
Lemma q_sdfv_vector p : resolved a b t -> overlaps A B -> sdfv_rel (F:=XR) a b t = Ok (true, p) ->
  p = v2zero \/ exists v, p = inj v /\ is_near_min_separation v A B.
Proof.
  intros R O. pose proof (overlaps_no_behind A B O) as NB. pose proof (resolved_values a b t A B SC R) as Rv.
  unfold sdfv_rel, sdfv_common_rel, Sdfv_ShapeShape, minkowski_sdfv, gjk, gjk_tt, start_tt. fold sup.
  destruct H0 as (d0 & -> & N0 & L0). rewrite (Hsup d0 L0), addp1.
  destruct (start_inv M s reach (3 * world) Hfar HM K1' NB Rv d0 L0 N0) as [I SM]. change ([inj (s d0)]) with (map inj [s d0]).
  rewrite (tt_eq M s sup reach (3 * world) Hsup Hfar HM K1' K3' NB Rv 20 HC [s d0] (pneg (s d0)) (inj (s d0)) I). intro E.
  pose proof (tf_true M s sup reach (3 * world) Hsup Hfar HM K1' K3' 20 HC [s d0] (pneg (s d0)) I) as Q.
  pose proof (tf_not_small sup 20 (map inj [s d0]) (inj (pneg (s d0)))) as NS.
  destruct (run_tf sup 20 (map inj [s d0]) (inj (pneg (s d0)))) as [l d|l|l d|l|e]; try (exfalso; apply (NS l d eq_refl));
    try (destruct (distance_to_origin l); discriminate); try discriminate.
  destruct (Q l eq_refl) as [_ Q2]. destruct (Q2 Rv) as (x & y & z & -> & T3).
  destruct (ccw_tri x y z) as (pts & EC). pose proof EC as EC2. cbn [map] in EC2. rewrite ?EC, ?EC2 in E. cbn in E. injection E as <-.
  apply (tri_result x y z pts T3 EC).
Qed.
Lemma q_penetration_complete : few_values a b t -> resolved a b t -> overlaps A B ->
  (exists v, penetrates_rel (F:=XR) a b t = Ok (Some (inj v)) /\ is_near_min_separation v A B) /\
  (exists v, sdfv_rel (F:=XR) a b t = Ok (true, inj v) /\ is_near_min_separation v A B).
Proof.
  intros FV R O. destruct (values_list a b t A B SC FV) as (V & L & HV & HVM). pose proof (overlaps_no_behind A B O) as NB.
  pose proof (resolved_values a b t A B SC R) as Rv.
  unfold penetrates_rel, sdfv_rel, sdfv_common_rel, Sdfv_ShapeShape, minkowski_sdfv, gjk, gjk_tf, gjk_tt. fold sup.
  destruct H0 as (d0 & -> & N0 & L0).
  destruct (tf_found M s sup reach (3 * world) Hsup Hfar HM K1' K3' NB V HV HVM Rv d0 L0 N0 L) as (x1 & y1 & z1 & -> & T1).
  destruct (tt_found M s sup reach (3 * world) Hsup Hfar HM K1' K3' NB V HV HVM Rv d0 HC L0 N0 ltac:(lia)) as (x3 & y3 & z3 & -> & T3).
  destruct (ccw_tri x1 y1 z1) as (l1 & E1). destruct (ccw_tri x3 y3 z3) as (l3 & E3). rewrite E1, E3.
  pose proof (tri_origin M s reach x1 y1 z1 HC T1) as HO.
  destruct (epa_tri M s sup reach (3 * world) Hsup Hfar HM K1' HC HO V HV x1 y1 z1 l1 T1 E1 L) as (v1 & V1 & G1).
  destruct (epa_tri M s sup reach (3 * world) Hsup Hfar HM K1' HC HO V HV x3 y3 z3 l3 T3 E3 L) as (v3 & V3 & G3).
  cbn. rewrite V1, V3. split; eexists; (split; [reflexivity | apply good_separates; assumption]).
Qed.
Lemma pushes_separates v : pushes M v -> separates v A B.
Proof.
  intros (n & N & H). apply behind_not_overlaps. exists n. split; [exact N|]. intros m (p & q & Hp & Hq & ->).
  replace (psub p q) with (padd (psub (psub p v) q) v) by (apply pt_eq; cbn; ring). apply H. exists (psub p v), q. auto.
Qed.
Lemma cap_reported l : solid M l -> exists pts v, enforce_ccw l = Ok pts /\ epa sup 20 pts = inj v /\ (v = origin \/ separates v A B).
Proof.
  intro S. destruct (cap_vector M s sup reach (3 * world) Hsup Hfar HM K1' l S) as (pts & -> & R). exists pts.
  destruct R as [Z|(v & Ev & P)].
  - exists origin. split; [reflexivity|]. split; [exact Z | left; reflexivity].
  - exists v. split; [reflexivity|]. split; [exact Ev | right; apply pushes_separates, P].
Qed.
Lemma q_penetrates_separates p : penetrates_rel (F:=XR) a b t = Ok (Some p) -> exists v, p = inj v /\ (v = origin \/ separates v A B).
Proof.
  unfold penetrates_rel, sdfv_common_rel, Sdfv_ShapeShape, minkowski_sdfv, gjk, gjk_tf. fold sup.
  destruct H0 as (d0 & -> & N0 & L0). intro E. pose proof (tf_not_small sup 20 [] (inj d0)) as NS.
  pose proof (tf_cap M s sup reach (3 * world) Hsup Hfar HM K1' K3' 20 [] d0 ltac:(constructor) ltac:(cbn; lia) L0 N0) as CP. cbn [map] in CP.
  destruct (run_tf sup 20 [] (inj d0)) as [l d|l|l d|l|e]; try discriminate E; [|exfalso; apply (NS l d eq_refl)].
  destruct (cap_reported l (CP l eq_refl)) as (q & v & Eq & Ev & S). rewrite Eq in E. cbn in E. rewrite Ev in E. exists v. split; [congruence | exact S].
Qed.
Lemma q_sdfv_separates p : sdfv_rel (F:=XR) a b t = Ok (true, p) -> exists v, p = inj v /\ (v = origin \/ separates v A B).
Proof.
  unfold sdfv_rel, sdfv_common_rel, Sdfv_ShapeShape, minkowski_sdfv, gjk, gjk_tt. fold sup.
  destruct H0 as (d0 & -> & N0 & L0). intro E.
  pose proof (tt_start_cap M s sup reach (3 * world) Hsup Hfar HM K1' K3' d0 L0 N0) as CP.
  assert (NS : forall l d, start_tt sup (inj d0) <> TooSmall l d).
  { intros l d. unfold start_tt. destruct (add_point [] (sup (inj d0))) as [[q [c r]]|e]; [apply tt_not_small | discriminate]. }
  destruct (start_tt sup (inj d0)) as [l d|l|l d|l|e]; try (destruct (distance_to_origin l); discriminate); try discriminate; [|exfalso; apply (NS l d eq_refl)].
  destruct (cap_reported l (CP l eq_refl)) as (q & v & Eq & Ev & S). rewrite Eq in E. cbn in E. rewrite Ev in E. exists v. split; [congruence | exact S].
Qed.
End Scene.

(** C31: a non-zero vector returned by penetrates_rel separates the shapes and is within 1% of the shortest such. *)
Theorem C31_penetration_sound : forall (T : Type) (TR : Transformation2d XR T) a b (t : T) A B p, scene a b t A B ->
  resolved a b t -> penetrates_rel (F:=XR) a b t = Ok (Some p) ->
  p = v2zero \/ exists v, p = inj v /\ separates v A B /\ forall w, separates w A B -> norm v <= 101 / 100 * norm w.
Proof. intros T TR a b t A B p S. exact (q_penetrates_vector a b t A B S p). Qed.
Print Assumptions C31_penetration_sound.
Theorem C31_sdfv_inside_sound : forall (T : Type) (TR : Transformation2d XR T) a b (t : T) A B p, scene a b t A B ->
  resolved a b t -> overlaps A B -> sdfv_rel (F:=XR) a b t = Ok (true, p) ->
  p = v2zero \/ exists v, p = inj v /\ separates v A B /\ forall w, separates w A B -> norm v <= 101 / 100 * norm w.
Proof. intros T TR a b t A B p S. exact (q_sdfv_vector a b t A B S p). Qed.
Print Assumptions C31_sdfv_inside_sound.
(** Any vector the two queries report is a real vector (never NaN or infinite) and, if it is not zero, separates the shapes:
    for every scene, whatever the tolerance did on the way. *)
Theorem C31_vector_separates : forall (T : Type) (TR : Transformation2d XR T) a b (t : T) A B p, scene a b t A B ->
  penetrates_rel (F:=XR) a b t = Ok (Some p) \/ sdfv_rel (F:=XR) a b t = Ok (true, p) ->
  exists v, p = inj v /\ (v = origin \/ separates v A B).
Proof. intros T TR a b t A B p S [E|E]; [exact (q_penetrates_separates a b t A B S p E) | exact (q_sdfv_separates a b t A B S p E)]. Qed.
Print Assumptions C31_vector_separates.
(** with at most 20 support values EPA converges: overlapping shapes always get such a vector *)
Theorem C31_penetration_complete : forall (T : Type) (TR : Transformation2d XR T) a b (t : T) A B, scene a b t A B ->
  few_values a b t -> resolved a b t -> overlaps A B ->
  (exists v, penetrates_rel (F:=XR) a b t = Ok (Some (inj v)) /\
     separates v A B /\ forall w, separates w A B -> norm v <= 101 / 100 * norm w) /\
  (exists v, sdfv_rel (F:=XR) a b t = Ok (true, inj v) /\
     separates v A B /\ forall w, separates w A B -> norm v <= 101 / 100 * norm w).
Proof. intros T TR a b t A B. exact (q_penetration_complete a b t A B). Qed.
Print Assumptions C31_penetration_complete.

(** the hypotheses are met: the box and triangle of Props_Gjk overlap, and their vector is not zero *)
Example epa_met : exists v, penetrates_rel (F:=XR) (SBox (pbox 1 1)) (SPoly (ppoly ex_tri)) (inj (3/2, 0)) = Ok (Some (inj v)) /\ v <> origin.
Proof.
  destruct grid_met as (G1 & G2 & G3).
  assert (Fv : few_values (SBox (pbox 1 1)) (SPoly (ppoly ex_tri)) (inj (3/2, 0))) by exact (few_corners _ _ _ _ _ 4 3 scene_met eq_refl eq_refl ltac:(lia)).
  assert (Rs : resolved (SBox (pbox 1 1)) (SPoly (ppoly ex_tri)) (inj (3/2, 0))) by exact (resolved_grid _ _ _ _ _ (3/2, 0) 4 3 scene_met eq_refl eq_refl G1 G2 (acts_vec2 _) G3).
  destruct (C31_penetration_complete _ _ _ _ _ _ _ scene_met Fv Rs overlap_met) as [(v & E & S & _) _].
  exists v. split; [exact E|]. intros ->. apply S, (proj1 (overlaps_0 _ _)), overlap_met.
Qed.
