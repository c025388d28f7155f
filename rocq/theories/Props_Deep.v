(** * Property theorems C55: overlaps that are deep compared with the size of the shapes are found, whatever the shapes. *)
From Coq Require Import Reals Lra Psatz Bool List Lia Arith.
From Verif Require Import Num NumXR Glam Transform2 Shapes2 Gjk Detect2 Spec SpecLink P_Base P_Transform P_Shapes P_Geo P_GjkShape SpecGjk P_Gjk P_Gjk2 P_Gjk3 P_Scene P_Epa P_Deep Props_Gjk Props_Epa Props_NoPanic.
Import ListNotations.
Local Open Scope R_scope.

(** A and B overlap by at least d: A still meets B after every translation of length at most d *)
Definition deep (d : R) (A B : pset) : Prop := 0 < d /\ forall w, norm w <= d -> meets (shift w A) B.
(** no point of A is further than D from a point of B *)
Definition span (D : R) (A B : pset) : Prop := forall p q, A p -> B q -> norm (psub p q) <= D.

Section Scene.
Context {T : Type} {TR : Transformation2d XR T}.
Variables (a b : shape2d XR) (t : T) (A B : pset).
Hypothesis SC : scene a b t A B.
Variables (D d : R).
Hypothesis HDp : deep d A B.
Hypothesis HS : span D A B.
Let M := minkowski_diff A B.
Let s := sreal a b t.
Let sup := lmd_extreme_point a b t.
Let Hsup : forall d, norm d <= reach -> sup (inj d) = inj (s d) := proj1 (scene_facts a b t A B SC).
Let Hfar : forall d, norm d <= reach -> is_farthest M d (s d) := proj1 (proj2 (scene_facts a b t A B SC)).
Let HM : forall m, M m -> norm m <= 3 * world := proj1 (proj2 (proj2 (scene_facts a b t A B SC))).
Let HC : convex M := proj1 (proj2 (proj2 (proj2 (scene_facts a b t A B SC)))).
Let H0 := proj2 (proj2 (proj2 (proj2 (scene_facts a b t A B SC)))).
Lemma dp_D m : M m -> norm m <= D.
Proof. intros (p & q & Hp & Hq & ->). apply HS; assumption. Qed.
Lemma dp_pos : 0 < d.
Proof. apply HDp. Qed.
Lemma dp_ball w : norm w <= d -> M w.
Proof. intro H. unfold M. rewrite <- (pneg_pneg w). apply (proj1 (meets_diff A B (pneg w))). apply HDp. rewrite norm_neg. exact H. Qed.
Lemma dp_enough : D <= 32768 * d \/ few_values a b t -> enough M s reach D d.
Proof.
  intros [L|FV]; [left; exact L | right]. destruct (values_list a b t A B SC FV) as (V & L & HV & HVM). exists V. auto.
Qed.
Lemma dp_collides : D <= 32768 * d -> collides_rel (F:=XR) a b t = Ok true.
Proof.
  intro L. unfold collides_rel, sdfv_common_rel, Sdfv_ShapeShape, minkowski_sdfv, gjk, gjk_ff. fold sup. destruct H0 as (d0 & -> & N0 & L0).
  destruct (deep_ff_found M s sup reach (3 * world) Hsup Hfar HM K1' K3' D d dp_D dp_pos dp_ball d0 L0 N0 L) as [(l & ->)|(l & x & ->)]; reflexivity.
Qed.
Hypothesis He : 4 * eps * D <= d * d * (d * d).
Hypothesis HE : D <= 32768 * d \/ few_values a b t.
Lemma dp_vector l : grip M s sup reach l -> exists pts, enforce_ccw l = Ok pts /\
  (epa sup 20 pts = v2zero \/ exists v, epa sup 20 pts = inj v /\ is_near_min_separation v A B) /\
  (few_values a b t -> exists v, epa sup 20 pts = inj v /\ is_near_min_separation v A B).
Proof.
  intro G. destruct (grip_epa M s sup reach (3 * world) Hsup Hfar HM K1' d dp_pos dp_ball HC l G) as (pts & E & R1 & R2).
  exists pts. split; [exact E|]. split.
  - destruct R1 as [Z|(v & Ev & Gv)]; [left; exact Z | right]. exists v. split; [exact Ev | apply good_separates, Gv].
  - intro FV. destruct (values_list a b t A B SC FV) as (V & L & HV & _). destruct (R2 V L HV) as (v & Ev & Gv). exists v. split; [exact Ev | apply good_separates, Gv].
Qed.
Lemma dp_distance : distance_to_rel (F:=XR) a b t = Ok None.
Proof.
  unfold distance_to_rel, sdfv_common_rel, Sdfv_ShapeShape, minkowski_sdfv, gjk, gjk_ft. fold sup. destruct H0 as (d0 & -> & N0 & L0).
  destruct (deep_ft M s sup reach (3 * world) Hsup Hfar HM K1' K3' D d dp_D dp_pos dp_ball He d0 L0 N0 (dp_enough HE)) as (l & -> & G).
  rewrite (grip_length M s sup reach l G). reflexivity.
Qed.
Lemma dp_penetrates : exists p, penetrates_rel (F:=XR) a b t = Ok (Some p) /\ (p = v2zero \/ exists v, p = inj v /\ is_near_min_separation v A B) /\
  (few_values a b t -> exists v, p = inj v /\ is_near_min_separation v A B).
Proof.
  unfold penetrates_rel, sdfv_common_rel, Sdfv_ShapeShape, minkowski_sdfv, gjk, gjk_tf. fold sup. destruct H0 as (d0 & -> & N0 & L0).
  destruct (deep_tf M s sup reach (3 * world) Hsup Hfar HM K1' K3' D d dp_D dp_pos dp_ball He d0 L0 N0 (dp_enough HE)) as (l & -> & G).
  destruct (dp_vector l G) as (pts & -> & R). cbn. eexists. split; [reflexivity | exact R].
Qed.
Lemma dp_sdfv : exists p, sdfv_rel (F:=XR) a b t = Ok (true, p) /\ (p = v2zero \/ exists v, p = inj v /\ is_near_min_separation v A B) /\
  (few_values a b t -> exists v, p = inj v /\ is_near_min_separation v A B).
Proof.
  unfold sdfv_rel, sdfv_common_rel, Sdfv_ShapeShape, minkowski_sdfv, gjk, gjk_tt. fold sup. destruct H0 as (d0 & -> & N0 & L0).
  destruct (deep_tt M s sup reach (3 * world) Hsup Hfar HM K1' K3' D d dp_D dp_pos dp_ball He d0 L0 N0 (dp_enough HE)) as (l & -> & G).
  destruct (dp_vector l G) as (pts & -> & R). cbn. eexists. split; [reflexivity | exact R].
Qed.
End Scene.

(** C55: collides finds every overlap deeper than 1/32768 of the extent, for balls, boxes and polygons alike. *)
Theorem C55_collides_complete : forall (T : Type) (TR : Transformation2d XR T) a b (t : T) A B D d, scene a b t A B ->
  deep d A B -> span D A B -> D <= 32768 * d -> collides_rel (F:=XR) a b t = Ok true.
Proof. intros T TR a b t A B D d SC. exact (dp_collides a b t A B SC D d). Qed.
Print Assumptions C55_collides_complete.

(** The other queries also need the fourth power of the depth to exceed f32::EPSILON times four times the extent. *)
Theorem C55_all_queries : forall (T : Type) (TR : Transformation2d XR T) a b (t : T) A B D d, scene a b t A B ->
  deep d A B -> span D A B -> D <= 32768 * d -> 4 * eps * D <= d * d * (d * d) ->
  distance_to_rel (F:=XR) a b t = Ok None /\
  (exists p, penetrates_rel (F:=XR) a b t = Ok (Some p) /\
     (p = v2zero \/ exists v, p = inj v /\ separates v A B /\ forall w, separates w A B -> norm v <= 101 / 100 * norm w)) /\
  (exists p, sdfv_rel (F:=XR) a b t = Ok (true, p) /\
     (p = v2zero \/ exists v, p = inj v /\ separates v A B /\ forall w, separates w A B -> norm v <= 101 / 100 * norm w)).
Proof.
  intros T TR a b t A B D d SC HD HS L E. split; [exact (dp_distance a b t A B SC D d HD HS E (or_introl L))|].
  destruct (dp_penetrates a b t A B SC D d HD HS E (or_introl L)) as (p & E1 & R1 & _). destruct (dp_sdfv a b t A B SC D d HD HS E (or_introl L)) as (q & E2 & R2 & _).
  split; [exists p | exists q]; auto.
Qed.
Print Assumptions C55_all_queries.

(** For boxes and polygons (at most 20 corner differences) the vector is always a real one: no restriction to a grid. *)
Theorem C55_polygons : forall (T : Type) (TR : Transformation2d XR T) a b (t : T) A B D d n m, scene a b t A B ->
  corners a = Some n -> corners b = Some m -> (n * m <= 20)%nat ->
  deep d A B -> span D A B -> 4 * eps * D <= d * d * (d * d) ->
  collides_rel (F:=XR) a b t = Ok true /\ distance_to_rel (F:=XR) a b t = Ok None /\
  (exists v, penetrates_rel (F:=XR) a b t = Ok (Some (inj v)) /\ separates v A B /\ forall w, separates w A B -> norm v <= 101 / 100 * norm w) /\
  (exists v, sdfv_rel (F:=XR) a b t = Ok (true, inj v) /\ separates v A B /\ forall w, separates w A B -> norm v <= 101 / 100 * norm w).
Proof.
  intros T TR a b t A B D d n m SC Ca Cb Cn HD HS E. pose proof (C29_corner_bound _ _ a b t A B n m SC Ca Cb Cn) as FV.
  split; [|split; [exact (dp_distance a b t A B SC D d HD HS E (or_intror FV))|]].
  - apply (C29_collides_complete _ _ a b t A B SC FV). destruct HD as [P H]. exists d. split; [exact P|]. intros w W. apply H. lra.
  - destruct (dp_penetrates a b t A B SC D d HD HS E (or_intror FV)) as (p & E1 & _ & R1). destruct (dp_sdfv a b t A B SC D d HD HS E (or_intror FV)) as (q & E2 & _ & R2).
    destruct (R1 FV) as (v & -> & G1). destruct (R2 FV) as (w & -> & G2). split; [exists v | exists w]; (split; [assumption|]); assumption.
Qed.
Print Assumptions C55_polygons.

(** Outside a thin band around contact, collides decides: clear overlap is true, clear separation is false. *)
Theorem C55_collides_decides : forall (T : Type) (TR : Transformation2d XR T) a b (t : T) A B D, scene a b t A B -> span D A B ->
  (deep (D / 32768) A B -> collides_rel (F:=XR) a b t = Ok true) /\
  ((forall w, norm w * norm w * norm w < eps -> ~ meets (shift w A) B) -> collides_rel (F:=XR) a b t = Ok false).
Proof.
  intros T TR a b t A B D SC HS. split.
  - intro HD. apply (C55_collides_complete _ _ a b t A B D (D / 32768) SC HD HS). lra.
  - intro N. destruct (C51_queries_return XR _ T TR a b t) as [(r & E) _]. destruct r; [exfalso | exact E].
    destruct (C28_collides_true_sound _ _ a b t A B SC E) as [(w & W & Mw) _]. exact (N w W Mw).
Qed.
Print Assumptions C55_collides_decides.

(** Reports of separation, read by a user who cannot see how the search ended: the shapes are apart or overlap only slightly. *)
Theorem C27_false_means_shallow : forall (T : Type) (TR : Transformation2d XR T) a b (t : T) A B D d v, scene a b t A B -> span D A B ->
  D <= 32768 * d ->
  (collides_rel (F:=XR) a b t = Ok false -> ~ deep d A B) /\
  (4 * eps * D <= d * d * (d * d) ->
     penetrates_rel (F:=XR) a b t = Ok None \/ distance_to_rel (F:=XR) a b t = Ok (Some v) \/ sdfv_rel (F:=XR) a b t = Ok (false, v) ->
     ~ deep d A B).
Proof.
  intros T TR a b t A B D d v SC HS L. split.
  - intros E HD. rewrite (C55_collides_complete _ _ a b t A B D d SC HD HS L) in E. discriminate.
  - intros He E HD. destruct (C55_all_queries _ _ a b t A B D d SC HD HS L He) as (E1 & (p & E2 & _) & (q & E3 & _)).
    rewrite E1, E2, E3 in E. destruct E as [E|[E|E]]; discriminate.
Qed.
Print Assumptions C27_false_means_shallow.
Example C27_shallow_case : collides_rel (F:=XR) (SBox (pbox 1 1)) (SBall (pball 1)) (inj (3, 0)) = Ok false -> ~ deep 1 (rect 1 1) (image (place (3, 0) 1 0 1 1) (disc 1)).
Proof.
  assert (SC : scene (SBox (pbox 1 1)) (SBall (pball 1)) (inj (3, 0)) (rect 1 1) (image (place (3, 0) 1 0 1 1) (disc 1))).
  { apply (Scene _ _ _ _ _ 2 (3, 0) 1 0 1 (disc 1)); try reflexivity; try lra; try (unfold world; lra).
    - apply body_box; try lra. apply norm_le_sq; unfold pdot, world; cbn; lra.
    - apply body_ball; lra.
    - apply acts_vec2.
    - apply norm_le_sq; unfold pdot, world; cbn; lra. }
  assert (Sp : span 100 (rect 1 1) (image (place (3, 0) 1 0 1 1) (disc 1))).
  { intros p q [H1 H2] (u & Hu & ->). unfold disc in Hu. set (z := padd p (-3, 0)).
    replace (psub p (place (3, 0) 1 0 1 1 u)) with (psub z u) by (apply pt_eq; cbn; ring).
    pose proof (norm_psub z u). assert (norm z <= 5); [|lra]. unfold z. destruct p as [x y]; cbn in * . apply norm_le_sq; [lra|]. unfold pdot; cbn. nra. }
  apply (C27_false_means_shallow _ _ _ _ _ _ _ 100 1 v2zero SC Sp). lra.
Qed.

(** ** The hypotheses are met *)
Lemma eps_lt : eps < 1 / 1000.
Proof. pose proof eps_grid. lra. Qed.
(** a ball of radius 1 centred on the middle of a side of a box *)
Example C55_box_ball_scene : scene (SBox (pbox 2 1)) (SBall (pball 1)) (inj (2, 0)) (rect 2 1) (image (place (2, 0) 1 0 1 1) (disc 1)) /\
  deep 1 (rect 2 1) (image (place (2, 0) 1 0 1 1) (disc 1)) /\ span 6 (rect 2 1) (image (place (2, 0) 1 0 1 1) (disc 1)).
Proof.
  split; [|split].
  - apply (Scene _ _ _ _ _ 2 (2, 0) 1 0 1 (disc 1)); try reflexivity; try lra; try (unfold world; lra).
    + apply body_box; try lra. apply norm_le_sq; unfold pdot, world; cbn; lra.
    + apply body_ball; lra.
    + apply acts_vec2.
    + apply norm_le_sq; unfold pdot, world; cbn; lra.
  - split; [lra|]. intros w W. exists (padd w (2, 0)). split.
    + unfold shift, rect; cbn. lra.
    + exists w. split; [exact W|]. apply pt_eq; cbn; ring.
  - intros p q Hp (u & Hu & ->). unfold disc in Hu. set (z := padd p (-2, 0)).
    replace (psub p (place (2, 0) 1 0 1 1 u)) with (psub z u) by (apply pt_eq; cbn; ring).
    pose proof (norm_psub z u). assert (norm z <= 5); [|lra]. unfold z. destruct Hp as [H1 H2]. destruct p as [x y]; cbn in * .
    apply norm_le_sq; [lra|]. unfold pdot; cbn. nra.
Qed.
Example C55_box_ball_case : collides_rel (F:=XR) (SBox (pbox 2 1)) (SBall (pball 1)) (inj (2, 0)) = Ok true /\
  distance_to_rel (F:=XR) (SBox (pbox 2 1)) (SBall (pball 1)) (inj (2, 0)) = Ok None.
Proof.
  destruct C55_box_ball_scene as (SC & Dp & Sp). pose proof eps_lt as EL. split; [apply (C55_collides_complete _ _ _ _ _ _ _ 6 1 SC Dp Sp); lra|].
  apply (C55_all_queries _ _ _ _ _ _ _ 6 1 SC Dp Sp); lra.
Qed.
(** two boxes, one turned and moved off every grid *)
Example C55_turned_boxes : exists v, penetrates_rel (F:=XR) (SBox (pbox 1 1)) (SBox (pbox 1 1)) (t2 (1/3, 0) (3/5) (4/5) 1 1) = Ok (Some (inj v)) /\
  separates v (rect 1 1) (image (place (1/3, 0) (3/5) (4/5) 1 1) (rect 1 1)).
Proof.
  assert (SC : scene (SBox (pbox 1 1)) (SBox (pbox 1 1)) (t2 (1/3, 0) (3/5) (4/5) 1 1) (rect 1 1) (image (place (1/3, 0) (3/5) (4/5) 1 1) (rect 1 1))).
  { apply (Scene _ _ _ _ _ 2 (1/3, 0) (3/5) (4/5) 1 (rect 1 1)); try reflexivity; try lra; try (unfold world; lra).
    - apply body_box; try lra. apply norm_le_sq; unfold pdot, world; cbn; lra.
    - apply body_box; try lra. apply norm_le_sq; unfold pdot; cbn; lra.
    - apply acts_t2.
    - apply norm_le_sq; unfold pdot, world; cbn; lra. }
  assert (Dp : deep (1/2) (rect 1 1) (image (place (1/3, 0) (3/5) (4/5) 1 1) (rect 1 1))).
  { split; [lra|]. intros w W. exists (1/3, 0). split.
    - pose proof (norm_x w) as X. pose proof (norm_y w) as Y. unfold shift, rect; cbn. revert X Y. unfold Rabs. destruct (Rcase_abs (fst w)), (Rcase_abs (snd w)); lra.
    - exists origin. split; [unfold rect; cbn; lra | apply pt_eq; cbn; ring]. }
  assert (Sp : span 8 (rect 1 1) (image (place (1/3, 0) (3/5) (4/5) 1 1) (rect 1 1))).
  { intros p q Hp (u & Hu & ->). destruct p as [x y], u as [z w]. unfold rect in * ; cbn in * . apply norm_le_sq; [lra|]. unfold pdot; cbn.
    set (X := x - (3 / 5 * (1 * z) - 4 / 5 * (1 * w) + 1 / 3)). set (Y := y - (4 / 5 * (1 * z) + 3 / 5 * (1 * w) + 0)).
    assert (- (4) <= X <= 4) by (unfold X; lra). assert (- (4) <= Y <= 4) by (unfold Y; lra). nra. }
  pose proof eps_lt as EL.
  destruct (C55_polygons _ _ _ _ _ _ _ 8 (1/2) 4 4 SC eq_refl eq_refl ltac:(lia) Dp Sp ltac:(lra)) as (_ & _ & (v & E & S & _) & _). eauto.
Qed.
(** a box and a ball one unit apart *)
Example C55_apart_case : collides_rel (F:=XR) (SBox (pbox 1 1)) (SBall (pball 1)) (inj (3, 0)) = Ok false.
Proof.
  assert (SC : scene (SBox (pbox 1 1)) (SBall (pball 1)) (inj (3, 0)) (rect 1 1) (image (place (3, 0) 1 0 1 1) (disc 1))).
  { apply (Scene _ _ _ _ _ 2 (3, 0) 1 0 1 (disc 1)); try reflexivity; try lra; try (unfold world; lra).
    - apply body_box; try lra. apply norm_le_sq; unfold pdot, world; cbn; lra.
    - apply body_ball; lra.
    - apply acts_vec2.
    - apply norm_le_sq; unfold pdot, world; cbn; lra. }
  assert (Sp : span 100 (rect 1 1) (image (place (3, 0) 1 0 1 1) (disc 1))).
  { intros p q [H1 H2] (u & Hu & ->). unfold disc in Hu. set (z := padd p (-3, 0)).
    replace (psub p (place (3, 0) 1 0 1 1 u)) with (psub z u) by (apply pt_eq; cbn; ring).
    pose proof (norm_psub z u). assert (norm z <= 5); [|lra]. unfold z. destruct p as [x y]; cbn in * . apply norm_le_sq; [lra|]. unfold pdot; cbn. nra. }
  apply (C55_collides_decides _ _ _ _ _ _ _ 100 SC Sp). intros w W (p & [Hp _] & (u & Hu & ->)). unfold disc in Hu.
  pose proof (norm_x u) as X. pose proof (norm_x w) as Y. cbn in Hp.
  assert (1 <= norm w). { revert X Y. unfold Rabs. destruct (Rcase_abs (fst u)), (Rcase_abs (fst w)); lra. }
  pose proof eps_lt. assert (1 * 1 <= norm w * norm w) by (apply Rmult_le_compat; lra). assert (1 * 1 <= norm w * norm w * norm w) by (apply Rmult_le_compat; lra). lra.
Qed.
