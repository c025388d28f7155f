(** * Property theorems C26 (GJK/EPA structure, every arithmetic). *)
From Coq Require Import Bool List Arith ZArith.
From Verif Require Import Num NumXR NumB32 Glam Transform2 Shapes2 Gjk Detect2 P_GjkShape.
Import ListNotations.
Local Open Scope nat_scope.

(** C26: whatever the arithmetic, the shapes (through an arbitrary support function) and the start direction, the four
    variants end normally, except that the full variant may hit its explicit panic. *)
Theorem C26_no_unreachable : forall (F : Type) (FL : Float F) (sup : vec2 F -> vec2 F) P D d0,
  (exists r, gjk sup P D d0 = Ok r) \/ (P = true /\ D = true /\ gjk sup P D d0 = Panic PCollidedLate).
Proof. intros F FL sup. exact (gjk_ok sup). Qed.
Print Assumptions C26_no_unreachable.
(** hence collides_rel, penetrates_rel and distance_to_rel of every GJK pair never panic, and sdfv_rel only that way *)
Theorem C26_queries_total : forall (F : Type) (FL : Float F) (A B T : Type) (EA : ExtremePoint2d F A) (EB : ExtremePoint2d F B)
  (TR : Transformation2d F T) (a : A) (b : B) (rel : T),
  let SD : SdfvCommonRel2d F A B T := minkowski_sdfv in
  (exists r, collides_rel (F:=F) a b rel = Ok r) /\ (exists r, penetrates_rel (F:=F) a b rel = Ok r) /\
  (exists r, distance_to_rel (F:=F) a b rel = Ok r) /\
  ((exists r, sdfv_rel (F:=F) a b rel = Ok r) \/ sdfv_rel (F:=F) a b rel = Panic PCollidedLate).
Proof.
  intros F FL A B T EA EB TR a b rel SD.
  unfold collides_rel, penetrates_rel, distance_to_rel, sdfv_rel, sdfv_common_rel, SD, minkowski_sdfv.
  set (sup := lmd_extreme_point a b rel). set (d0 := lmd_initial_direction rel).
  split; [|split; [|split]].
  - destruct (gjk_ok sup false false d0) as [[r E]|[E _]]; [|discriminate]. rewrite E. eexists; reflexivity.
  - destruct (gjk_ok sup true false d0) as [[r E]|[_ [E _]]]; [|discriminate]. rewrite E. eexists; reflexivity.
  - destruct (gjk_ok sup false true d0) as [[r E]|[E _]]; [|discriminate]. rewrite E. eexists; reflexivity.
  - destruct (gjk_ok sup true true d0) as [[r E]|[_ [_ E]]]; rewrite E; [left; eexists; reflexivity | right; reflexivity].
Qed.
Print Assumptions C26_queries_total.
(** the insertion index of the polygon expansion is always in range *)
Theorem C26_epa_index_in_range : forall (F : Type) (FL : Float F) (pts : list (vec2 F)), pts <> [] ->
  fst (find_closest_edge pts) < length pts.
Proof. intros F FL. exact closest_edge_index. Qed.
Print Assumptions C26_epa_index_in_range.
Example C26_index_case : fst (find_closest_edge (F:=b32) [V2 f1 f0; V2 f0 f1; V2 fnan f0]) < 3.
Proof. apply (C26_epa_index_in_range b32 _ [V2 f1 f0; V2 f0 f1; V2 fnan f0]). discriminate. Qed.
Theorem C26_epa_starts_from_triangle : forall (F : Type) (FL : Float F) (sup : vec2 F -> vec2 F) s l,
  (exists d, run_tf sup 20 [] d = Captured s) \/ (exists d, start_tt sup d = Captured s) ->
  enforce_ccw s = Ok l -> length s = 3 /\ length l = 3.
Proof.
  intros F FL sup s l H E.
  assert (L : length s = 3).
  { destruct H as [[d H]|[d H]].
    - pose proof (run_tf_good sup 20 [] d (Nat.le_0_l _)) as G. rewrite H in G. exact G.
    - unfold start_tt in H. cbn [add_point] in H.
      pose proof (run_tt_good sup 20 [sup d] (sup d) (v2neg (sup d)) true) as G. rewrite H in G.
      destruct G as [G|G]; [cbn; auto | exact G | discriminate]. }
  split; [exact L|]. destruct (enforce_ok s L) as (l' & E' & L'). congruence.
Qed.
Print Assumptions C26_epa_starts_from_triangle.
(** the penetration search on the disc-like support of the square with corners (1,1) ... captures the origin *)
Example C26_triangle_case : exists s l, run_tf (F:=b32) (fun d => V2 (if flt (vx d) f0 then fneg f1 else f1) (if flt (vy d) f0 then fneg f1 else f1)) 20 [] (V2 f1 (b32_of 1 (-1)%Z)) = Captured s /\
  enforce_ccw s = Ok l /\ length s = 3 /\ length l = 3.
Proof.
  set (sup := fun d : vec2 b32 => _). set (o := run_tf sup 20 [] _).
  assert (E : match o with Captured s => match enforce_ccw s with Ok _ => True | _ => False end | _ => False end) by (vm_compute; exact I).
  destruct o as [s| | | |] eqn:O; try contradiction. destruct (enforce_ccw s) as [l|] eqn:L; [|contradiction].
  exists s, l. split; [reflexivity|]. split; [exact L|]. apply (C26_epa_starts_from_triangle b32 _ sup s l); [left; eexists; exact O | exact L].
Qed.
