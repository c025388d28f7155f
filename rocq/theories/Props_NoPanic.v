(** * Property theorems C51: which queries can panic, in any arithmetic. *)
From Coq Require Import List Bool Arith Lia.
From Verif Require Import Num NumB32 Glam Transform2 Shapes2 Gjk Detect2.
Import ListNotations.

Section NoPanic.
Context {F : Type} {FL : Float F}.
Variable sup : vec2 F -> vec2 F.

Lemma add_point_ok s a : (length s <= 2)%nat -> exists s' c d, add_point s a = Ok (s', (c, d)) /\
  (c = false -> (1 <= length s' <= 2)%nat) /\ (c = true -> length s' = 3%nat).
Proof.
  intro L. destruct s as [|b [|c [|e s]]]; cbn in L; try lia; cbn [add_point].
  - exists [a], false, (v2neg a). cbn. repeat split; try discriminate; lia.
  - destruct (_ : bool); eexists _, _, _; (split; [reflexivity|]); cbn; split; intros; try discriminate; lia.
  - destruct (same_direction (cross_f32 _ _) _); [destruct (same_direction _ _) | destruct (same_direction _ _)];
      eexists _, _, _; (split; [reflexivity|]); cbn; split; intros; try discriminate; try lia; reflexivity.
Qed.
Lemma ff_no_crash n : forall s d, (length s <= 2)%nat -> forall p, run_ff sup n s d <> Crashed p.
Proof.
  induction n as [|n IH]; intros s d L p; cbn [run_ff]; [discriminate|]. destruct (fle _ _); [discriminate|].
  destruct (add_point_ok s (sup d) L) as (s' & c & d' & -> & L1 & L2). destruct c; [discriminate|]. destruct (direction_is_too_small d'); [discriminate|].
  apply IH. apply L1. reflexivity.
Qed.
(** a search ends without a panic, a captured simplex is a triangle, any other a point or a segment (or nothing) *)
Definition tidy (k : nat) (o : outcome F) : Prop :=
  match o with
  | Separated s _ | Exhausted s => (k <= length s <= 2)%nat
  | Captured s => length s = 3%nat
  | TooSmall _ _ | Crashed _ => False
  end.
Lemma tf_tidy n : forall s d, (length s <= 2)%nat -> tidy 0 (run_tf sup n s d).
Proof.
  induction n as [|n IH]; intros s d L; cbn [run_tf]; [cbn; lia|]. destruct (fle _ _); [cbn; lia|].
  destruct (add_point_ok s (sup d) L) as (s' & c & d' & -> & L1 & L2). destruct c; [exact (L2 eq_refl)|].
  apply IH. apply L1. reflexivity.
Qed.
Lemma ft_tidy n : forall s la d, (1 <= length s <= 2)%nat -> tidy 1 (run_ft sup n s la d).
Proof.
  induction n as [|n IH]; intros s la d L; cbn [run_ft]; [exact L|]. destruct (_ && _); [exact L|].
  destruct (add_point_ok s (sup d) (proj2 L)) as (s' & c & d' & -> & L1 & L2). destruct c; [exact (L2 eq_refl)|].
  apply IH. apply L1. reflexivity.
Qed.
Lemma tt_tidy n : forall s la d ps, (1 <= length s <= 2)%nat -> tidy 1 (run_tt sup n s la d ps) \/ run_tt sup n s la d ps = Crashed PCollidedLate.
Proof.
  induction n as [|n IH]; intros s la d ps L; cbn [run_tt]; [left; exact L|]. destruct (_ && _); [left; exact L|].
  destruct (add_point_ok s (sup d) (proj2 L)) as (s' & c & d' & -> & L1 & L2).
  destruct c; [|apply IH, L1; reflexivity].
  destruct (if fle _ _ then false else ps); [left; exact (L2 eq_refl) | right; reflexivity].
Qed.
Lemma ccw_ok (s : simplex F) : length s = 3%nat -> exists l, enforce_ccw s = Ok l.
Proof. destruct s as [|a [|b [|c [|e s]]]]; cbn; try discriminate. intros _. destruct (flt _ _); eexists; reflexivity. Qed.
Lemma dist_ok (s : simplex F) : (1 <= length s <= 2)%nat -> exists v, distance_to_origin s = Ok v.
Proof.
  destruct s as [|a [|b [|c s]]]; cbn; try lia; intros _; [eexists; reflexivity|].
  destruct (fle _ _); [eexists; reflexivity|]. destruct (fle _ _); eexists; reflexivity.
Qed.
Lemma gjk_ff_ok d : exists r, gjk_ff sup d = Ok r.
Proof.
  unfold gjk_ff. pose proof (ff_no_crash 20 [] d ltac:(cbn; lia)) as N. destruct (run_ff sup 20 [] d); try (eexists; reflexivity). exfalso. apply (N p). reflexivity.
Qed.
Lemma gjk_tf_ok d : exists r, gjk_tf sup d = Ok r.
Proof.
  unfold gjk_tf. pose proof (tf_tidy 20 [] d ltac:(cbn; lia)) as N. destruct (run_tf sup 20 [] d); cbn in N; try contradiction; try (eexists; reflexivity).
  destruct (ccw_ok s N) as (l & ->). eexists; reflexivity.
Qed.
Lemma gjk_ft_ok d : exists r, gjk_ft sup d = Ok r.
Proof.
  unfold gjk_ft, start_ft. cbn [add_point]. pose proof (ft_tidy 20 [sup d] (sup d) (v2neg (sup d)) ltac:(cbn; lia)) as N.
  destruct (run_ft sup 20 [sup d] (sup d) (v2neg (sup d))); cbn in N; try contradiction.
  - destruct (dist_ok s N) as (l & ->). eexists; reflexivity.
  - rewrite N. eexists; reflexivity.
  - destruct (dist_ok s N) as (l & ->). eexists; reflexivity.
Qed.
Lemma gjk_tt_ok d : (exists r, gjk_tt sup d = Ok r) \/ gjk_tt sup d = Panic PCollidedLate.
Proof.
  unfold gjk_tt, start_tt. cbn [add_point]. destruct (tt_tidy 20 [sup d] (sup d) (v2neg (sup d)) true ltac:(cbn; lia)) as [N|N]; [left | rewrite N; right; reflexivity].
  destruct (run_tt sup 20 [sup d] (sup d) (v2neg (sup d)) true); cbn in N; try contradiction.
  - destruct (dist_ok s N) as (l & ->). eexists; reflexivity.
  - destruct (ccw_ok s N) as (l & ->). eexists; reflexivity.
  - destruct (dist_ok s N) as (l & ->). eexists; reflexivity.
Qed.
End NoPanic.

(** C51: for every pair of GJK shapes, every transform and every arithmetic (including binary32 with NaN and infinities),
    collides_rel, penetrates_rel and distance_to_rel return; the only panic of sdfv_rel is "Simplex collided after collision
    was no longer possible". *)
Theorem C51_queries_return : forall (F : Type) (FL : Float F) (T : Type) (TR : Transformation2d F T) (a b : shape2d F) (rel : T),
  (exists r, collides_rel (F:=F) a b rel = Ok r) /\ (exists r, penetrates_rel (F:=F) a b rel = Ok r) /\
  (exists r, distance_to_rel (F:=F) a b rel = Ok r) /\
  ((exists r, sdfv_rel (F:=F) a b rel = Ok r) \/ sdfv_rel (F:=F) a b rel = Panic PCollidedLate).
Proof.
  intros. unfold collides_rel, penetrates_rel, distance_to_rel, sdfv_rel, sdfv_common_rel, Sdfv_ShapeShape, minkowski_sdfv, gjk.
  destruct (gjk_ff_ok (lmd_extreme_point a b rel) (lmd_initial_direction rel)) as (r1 & ->).
  destruct (gjk_tf_ok (lmd_extreme_point a b rel) (lmd_initial_direction rel)) as (r2 & ->).
  destruct (gjk_ft_ok (lmd_extreme_point a b rel) (lmd_initial_direction rel)) as (r3 & ->).
  split; [eexists; reflexivity|]. split; [eexists; reflexivity|]. split; [eexists; reflexivity|].
  apply gjk_tt_ok.
Qed.
Print Assumptions C51_queries_return.
