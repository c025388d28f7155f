(** * GJK/EPA: structural invariants in every arithmetic (proofs). *)
From Coq Require Import Bool List Arith Lia.
From Verif Require Import Num Glam Transform2 Shapes2 Gjk Detect2.
Import ListNotations.

Section Structure.
Context {F : Type} {FL : Float F}.
Variable sup : vec2 F -> vec2 F.

Lemma add_point_shape (s : simplex F) p : length s <= 2 ->
  exists s' c d, add_point s p = Ok (s', (c, d)) /\
    (c = true -> length s' = 3) /\ (c = false -> 1 <= length s' <= 2).
Proof.
  intro L. destruct s as [|b [|c [|x s]]]; cbn in L; try lia; unfold add_point.
  - eexists _, _, _; split; [reflexivity|]. cbn; split; intros; (discriminate || lia).
  - destruct (fle _ _); eexists _, _, _; (split; [reflexivity|]); cbn; split; intros; (discriminate || lia).
  - destruct (same_direction _ _); [destruct (same_direction _ _) | destruct (same_direction _ _)];
    eexists _, _, _; (split; [reflexivity|]); cbn; split; intros; (discriminate || lia).
Qed.

Definition good (o : outcome F) (lo : nat) : Prop :=
  match o with
  | Separated s _ => lo <= length s <= 2
  | Captured s => length s = 3
  | TooSmall s _ => 1 <= length s <= 2
  | Exhausted s => lo <= length s <= 2
  | Crashed _ => False
  end.
Lemma run_ff_good n : forall s d, length s <= 2 -> good (run_ff sup n s d) 0.
Proof.
  induction n as [|n IH]; intros s d L; cbn [run_ff]; [cbn; lia|].
  destruct (fle _ _); [cbn; lia|].
  destruct (add_point_shape s (sup d) L) as (s' & c & d' & -> & H1 & H2).
  destruct c; [cbn; auto|]. destruct (direction_is_too_small _); [cbn; auto | apply IH; specialize (H2 eq_refl); lia].
Qed.
Lemma run_tf_good n : forall s d, length s <= 2 -> good (run_tf sup n s d) 0.
Proof.
  induction n as [|n IH]; intros s d L; cbn [run_tf]; [cbn; lia|].
  destruct (fle _ _); [cbn; lia|].
  destruct (add_point_shape s (sup d) L) as (s' & c & d' & -> & H1 & H2).
  destruct c; [cbn; auto|]. apply IH; specialize (H2 eq_refl); lia.
Qed.
Lemma run_ft_good n : forall s a d, 1 <= length s <= 2 -> good (run_ft sup n s a d) 1.
Proof.
  induction n as [|n IH]; intros s a d L; cbn [run_ft]; [cbn; lia|].
  destruct (_ && _); [cbn; lia|].
  destruct (add_point_shape s (sup d)) as (s' & c & d' & -> & H1 & H2); [lia|].
  destruct c; [cbn; auto|]. apply IH; specialize (H2 eq_refl); lia.
Qed.
Lemma run_tt_good n : forall s a d po, 1 <= length s <= 2 ->
  good (run_tt sup n s a d po) 1 \/ run_tt sup n s a d po = Crashed PCollidedLate.
Proof.
  induction n as [|n IH]; intros s a d po L; cbn [run_tt]; [left; cbn; lia|].
  destruct (_ && _); [left; cbn; lia|].
  destruct (add_point_shape s (sup d)) as (s' & c & d' & -> & H1 & H2); [lia|].
  destruct c; cbn [andb].
  - destruct (negb _); [right; reflexivity | left; cbn; auto].
  - apply IH; specialize (H2 eq_refl); lia.
Qed.

Lemma enforce_ok (s : simplex F) : length s = 3 -> exists l, enforce_ccw s = Ok l /\ length l = 3.
Proof.
  destruct s as [|a [|b [|c [|d s]]]]; cbn; intro L; try lia.
  destruct (flt _ _); eexists; split; reflexivity.
Qed.
Lemma distance_ok (s : simplex F) : 1 <= length s <= 2 -> exists v, distance_to_origin s = Ok v.
Proof.
  destruct s as [|a [|b [|c s]]]; cbn; intro L; try lia; [eexists; reflexivity|].
  destruct (fle _ _); [eexists; reflexivity|]. destruct (fle _ _); eexists; reflexivity.
Qed.

Lemma tf_not_small n : forall s d s' d', run_tf sup n s d <> TooSmall s' d'.
Proof.
  induction n as [|n IH]; intros s d s' d'; cbn [run_tf]; [discriminate|].
  destruct (fle _ _); [discriminate|]. destruct (add_point s (sup d)) as [[s1 [c d1]]|p]; [|discriminate].
  destruct c; [discriminate | apply IH].
Qed.
Lemma ft_not_small n : forall s a d s' d', run_ft sup n s a d <> TooSmall s' d'.
Proof.
  induction n as [|n IH]; intros s a d s' d'; cbn [run_ft]; [discriminate|].
  destruct (_ && _); [discriminate|]. destruct (add_point s (sup d)) as [[s1 [c d1]]|p]; [|discriminate].
  destruct c; [discriminate | apply IH].
Qed.
Lemma tt_not_small n : forall s a d po s' d', run_tt sup n s a d po <> TooSmall s' d'.
Proof.
  induction n as [|n IH]; intros s a d po s' d'; cbn [run_tt]; [discriminate|].
  destruct (_ && _); [discriminate|]. destruct (add_point s (sup d)) as [[s1 [c d1]]|p]; [|discriminate].
  destruct (c && _); [discriminate|]. destruct c; [discriminate | apply IH].
Qed.

Lemma gjk_ok P D d0 : (exists r, gjk sup P D d0 = Ok r) \/ (P = true /\ D = true /\ gjk sup P D d0 = Panic PCollidedLate).
Proof.
  unfold gjk. destruct P, D.
  - unfold gjk_tt, start_tt. cbn [add_point].
    pose proof (run_tt_good 20 [sup d0] (sup d0) (v2neg (sup d0)) true) as G. specialize (G ltac:(cbn; lia)).
    pose proof (tt_not_small 20 [sup d0] (sup d0) (v2neg (sup d0)) true) as NS.
    destruct (run_tt sup 20 [sup d0] (sup d0) (v2neg (sup d0)) true) as [s d|s|s d|s|p]; cbn [good] in G.
    + destruct G as [G|G]; [|discriminate]. left. destruct (distance_ok s G) as [v ->]. eexists; reflexivity.
    + destruct G as [G|G]; [|discriminate]. left. destruct (enforce_ok s G) as (l & -> & _). eexists; reflexivity.
    + exfalso. apply (NS s d eq_refl).
    + destruct G as [G|G]; [|discriminate]. left. destruct (distance_ok s G) as [v ->]. eexists; reflexivity.
    + destruct G as [G|G]; [contradiction|]. injection G as ->. right. auto.
  - left. unfold gjk_tf. pose proof (run_tf_good 20 [] d0 (Nat.le_0_l _)) as G. pose proof (tf_not_small 20 [] d0) as NS.
    destruct (run_tf sup 20 [] d0) as [s d|s|s d|s|p]; cbn [good] in G; try contradiction; try (eexists; reflexivity).
    + destruct (enforce_ok s G) as (l & -> & _). eexists; reflexivity.
    + exfalso. apply (NS s d eq_refl).
  - left. unfold gjk_ft, start_ft. cbn [add_point].
    pose proof (run_ft_good 20 [sup d0] (sup d0) (v2neg (sup d0))) as G. specialize (G ltac:(cbn; lia)).
    pose proof (ft_not_small 20 [sup d0] (sup d0) (v2neg (sup d0))) as NS.
    destruct (run_ft sup 20 [sup d0] (sup d0) (v2neg (sup d0))) as [s d|s|s d|s|p]; cbn [good] in G; try contradiction.
    + destruct (distance_ok s G) as [v ->]. eexists; reflexivity.
    + rewrite G. cbn. eexists; reflexivity.
    + exfalso. apply (NS s d eq_refl).
    + destruct (distance_ok s G) as [v ->]. eexists; reflexivity.
  - left. unfold gjk_ff. pose proof (run_ff_good 20 [] d0 (Nat.le_0_l _)) as G.
    destruct (run_ff sup 20 [] d0) as [s d|s|s d|s|p]; cbn [good] in G; try contradiction; eexists; reflexivity.
Qed.

(** EPA: the edge index is always a valid index of the polygon *)
Lemma edge_fold_index (l : list (nat * (vec2 F * vec2 F))) n : forall acc,
  (forall e, In e l -> fst e < n) -> fst (snd acc) < n -> fst (snd (fold_left edge_step l acc)) < n.
Proof.
  induction l as [|e l IH]; intros acc H A; cbn [fold_left]; [exact A|].
  apply IH; [intros x X; apply H; right; exact X|].
  unfold edge_step. destruct (flt _ _); [cbn; apply H; left; reflexivity | exact A].
Qed.
Lemma closest_edge_index (pts : list (vec2 F)) : pts <> [] -> fst (find_closest_edge pts) < length pts.
Proof.
  intro N. unfold find_closest_edge. apply edge_fold_index.
  - intros e E. destruct pts as [|p0 rest]; [contradiction|]. unfold indexed_edges in E.
    destruct e as [i ab]. apply in_combine_l in E. apply in_seq in E. cbn [fst]. lia.
  - cbn. destruct pts; [contradiction | cbn; lia].
Qed.
End Structure.
