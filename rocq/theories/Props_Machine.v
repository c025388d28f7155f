(** * Property theorems C75: integer rectangles and tiles in machine integers. *)
From Coq Require Import List Bool ZArith Lia Sorting.Sorted.
From Verif Require Import Num Rect Tilemap Machine Props_Util Props_Tilemap.
Import ListNotations.
Local Open Scope Z_scope.

Lemma in_i32_iff z : in_i32 z = true <-> - 2 ^ 31 <= z < 2 ^ 31.
Proof. unfold in_i32. rewrite andb_true_iff, Z.leb_le, Z.ltb_lt. reflexivity. Qed.
Lemma checked_ok z : - 2 ^ 31 <= z < 2 ^ 31 -> checked z = Some z.
Proof. intro H. unfold checked. apply in_i32_iff in H. rewrite H. reflexivity. Qed.
Lemma checked_none z : ~ (- 2 ^ 31 <= z < 2 ^ 31) -> checked z = None.
Proof. intro H. unfold checked. destruct (in_i32 z) eqn:E; [|reflexivity]. apply in_i32_iff in E. contradiction. Qed.
Lemma wrap32_range z : - 2 ^ 31 <= wrap32 z < 2 ^ 31.
Proof. unfold wrap32. pose proof (Z.mod_pos_bound (z + 2 ^ 31) (2 ^ 32) ltac:(lia)). lia. Qed.
Lemma wrap32_congr z : exists q, wrap32 z = z + q * 2 ^ 32.
Proof. unfold wrap32. exists (- ((z + 2 ^ 31) / 2 ^ 32)). pose proof (Z.div_mod (z + 2 ^ 31) (2 ^ 32) ltac:(lia)). lia. Qed.
Lemma wrap32_id z : - 2 ^ 31 <= z < 2 ^ 31 -> wrap32 z = z.
Proof. intro H. unfold wrap32. rewrite Z.mod_small; lia. Qed.

(** a pair of i32, and a rectangle of them *)
Definition i32 (z : Z) : Prop := - 2 ^ 31 <= z < 2 ^ 31.
Definition i32x2 (p : v2i) : Prop := i32 (fst p) /\ i32 (snd p).
Definition i32_rect (r : rect2) : Prop := i32x2 (rmin r) /\ i32x2 (rmax r).

(** ** ranges *)
Lemma zrange_nil lo hi : hi < lo -> zrange lo hi = [].
Proof. intro H. unfold zrange. replace (Z.to_nat (hi - lo + 1)) with 0%nat by lia. reflexivity. Qed.
Lemma zrange_cons lo hi : lo <= hi -> zrange lo hi = lo :: zrange (lo + 1) hi.
Proof.
  intro H. unfold zrange. replace (Z.to_nat (hi - lo + 1)) with (S (Z.to_nat (hi - (lo + 1) + 1))) by lia.
  cbn [seq map]. f_equal; [lia|]. rewrite <- seq_shift, map_map. apply map_ext. intro i. lia.
Qed.
Lemma zrange_snoc lo hi : lo <= hi -> zrange lo hi = zrange lo (hi - 1) ++ [hi].
Proof.
  intro H. unfold zrange. replace (Z.to_nat (hi - lo + 1)) with (S (Z.to_nat (hi - 1 - lo + 1))) by lia.
  rewrite seq_S, map_app. f_equal. cbn. f_equal. lia.
Qed.
Definition range_elems (r : range) : list Z := if r_exhausted r then [] else zrange (r_start r) (r_end r).
Definition range_list (flip : bool) (r : range) : list Z := if flip then rev (range_elems r) else range_elems r.
Definition range_ok (r : range) : Prop := i32 (r_start r) /\ i32 (r_end r).

Lemma range_get_spec flip r : range_ok r ->
  (range_list flip r = [] /\ range_get flip r = Some (None, r)) \/
  (exists x l r', range_list flip r = x :: l /\ range_get flip r = Some (Some x, r') /\ range_ok r' /\ range_list flip r' = l).
Proof.
  destruct r as [s e ex]. intros [S E]. cbn in S, E. unfold i32 in S, E.
  destruct ex.
  - left. unfold range_list, range_elems. cbn. destruct flip; split; reflexivity.
  - destruct (Z.leb_spec s e) as [L|L].
    2:{ left. unfold range_list, range_elems. cbn [r_exhausted r_start r_end]. rewrite zrange_nil by exact L.
        assert (Q : (s <=? e) = false) by (apply Z.leb_gt; exact L).
        destruct flip; cbn; unfold range_next, range_next_back, range_is_empty; cbn; rewrite Q; split; reflexivity. }
    assert (Q : (s <=? e) = true) by (apply Z.leb_le; exact L).
    right. destruct flip; cbn [range_get]; unfold range_next, range_next_back, range_is_empty, range_list, range_elems;
      cbn [r_exhausted r_start r_end]; rewrite Q; cbn [negb orb].
    + destruct (Z.ltb_spec s e) as [L2|L2].
      * rewrite checked_ok by lia. exists e, (rev (zrange s (e - 1))), (Range s (e - 1) false).
        rewrite (zrange_snoc s e L), rev_app_distr. repeat split; cbn; unfold i32; lia.
      * assert (s = e) by lia. subst. exists e, [], (Range e e true).
        rewrite (zrange_cons e e) by lia. rewrite (zrange_nil (e + 1) e) by lia. repeat split; cbn; unfold i32; lia.
    + destruct (Z.ltb_spec s e) as [L2|L2].
      * rewrite checked_ok by lia. exists s, (zrange (s + 1) e), (Range (s + 1) e false).
        rewrite (zrange_cons s e L). repeat split; cbn; unfold i32; lia.
      * assert (s = e) by lia. subst. exists e, [], (Range e e true).
        rewrite (zrange_cons e e) by lia. rewrite (zrange_nil (e + 1) e) by lia. repeat split; cbn; unfold i32; lia.
Qed.

(** ** rows *)
Definition row (y : Z) (xs : list Z) : list v2i := map (fun x => (x, y)) xs.
Lemma rows_front_run fx fy xs y ys it : forall l, range_ok it -> range_list fx it = l -> forall m,
  rows_run fx fy (length l + S m) (Rows ys (Some (y, it)) xs) =
  match rows_run fx fy m (Rows ys None xs) with Some (t, e) => Some (row y l ++ t, e) | None => None end.
Proof.
  intros l. revert it. induction l as [|x l IH]; intros it O E m.
  - destruct (range_get_spec fx it O) as [[_ G]|(x & l & r' & L & _)]; [|congruence].
    cbn [length plus rows_run]. unfold rows_turn. cbn [rw_front rw_ys rw_xs]. rewrite G.
    destruct (rows_run fx fy m _) as [[t e]|]; reflexivity.
  - destruct (range_get_spec fx it O) as [[L _]|(x' & l' & r' & L & G & O' & L')]; [congruence|].
    assert (x' = x /\ l' = l) as [-> ->] by (rewrite L in E; inversion E; split; reflexivity).
    cbn [length plus rows_run]. unfold rows_turn at 1. cbn [rw_front rw_ys rw_xs]. rewrite G.
    rewrite (IH r' O' L' m). destruct (rows_run fx fy m _) as [[t e]|]; reflexivity.
Qed.
Lemma rows_run_all fx fy xs : range_ok xs -> forall l ys, range_ok ys -> range_list fy ys = l ->
  exists n, forall m, rows_run fx fy (n + m) (Rows ys None xs) = Some (cells (range_list fx xs) l, true).
Proof.
  intros OX l. induction l as [|y l IH]; intros ys O E.
  - exists 1%nat. intro m. destruct (range_get_spec fy ys O) as [[_ G]|(x & l & r' & L & _)]; [|congruence].
    cbn [plus rows_run]. unfold rows_turn. cbn [rw_front rw_ys rw_xs]. rewrite G. reflexivity.
  - destruct (range_get_spec fy ys O) as [[L _]|(y' & l' & ys' & L & G & O' & L')]; [congruence|].
    assert (y' = y /\ l' = l) as [-> ->] by (rewrite L in E; inversion E; split; reflexivity).
    destruct (IH ys' O' L') as (n & N).
    exists (S (length (range_list fx xs) + S n)). intro m.
    cbn [plus rows_run]. unfold rows_turn at 1. cbn [rw_front rw_ys rw_xs]. rewrite G.
    replace (length (range_list fx xs) + S n + m)%nat with (length (range_list fx xs) + S (n + m))%nat by lia.
    rewrite (rows_front_run fx fy xs y ys' xs _ OX eq_refl (n + m)), N. reflexivity.
Qed.
Lemma rows_run_prefix fx fy m : forall n s, rows_run fx fy n s = None -> rows_run fx fy (n + m) s = None.
Proof.
  induction n as [|n IH]; intros s H; [discriminate|]. cbn [plus rows_run] in * .
  destruct (rows_turn fx fy s) as [[[p| |] s']|]; [| |discriminate|reflexivity].
  - destruct (rows_run fx fy n s') as [[l e]|] eqn:E; [discriminate|]. rewrite (IH s' E). reflexivity.
  - apply IH, H.
Qed.
Lemma rows_run_ends fx fy m : forall n s l, rows_run fx fy n s = Some (l, true) -> rows_run fx fy (n + m) s = Some (l, true).
Proof.
  induction n as [|n IH]; intros s l H; [discriminate|]. cbn [plus rows_run] in * .
  destruct (rows_turn fx fy s) as [[[p| |] s']|]; [| |exact H|discriminate].
  - destruct (rows_run fx fy n s') as [[t e]|] eqn:E; [|discriminate].
    assert (e = true /\ l = p :: t) as [-> ->] by (inversion H; split; reflexivity). rewrite (IH s' t E). reflexivity.
  - apply IH, H.
Qed.
Lemma boxed_cells r fx fy : iterate_boxed r fx fy =
  cells (range_list fx (rw_xs (rows_new r))) (range_list fy (rw_ys (rows_new r))).
Proof. destruct fx, fy; reflexivity. Qed.

(** The iterators of a rectangle of i32, as the machine runs them: no turn overflows, even in a rectangle that reaches to
    i32::MAX or i32::MIN; they end; what the consumer has received by then is every cell exactly once, in order. *)
Theorem C75_iterators_machine : forall r flip_x flip_y, i32_rect r ->
  (forall n, exists l e, rows_run flip_x flip_y n (rows_new r) = Some (l, e) /\ (e = true -> visits r flip_x flip_y l)) /\
  (exists n l, rows_run flip_x flip_y n (rows_new r) = Some (l, true)).
Proof.
  intros r fx fy [[A B] [C D]].
  destruct (rows_run_all fx fy (rw_xs (rows_new r)) (conj A C) _ (rw_ys (rows_new r)) (conj B D) eq_refl) as (n & N).
  rewrite <- boxed_cells in N.
  change (Rows (rw_ys (rows_new r)) None (rw_xs (rows_new r))) with (rows_new r) in N.
  split.
  - intro k. destruct (rows_run fx fy k (rows_new r)) as [[l e]|] eqn:E.
    + exists l, e. split; [reflexivity|]. intros ->.
      pose proof (rows_run_ends fx fy n k _ _ E) as P. pose proof (N k) as Q. rewrite Nat.add_comm in Q. rewrite P in Q.
      assert (l = iterate_boxed r fx fy) as -> by (inversion Q; reflexivity). apply C40_iterate_boxed.
    + pose proof (rows_run_prefix fx fy n k _ E) as P. pose proof (N k) as Q. rewrite Nat.add_comm in Q. congruence.
  - exists (n + 0)%nat, (iterate_boxed r fx fy). apply N.
Qed.
Print Assumptions C75_iterators_machine.
Example C75_iterators_case : i32_rect (Rect2 (2 ^ 31 - 2, - 2 ^ 31) (2 ^ 31 - 1, - 2 ^ 31 + 1)) /\
  rows_run true false 12 (rows_new (Rect2 (2 ^ 31 - 2, - 2 ^ 31) (2 ^ 31 - 1, - 2 ^ 31 + 1))) =
    Some ([(2 ^ 31 - 1, - 2 ^ 31); (2 ^ 31 - 2, - 2 ^ 31); (2 ^ 31 - 1, - 2 ^ 31 + 1); (2 ^ 31 - 2, - 2 ^ 31 + 1)], true).
Proof. split; [unfold i32_rect, i32x2, i32; cbn [fst snd rmin rmax]; lia | reflexivity]. Qed.

(** pad with overflow checks: it panics exactly when a coordinate minus the padding is not an i32; otherwise it is the pad of
    the claims about exact integers (C41), and the result is again a rectangle of i32 *)
Theorem C75_pad_checked : forall r k,
  (i32_rect (rect_pad r k) /\ pad_checked r k = Some (rect_pad r k)) \/
  (~ i32_rect (rect_pad r k) /\ pad_checked r k = None).
Proof.
  intros [[a b] [c d]] [k l]. unfold i32_rect, i32x2, i32, rect_pad, pad_checked. cbn [fst snd rmin rmax].
  assert (D : forall z, (- 2 ^ 31 <= z < 2 ^ 31) \/ ~ (- 2 ^ 31 <= z < 2 ^ 31)) by (intro z; lia).
  destruct (D (a - k)) as [H1|H1]; [rewrite (checked_ok _ H1) | rewrite (checked_none _ H1); right; split; [tauto|reflexivity]].
  destruct (D (b - l)) as [H2|H2]; [rewrite (checked_ok _ H2) | rewrite (checked_none _ H2); right; split; [tauto|reflexivity]].
  destruct (D (c - k)) as [H3|H3]; [rewrite (checked_ok _ H3) | rewrite (checked_none _ H3); right; split; [tauto|reflexivity]].
  destruct (D (d - l)) as [H4|H4]; [rewrite (checked_ok _ H4); left; split; [tauto|reflexivity]
                                   | rewrite (checked_none _ H4); right; split; [tauto|reflexivity]].
Qed.
Print Assumptions C75_pad_checked.

(** pad without overflow checks: always a rectangle of i32, the exact one when no coordinate overflows; but when the lower edge
    of a non-empty rectangle drops below i32::MIN in one direction and the upper one does not, the padded rectangle is empty,
    and when padding by a negative number carries only the upper edge past i32::MAX, it is empty as well *)
Theorem C75_pad_wrapping : forall r k, i32_rect (pad_wrapping r k) /\ (i32_rect (rect_pad r k) -> pad_wrapping r k = rect_pad r k).
Proof.
  intros [[a b] [c d]] [k l]. unfold i32_rect, i32x2, i32, rect_pad, pad_wrapping. cbn [fst snd rmin rmax].
  split; [repeat split; apply wrap32_range|]. intros [[A B] [C D]]. rewrite !wrap32_id by assumption. reflexivity.
Qed.
Print Assumptions C75_pad_wrapping.
Theorem C75_pad_wrapping_refuted : forall r k, i32_rect r -> i32x2 k -> inside r (rmin r) ->
  (fst (rmin r) - fst k < - 2 ^ 31 <= fst (rmax r) - fst k) \/ (snd (rmin r) - snd k < - 2 ^ 31 <= snd (rmax r) - snd k) \/
  (fst (rmin r) - fst k < 2 ^ 31 <= fst (rmax r) - fst k) \/ (snd (rmin r) - snd k < 2 ^ 31 <= snd (rmax r) - snd k) ->
  forall flip_x flip_y, iterate_boxed (pad_wrapping r k) flip_x flip_y = [].
Proof.
  intros [[a b] [c d]] [k l] [[A B] [C D]] [K L] [I1 I2] H fx fy. apply C40_empty.
  unfold i32 in * . cbn [fst snd rmin rmax pad_wrapping] in * .
  pose proof (wrap32_range (a - k)). pose proof (wrap32_range (b - l)). pose proof (wrap32_range (c - k)). pose proof (wrap32_range (d - l)).
  destruct (wrap32_congr (a - k)) as (qa & Qa). destruct (wrap32_congr (b - l)) as (qb & Qb).
  destruct (wrap32_congr (c - k)) as (qc & Qc). destruct (wrap32_congr (d - l)) as (qd & Qd).
  destruct H as [H|[H|[H|H]]]; [left|right|left|right]; lia.
Qed.
Print Assumptions C75_pad_wrapping_refuted.
Example C75_pad_case : i32_rect (Rect2 (- 2 ^ 31, 0) (5, 5)) /\ pad_checked (Rect2 (- 2 ^ 31, 0) (5, 5)) (1, 1) = None /\
  pad_wrapping (Rect2 (- 2 ^ 31, 0) (5, 5)) (1, 1) = Rect2 (2 ^ 31 - 1, -1) (4, 4) /\
  iterate_boxed (pad_wrapping (Rect2 (- 2 ^ 31, 0) (5, 5)) (1, 1)) false false = [] /\
  pad_checked (Rect2 (- 2 ^ 31 + 1, 0) (5, 5)) (1, 1) = Some (Rect2 (- 2 ^ 31, -1) (4, 4)).
Proof. split; [unfold i32_rect, i32x2, i32; cbn [fst snd rmin rmax]; lia | repeat split; reflexivity]. Qed.
