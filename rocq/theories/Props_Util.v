(** * Property theorems C39-C41: publishers and integer rectangles. *)
From Coq Require Import List Bool ZArith Lia Sorted.
From Verif Require Import Num NumXR NumB32 Publisher Rect.
Import ListNotations.

(** ** C39 Publishers *)
(** A Ledger holds exactly the notified events, in order. *)
Theorem C39_ledger : forall (E : Type) (es : list E),
  l_events (fold_left ledger_notify es ledger_new) = es.
Proof.
  intros E es. assert (G : forall l, l_events (fold_left ledger_notify es l) = l_events l ++ es).
  { induction es as [|e es IH]; intro l; cbn [fold_left]; [symmetry; apply app_nil_r|]. rewrite IH. cbn. rewrite <- app_assoc. reflexivity. }
  exact (G ledger_new).
Qed.
Print Assumptions C39_ledger.

(** A HashsetLedger holds each distinct notified event exactly once and nothing else. *)
Theorem C39_hashset : forall (E : Type) (eqb : E -> E -> bool), (forall x y, eqb x y = true <-> x = y) ->
  forall es : list E, let h := fold_left (hashset_notify eqb) es hashset_new in
  NoDup (h_events h) /\ forall e, In e (h_events h) <-> In e es.
Proof.
  intros E eqb Heq es. assert (G : forall h, NoDup (h_events h) ->
    NoDup (h_events (fold_left (hashset_notify eqb) es h)) /\ forall e, In e (h_events (fold_left (hashset_notify eqb) es h)) <-> In e (h_events h) \/ In e es).
  { induction es as [|x es IH]; intros h N; cbn [fold_left].
    - split; [exact N | intro e; cbn; tauto].
    - unfold hashset_notify at 2 4. destruct (existsb (eqb x) (h_events h)) eqn:X.
      + apply existsb_exists in X. destruct X as (y & I & Q). apply Heq in Q. subst y.
        destruct (IH h N) as [N' I']. split; [exact N'|]. intro e. rewrite I'. cbn. intuition (subst; auto).
      + assert (NI : ~ In x (h_events h)).
        { intro I. assert (existsb (eqb x) (h_events h) = true); [|congruence]. apply existsb_exists. exists x. split; [exact I | apply Heq; reflexivity]. }
        destruct (IH (HashsetLedger (x :: h_events h))) as [N' I']; [constructor; assumption|]. split; [exact N'|]. intro e. rewrite I'. cbn. tauto. }
  destruct (G hashset_new (NoDup_nil _)) as [N I]. split; [exact N|]. intro e. rewrite I. cbn. tauto.
Qed.
Print Assumptions C39_hashset.
Example C39_hashset_case : h_events (fold_left (hashset_notify Nat.eqb) [3; 1; 3; 2; 1] hashset_new) <> [] /\
  NoDup (h_events (fold_left (hashset_notify Nat.eqb) [3; 1; 3; 2; 1] hashset_new)).
Proof. split; [vm_compute; discriminate|]. apply (C39_hashset nat Nat.eqb Nat.eqb_eq [3; 1; 3; 2; 1]). Qed.

(** A history of a CallbackPublisher: subscribers attached and events notified, and the calls that result. *)
Inductive cb_op (S E : Type) := Attach (f : S) | Notify (e : E).
Arguments Attach {S E}. Arguments Notify {S E}.
Fixpoint cb_run {S E : Type} (p : callback_publisher S) (ops : list (cb_op S E)) : list (S * E) :=
  match ops with
  | [] => []
  | Attach f :: ops' => cb_run (callback_attach p f) ops'
  | Notify e :: ops' => callback_notify p e ++ cb_run p ops'
  end.
(** what the history says, without reference to the publisher *)
Definition notified {S E} (ops : list (cb_op S E)) : list E :=
  flat_map (fun o => match o with Notify e => [e] | Attach _ => [] end) ops.
Definition attached {S E} (ops : list (cb_op S E)) : list S :=
  flat_map (fun o => match o with Attach f => [f] | Notify _ => [] end) ops.
Definition received {S E} (eqb : S -> S -> bool) (f : S) (calls : list (S * E)) : list E :=
  map snd (filter (fun c => eqb f (fst c)) calls).

(** A subscriber attached once is called with exactly the events notified after it was attached, each once, in order. *)
Theorem C39_callback_each_subscriber : forall (S E : Type) (eqb : S -> S -> bool), (forall x y, eqb x y = true <-> x = y) ->
  forall (h1 h2 : list (cb_op S E)) f, ~ In f (attached h1) -> ~ In f (attached h2) ->
  received eqb f (cb_run callback_new (h1 ++ Attach f :: h2)) = notified h2.
Proof.
  intros S E eqb Heq h1 h2 f N1 N2.
  assert (R0 : eqb f f = true) by (apply Heq; reflexivity).
  assert (NE : forall l e, ~ In f l -> filter (fun c : S * E => eqb f (fst c)) (map (fun g => (g, e)) l) = []).
  { induction l as [|g l IH]; intros e N; cbn; [reflexivity|]. destruct (eqb f g) eqn:Q; [apply Heq in Q; subst; exfalso; apply N; left; reflexivity|].
    apply IH. intro I. apply N. right. exact I. }
  assert (G2 : forall (h : list (cb_op S E)) p, In f (subscribers p) -> ~ In f (attached h) -> (forall l1 l2, subscribers p = l1 ++ f :: l2 -> ~ In f l1 /\ ~ In f l2) ->
    received eqb f (cb_run p h) = notified h).
  { induction h as [|[g|e] h IH]; intros p I N U; cbn [cb_run notified flat_map app]; [reflexivity| |].
    - apply IH.
      + cbn. apply in_or_app. left. exact I.
      + intro A. apply N. cbn. right. exact A.
      + cbn. intros l1 l2 Eq. assert (Ng : g <> f) by (intros ->; apply N; cbn; left; reflexivity).
        destruct (exists_last (l := f :: l2) ltac:(discriminate)) as (l2' & z & Ez). rewrite Ez, app_assoc in Eq.
        apply app_inj_tail in Eq. destruct Eq as [Eq Ezg]. subst z. destruct l2' as [|y l2']; cbn in Ez; injection Ez as Ey El; [congruence|]. subst y.
        destruct (U l1 l2' Eq) as [U1 U2]. split; [exact U1|]. rewrite El. intro A. apply in_app_or in A. cbn in A. intuition congruence.
    - unfold received. rewrite filter_app, map_app. fold (received eqb f (cb_run p h)). rewrite IH; [|exact I| |exact U].
      + apply in_split in I. destruct I as (l1 & l2 & El). destruct (U l1 l2 El) as [U1 U2].
        unfold callback_notify. rewrite El, map_app, filter_app. cbn. rewrite (NE l1 e U1), (NE l2 e U2), R0. reflexivity.
      + intro A. apply N. exact A. }
  assert (G1 : forall (h : list (cb_op S E)) p, ~ In f (subscribers p) -> ~ In f (attached h) ->
    received eqb f (cb_run p (h ++ Attach f :: h2)) = notified h2).
  { induction h as [|[g|e] h IH]; intros p I N; cbn [app cb_run].
    - apply G2; cbn; [apply in_or_app; right; left; reflexivity | exact N2|]. intros l1 l2 Eq.
      destruct (exists_last (l := f :: l2) ltac:(discriminate)) as (l2' & z & Ez). rewrite Ez, app_assoc in Eq.
      apply app_inj_tail in Eq. destruct Eq as [Eq _]. destruct l2' as [|y l2'].
      + injection Ez as _ El. subst l2. rewrite app_nil_r in Eq. subst l1. split; [exact I | intros []].
      + injection Ez as Ey _. subst y. exfalso. apply I. rewrite Eq. apply in_or_app. right. left. reflexivity.
    - apply IH.
      + cbn. intro A. apply in_app_or in A. destruct A as [A|[A|[]]]; [contradiction|]. apply N. cbn. left. exact A.
      + intro A. apply N. cbn. right. exact A.
    - unfold received. rewrite filter_app, map_app. fold (received eqb f (cb_run p (h ++ Attach f :: h2))). rewrite IH; [|exact I | exact N].
      unfold callback_notify. rewrite (NE _ e I). reflexivity. }
  apply G1; [intros []|exact N1].
Qed.
Print Assumptions C39_callback_each_subscriber.
(** All calls: each event reaches the subscribers attached before it, in attach order, before the next event does. *)
Theorem C39_callback_order : forall (S E : Type) (h1 : list (cb_op S E)) e h2, exists after,
  cb_run callback_new (h1 ++ Notify e :: h2) = cb_run callback_new h1 ++ map (fun f => (f, e)) (attached h1) ++ after.
Proof.
  intros S E h1 e h2.
  assert (G : forall (h0 : list (cb_op S E)) p, exists after, cb_run p (h0 ++ Notify e :: h2) = cb_run p h0 ++ map (fun f => (f, e)) (subscribers p ++ attached h0) ++ after).
  { induction h0 as [|[g|x] h0 IH]; intro p; cbn [app cb_run attached flat_map].
    - exists (cb_run p h2). rewrite app_nil_r. reflexivity.
    - destruct (IH (callback_attach p g)) as (after & ->). exists after. cbn. rewrite <- app_assoc. reflexivity.
    - destruct (IH p) as (after & ->). exists after. rewrite <- app_assoc. reflexivity. }
  exact (G h1 callback_new).
Qed.
Print Assumptions C39_callback_order.

Example callback_example : received Nat.eqb 1 (cb_run callback_new [Attach 0; Notify 10; Attach 1; Notify 20; Attach 2; Notify 30]) = [20; 30].
Proof. reflexivity. Qed.

(** ** C40 Rectangles *)
Local Open Scope Z_scope.
(** the cells of the inclusive rectangle *)
Definition inside (r : rect2) (p : v2i) : Prop :=
  fst (rmin r) <= fst p <= fst (rmax r) /\ snd (rmin r) <= snd p <= snd (rmax r).
(** visiting order: rows in the y direction (downwards if flip_y), cells of a row in the x direction *)
Definition comes_before (flip_x flip_y : bool) (p q : v2i) : Prop :=
  (if flip_y then snd q < snd p else snd p < snd q) \/
  (snd p = snd q /\ if flip_x then fst q < fst p else fst p < fst q).
Definition visits (r : rect2) (flip_x flip_y : bool) (l : list v2i) : Prop :=
  (forall p, In p l <-> inside r p) /\ NoDup l /\ StronglySorted (comes_before flip_x flip_y) l.

Lemma zrange_in lo hi x : In x (zrange lo hi) <-> lo <= x <= hi.
Proof.
  unfold zrange. rewrite in_map_iff. split.
  - intros (i & <- & I). apply in_seq in I. lia.
  - intros H. exists (Z.to_nat (x - lo)). split; [lia|]. apply in_seq. lia.
Qed.
Lemma zrange_sorted lo hi : StronglySorted Z.lt (zrange lo hi).
Proof.
  unfold zrange. generalize (Z.to_nat (hi - lo + 1)) as n. intro n. generalize 0%nat as k. induction n as [|n IH]; intro k; cbn; constructor.
  - apply IH.
  - rewrite Forall_forall. intros y I. apply in_map_iff in I. destruct I as (i & <- & I). apply in_seq in I. lia.
Qed.
Lemma sorted_app {A} (R : A -> A -> Prop) l1 l2 : StronglySorted R l1 -> StronglySorted R l2 -> (forall x y, In x l1 -> In y l2 -> R x y) -> StronglySorted R (l1 ++ l2).
Proof.
  induction l1 as [|a l1 IH]; intros S1 S2 H; cbn; [exact S2|]. inversion S1 as [|? ? S1' F]; subst. constructor.
  - apply IH; auto. intros; apply H; cbn; auto.
  - apply Forall_app. split; [exact F|]. apply Forall_forall. intros y I. apply H; cbn; auto.
Qed.
Lemma sorted_rev {A} (R : A -> A -> Prop) l : StronglySorted R l -> StronglySorted (fun x y => R y x) (rev l).
Proof.
  induction 1 as [|a l S IH F]; cbn; [constructor|]. apply sorted_app; [exact IH | repeat constructor|].
  intros x y I [<-|[]]. rewrite Forall_forall in F. apply F, in_rev, I.
Qed.
Lemma cells_in xs ys p : In p (cells xs ys) <-> In (fst p) xs /\ In (snd p) ys.
Proof.
  unfold cells. rewrite in_flat_map. split.
  - intros (y & Iy & I). apply in_map_iff in I. destruct I as (x & <- & Ix). cbn. auto.
  - intros [Ix Iy]. exists (snd p). split; [exact Iy|]. apply in_map_iff. exists (fst p). split; [destruct p; reflexivity | exact Ix].
Qed.
Lemma cells_sorted (Rx Ry : Z -> Z -> Prop) xs ys : StronglySorted Rx xs -> StronglySorted Ry ys ->
  StronglySorted (fun p q : v2i => Ry (snd p) (snd q) \/ (snd p = snd q /\ Rx (fst p) (fst q))) (cells xs ys).
Proof.
  intros Sx Sy. induction Sy as [|y ys Sy IH F]; [constructor|]. change (cells xs (y :: ys)) with (map (fun x => (x, y)) xs ++ cells xs ys). apply sorted_app.
  - clear - Sx. induction Sx as [|x xs Sx IH F]; cbn; constructor; [exact IH|].
    apply Forall_map. eapply Forall_impl; [|exact F]. cbn. auto.
  - exact IH.
  - intros p q Ip Iq. apply in_map_iff in Ip. destruct Ip as (x & <- & _). apply cells_in in Iq. left. cbn. rewrite Forall_forall in F. apply F, Iq.
Qed.
Lemma sorted_nodup {A} (R : A -> A -> Prop) l : (forall x, ~ R x x) -> StronglySorted R l -> NoDup l.
Proof. intros IR. induction 1 as [|a l S IH F]; constructor; [|exact IH]. intro I. rewrite Forall_forall in F. apply (IR a), F, I. Qed.
Lemma sorted_impl {A} (R Q : A -> A -> Prop) l : (forall x y, R x y -> Q x y) -> StronglySorted R l -> StronglySorted Q l.
Proof. intros H. induction 1 as [|a l S IH F]; constructor; [exact IH|]. eapply Forall_impl; [|exact F]. auto. Qed.
Lemma visits_cells r fx fy : visits r fx fy
  (cells (if fx then rev (zrange (fst (rmin r)) (fst (rmax r))) else zrange (fst (rmin r)) (fst (rmax r)))
         (if fy then rev (zrange (snd (rmin r)) (snd (rmax r))) else zrange (snd (rmin r)) (snd (rmax r)))).
Proof.
  assert (S : StronglySorted (comes_before fx fy)
    (cells (if fx then rev (zrange (fst (rmin r)) (fst (rmax r))) else zrange (fst (rmin r)) (fst (rmax r)))
         (if fy then rev (zrange (snd (rmin r)) (snd (rmax r))) else zrange (snd (rmin r)) (snd (rmax r))))).
  { apply sorted_impl with (R := fun p q : v2i => (if fy then Z.gt else Z.lt) (snd p) (snd q) \/ (snd p = snd q /\ (if fx then Z.gt else Z.lt) (fst p) (fst q))).
    - unfold comes_before. intros p q. destruct fx, fy; lia.
    - pose proof (zrange_sorted (fst (rmin r)) (fst (rmax r))) as X. pose proof (zrange_sorted (snd (rmin r)) (snd (rmax r))) as Y.
      assert (G : forall lo hi, StronglySorted Z.gt (rev (zrange lo hi))).
      { intros. apply sorted_impl with (R := fun x y => y < x); [intros; lia | apply sorted_rev, zrange_sorted]. }
      apply cells_sorted; [destruct fx | destruct fy]; auto. }
  split; [|split; [|exact S]].
  - intro p. rewrite cells_in. unfold inside.
    assert (R : forall (b : bool) lo hi x, In x (if b then rev (zrange lo hi) else zrange lo hi) <-> lo <= x <= hi).
    { intros [|] lo hi x; [rewrite <- in_rev|]; apply zrange_in. }
    rewrite !R. reflexivity.
  - eapply sorted_nodup; [|exact S]. intro x. unfold comes_before. destruct fx, fy; lia.
Qed.

(** Every iterator visits every cell of the rectangle exactly once, no other cell, in its direction's order. *)
Theorem C40_iterators : forall r,
  visits r false false (iterate r) /\ visits r false false (iterate_north_east r) /\ visits r true false (iterate_north_west r) /\
  visits r false true (iterate_south_east r) /\ visits r true true (iterate_south_west r).
Proof. intro r. exact (conj (visits_cells r false false) (conj (visits_cells r false false) (conj (visits_cells r true false) (conj (visits_cells r false true) (visits_cells r true true))))). Qed.
Print Assumptions C40_iterators.
Theorem C40_iterate_boxed : forall r flip_x flip_y, visits r flip_x flip_y (iterate_boxed r flip_x flip_y).
Proof. intros r [|] [|]; apply C40_iterators. Qed.
Print Assumptions C40_iterate_boxed.
(** the rectangle min_max(min, max) is the one with these two corners, both included *)
Theorem C40_min_max : forall a b c d p, In p (iterate (rect_min_max (a, b) (c, d))) <-> (a <= fst p <= c) /\ (b <= snd p <= d).
Proof.
  intros a b c d p. pose proof (C40_iterators (rect_min_max (a, b) (c, d))) as (H & _). exact (proj1 H p).
Qed.
Print Assumptions C40_min_max.
Example C40_min_max_case : iterate (rect_min_max (1, 2) (2, 3)) = [(1, 2); (2, 2); (1, 3); (2, 3)].
Proof. reflexivity. Qed.
(** by direction: for 32-bit floats (a NaN or a zero of either sign counts as forward) and for exact numbers *)
Theorem C40_iterate_with_direction : forall (F : Type) (FL : Float F) r (dx dy : F),
  visits r (flt dx f0) (flt dy f0) (iterate_with_direction r dx dy).
Proof. intros. apply C40_iterate_boxed. Qed.
Print Assumptions C40_iterate_with_direction.
Theorem C40_empty : forall r flip_x flip_y, fst (rmax r) < fst (rmin r) \/ snd (rmax r) < snd (rmin r) -> iterate_boxed r flip_x flip_y = [].
Proof.
  intros r fx fy H. destruct (iterate_boxed r fx fy) as [|p l] eqn:E; [reflexivity|]. exfalso.
  destruct (C40_iterate_boxed r fx fy) as [I _]. rewrite E in I. specialize (proj1 (I p) (or_introl eq_refl)). unfold inside. lia.
Qed.
Print Assumptions C40_empty.
(** how many: width x height *)
Theorem C40_count : forall r flip_x flip_y, fst (rmin r) <= fst (rmax r) + 1 -> snd (rmin r) <= snd (rmax r) + 1 ->
  Z.of_nat (length (iterate_boxed r flip_x flip_y)) = (fst (rmax r) - fst (rmin r) + 1) * (snd (rmax r) - snd (rmin r) + 1).
Proof.
  intros r fx fy Hx Hy.
  assert (L : forall lo hi, lo <= hi + 1 -> Z.of_nat (length (zrange lo hi)) = hi - lo + 1) by (intros lo hi H; unfold zrange; rewrite map_length, seq_length; lia).
  assert (C : forall xs ys, length (cells xs ys) = (length xs * length ys)%nat).
  { intros xs ys. unfold cells. induction ys as [|y ys IH]; cbn [flat_map length]; [lia|]. rewrite app_length, map_length. unfold v2i in * . rewrite IH. lia. }
  destruct fx, fy; cbn; unfold iterate_south_west, iterate_south_east, iterate_north_west, iterate_north_east; rewrite C, ?rev_length, Nat2Z.inj_mul, !L; lia.
Qed.
Print Assumptions C40_count.
Example iterate_example : iterate_south_west (Rect2 (-1, 4) (1, 5)) = [(1, 5); (0, 5); (-1, 5); (1, 4); (0, 4); (-1, 4)].
Proof. reflexivity. Qed.
Example nan_goes_forward : @flt b32 _ fnan f0 = false /\ @flt b32 _ (fneg f0) f0 = false. Proof. split; reflexivity. Qed.

(** ** C41 Rect2i32::pad *)
(** pad(k) is the rectangle moved by -k, of the same size: it contains the old one only for k = 0 *)
Theorem C41_pad_shifts : forall r k p, inside (rect_pad r k) p <-> inside r (fst p + fst k, snd p + snd k).
Proof. intros [[a b] [c d]] [k l] [x y]. unfold inside, rect_pad. cbn. lia. Qed.
Print Assumptions C41_pad_shifts.
Theorem C41_pad_enlarges_refuted : forall r k, inside r (rmin r) -> inside r (rmax r) -> 0 <= fst k -> 0 <= snd k -> k <> (0, 0) ->
  ~ (forall p, inside r p -> inside (rect_pad r k) p).
Proof.
  intros [[a b] [c d]] [k l] H1 H2 K1 K2 N H. apply N. unfold inside, rect_pad in *; cbn [rmin rmax fst snd] in * .
  specialize (H (c, d)). cbn in H. assert (k = 0 /\ l = 0) by lia. f_equal; apply H0.
Qed.
Print Assumptions C41_pad_enlarges_refuted.
Example pad_example : rect_pad (Rect2 (0, 0) (2, 3)) (1, 1) = Rect2 (-1, -1) (1, 2). Proof. reflexivity. Qed.
