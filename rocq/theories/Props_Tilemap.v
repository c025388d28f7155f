(** * Property theorems C42, C43, C46: the tilemap as a map, its events, saving and loading.

    [decompose] is lk_math's modular_decompose by the chunk size; all that is assumed of it is [good_decompose]. *)
From Coq Require Import List Bool ZArith Lia Permutation.
From Verif Require Import Num Glam Shapes2 Publisher Rect Tilemap.
Import ListNotations.
Local Open Scope Z_scope.

(** different tiles have a different chunk or a different local position, and local positions lie in the 16 x 16 chunk *)
Definition good_decompose (dec : v2i -> v2i * v2i) : Prop :=
  (forall p q, dec p = dec q -> p = q) /\
  (forall p, 0 <= fst (snd (dec p)) < 16 /\ 0 <= snd (snd (dec p)) < 16).
Example euclid_good : good_decompose euclid_decompose.
Proof.
  split.
  - intros [x y] [x' y'] H. unfold euclid_decompose in H. cbn in H. injection H as H1 H2 H3 H4.
    pose proof (Z.div_mod x 16 ltac:(lia)). pose proof (Z.div_mod x' 16 ltac:(lia)). pose proof (Z.div_mod y 16 ltac:(lia)). pose proof (Z.div_mod y' 16 ltac:(lia)).
    f_equal; lia.
  - intros [x y]. cbn. pose proof (Z.mod_pos_bound x 16 ltac:(lia)). pose proof (Z.mod_pos_bound y 16 ltac:(lia)). lia.
Qed.

(** ** Histories *)
Inductive tm_op := SetTile (p : v2i) (t : Z) | RemoveTile (p : v2i).
Definition tm_apply (dec : v2i -> v2i * v2i) (m : tilemap) (o : tm_op) : tilemap :=
  match o with SetTile p t => set_tile dec m p t | RemoveTile p => remove_tile dec m p end.
Definition tm_run (dec : v2i -> v2i * v2i) (h : list tm_op) : tilemap := fold_left (tm_apply dec) h tilemap_default.
(** what a history says about position p: the last operation at p decides *)
Definition expected (h : list tm_op) (p : v2i) : Z :=
  fold_left (fun v o => match o with
                        | SetTile q t => if v2i_eqb q p then t else v
                        | RemoveTile q => if v2i_eqb q p then 0 else v
                        end) h 0.

(** ** Maps and chunks *)
Lemma v2i_eqb_spec a b : v2i_eqb a b = true <-> a = b.
Proof. unfold v2i_eqb. rewrite andb_true_iff, !Z.eqb_eq. destruct a, b; cbn. split; [intros [-> ->]; reflexivity | intro H; injection H; auto]. Qed.
Lemma v2i_eqb_refl a : v2i_eqb a a = true. Proof. apply v2i_eqb_spec. reflexivity. Qed.
Lemma v2i_eqb_sym a b : v2i_eqb a b = v2i_eqb b a.
Proof. destruct (v2i_eqb b a) eqn:E; [apply v2i_eqb_spec in E; subst; apply v2i_eqb_refl|]. destruct (v2i_eqb a b) eqn:E2; [|reflexivity]. apply v2i_eqb_spec in E2. subst. rewrite v2i_eqb_refl in E. discriminate. Qed.
Lemma map_get_remove m k k' : map_get (map_remove m k) k' = if v2i_eqb k k' then None else map_get m k'.
Proof.
  induction m as [|[q c] m IH]; cbn [map_remove filter map_get fst]; [destruct (v2i_eqb k k'); reflexivity|].
  unfold map_remove in IH. destruct (v2i_eqb k q) eqn:E; cbn [negb].
  - rewrite IH. destruct (v2i_eqb k k') eqn:E2; [reflexivity|]. destruct (v2i_eqb k' q) eqn:E3; [|reflexivity].
    apply v2i_eqb_spec in E. apply v2i_eqb_spec in E3. subst. rewrite v2i_eqb_refl in E2. discriminate.
  - cbn [map_get]. rewrite IH. destruct (v2i_eqb k' q) eqn:E3; [|reflexivity]. apply v2i_eqb_spec in E3. subst. rewrite E. reflexivity.
Qed.
Lemma map_get_insert m k c k' : map_get (map_insert m k c) k' = if v2i_eqb k k' then Some c else map_get m k'.
Proof.
  unfold map_insert. cbn [map_get]. rewrite map_get_remove, (v2i_eqb_sym k' k). destruct (v2i_eqb k k'); reflexivity.
Qed.

Definition inr (l : v2i) : Prop := 0 <= fst l < 16 /\ 0 <= snd l < 16.
Lemma inr_spec l : local_in_range l = true <-> inr l.
Proof. unfold local_in_range, inr. rewrite !andb_true_iff, !Z.leb_le, !Z.ltb_lt. tauto. Qed.
Definition sized (c : chunk) : Prop := length (c_data c) = 256%nat.
Lemma index_inj a b : inr a -> inr b -> local_index a = local_index b -> a = b.
Proof. destruct a as [x y], b as [x' y']. unfold inr, local_index. cbn [fst snd]. intros. assert (x = x' /\ y = y') as [-> ->] by lia. reflexivity. Qed.
Lemma index_lt a : inr a -> (local_index a < 256)%nat.
Proof. unfold inr, local_index. lia. Qed.
Lemma replace_length n v l : length (replace_nth n v l) = length l.
Proof. revert n. induction l as [|x l IH]; intros [|n]; cbn; auto. Qed.
Lemma replace_get n v l k : (n < length l)%nat -> nth_error (replace_nth n v l) k = if Nat.eqb n k then Some v else nth_error l k.
Proof.
  revert n k. induction l as [|x l IH]; intros [|n] [|k] H; cbn in *; try lia; try reflexivity. apply IH. lia.
Qed.
Lemma sized_default : sized chunk_default. Proof. reflexivity. Qed.
Lemma sized_set c l v : sized c -> sized (array_set c l v).
Proof. unfold sized, array_set. destruct (local_in_range l); cbn; [rewrite replace_length; auto | auto]. Qed.
Lemma get_some c l : sized c -> inr l -> exists t, array_get c l = Some t.
Proof.
  intros S R. unfold array_get. rewrite (proj2 (inr_spec l) R). destruct (nth_error (c_data c) (local_index l)) eqn:E; [eauto|].
  apply nth_error_None in E. pose proof (index_lt l R). unfold sized in S. lia.
Qed.
Lemma get_set c l v l' : sized c -> inr l -> inr l' -> array_get (array_set c l v) l' = if v2i_eqb l l' then Some v else array_get c l'.
Proof.
  intros S R R'. unfold array_get, array_set. rewrite (proj2 (inr_spec l) R), (proj2 (inr_spec l') R'). cbn [c_data].
  rewrite replace_get by (unfold sized in S; rewrite S; apply index_lt, R).
  destruct (v2i_eqb l l') eqn:E; [apply v2i_eqb_spec in E; subst; rewrite Nat.eqb_refl; reflexivity|].
  destruct (Nat.eqb (local_index l) (local_index l')) eqn:E2; [|reflexivity]. apply Nat.eqb_eq in E2.
  apply index_inj in E2; auto. subst. rewrite v2i_eqb_refl in E. discriminate.
Qed.
Lemma get_default l : inr l -> array_get chunk_default l = Some 0.
Proof.
  intro R. unfold array_get. rewrite (proj2 (inr_spec l) R). unfold chunk_default, c_data.
  rewrite (nth_error_nth' _ 0) by (rewrite repeat_length; apply index_lt, R). rewrite nth_repeat. reflexivity.
Qed.
Lemma all_zero_get c l t : array_all_zero c = true -> array_get c l = Some t -> t = 0.
Proof.
  unfold array_all_zero, array_get. rewrite forallb_forall. intros H E. destruct (local_in_range l); [|discriminate].
  apply nth_error_In in E. apply H in E. apply Z.eqb_eq in E. exact E.
Qed.
Lemma all_zero_default l : array_all_zero (array_set chunk_default l 0) = true.
Proof.
  unfold array_all_zero, array_set. destruct (local_in_range l); [|reflexivity]. cbn [c_data chunk_default]. generalize (local_index l) as n. generalize 256%nat as k.
  induction k as [|k IH]; intros [|n]; cbn [repeat replace_nth forallb]; try reflexivity.
  - rewrite Z.eqb_refl. cbn [andb]. clear. induction k; cbn; auto.
  - rewrite Z.eqb_refl. apply IH.
Qed.

Section Dec.
Variable dec : v2i -> v2i * v2i.
Hypothesis good : good_decompose dec.
Local Notation get_tile := (get_tile dec).
Local Notation set_tile := (set_tile dec).
Local Notation remove_tile := (remove_tile dec).

Lemma dec_inr p : inr (snd (dec p)). Proof. apply good. Qed.
Lemma dec_eq p q : v2i_eqb p q = v2i_eqb (fst (dec p)) (fst (dec q)) && v2i_eqb (snd (dec p)) (snd (dec q)).
Proof.
  destruct (v2i_eqb p q) eqn:E; [apply v2i_eqb_spec in E; subst; rewrite !v2i_eqb_refl; reflexivity|].
  symmetry. apply not_true_is_false. intro H. apply andb_true_iff in H. destruct H as [H1 H2]. apply v2i_eqb_spec in H1. apply v2i_eqb_spec in H2.
  assert (p = q) by (apply good; destruct (dec p), (dec q); cbn in *; subst; reflexivity). subst. rewrite v2i_eqb_refl in E. discriminate.
Qed.

(** the state invariant: every chunk is full size, no key twice *)
Definition wf (m : tilemap) : Prop := (forall k c, map_get (chunks m) k = Some c -> sized c).
Lemma wf_default : wf tilemap_default. Proof. intros k c H. discriminate. Qed.
Lemma wf_insert m k c ev : wf m -> sized c -> wf (Tilemap (map_insert (chunks m) k c) ev).
Proof. intros W S k' c' H. cbn [chunks] in H. rewrite map_get_insert in H. destruct (v2i_eqb k k'); [injection H as <-; exact S | apply (W _ _ H)]. Qed.

Definition tile_of (o : option chunk) (l : v2i) : Z := match o with Some c => match array_get c l with Some t => t | None => 0 end | None => 0 end.
Lemma get_tile_eq m p : get_tile m p = tile_of (get_chunk m (fst (dec p))) (snd (dec p)).
Proof. unfold Tilemap.get_tile, tile_of, get_chunk. destruct (dec p). reflexivity. Qed.

(** set_tile in one line per case *)
Lemma set_tile_spec m p t : wf m ->
  wf (set_tile m p t) /\
  (forall k, get_chunk (set_tile m p t) k = if v2i_eqb (fst (dec p)) k then
      Some (array_set (match get_chunk m k with Some c => c | None => chunk_default end) (snd (dec p)) t) else get_chunk m k) /\
  l_events (events (set_tile m p t)) = l_events (events m) ++
    match get_chunk m (fst (dec p)) with
    | None => [ChunkCreated (fst (dec p))]
    | Some _ => if get_tile m p =? t then [] else [ChunkChanged (fst (dec p))]
    end.
Proof.
  intro W. pose proof (dec_inr p) as R. rewrite get_tile_eq. unfold Tilemap.set_tile, get_chunk. destruct (dec p) as [cp l]; cbn [fst snd] in * .
  assert (SA : forall c, sized c -> array_get c l = Some t -> array_set c l t = c).
  { intros [d] S E. unfold array_get, array_set, sized in * . rewrite (proj2 (inr_spec l) R) in * . cbn [c_data] in * . f_equal.
    clear - E. revert E. generalize (local_index l) as n. induction d as [|x d IH]; intros [|n] E; cbn in *; try discriminate; [injection E as ->; reflexivity | f_equal; apply IH, E]. }
  destruct (map_get (chunks m) cp) as [c|] eqn:G.
  - pose proof (W _ _ G) as S. destruct (get_some c l S R) as (cur & E). unfold tile_of. rewrite E. destruct (cur =? t) eqn:Q; cbn [negb].
    + apply Z.eqb_eq in Q. subst cur. split; [apply wf_insert; assumption|]. split; [|cbn; rewrite app_nil_r; reflexivity].
      intro k. cbn [chunks]. rewrite map_get_insert. destruct (v2i_eqb cp k) eqn:K; [|reflexivity]. apply v2i_eqb_spec in K. subst k. rewrite G, SA by assumption. reflexivity.
    + split; [apply wf_insert; [assumption | apply sized_set, S]|]. split; [|reflexivity].
      intro k. cbn [chunks]. rewrite map_get_insert. destruct (v2i_eqb cp k) eqn:K; [|reflexivity]. apply v2i_eqb_spec in K. subst k. rewrite G. reflexivity.
  - rewrite (get_default l R). destruct (0 =? t) eqn:Q; cbn [negb].
    + apply Z.eqb_eq in Q. subst t. split; [apply wf_insert; [assumption | apply sized_default]|]. split; [|reflexivity].
      intro k. cbn [chunks]. rewrite map_get_insert. destruct (v2i_eqb cp k) eqn:K; [|reflexivity]. apply v2i_eqb_spec in K. subst k.
      rewrite G, SA; [reflexivity | apply sized_default | apply get_default, R].
    + split; [apply wf_insert; [assumption | apply sized_set, sized_default]|]. split; [|reflexivity].
      intro k. cbn [chunks]. rewrite map_get_insert. destruct (v2i_eqb cp k) eqn:K; [|reflexivity]. apply v2i_eqb_spec in K. subst k. rewrite G. reflexivity.
Qed.
Lemma remove_tile_spec m p : wf m ->
  let c' := array_set (match get_chunk m (fst (dec p)) with Some c => c | None => chunk_default end) (snd (dec p)) 0 in
  wf (remove_tile m p) /\
  (forall k, get_chunk (remove_tile m p) k = if v2i_eqb (fst (dec p)) k then (if array_all_zero c' then None else Some c') else get_chunk m k) /\
  l_events (events (remove_tile m p)) = l_events (events m) ++ (if array_all_zero c' then [ChunkRemoved (fst (dec p))] else []).
Proof.
  intro W. pose proof (dec_inr p) as R. unfold Tilemap.remove_tile, get_chunk. destruct (dec p) as [cp l]; cbn [fst snd] in * . cbv zeta.
  set (c := match map_get (chunks m) cp with Some c => c | None => chunk_default end).
  assert (S : sized c) by (unfold c; destruct (map_get (chunks m) cp) eqn:G; [apply (W _ _ G) | apply sized_default]).
  destruct (array_all_zero (array_set c l 0)) eqn:Z.
  - split; [|split].
    + intros k x H. cbn [chunks] in H. rewrite map_get_remove, map_get_insert in H. destruct (v2i_eqb cp k); [discriminate | apply (W _ _ H)].
    + intro k. cbn [chunks]. rewrite map_get_remove, map_get_insert. destruct (v2i_eqb cp k); reflexivity.
    + reflexivity.
  - split; [|split].
    + apply wf_insert; [exact W | apply sized_set, S].
    + intro k. cbn [chunks]. rewrite map_get_insert. reflexivity.
    + cbn. symmetry. apply app_nil_r.
Qed.

Lemma get_set_tile m p t q : wf m -> get_tile (set_tile m p t) q = if v2i_eqb p q then t else get_tile m q.
Proof.
  intro W. destruct (set_tile_spec m p t W) as (_ & G & _). rewrite !get_tile_eq, G, (dec_eq p q).
  destruct (v2i_eqb (fst (dec p)) (fst (dec q))) eqn:E; [|reflexivity]. cbn [andb].
  assert (S : sized (match get_chunk m (fst (dec q)) with Some c => c | None => chunk_default end)).
  { destruct (get_chunk m (fst (dec q))) eqn:H; [apply (W _ _ H) | apply sized_default]. }
  unfold tile_of. rewrite get_set; [|exact S | apply dec_inr | apply dec_inr].
  destruct (v2i_eqb (snd (dec p)) (snd (dec q))); [reflexivity|]. destruct (get_chunk m (fst (dec q))); [reflexivity|]. rewrite get_default by apply dec_inr. reflexivity.
Qed.
Lemma get_remove_tile m p q : wf m -> get_tile (remove_tile m p) q = if v2i_eqb p q then 0 else get_tile m q.
Proof.
  intro W. destruct (remove_tile_spec m p W) as (_ & G & _). rewrite !get_tile_eq, G, (dec_eq p q).
  destruct (v2i_eqb (fst (dec p)) (fst (dec q))) eqn:E; [|reflexivity]. cbn [andb]. apply v2i_eqb_spec in E. rewrite E.
  set (c := match get_chunk m (fst (dec q)) with Some c => c | None => chunk_default end).
  assert (S : sized c) by (unfold c; destruct (get_chunk m (fst (dec q))) eqn:H; [apply (W _ _ H) | apply sized_default]).
  assert (GS : array_get (array_set c (snd (dec p)) 0) (snd (dec q)) = if v2i_eqb (snd (dec p)) (snd (dec q)) then Some 0 else array_get c (snd (dec q))) by (apply get_set; [exact S | apply dec_inr | apply dec_inr]).
  assert (T0 : tile_of (get_chunk m (fst (dec q))) (snd (dec q)) = match array_get c (snd (dec q)) with Some t => t | None => 0 end).
  { unfold c, tile_of. destruct (get_chunk m (fst (dec q))); [reflexivity|]. rewrite get_default by apply dec_inr. reflexivity. }
  rewrite T0. destruct (get_some c (snd (dec q)) S (dec_inr q)) as (t & Et).
  destruct (array_all_zero (array_set c (snd (dec p)) 0)) eqn:Z; unfold tile_of.
  - destruct (v2i_eqb (snd (dec p)) (snd (dec q))) eqn:Q; [reflexivity|]. rewrite Et in * . rewrite (all_zero_get _ _ _ Z GS). reflexivity.
  - rewrite GS. destruct (v2i_eqb (snd (dec p)) (snd (dec q))); reflexivity.
Qed.
Lemma wf_apply m o : wf m -> wf (tm_apply dec m o).
Proof. intro W. destruct o; [apply set_tile_spec, W | apply remove_tile_spec, W]. Qed.
Lemma wf_run h m : wf m -> wf (fold_left (tm_apply dec) h m).
Proof. revert m. induction h as [|o h IH]; intros m W; cbn; [exact W | apply IH, wf_apply, W]. Qed.
End Dec.

(** ** C42 The tilemap is a map from positions to tiles *)
Theorem C42_tilemap_is_a_map : forall dec, good_decompose dec -> forall h p, get_tile dec (tm_run dec h) p = expected h p.
Proof.
  intros dec good h p. unfold tm_run, expected.
  assert (G : forall m v, wf m -> get_tile dec m p = v -> get_tile dec (fold_left (tm_apply dec) h m) p =
    fold_left (fun v o => match o with SetTile q t => if v2i_eqb q p then t else v | RemoveTile q => if v2i_eqb q p then 0 else v end) h v).
  { induction h as [|o h IH]; intros m v W E; cbn [fold_left]; [exact E|]. apply IH; [apply wf_apply; assumption|].
    destruct o as [q t|q]; cbn [tm_apply]; [rewrite get_set_tile by assumption | rewrite get_remove_tile by assumption]; rewrite E; reflexivity. }
  apply G; [apply wf_default|]. rewrite get_tile_eq. reflexivity.
Qed.
Print Assumptions C42_tilemap_is_a_map.
Example tilemap_example : get_tile euclid_decompose (tm_run euclid_decompose [SetTile (3, -2) 7; SetTile (3, 14) 9; SetTile (35, -2) 5; RemoveTile (3, 14)]) (3, -2) = 7.
Proof. vm_compute. reflexivity. Qed.

(** ** C43 Events *)
Definition ev_chunk (e : tm_event) : v2i := match e with ChunkCreated c | ChunkRemoved c | ChunkChanged c => c end.
(** the chunks present according to the ledger *)
Definition replay (es : list tm_event) (k : v2i) : bool :=
  fold_left (fun b e => match e with
                        | ChunkCreated c => if v2i_eqb c k then true else b
                        | ChunkRemoved c => if v2i_eqb c k then false else b
                        | ChunkChanged _ => b
                        end) es false.
(** the ledger's Created/Removed events replay to exactly the chunks present *)
Theorem C43_replay : forall dec, good_decompose dec -> forall h k,
  replay (l_events (events (tm_run dec h))) k = true <-> get_chunk (tm_run dec h) k <> None.
Proof.
  intros dec good h k. unfold tm_run.
  assert (G : forall m, wf m -> (replay (l_events (events m)) k = match get_chunk m k with Some _ => true | None => false end) ->
    (replay (l_events (events (fold_left (tm_apply dec) h m))) k = match get_chunk (fold_left (tm_apply dec) h m) k with Some _ => true | None => false end)).
  { induction h as [|o h IH]; intros m W E; cbn [fold_left]; [exact E|]. apply IH; [apply wf_apply; assumption|].
    destruct o as [q t|q]; cbn [tm_apply].
    - destruct (set_tile_spec dec good m q t W) as (_ & GC & EV). rewrite EV, GC. unfold replay in * . rewrite fold_left_app, E.
      destruct (v2i_eqb (fst (dec q)) k) eqn:K.
      + apply v2i_eqb_spec in K. rewrite K. destruct (get_chunk m k) eqn:GM.
        * destruct (get_tile dec m q =? t); reflexivity.
        * cbn. rewrite v2i_eqb_refl. reflexivity.
      + destruct (get_chunk m (fst (dec q))); [destruct (get_tile dec m q =? t); reflexivity|]. cbn. rewrite K. reflexivity.
    - destruct (remove_tile_spec dec good m q W) as (_ & GC & EV). rewrite EV, GC. unfold replay in * . rewrite fold_left_app, E.
      destruct (v2i_eqb (fst (dec q)) k) eqn:K.
      + destruct (array_all_zero _) eqn:Z; cbn [fold_left]; [rewrite K; reflexivity|]. apply v2i_eqb_spec in K. subst k.
        destruct (get_chunk m (fst (dec q))); [reflexivity|]. rewrite all_zero_default in Z. discriminate.
      + destruct (array_all_zero _); cbn [fold_left]; [rewrite K; reflexivity | reflexivity]. }
  rewrite (G tilemap_default (wf_default) eq_refl). destruct (get_chunk _ k); split; congruence.
Qed.
Print Assumptions C43_replay.
(** a set_tile that changes a tile appends exactly one event, for the tile's chunk: created if the chunk was absent, changed otherwise *)
Theorem C43_set_tile_announced : forall dec, good_decompose dec -> forall h p t, let m := tm_run dec h in
  get_tile dec m p <> t ->
  l_events (events (set_tile dec m p t)) = l_events (events m) ++
    [if match get_chunk m (tile_to_chunk_pos dec p) with Some _ => true | None => false end
     then ChunkChanged (tile_to_chunk_pos dec p) else ChunkCreated (tile_to_chunk_pos dec p)].
Proof.
  intros dec good h p t m N. destruct (set_tile_spec dec good m p t (wf_run dec good h _ wf_default)) as (_ & _ & ->). unfold tile_to_chunk_pos.
  destruct (get_chunk m (fst (dec p))); [|reflexivity]. rewrite (proj2 (Z.eqb_neq _ _) N). reflexivity.
Qed.
Print Assumptions C43_set_tile_announced.
(** setting the tile that is already there, in a chunk that exists, is silent and changes nothing *)
Theorem C43_set_tile_idempotent : forall dec, good_decompose dec -> forall h p, let m := tm_run dec h in
  get_chunk m (tile_to_chunk_pos dec p) <> None ->
  l_events (events (set_tile dec m p (get_tile dec m p))) = l_events (events m).
Proof.
  intros dec good h p m N. destruct (set_tile_spec dec good m p (get_tile dec m p) (wf_run dec good h _ wf_default)) as (_ & _ & ->). unfold tile_to_chunk_pos in N.
  destruct (get_chunk m (fst (dec p))); [|congruence]. rewrite Z.eqb_refl. apply app_nil_r.
Qed.
Print Assumptions C43_set_tile_idempotent.
(** two chunks are created, one tile changed, one set to the value it has *)
Example C43_case : l_events (events (tm_run euclid_decompose [SetTile (3, -2) 7; SetTile (35, -2) 5; SetTile (4, -2) 1; SetTile (4, -2) 1]))
  = [ChunkCreated (0, -1); ChunkCreated (2, -1); ChunkChanged (0, -1)].
Proof. vm_compute. reflexivity. Qed.
(** no operation touches or announces any other chunk, and past events are kept *)
Theorem C43_only_own_chunk : forall dec, good_decompose dec -> forall h o, let m := tm_run dec h in let m' := tm_apply dec m o in
  let own := tile_to_chunk_pos dec (match o with SetTile p _ | RemoveTile p => p end) in
  (forall k, k <> own -> get_chunk m' k = get_chunk m k) /\
  exists new, l_events (events m') = l_events (events m) ++ new /\ (length new <= 1)%nat /\ Forall (fun e => ev_chunk e = own) new.
Proof.
  intros dec good h o m m' own. pose proof (wf_run dec good h _ wf_default : wf m) as W. subst m'. unfold own, tile_to_chunk_pos; destruct o as [p t|p]; cbn [tm_apply].
  - destruct (set_tile_spec dec good m p t W) as (_ & GC & EV). split.
    + intros k N. rewrite GC. destruct (v2i_eqb (fst (dec p)) k) eqn:K; [apply v2i_eqb_spec in K; congruence | reflexivity].
    + eexists. split; [exact EV|]. destruct (get_chunk m (fst (dec p))); [destruct (_ =? _)|]; cbn; split; try lia; repeat constructor.
  - destruct (remove_tile_spec dec good m p W) as (_ & GC & EV). split.
    + intros k N. rewrite GC. destruct (v2i_eqb (fst (dec p)) k) eqn:K; [apply v2i_eqb_spec in K; congruence | reflexivity].
    + eexists. split; [exact EV|]. destruct (array_all_zero _); cbn; split; try lia; repeat constructor.
Qed.
Print Assumptions C43_only_own_chunk.
(** remove_tile: the chunk disappears and is announced exactly when no tile of it is left non-zero *)
Theorem C43_remove_tile_event : forall dec, good_decompose dec -> (forall c l, inr l -> exists q, dec q = (c, l)) -> forall h p, let m := tm_run dec h in let m' := remove_tile dec m p in
  (l_events (events m') = l_events (events m) ++ [ChunkRemoved (tile_to_chunk_pos dec p)] /\ get_chunk m' (tile_to_chunk_pos dec p) = None /\
     forall q, tile_to_chunk_pos dec q = tile_to_chunk_pos dec p -> get_tile dec m' q = 0) \/
  (l_events (events m') = l_events (events m) /\ exists q, tile_to_chunk_pos dec q = tile_to_chunk_pos dec p /\ get_tile dec m' q <> 0).
Proof.
  intros dec good onto h p m m'. pose proof (wf_run dec good h _ wf_default : wf m) as W. destruct (remove_tile_spec dec good m p W) as (W' & GC & EV).
  set (c' := array_set _ _ 0) in * . unfold tile_to_chunk_pos. fold m' in W', GC, EV.
  assert (Own : get_chunk m' (fst (dec p)) = if array_all_zero c' then None else Some c') by (rewrite GC, v2i_eqb_refl; reflexivity).
  destruct (array_all_zero c') eqn:Z; [left | right].
  - split; [exact EV|]. split; [exact Own|]. intros q E. rewrite get_tile_eq, E, Own. reflexivity.
  - split; [rewrite EV; apply app_nil_r|].
    assert (S : sized c') by apply (W' _ _ Own).
    assert (X : exists i, (i < 256)%nat /\ nth i (c_data c') 0 <> 0).
    { unfold array_all_zero, sized in * . rewrite <- S. clear - Z. revert Z. generalize (c_data c') as d.
      induction d as [|x d IH]; cbn [forallb]; [discriminate|]. intro H. destruct (Z.eqb_spec x 0) as [->|Nx].
      - destruct (IH H) as (i & L & Ni). exists (S i). cbn. split; [lia | exact Ni].
      - exists O. cbn. split; [lia | exact Nx]. }
    destruct X as (i & L & Ni). set (l := (Z.of_nat i mod 16, Z.of_nat i / 16)).
    assert (R : inr l).
    { unfold inr, l. cbn [fst snd]. pose proof (Z.mod_pos_bound (Z.of_nat i) 16 ltac:(lia)). pose proof (Z.div_mod (Z.of_nat i) 16 ltac:(lia)). lia. }
    destruct (onto (fst (dec p)) l R) as (q & Eq). exists q. rewrite Eq. split; [reflexivity|]. rewrite get_tile_eq, Eq. cbn [fst snd]. rewrite Own. cbn.
    unfold array_get. rewrite (proj2 (inr_spec l) R).
    replace (local_index l) with i by (unfold local_index, l; cbn [fst snd]; pose proof (Z.div_mod (Z.of_nat i) 16 ltac:(lia)); lia).
    rewrite (nth_error_nth' _ 0) by (unfold sized in S; lia). exact Ni.
Qed.
Print Assumptions C43_remove_tile_event.
(** Refuted: "every operation that changes a tile emits an event": remove_tile can change a tile silently ... *)
Theorem C43_removal_unannounced_refuted : exists h p,
  get_tile euclid_decompose (tm_run euclid_decompose h) p <> 0 /\ get_tile euclid_decompose (remove_tile euclid_decompose (tm_run euclid_decompose h) p) p = 0 /\
  l_events (events (remove_tile euclid_decompose (tm_run euclid_decompose h) p)) = l_events (events (tm_run euclid_decompose h)).
Proof. exists [SetTile (0, 0) 1; SetTile (1, 0) 1], (0, 0). vm_compute. split; [discriminate | split; reflexivity]. Qed.
Print Assumptions C43_removal_unannounced_refuted.
(** ... and a chunk can be announced removed although it was never created; and a chunk holding only zeros can exist *)
Theorem C43_removed_never_created_refuted : exists h k, l_events (events (tm_run euclid_decompose h)) = [ChunkRemoved k].
Proof. exists [RemoveTile (0, 0)], (0, 0). vm_compute. reflexivity. Qed.
Print Assumptions C43_removed_never_created_refuted.
Theorem C43_zero_chunk_exists_refuted : exists h k c, get_chunk (tm_run euclid_decompose h) k = Some c /\ array_all_zero c = true.
Proof. exists [SetTile (0, 0) 0], (0, 0), chunk_default. vm_compute. split; reflexivity. Qed.
Print Assumptions C43_zero_chunk_exists_refuted.

(** ** C46 Saving and loading *)
Lemma keys_remove m k : NoDup (map fst m) -> NoDup (map fst (map_remove m k)) /\ ~ In k (map fst (map_remove m k)).
Proof.
  intro N. induction m as [|[q c] m IH]; cbn; [split; [constructor | intros []]|]. inversion N as [|? ? N1 N2]; subst. destruct (IH N2) as [A B].
  unfold map_remove in * . destruct (v2i_eqb k q) eqn:E; cbn; [split; assumption|]. split.
  - constructor; [|exact A]. intro I. apply N1. apply in_map_iff in I. destruct I as (e & <- & I). apply filter_In in I. apply in_map, I.
  - intros [Q|I]; [subst; rewrite v2i_eqb_refl in E; discriminate | contradiction].
Qed.
Lemma keys_insert m k c : NoDup (map fst m) -> NoDup (map fst (map_insert m k c)).
Proof. intro N. destruct (keys_remove m k N). cbn. constructor; assumption. Qed.
Lemma keys_run dec h : NoDup (map fst (chunks (tm_run dec h))).
Proof.
  unfold tm_run. assert (G : forall m, NoDup (map fst (chunks m)) -> NoDup (map fst (chunks (fold_left (tm_apply dec) h m)))); [|apply G; constructor].
  induction h as [|o h IH]; intros m N; cbn; [exact N|]. apply IH. destruct o as [p t|p]; cbn [tm_apply].
  - unfold set_tile. destruct (dec p) as [cp l]. destruct (map_get (chunks m) cp); destruct (array_get _ l); try destruct (negb _); cbn [chunks]; apply keys_insert, N.
  - unfold remove_tile. destruct (dec p) as [cp l]. destruct (array_all_zero _); cbn [chunks]; [apply keys_remove|]; apply keys_insert, N.
Qed.
Lemma map_get_in m k c : NoDup (map fst m) -> (map_get m k = Some c <-> In (k, c) m).
Proof.
  induction m as [|[q d] m IH]; intro N; cbn; [split; [discriminate | intros []]|]. inversion N as [|? ? N1 N2]; subst. destruct (v2i_eqb k q) eqn:E.
  - apply v2i_eqb_spec in E. subst. split; [intro H; injection H as <-; auto|]. intros [H|H]; [injection H as <-; reflexivity|].
    exfalso. apply N1. apply (in_map fst) in H. exact H.
  - rewrite (IH N2). split; [auto|]. intros [H|H]; [injection H as -> ->; rewrite v2i_eqb_refl in E; discriminate | exact H].
Qed.
Lemma load_get l k : NoDup (map fst l) -> map_get (chunks (tilemap_load l)) k = map_get l k.
Proof.
  unfold tilemap_load. cbn [chunks]. intro N.
  assert (G : forall l m, NoDup (map fst l) -> map_get (fold_left (fun m e => map_insert m (fst e) (snd e)) l m) k = match map_get l k with Some c => Some c | None => map_get m k end).
  { clear. induction l as [|[q c] l IH]; intros m N; cbn [fold_left map_get fst snd]; [reflexivity|]. inversion N as [|? ? N1 N2]; subst.
    rewrite IH by exact N2. rewrite map_get_insert, (v2i_eqb_sym q k). destruct (v2i_eqb k q) eqn:E; [|reflexivity]. apply v2i_eqb_spec in E. subst.
    destruct (map_get l q) eqn:Q; [|reflexivity]. exfalso. apply N1. apply (map_get_in _ _ _ N2) in Q. apply (in_map fst) in Q. exact Q. }
  rewrite (G l [] N). destruct (map_get l k); reflexivity.
Qed.
(** for every order [l] in which the entries are written: the loaded map has the same tiles and chunks, and no events *)
Theorem C46_save_load : forall dec, forall h l, Permutation (tilemap_entries (tm_run dec h)) l ->
  (forall p, get_tile dec (tilemap_load l) p = get_tile dec (tm_run dec h) p) /\
  (forall k, get_chunk (tilemap_load l) k = get_chunk (tm_run dec h) k) /\
  l_events (events (tilemap_load l)) = [].
Proof.
  intros dec h l P. pose proof (keys_run dec h) as N. assert (N' : NoDup (map fst l)) by (eapply Permutation_NoDup; [apply Permutation_map, P | exact N]).
  assert (C : forall k, get_chunk (tilemap_load l) k = get_chunk (tm_run dec h) k).
  { intro k. unfold get_chunk. rewrite (load_get l k N'). destruct (map_get l k) eqn:E.
    - symmetry. apply (map_get_in _ _ _ N). apply (map_get_in _ _ _ N') in E. apply Permutation_sym in P. apply (Permutation_in _ P E).
    - destruct (map_get (chunks (tm_run dec h)) k) eqn:E2; [|reflexivity]. apply (map_get_in _ _ _ N) in E2. apply (Permutation_in _ P), (map_get_in _ _ _ N') in E2. congruence. }
  split; [|split; [exact C | reflexivity]]. intro p. rewrite !get_tile_eq, C. reflexivity.
Qed.
Print Assumptions C46_save_load.
(** and what a history says about every position survives saving and loading *)
Theorem C46_tiles_survive : forall dec, good_decompose dec -> forall h l, Permutation (tilemap_entries (tm_run dec h)) l ->
  forall p, get_tile dec (tilemap_load l) p = expected h p.
Proof. intros dec good h l P p. destruct (C46_save_load dec h l P) as [-> _]. apply C42_tilemap_is_a_map, good. Qed.
Print Assumptions C46_tiles_survive.
Example euclid_onto : forall c l, inr l -> exists q, euclid_decompose q = (c, l).
Proof.
  intros [cx cy] [lx ly] [Hx Hy]; cbn [fst snd] in * . exists (16 * cx + lx, 16 * cy + ly). unfold euclid_decompose. cbn [fst snd].
  rewrite !(Z.mul_comm 16), !Z.div_add_l, !Z.div_small, !Z.add_0_r, !(Z.add_comm (_ * 16)), !Z.mod_add, !Z.mod_small by lia. reflexivity.
Qed.
