(** * C58: convex polygons on a small grid: every f32 verdict is exact

    In binary32, rounding included. All coordinates are whole numbers of grid steps, the step a power of two between 1/128 and 16384, and the sizes of the two polygons
    (from their own origins) and their distance add up to at most 32 steps. Then every query reports a collision when the polygons overlap and none when they have no
    common point; none of them panics, whatever the case. (C33 has triangles with coordinates below 50 for which this fails.) *)
From Coq Require Import Reals ZArith Bool Lra Lia List Psatz.
From Flocq Require Import IEEE754.BinarySingleNaN Core.
From Verif Require Import Num NumXR NumB32 Glam Transform2 Shapes2 Gjk Detect2 Spec SpecLink P_Base P_Transform P_Shapes P_Geo P_B32 Props_F32 Props_F32Gjk Props_F32Box
  P_Grid32 P_Grid32b P_Grid32c P_Grid32d.
Import ListNotations.
Local Open Scope R_scope.

(** ** Vocabulary *)
(** x is a whole number, at most N, of steps of 2^e *)
Definition on_steps (e N : Z) (x : b32) : Prop := is_finite x = true /\ exists m, (Z.abs m <= N)%Z /\ val x = IZR m * bpow radix2 e.
Definition steps2 (e N : Z) (v : vec2 b32) : Prop := on_steps e N (vx v) /\ on_steps e N (vy v).
(** the polygon with these vertices: its convex hull *)
Definition polygon (l : list (vec2 b32)) : pset := hull (map rval l).
(** x is the whole number n *)
Definition whole (x : b32) (n : Z) : Prop := is_finite x = true /\ val x = IZR n.
(** t turns by a multiple of 90 degrees, (c, s) being its cosine and sine, scales by k, and moves by at most N steps *)
Definition quarter_placement (e N : Z) (t : transform2d b32) (c s k : Z) : Prop :=
  steps2 e N (t_pos t) /\ (Z.abs c + Z.abs s = 1)%Z /\ whole (vx (ra (t_rot t))) c /\ whole (vy (ra (t_rot t))) s /\ whole (vx (t_scale t)) k /\ whole (vy (t_scale t)) k.
(** where such a placement puts a point *)
Definition put (t : transform2d b32) (c s k : Z) : pt -> pt := place (rval (t_pos t)) (IZR c) (IZR s) (IZR k) (IZR k).

(** ** From the vocabulary to the relations *)
Section Link.
Variable e : Z.
Hypothesis He : (-7 <= e <= 14)%Z.
Lemma steps_ptn N v : steps2 e N v -> ptn e N v (inj (rv v)).
Proof.
  intros [(FX & m & BM & EX) (FY & n & BN & EY)]. exists (m, n). split; [split; assumption|].
  split; (split; [assumption|]); rewrite Z.mul_1_l; cbn [fst snd inj rv vx vy]; (split; [assumption | f_equal; assumption]).
Qed.
Lemma list_ptn N l : Forall (steps2 e N) l -> Forall2 (ptn e N) l (map (fun p => inj (rv p)) l).
Proof. induction 1; cbn; constructor; [apply steps_ptn; assumption | assumption]. Qed.
Lemma whole_is x n : whole x n -> is e 0 n x (XFin (IZR n)).
Proof. intros [F V]. split; [exact F|]. change (bpow radix2 (0 * e)) with 1. rewrite Rmult_1_r. split; [exact V | reflexivity]. Qed.
Lemma quarter_t2i N t c s k : quarter_placement e N t c s k -> exists z, (Z.abs (fst z) <= N /\ Z.abs (snd z) <= N)%Z /\
  t2i e z c s k t (t2 (rval (t_pos t)) (IZR c) (IZR s) (IZR k) (IZR k)).
Proof.
  intros (P & U & WC & WS & KX & KY). destruct (steps_ptn N _ P) as (z & B & I). exists z. split; [exact B|].
  split; [exact I|]. split; [split; [exact U|]; split; [apply whole_is, WC | apply whole_is, WS]|]. split; [apply whole_is, KX | apply whole_is, KY].
Qed.
End Link.
Lemma unit_sq c s : (Z.abs c + Z.abs s = 1)%Z -> IZR c * IZR c + IZR s * IZR s = 1.
Proof. intro U. rewrite <- !mult_IZR, <- plus_IZR. f_equal. destruct (unit_cases c s U) as [(-> & ->)|[(-> & ->)|[(-> & ->)|(-> & ->)]]]; reflexivity. Qed.
Lemma shift_place v X : same_set (image (place v 1 0 1 1) X) (shift v X).
Proof.
  intro p. split.
  - intros (q & Q & ->). unfold shift. replace (psub (place v 1 0 1 1 q) v) with q; [exact Q|]. apply pt_eq; cbn; ring.
  - intro Q. exists (psub p v). split; [exact Q|]. apply pt_eq; cbn; ring.
Qed.
Lemma same_refl X : same_set X X. Proof. intro p. tauto. Qed.

(** *** the queries on two translated polygons *)
Section Moved.
Variables (e Na Nb Nr : Z) (la lb : list (vec2 b32)) (rel : vec2 b32).
Hypothesis He : (-7 <= e <= 14)%Z.
Hypothesis Hne : la <> [] /\ lb <> [].
Hypothesis Ha : Forall (steps2 e Na) la.
Hypothesis Hb : Forall (steps2 e Nb) lb.
Hypothesis Hr : steps2 e Nr rel.
Hypothesis HN : (Na + Nb + Nr <= 32)%Z.
Lemma steps_nonneg N v : steps2 e N v -> (0 <= N)%Z.
Proof. intros [(_ & m & B & _) _]. lia. Qed.
Lemma na_nonneg : (0 <= Na)%Z.
Proof. destruct Hne as [A _]. destruct la as [|p l]; [contradiction|]. inversion Ha as [|? ? P ?]; subst. exact (steps_nonneg _ _ P). Qed.
Lemma nb_nonneg : (0 <= Nb)%Z.
Proof. destruct Hne as [_ A]. destruct lb as [|p l]; [contradiction|]. inversion Hb as [|? ? P ?]; subst. exact (steps_nonneg _ _ P). Qed.
Lemma moved_apply p p' : ptn e Nb p p' -> ptn e (Nb + Nr) (apply rel p) (apply (inj (rv rel)) p').
Proof.
  intros (z & [B1 B2] & I). destruct (steps_ptn e Nr rel Hr) as (y & [C1 C2] & J). pose proof na_nonneg. pose proof nb_nonneg.
  exists (fst z + fst y, snd z + snd y)%Z. split; [cbn; lia|]. apply (iv_add e He); try assumption; lia.
Qed.
Lemma moved_sound P D : exists r w, sdfv_common_rel (F:=b32) P D (Poly2d la) (Poly2d lb) rel = Ok (r, w) /\ (r = true -> meets (polygon la) (shift (rval rel) (polygon lb))).
Proof.
  pose proof na_nonneg. pose proof nb_nonneg. pose proof (steps_nonneg _ _ Hr).
  destruct (pair_sound e He la lb rel (inj (rv rel)) Na Nb (Nb + Nr) (rv rel) 1 0 1 (list_ptn e Na la Ha) (list_ptn e Nb lb Hb) ltac:(lia) moved_apply
    (fun d d' H => H) (ptn_le e Nr 32 _ _ ltac:(lia) (steps_ptn e Nr rel Hr)) Hne (acts_vec2 (rv rel)) ltac:(ring) ltac:(lra)
    (ex_intro _ 1%Z (ex_intro _ 0%Z (ex_intro _ 1%Z (conj eq_refl (conj eq_refl eq_refl))))) P D) as (r & w & E & M).
  exists r, w. split; [exact E|]. intro R. apply (meets_ext _ _ _ _ (same_refl _) (shift_place (rval rel) (polygon lb))). exact (M R).
Qed.
Lemma moved_hits P D : (length la * length lb <= 20)%nat -> overlaps (polygon la) (shift (rval rel) (polygon lb)) ->
  exists w, sdfv_common_rel (F:=b32) P D (Poly2d la) (Poly2d lb) rel = Ok (true, w).
Proof.
  intros L O. pose proof na_nonneg. pose proof nb_nonneg. pose proof (steps_nonneg _ _ Hr).
  apply (pair_hits e He la lb rel (inj (rv rel)) Na Nb (Nb + Nr) (rv rel) 1 0 1 (list_ptn e Na la Ha) (list_ptn e Nb lb Hb) ltac:(lia) moved_apply
    (fun d d' H => H) (ptn_le e Nr 32 _ _ ltac:(lia) (steps_ptn e Nr rel Hr)) Hne (acts_vec2 (rv rel)) ltac:(ring) ltac:(lra)
    (ex_intro _ 1%Z (ex_intro _ 0%Z (ex_intro _ 1%Z (conj eq_refl (conj eq_refl eq_refl))))) P D L).
  apply (same_overlaps _ _ _ _ (diff_ext _ _ _ _ (same_refl _) (shift_place (rval rel) (polygon lb)))). exact O.
Qed.
End Moved.
Lemma misses_sound {A B T : Type} {SD : SdfvCommonRel2d b32 A B T} (a : A) (b : B) (rel : T) (Q : Prop) : ~ Q ->
  (forall P D, exists r w, sdfv_common_rel (F:=b32) P D a b rel = Ok (r, w) /\ (r = true -> Q)) -> every_query_misses a b rel.
Proof. intros N H. apply misses_of. intros P D. destruct (H P D) as (r & w & E & R). destruct r; [exfalso; apply N, R; reflexivity | exists w; exact E]. Qed.

(** ** The theorems *)
Theorem C58_polygons_hit : forall (e Na Nb Nr : Z) (la lb : list (vec2 b32)) (rel : vec2 b32), (-7 <= e <= 14)%Z -> la <> [] -> lb <> [] ->
  Forall (steps2 e Na) la -> Forall (steps2 e Nb) lb -> steps2 e Nr rel -> (Na + Nb + Nr <= 32)%Z -> (length la * length lb <= 20)%nat ->
  overlaps (polygon la) (shift (rval rel) (polygon lb)) ->
  every_query_hits (Poly2d la) (Poly2d lb) rel /\ every_query_hits (SPoly (Poly2d la)) (SPoly (Poly2d lb)) rel /\
  every_query_hits (Poly2d la) (Poly2d lb) (Translate2d rel).
Proof.
  intros e Na Nb Nr la lb rel He Na0 Nb0 Ha Hb Hr HN L O. pose proof (fun P D => moved_hits e Na Nb Nr la lb rel He (conj Na0 Nb0) Ha Hb Hr HN P D L O) as H.
  repeat split; apply hits_of; intros P D; exact (H P D).
Qed.
Print Assumptions C58_polygons_hit.
Theorem C58_polygons_miss : forall (e Na Nb Nr : Z) (la lb : list (vec2 b32)) (rel : vec2 b32), (-7 <= e <= 14)%Z -> la <> [] -> lb <> [] ->
  Forall (steps2 e Na) la -> Forall (steps2 e Nb) lb -> steps2 e Nr rel -> (Na + Nb + Nr <= 32)%Z ->
  ~ meets (polygon la) (shift (rval rel) (polygon lb)) ->
  every_query_misses (Poly2d la) (Poly2d lb) rel /\ every_query_misses (SPoly (Poly2d la)) (SPoly (Poly2d lb)) rel /\
  every_query_misses (Poly2d la) (Poly2d lb) (Translate2d rel).
Proof.
  intros e Na Nb Nr la lb rel He Na0 Nb0 Ha Hb Hr HN O. pose proof (moved_sound e Na Nb Nr la lb rel He (conj Na0 Nb0) Ha Hb Hr HN) as H.
  repeat split; apply (misses_sound _ _ _ _ O); intros P D; exact (H P D).
Qed.
Print Assumptions C58_polygons_miss.
(** no panic, touching or not *)
Theorem C58_no_panic : forall (e Na Nb Nr : Z) (la lb : list (vec2 b32)) (rel : vec2 b32), (-7 <= e <= 14)%Z -> la <> [] -> lb <> [] ->
  Forall (steps2 e Na) la -> Forall (steps2 e Nb) lb -> steps2 e Nr rel -> (Na + Nb + Nr <= 32)%Z ->
  forall P D, exists answer, sdfv_common_rel (F:=b32) P D (Poly2d la) (Poly2d lb) rel = Ok answer.
Proof.
  intros e Na Nb Nr la lb rel He Na0 Nb0 Ha Hb Hr HN P D. destruct (moved_sound e Na Nb Nr la lb rel He (conj Na0 Nb0) Ha Hb Hr HN P D) as (r & w & E & _).
  exists (r, w). exact E.
Qed.
Print Assumptions C58_no_panic.

(** ** Quarter turns and whole-number scales *)
Section Turned.
Variables (e Na Nb Nr : Z) (la lb : list (vec2 b32)) (rel : transform2d b32) (relX : transform2d XR) (z : Z * Z) (c s k : Z).
Hypothesis He : (-7 <= e <= 14)%Z.
Hypothesis Hne : la <> [] /\ lb <> [].
Hypothesis Ha : Forall (steps2 e Na) la.
Hypothesis Hb : Forall (steps2 e Nb) lb.
Hypothesis Hz : (Z.abs (fst z) <= Nr /\ Z.abs (snd z) <= Nr)%Z.
Hypothesis Ht : t2i e z c s k rel relX.
Variable v : pt.
Hypothesis Hact : acts_as relX v (IZR c) (IZR s) (IZR k).
Hypothesis Hk : (0 <= k <= 32)%Z.
Hypothesis HN : (Na + k * Nb + Nr <= 32)%Z.
Hypothesis HNb : (Nb <= 32)%Z.
Let B := image (place v (IZR c) (IZR s) (IZR k) (IZR k)) (polygon lb).
Lemma turned_apply p p' : ptn e Nb p p' -> ptn e (k * Nb + Nr) (apply rel p) (apply relX p').
Proof.
  intros (y & BY & I). assert (0 <= k * Nb)%Z by (apply Z.mul_nonneg_nonneg; lia).
  pose proof (na_nonneg e Na la lb Hne Ha).
  destruct (t2i_apply e He z c s k rel relX y p p' Nr Nb Ht I Hz BY ltac:(lia) ltac:(lia) ltac:(lia)) as [J C]. eexists. split; [|exact J]. exact C.
Qed.
Lemma turned_unapply d d' : diri e d d' -> diri e (unapply_normal rel d) (unapply_normal relX d').
Proof. destruct Ht as (_ & R & _). apply (diri_rot e He c (- s)), roti_inverse, R. Qed.
Lemma turned_origin : ptn e 32 (apply_origin rel) (apply_origin relX).
Proof.
  destruct Ht as (I & _). exists z. split; [|exact I]. pose proof (na_nonneg e Na la lb Hne Ha). pose proof (nb_nonneg e Nb la lb Hne Hb).
  assert (0 <= k * Nb)%Z by (apply Z.mul_nonneg_nonneg; lia). lia.
Qed.
Lemma turned_range : (0 <= Na /\ 0 <= Nb <= 32 /\ 0 <= k * Nb + Nr /\ Na + (k * Nb + Nr) <= 32)%Z.
Proof.
  pose proof (na_nonneg e Na la lb Hne Ha). pose proof (nb_nonneg e Nb la lb Hne Hb). assert (0 <= k * Nb)%Z by (apply Z.mul_nonneg_nonneg; lia). lia.
Qed.
Lemma turned_sound P D : exists r w, sdfv_common_rel (F:=b32) P D (Poly2d la) (Poly2d lb) rel = Ok (r, w) /\ (r = true -> meets (polygon la) B).
Proof.
  apply (pair_sound e He la lb rel relX Na Nb (k * Nb + Nr) v (IZR c) (IZR s) (IZR k) (list_ptn e Na la Ha) (list_ptn e Nb lb Hb) turned_range turned_apply
    turned_unapply turned_origin Hne Hact (unit_sq c s (proj1 (proj1 (proj2 Ht)))) (conj (IZR_le _ _ (proj1 Hk)) (IZR_le _ _ (proj2 Hk)))
    (ex_intro _ c (ex_intro _ s (ex_intro _ k (conj eq_refl (conj eq_refl eq_refl))))) P D).
Qed.
Lemma turned_hits P D : (length la * length lb <= 20)%nat -> overlaps (polygon la) B -> exists w, sdfv_common_rel (F:=b32) P D (Poly2d la) (Poly2d lb) rel = Ok (true, w).
Proof.
  intros L O. exact (pair_hits e He la lb rel relX Na Nb (k * Nb + Nr) v (IZR c) (IZR s) (IZR k) (list_ptn e Na la Ha) (list_ptn e Nb lb Hb) turned_range turned_apply
    turned_unapply turned_origin Hne Hact (unit_sq c s (proj1 (proj1 (proj2 Ht)))) (conj (IZR_le _ _ (proj1 Hk)) (IZR_le _ _ (proj2 Hk)))
    (ex_intro _ c (ex_intro _ s (ex_intro _ k (conj eq_refl (conj eq_refl eq_refl))))) P D L O).
Qed.
End Turned.
Theorem C58_turned_hit : forall (e Na Nb Nr : Z) (la lb : list (vec2 b32)) (rel : transform2d b32) (c s k : Z), (-7 <= e <= 14)%Z -> la <> [] -> lb <> [] ->
  Forall (steps2 e Na) la -> Forall (steps2 e Nb) lb -> quarter_placement e Nr rel c s k -> (0 <= k <= 32)%Z -> (Nb <= 32)%Z -> (Na + k * Nb + Nr <= 32)%Z ->
  (length la * length lb <= 20)%nat -> overlaps (polygon la) (image (put rel c s k) (polygon lb)) ->
  every_query_hits (Poly2d la) (Poly2d lb) rel /\ every_query_hits (SPoly (Poly2d la)) (SPoly (Poly2d lb)) rel.
Proof.
  intros e Na Nb Nr la lb rel c s k He Na0 Nb0 Ha Hb Hq Hk HNb HN L O. destruct (quarter_t2i e Nr rel c s k Hq) as (z & Bz & T).
  pose proof (fun P D => turned_hits e Na Nb Nr la lb rel _ z c s k He (conj Na0 Nb0) Ha Hb Bz T _ (acts_t2 _ _ _ _) Hk HN HNb P D L O) as H.
  split; apply hits_of; intros P D; exact (H P D).
Qed.
Print Assumptions C58_turned_hit.
Theorem C58_turned_miss : forall (e Na Nb Nr : Z) (la lb : list (vec2 b32)) (rel : transform2d b32) (c s k : Z), (-7 <= e <= 14)%Z -> la <> [] -> lb <> [] ->
  Forall (steps2 e Na) la -> Forall (steps2 e Nb) lb -> quarter_placement e Nr rel c s k -> (0 <= k <= 32)%Z -> (Nb <= 32)%Z -> (Na + k * Nb + Nr <= 32)%Z ->
  ~ meets (polygon la) (image (put rel c s k) (polygon lb)) ->
  every_query_misses (Poly2d la) (Poly2d lb) rel /\ every_query_misses (SPoly (Poly2d la)) (SPoly (Poly2d lb)) rel.
Proof.
  intros e Na Nb Nr la lb rel c s k He Na0 Nb0 Ha Hb Hq Hk HNb HN O. destruct (quarter_t2i e Nr rel c s k Hq) as (z & Bz & T).
  pose proof (turned_sound e Na Nb Nr la lb rel _ z c s k He (conj Na0 Nb0) Ha Hb Bz T _ (acts_t2 _ _ _ _) Hk HN HNb) as H.
  split; apply (misses_sound _ _ _ _ O); intros P D; exact (H P D).
Qed.
Print Assumptions C58_turned_miss.

(** ** Colliders in the world: far from the origin, each turned by a multiple of 90 degrees *)
Section World.
Variables (e Na Nb Nr : Z) (la lb : list (vec2 b32)) (p q : transform2d b32) (c s c' s' : Z).
Hypothesis He : (-7 <= e <= 14)%Z.
Hypothesis Hne : la <> [] /\ lb <> [].
Hypothesis Ha : Forall (steps2 e Na) la.
Hypothesis Hb : Forall (steps2 e Nb) lb.
Hypothesis Hp : quarter_placement e (2 ^ 22) p c s 1.
Hypothesis Hq : quarter_placement e (2 ^ 22) q c' s' 1.
Hypothesis Hd : Rabs (val (vx (t_pos q)) - val (vx (t_pos p))) <= IZR Nr * bpow radix2 e /\ Rabs (val (vy (t_pos q)) - val (vy (t_pos p))) <= IZR Nr * bpow radix2 e.
Hypothesis HN : (Na + Nb + Nr <= 32)%Z.
Let pX := t2 (rval (t_pos p)) (IZR c) (IZR s) 1 1.
Let qX := t2 (rval (t_pos q)) (IZR c') (IZR s') 1 1.
Let v := rotate (IZR c) (- IZR s) (psub (rval (t_pos q)) (rval (t_pos p))).
Lemma steps_le m N : Rabs (IZR m * bpow radix2 e) <= IZR N * bpow radix2 e -> (Z.abs m <= N)%Z.
Proof.
  rewrite Rabs_mult, (Rabs_pos_eq (bpow _ _)) by apply bpow_ge_0. rewrite <- abs_IZR. intro H.
  apply Rmult_le_reg_r in H; [apply le_IZR, H | apply bpow_gt_0].
Qed.
Lemma delta_acts : acts_as (delta_transform pX qX) v (IZR (c * c' + s * s')) (IZR (c * s' - s * c')) 1.
Proof.
  unfold pX, qX. rewrite delta_t2 by lra. destruct Hp as (_ & U & _). pose proof (unit_sq c s U) as U2.
  replace (place (unplace (rval (t_pos p)) (IZR c) (IZR s) 1 1 origin) (IZR c) (- IZR s) (1 / 1) (1 / 1) (rval (t_pos q))) with v.
  2:{ unfold v. apply pt_eq; cbn; field. }
  replace (IZR c * IZR c' - - IZR s * IZR s') with (IZR (c * c' + s * s')) by (rewrite plus_IZR, !mult_IZR; ring).
  replace (IZR c * IZR s' + - IZR s * IZR c') with (IZR (c * s' - s * c')) by (rewrite minus_IZR, !mult_IZR; ring).
  replace (1 / 1 * 1) with 1 by field. apply acts_t2.
Qed.
Lemma delta_rel : exists z, (Z.abs (fst z) <= Nr /\ Z.abs (snd z) <= Nr)%Z /\ t2i e z (c * c' + s * s') (c * s' - s * c') 1 (delta_transform p q) (delta_transform pX qX).
Proof.
  destruct (quarter_t2i e _ p c s 1 Hp) as (zp & Bp & Tp). destruct (quarter_t2i e _ q c' s' 1 Hq) as (zq & Bq & Tq).
  exists (turn c (- s) (fst zq - fst zp, snd zq - snd zp)%Z). split.
  - apply turn_bound; [destruct Hp as (_ & U & _); unfold unit_int; lia|]. cbn [fst snd].
    destruct Tp as ([(_ & PX & _) (_ & PY & _)] & _). destruct Tq as ([(_ & QX & _) (_ & QY & _)] & _). rewrite Z.mul_1_l in PX, PY, QX, QY.
    destruct Hd as [H1 H2]. rewrite PX, QX, <- Rmult_minus_distr_r, <- minus_IZR in H1. rewrite PY, QY, <- Rmult_minus_distr_r, <- minus_IZR in H2.
    split; apply steps_le; assumption.
  - apply (t2i_unit e He zp c s p pX Tp Bp zq c' s' q qX Tq Bq).
Qed.
Let C := IZR (c * c' + s * s').
Let S := IZR (c * s' - s * c').
Lemma world_sets : same_set (image (put p c s 1) (image (place v C S 1 1) (polygon lb))) (image (put q c' s' 1) (polygon lb)).
Proof.
  assert (E : forall x, put p c s 1 (place v C S 1 1 x) = put q c' s' 1 x).
  { intro x. destruct Hp as (_ & U & _). pose proof (unit_sq c s U) as U2. unfold put, v, C, S. rewrite plus_IZR, minus_IZR, !mult_IZR. apply pt_eq; cbn.
    - transitivity ((IZR c * IZR c + IZR s * IZR s) * (IZR c' * (1 * fst x) - IZR s' * (1 * snd x) + val (vx (t_pos q)) - val (vx (t_pos p))) + val (vx (t_pos p))); [ring | rewrite U2; ring].
    - transitivity ((IZR c * IZR c + IZR s * IZR s) * (IZR s' * (1 * fst x) + IZR c' * (1 * snd x) + val (vy (t_pos q)) - val (vy (t_pos p))) + val (vy (t_pos p))); [ring | rewrite U2; ring]. }
  intro y. split.
  - intros (x & (w & W & ->) & ->). exists w. split; [exact W | apply E].
  - intros (w & W & ->). exists (place v C S 1 1 w). split; [exists w; auto | symmetry; apply E].
Qed.
Lemma world_overlaps : overlaps (image (put p c s 1) (polygon la)) (image (put q c' s' 1) (polygon lb)) <-> overlaps (polygon la) (image (place v C S 1 1) (polygon lb)).
Proof.
  destruct Hp as (_ & U & _). rewrite <- (rigid_overlaps (rval (t_pos p)) (IZR c) (IZR s) (unit_sq c s U) (polygon la) (image (place v C S 1 1) (polygon lb))). symmetry.
  apply (same_overlaps _ _ _ _ (diff_ext _ _ _ _ (same_refl _) world_sets)).
Qed.
Lemma world_meets : meets (polygon la) (image (place v C S 1 1) (polygon lb)) -> meets (image (put p c s 1) (polygon la)) (image (put q c' s' 1) (polygon lb)).
Proof.
  intros (x & X1 & X2). exists (put p c s 1 x). split; [exists x; auto|]. apply world_sets. exists x. auto.
Qed.
Lemma world_range : (Na + 1 * Nb + Nr <= 32)%Z. Proof. lia. Qed.
Lemma nb_le : (Nb <= 32)%Z.
Proof.
  pose proof (na_nonneg e Na la lb Hne Ha). destruct delta_rel as (z & B & _). lia.
Qed.
Lemma world_sound P D : exists r w, sdfv_common_rel (F:=b32) P D (Poly2d la) (Poly2d lb) (delta_transform p q) = Ok (r, w) /\
  (r = true -> meets (image (put p c s 1) (polygon la)) (image (put q c' s' 1) (polygon lb))).
Proof.
  destruct delta_rel as (z & B & T).
  destruct (turned_sound e Na Nb Nr la lb _ _ z _ _ 1 He Hne Ha Hb B T v delta_acts ltac:(lia) world_range nb_le P D) as (r & w & E & M).
  exists r, w. split; [exact E|]. intro R. apply world_meets, M, R.
Qed.
Lemma world_pair_hits P D : (length la * length lb <= 20)%nat -> overlaps (image (put p c s 1) (polygon la)) (image (put q c' s' 1) (polygon lb)) ->
  exists w, sdfv_common_rel (F:=b32) P D (Poly2d la) (Poly2d lb) (delta_transform p q) = Ok (true, w).
Proof.
  intros L O. destruct delta_rel as (z & B & T). apply world_overlaps in O.
  exact (turned_hits e Na Nb Nr la lb _ _ z _ _ 1 He Hne Ha Hb B T v delta_acts ltac:(lia) world_range nb_le P D L O).
Qed.
End World.
Theorem C58_world_hit : forall (e Na Nb Nr : Z) (la lb : list (vec2 b32)) (p q : transform2d b32) (c s c' s' : Z), (-7 <= e <= 14)%Z -> la <> [] -> lb <> [] ->
  Forall (steps2 e Na) la -> Forall (steps2 e Nb) lb -> quarter_placement e (2 ^ 22) p c s 1 -> quarter_placement e (2 ^ 22) q c' s' 1 ->
  Rabs (val (vx (t_pos q)) - val (vx (t_pos p))) <= IZR Nr * bpow radix2 e -> Rabs (val (vy (t_pos q)) - val (vy (t_pos p))) <= IZR Nr * bpow radix2 e ->
  (Na + Nb + Nr <= 32)%Z -> (length la * length lb <= 20)%nat ->
  overlaps (image (put p c s 1) (polygon la)) (image (put q c' s' 1) (polygon lb)) ->
  hits_world (Collider2d (Poly2d la) p) (Collider2d (Poly2d lb) q) /\ hits_world (Collider2d (SPoly (Poly2d la)) p) (Collider2d (SPoly (Poly2d lb)) q).
Proof.
  intros e Na Nb Nr la lb p q c s c' s' He Na0 Nb0 Ha Hb Hp Hq D1 D2 HN L O.
  pose proof (fun P D => world_pair_hits e Na Nb Nr la lb p q c s c' s' He (conj Na0 Nb0) Ha Hb Hp Hq (conj D1 D2) HN P D L O) as H.
  split; apply world_hits, hits_of; intros P D; exact (H P D).
Qed.
Print Assumptions C58_world_hit.
Theorem C58_world_miss : forall (e Na Nb Nr : Z) (la lb : list (vec2 b32)) (p q : transform2d b32) (c s c' s' : Z), (-7 <= e <= 14)%Z -> la <> [] -> lb <> [] ->
  Forall (steps2 e Na) la -> Forall (steps2 e Nb) lb -> quarter_placement e (2 ^ 22) p c s 1 -> quarter_placement e (2 ^ 22) q c' s' 1 ->
  Rabs (val (vx (t_pos q)) - val (vx (t_pos p))) <= IZR Nr * bpow radix2 e -> Rabs (val (vy (t_pos q)) - val (vy (t_pos p))) <= IZR Nr * bpow radix2 e ->
  (Na + Nb + Nr <= 32)%Z -> ~ meets (image (put p c s 1) (polygon la)) (image (put q c' s' 1) (polygon lb)) ->
  misses_world (Collider2d (Poly2d la) p) (Collider2d (Poly2d lb) q) /\ misses_world (Collider2d (SPoly (Poly2d la)) p) (Collider2d (SPoly (Poly2d lb)) q).
Proof.
  intros e Na Nb Nr la lb p q c s c' s' He Na0 Nb0 Ha Hb Hp Hq D1 D2 HN O.
  pose proof (world_sound e Na Nb Nr la lb p q c s c' s' He (conj Na0 Nb0) Ha Hb Hp Hq (conj D1 D2) HN) as H.
  split; apply world_misses, (misses_sound _ _ _ _ O); intros P D; exact (H P D).
Qed.
Print Assumptions C58_world_miss.

(** the same for colliders placed by Vec2 or Translate2d *)
Lemma vec2_delta e Nr p q : (-7 <= e <= 14)%Z -> steps2 e (2 ^ 22) p -> steps2 e (2 ^ 22) q ->
  Rabs (val (vx q) - val (vx p)) <= IZR Nr * bpow radix2 e -> Rabs (val (vy q) - val (vy p)) <= IZR Nr * bpow radix2 e ->
  steps2 e Nr (v2add q (v2neg p)) /\ rval (v2add q (v2neg p)) = psub (rval q) (rval p).
Proof.
  intros He Hp Hq D1 D2. destruct (steps_ptn e _ p Hp) as (zp & Bp & [PX PY]). destruct (steps_ptn e _ q Hq) as (zq & Bq & [QX QY]).
  apply is_neg in PX. apply is_neg in PY.
  destruct (is_add e He 1 _ _ _ _ _ _ QX PX ltac:(lia) ltac:(lia)) as (F1 & V1 & _). destruct (is_add e He 1 _ _ _ _ _ _ QY PY ltac:(lia) ltac:(lia)) as (F2 & V2' & _).
  destruct PX as (_ & PX & _), PY as (_ & PY & _), QX as (_ & QX & _), QY as (_ & QY & _). rewrite Z.mul_1_l in * . cbn [v2neg vx vy] in PX, PY.
  assert (NP : val (vx p) = IZR (fst zp) * bpow radix2 e) by (pose proof (val_neg (vx p)) as N; rewrite PX, opp_IZR in N; lra).
  assert (NP2 : val (vy p) = IZR (snd zp) * bpow radix2 e) by (pose proof (val_neg (vy p)) as N; rewrite PY, opp_IZR in N; lra).
  rewrite QX, NP, <- Rmult_minus_distr_r, <- minus_IZR in D1. rewrite QY, NP2, <- Rmult_minus_distr_r, <- minus_IZR in D2.
  apply steps_le in D1. apply steps_le in D2.
  split.
  - split; (split; [assumption|]); eexists; (split; [|eassumption]); lia.
  - unfold rval. apply pt_eq; cbn [fst snd psub]; [cbn [v2add v2neg vx vy] in V1; change (vx (v2add q (v2neg p))) with (fadd (vx q) (fneg (vx p)))
      | change (vy (v2add q (v2neg p))) with (fadd (vy q) (fneg (vy p)))]; cbn [v2neg vx vy] in V1, V2'; rewrite ?V1, ?V2', ?QX, ?QY, ?NP, ?NP2, plus_IZR, opp_IZR; ring.
Qed.
Lemma shift_twice u v X Y : (meets X (shift (psub v u) Y) -> meets (shift u X) (shift v Y)) /\ (overlaps (shift u X) (shift v Y) -> overlaps X (shift (psub v u) Y)).
Proof.
  assert (D : same_set (minkowski_diff (shift u X) (shift v Y)) (minkowski_diff X (shift (psub v u) Y))).
  { intro p. split; intros (x & y & HX & HY & ->).
    - exists (psub x u), (psub y u). split; [exact HX|]. split; [|apply pt_eq; cbn; ring]. unfold shift in * . replace (psub (psub y u) (psub v u)) with (psub y v); [exact HY|]. apply pt_eq; cbn; ring.
    - exists (padd x u), (padd y u). split; [|split; [|apply pt_eq; cbn; ring]]; unfold shift in * .
      + replace (psub (padd x u) u) with x; [exact HX|]. apply pt_eq; cbn; ring.
      + replace (psub (padd y u) v) with (psub y (psub v u)); [exact HY|]. apply pt_eq; cbn; ring. }
  split; [|apply (same_overlaps _ _ _ _ D)]. intros (x & X1 & X2). exists (padd x u). unfold shift in * . split.
  - replace (psub (padd x u) u) with x; [exact X1|]. apply pt_eq; cbn; ring.
  - replace (psub (padd x u) v) with (psub x (psub v u)); [exact X2|]. apply pt_eq; cbn; ring.
Qed.
Theorem C58_moved_world : forall (e Na Nb Nr : Z) (la lb : list (vec2 b32)) (p q : vec2 b32), (-7 <= e <= 14)%Z -> la <> [] -> lb <> [] ->
  Forall (steps2 e Na) la -> Forall (steps2 e Nb) lb -> steps2 e (2 ^ 22) p -> steps2 e (2 ^ 22) q ->
  Rabs (val (vx q) - val (vx p)) <= IZR Nr * bpow radix2 e -> Rabs (val (vy q) - val (vy p)) <= IZR Nr * bpow radix2 e -> (Na + Nb + Nr <= 32)%Z ->
  ((length la * length lb <= 20)%nat -> overlaps (shift (rval p) (polygon la)) (shift (rval q) (polygon lb)) ->
     hits_world (Collider2d (Poly2d la) p) (Collider2d (Poly2d lb) q) /\ hits_world (Collider2d (SPoly (Poly2d la)) p) (Collider2d (SPoly (Poly2d lb)) q) /\
     hits_world (Collider2d (Poly2d la) (Translate2d p)) (Collider2d (Poly2d lb) (Translate2d q))) /\
  (~ meets (shift (rval p) (polygon la)) (shift (rval q) (polygon lb)) ->
     misses_world (Collider2d (Poly2d la) p) (Collider2d (Poly2d lb) q) /\ misses_world (Collider2d (SPoly (Poly2d la)) p) (Collider2d (SPoly (Poly2d lb)) q) /\
     misses_world (Collider2d (Poly2d la) (Translate2d p)) (Collider2d (Poly2d lb) (Translate2d q))).
Proof.
  intros e Na Nb Nr la lb p q He Na0 Nb0 Ha Hb Hp Hq D1 D2 HN. destruct (vec2_delta e Nr p q He Hp Hq D1 D2) as [Hr Er].
  destruct (shift_twice (rval p) (rval q) (polygon la) (polygon lb)) as [SM SO]. rewrite <- Er in SM, SO. split.
  - intros L O. pose proof (fun P D => moved_hits e Na Nb Nr la lb _ He (conj Na0 Nb0) Ha Hb Hr HN P D L (SO O)) as H.
    repeat split; apply world_hits, hits_of; intros P D; exact (H P D).
  - intro O. pose proof (moved_sound e Na Nb Nr la lb _ He (conj Na0 Nb0) Ha Hb Hr HN) as H.
    assert (O' : ~ meets (polygon la) (shift (rval (v2add q (v2neg p))) (polygon lb))) by (intro M; apply O, SM, M).
    repeat split; apply world_misses, (misses_sound _ _ _ _ O'); intros P D; exact (H P D).
Qed.
Print Assumptions C58_moved_world.

(** ** The hypotheses are met *)
(** triangles on the half-unit grid; the second one half the size, placed at (2, 2) steps, at (5, 5) steps, and at (2, 2) turned by 90 degrees *)
Definition tri (n : Z) : list (vec2 b32) := [V2 (b32_of 0 0) (b32_of 0 0); V2 (b32_of n (-1)) (b32_of 0 0); V2 (b32_of 0 0) (b32_of n (-1))].
Definition at_ (n : Z) : vec2 b32 := V2 (b32_of n (-1)) (b32_of n (-1)).
Definition turned : transform2d b32 := Transform2d (at_ 2) (Rotor (V2 (b32_of 0 0) (b32_of 1 0))) (V2 (b32_of 1 0) (b32_of 1 0)).
Lemma steps_of n N : (Z.abs n <= N)%Z -> (N <= 2 ^ 24)%Z -> on_steps (-1) N (b32_of n (-1)).
Proof. intros B L. destruct (val_of n (-1) ltac:(lia) ltac:(lia)) as [F V]. split; [exact F|]. exists n. split; [exact B | exact V]. Qed.
Lemma steps_zero N : (0 <= N)%Z -> on_steps (-1) N (b32_of 0 0).
Proof. intros L. destruct (val_of 0 0 ltac:(lia) ltac:(lia)) as [F V]. split; [exact F|]. exists 0%Z. split; [exact L | rewrite V; ring]. Qed.
Lemma tri_steps n N : (Z.abs n <= N)%Z -> (N <= 2 ^ 24)%Z -> Forall (steps2 (-1) N) (tri n).
Proof. intros B L. unfold tri. repeat (apply Forall_cons); try apply Forall_nil; split; cbn [vx vy]; first [apply steps_of; assumption | apply steps_zero; lia]. Qed.
Lemma whole_of n : (Z.abs n <= 2 ^ 24)%Z -> whole (b32_of n 0) n.
Proof. intro B. destruct (val_of n 0 B ltac:(lia)) as [F V]. split; [exact F|]. rewrite V. cbn. ring. Qed.
Lemma tri_map n : (Z.abs n <= 2 ^ 24)%Z -> map rval (tri n) = [(0, 0); (IZR n / 2, 0); (0, IZR n / 2)].
Proof.
  intro B. destruct (val_of n (-1) B ltac:(lia)) as [_ V]. destruct (val_of 0 0 ltac:(lia) ltac:(lia)) as [_ V0].
  unfold tri, rval. cbn [map vx vy]. rewrite V, V0. change (bpow radix2 (-1)) with (/ 2). change (bpow radix2 0) with 1. unfold Rdiv. rewrite Rmult_0_l. reflexivity.
Qed.
Lemma at_val n : (Z.abs n <= 2 ^ 24)%Z -> rval (at_ n) = (IZR n / 2, IZR n / 2).
Proof. intro B. destruct (val_of n (-1) B ltac:(lia)) as [_ V]. unfold at_, rval. cbn [vx vy]. rewrite V. reflexivity. Qed.
Lemma in_tri h x y : 0 < h -> 0 <= x -> 0 <= y -> x + y <= h -> hull [(0, 0); (h, 0); (0, h)] (x, y).
Proof.
  intros H X Y S. exists [1 - x / h - y / h; x / h; y / h]. split; [reflexivity|]. split; [|split; [cbn; lra|]].
  - assert (0 <= x / h) by (apply Rmult_le_pos; [lra | apply Rlt_le, Rinv_0_lt_compat, H]). assert (0 <= y / h) by (apply Rmult_le_pos; [lra | apply Rlt_le, Rinv_0_lt_compat, H]).
    assert (x / h + y / h <= 1). { unfold Rdiv. rewrite <- Rmult_plus_distr_r. apply Rmult_le_reg_r with h; [exact H|]. rewrite Rmult_assoc, Rinv_l by lra. lra. }
    apply Forall_cons; [lra|]. apply Forall_cons; [lra|]. apply Forall_cons; [lra | apply Forall_nil].
  - apply pt_eq; cbn; field; lra.
Qed.
Example turned_placed : quarter_placement (-1) 2 turned 0 1 1.
Proof. unfold quarter_placement. split; [split; apply steps_of; lia|]. split; [reflexivity|]. repeat split; apply whole_of; lia. Qed.
Example turned_overlap : overlaps (polygon (tri 8)) (image (put turned 0 1 1) (polygon (tri 4))) /\ overlaps (polygon (tri 8)) (shift (rval (at_ 2)) (polygon (tri 4))).
Proof.
  assert (A : forall w, norm w < 1 -> shift w (polygon (tri 8)) (1, 1)).
  { intros w W. unfold shift, polygon. rewrite tri_map by lia. unfold psub. cbn [fst snd]. pose proof (norm_x w) as X. pose proof (norm_y w) as Y.
    assert (Rabs (fst w) < 1) by lra. assert (Rabs (snd w) < 1) by lra. apply Rabs_def2 in H. apply Rabs_def2 in H0. apply in_tri; lra. }
  assert (T : polygon (tri 4) (0, 0)) by (unfold polygon; rewrite tri_map by lia; apply in_tri; lra).
  split; exists 1; (split; [lra|]); intros w W; exists (1, 1); (split; [apply A, W|]).
  - exists (0, 0). split; [exact T|]. unfold put, turned. cbn [t_pos]. rewrite at_val by lia. apply pt_eq; cbn; lra.
  - unfold shift. rewrite at_val by lia. replace (psub (1, 1) (2 / 2, 2 / 2)) with (0, 0); [exact T|]. apply pt_eq; cbn; lra.
Qed.
Example apart : ~ meets (polygon (tri 8)) (shift (rval (at_ 5)) (polygon (tri 4))).
Proof.
  intros (p & A & B). unfold shift, polygon in * . rewrite at_val in B by lia. rewrite tri_map in A by lia. rewrite tri_map in B by lia.
  assert (GA : pdot (1, 1) p <= 4). { revert A. apply hull_bound. intros q [<-|[<-|[<-|[]]]]; unfold pdot; cbn; lra. }
  assert (GB : pdot (-1, -1) (psub p (5 / 2, 5 / 2)) <= 0). { revert B. apply hull_bound. intros q [<-|[<-|[<-|[]]]]; unfold pdot; cbn; lra. }
  unfold pdot in * . cbn in * . lra.
Qed.
Lemma tri_len n : length (tri n) = 3%nat. Proof. reflexivity. Qed.
Lemma tri_ne n : tri n <> []. Proof. intro H. pose proof (tri_len n) as L. rewrite H in L. discriminate L. Qed.
Lemma tri_few n m : (length (tri n) * length (tri m) <= 20)%nat. Proof. rewrite !tri_len. lia. Qed.
Lemma at_steps n N : (Z.abs n <= N)%Z -> (N <= 2 ^ 24)%Z -> steps2 (-1) N (at_ n). Proof. intros. split; apply steps_of; assumption. Qed.
Example grid_cases : every_query_hits (Poly2d (tri 8)) (Poly2d (tri 4)) (at_ 2) /\ every_query_hits (Poly2d (tri 8)) (Poly2d (tri 4)) turned /\
  every_query_misses (Poly2d (tri 8)) (Poly2d (tri 4)) (at_ 5).
Proof.
  pose proof (tri_steps 8 8 ltac:(lia) ltac:(lia)) as A. pose proof (tri_steps 4 4 ltac:(lia) ltac:(lia)) as B. destruct turned_overlap as [O1 O2].
  split; [|split].
  - exact (proj1 (C58_polygons_hit (-1) 8 4 2 _ _ (at_ 2) ltac:(lia) (tri_ne 8) (tri_ne 4) A B (at_steps 2 2 ltac:(lia) ltac:(lia)) ltac:(lia) (tri_few 8 4) O2)).
  - exact (proj1 (C58_turned_hit (-1) 8 4 2 _ _ turned 0 1 1 ltac:(lia) (tri_ne 8) (tri_ne 4) A B turned_placed ltac:(lia) ltac:(lia) ltac:(lia) (tri_few 8 4) O1)).
  - exact (proj1 (C58_polygons_miss (-1) 8 4 5 _ _ (at_ 5) ltac:(lia) (tri_ne 8) (tri_ne 4) A B (at_steps 5 5 ltac:(lia) ltac:(lia)) ltac:(lia) apart)).
Qed.
