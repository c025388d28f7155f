(** * C58 and C59 for boxes: pairs of boxes and polygons in any combination, on a small grid, in f32

    The support point of a box is (signum dx * hx, signum dy * hy), and signum tells -0.0 from 0.0, so which corner is found may depend on the sign of a zero.
    The verdicts and the bounds on the vectors are those of the polygons all the same. *)
From Coq Require Import Reals ZArith Bool Lra Lia List Psatz.
From Flocq Require Import IEEE754.BinarySingleNaN Core.
From Verif Require Import Num NumXR NumB32 Glam Transform2 Shapes2 Gjk Detect2 Spec SpecLink P_Base P_Transform P_Shapes P_Geo P_B32 Props_F32 Props_F32Gjk Props_F32Box
  P_Grid32 P_Grid32b P_Grid32e P_Grid32h P_Grid32c P_Grid32d Props_Grid32 Props_Grid32v P_Grid32k.
Import ListNotations.
Local Open Scope R_scope.

(** ** Vocabulary *)
(** [a] is a box or polygon whose coordinates are at most N steps of 2^e; A is the set it stands for and n its number of corners *)
Inductive grid_shape (e N : Z) : shape2d b32 -> pset -> nat -> Prop :=
  | grid_box h : steps2 e N h -> 0 <= val (vx h) -> 0 <= val (vy h) -> grid_shape e N (SBox (Box2d h)) (rect (val (vx h)) (val (vy h))) 4
  | grid_poly l : l <> [] -> Forall (steps2 e N) l -> grid_shape e N (SPoly (Poly2d l)) (polygon l) (length l).
(** Q holds of the two Shape2d values and also of the box or polygon inside each *)
Definition wrapped_or_not {T : Type} {TR : Transformation2d b32 T} (Q : forall X Y : Type, SdfvCommonRel2d b32 X Y T -> X -> Y -> Prop) (a b : shape2d b32) : Prop :=
  Q _ _ _ a b /\
  match a, b with
  | SBox x, SBox y => Q _ _ _ x y
  | SBox x, SPoly y => Q _ _ _ x y
  | SPoly x, SBox y => Q _ _ _ x y
  | SPoly x, SPoly y => Q _ _ _ x y
  | _, _ => True
  end.
Definition hits {T : Type} {TR : Transformation2d b32 T} (a b : shape2d b32) (rel : T) : Prop := wrapped_or_not (fun X Y SD x y => every_query_hits x y rel) a b.
Definition misses {T : Type} {TR : Transformation2d b32 T} (a b : shape2d b32) (rel : T) : Prop := wrapped_or_not (fun X Y SD x y => every_query_misses x y rel) a b.

Lemma wrapped {T : Type} {TR : Transformation2d b32 T} (Q : forall X Y : Type, SdfvCommonRel2d b32 X Y T -> X -> Y -> Prop) (K : (bool -> bool -> T -> res (bool * vec2 b32)) -> Prop) a b :
  (forall X Y (SD : SdfvCommonRel2d b32 X Y T) x y, K (fun P D rel => sdfv_common_rel (F:=b32) P D x y rel) -> Q X Y SD x y) ->
  K (fun P D rel => sdfv_common_rel (F:=b32) P D a b rel) -> wrapped_or_not Q a b.
Proof. intros H k. split; [apply H; exact k|]. destruct a as [a|a|a], b as [b|b|b]; try exact I; apply H; exact k. Qed.

Lemma grid_solid e N a A n : (-7 <= e <= 14)%Z -> (0 <= N <= 32)%Z -> grid_shape e N a A n -> exists aX C, solid e N a aX A C /\ length C = n.
Proof.
  intros He BN [h Hh X Y|l Ne F].
  - exists (SBox (pbox (val (vx h)) (val (vy h)))), (box_corners (val (vx h)) (val (vy h))). split; [|reflexivity].
    apply (solid_box e He N h BN (steps_ptn e N h Hh) X Y).
  - exists (twin l), (map rv l). split; [|apply map_length]. apply (solid_poly e He N l BN Ne (list_ptn e N l F)).
Qed.
Lemma grid_nonneg e N a A n : grid_shape e N a A n -> (0 <= N)%Z.
Proof.
  intros [h Hh _ _|l Ne F]; [apply (steps_nonneg e N h Hh)|]. destruct l as [|p l]; [contradiction|]. inversion F as [|? ? P ?]; subst. apply (steps_nonneg e N p P).
Qed.

(** *** the queries on two translated shapes *)
Section Moved.
Variables (e Na Nb Nr : Z) (a b : shape2d b32) (A B0 : pset) (na nb : nat) (rel : vec2 b32).
Hypothesis He : (-7 <= e <= 14)%Z.
Hypothesis Ha : grid_shape e Na a A na.
Hypothesis Hb : grid_shape e Nb b B0 nb.
Hypothesis Hr : steps2 e Nr rel.
Hypothesis HN : (Na + Nb + Nr <= 32)%Z.
Let B := shift (rval rel) B0.
Lemma s_moved_apply p p' : ptn e Nb p p' -> ptn e (Nb + Nr) (apply rel p) (apply (inj (rv rel)) p').
Proof.
  intros (z & [B1 B2] & I). destruct (steps_ptn e Nr rel Hr) as (y & [C1 C2] & J). pose proof (grid_nonneg _ _ _ _ _ Ha). pose proof (grid_nonneg _ _ _ _ _ Hb).
  exists (fst z + fst y, snd z + snd y)%Z. split; [cbn; lia|]. apply (iv_add e He); try assumption; lia.
Qed.
Lemma s_ranges : (0 <= Na <= 32 /\ 0 <= Nb <= 32 /\ 0 <= Nr <= 32)%Z.
Proof. pose proof (grid_nonneg _ _ _ _ _ Ha). pose proof (grid_nonneg _ _ _ _ _ Hb). pose proof (steps_nonneg e Nr rel Hr). lia. Qed.
Lemma one_int : exists ci si ki, 1 = IZR ci /\ 0 = IZR si /\ 1 = IZR ki. Proof. exists 1%Z, 0%Z, 1%Z. auto. Qed.
Lemma s_moved_sound P D : exists r w, sdfv_common_rel (F:=b32) P D a b rel = Ok (r, w) /\ (r = true -> meets A B).
Proof.
  pose proof s_ranges as (R1 & R2 & R3). destruct (grid_solid e Na a A na He R1 Ha) as (aX & CA & SA & LA). destruct (grid_solid e Nb b B0 nb He R2 Hb) as (bX & CB & SB & LB).
  destruct (solid_sound e He a b aX bX A B0 CA CB rel (inj (rv rel)) Na Nb (Nb + Nr) (rv rel) 1 0 1 SA SB ltac:(lia) s_moved_apply
    (fun d d' H => H) (ptn_le e Nr 32 _ _ ltac:(lia) (steps_ptn e Nr rel Hr)) (acts_vec2 (rv rel)) ltac:(ring) ltac:(lra) one_int P D) as (r & w & E & M).
  exists r, w. split; [exact E|]. intro R. apply (meets_ext _ _ _ _ (same_refl _) (shift_place (rval rel) B0)). exact (M R).
Qed.
Lemma s_moved_hits P D : (na * nb <= 20)%nat -> overlaps A B -> exists w, sdfv_common_rel (F:=b32) P D a b rel = Ok (true, w).
Proof.
  intros L O. pose proof s_ranges as (R1 & R2 & R3). destruct (grid_solid e Na a A na He R1 Ha) as (aX & CA & SA & LA). destruct (grid_solid e Nb b B0 nb He R2 Hb) as (bX & CB & SB & LB).
  apply (solid_hits e He a b aX bX A B0 CA CB rel (inj (rv rel)) Na Nb (Nb + Nr) (rv rel) 1 0 1 SA SB ltac:(lia) s_moved_apply
    (fun d d' H => H) (ptn_le e Nr 32 _ _ ltac:(lia) (steps_ptn e Nr rel Hr)) (acts_vec2 (rv rel)) ltac:(ring) ltac:(lra) one_int P D); [rewrite LA, LB; exact L|].
  apply (same_overlaps _ _ _ _ (diff_ext _ _ _ _ (same_refl _) (shift_place (rval rel) B0))). exact O.
Qed.
Lemma s_moved_vector D : (na * nb <= 20)%nat -> overlaps A B ->
  exists x w, sdfv_common_rel (F:=b32) true D a b rel = Ok (true, x) /\ within e x w /\ resolves A B w.
Proof.
  intros L O. pose proof s_ranges as (R1 & R2 & R3). destruct (grid_solid e Na a A na He R1 Ha) as (aX & CA & SA & LA). destruct (grid_solid e Nb b B0 nb He R2 Hb) as (bX & CB & SB & LB).
  destruct (solid_vector e He a b aX bX A B0 CA CB rel (inj (rv rel)) Na Nb (Nb + Nr) (rv rel) 1 0 1 SA SB ltac:(lia) s_moved_apply
    (fun d d' H => H) (ptn_le e Nr 32 _ _ ltac:(lia) (steps_ptn e Nr rel Hr)) (acts_vec2 (rv rel)) ltac:(ring) ltac:(lra) one_int D) as (x & w & E & N & M);
    [rewrite LA, LB; exact L | | ].
  - apply (same_overlaps _ _ _ _ (diff_ext _ _ _ _ (same_refl _) (shift_place (rval rel) B0))). exact O.
  - exists x, w. split; [exact E|]. split; [apply near_within, N|]. exact (resolves_ext _ _ _ _ (shift_place (rval rel) B0) M).
Qed.
Lemma s_moved_distance P : ~ meets A B -> exists x w, sdfv_common_rel (F:=b32) P true a b rel = Ok (false, x) /\ within e x w /\ meets (shift w A) B.
Proof.
  intros NM. destruct (s_moved_sound P true) as (r & x & E & S). destruct r; [exfalso; apply NM, S; reflexivity|].
  pose proof s_ranges as (R1 & R2 & R3). destruct (grid_solid e Na a A na He R1 Ha) as (aX & CA & SA & LA). destruct (grid_solid e Nb b B0 nb He R2 Hb) as (bX & CB & SB & LB).
  destruct (solid_distance e He a b aX bX A B0 CA CB rel (inj (rv rel)) Na Nb (Nb + Nr) (rv rel) 1 0 1 SA SB ltac:(lia) s_moved_apply
    (fun d d' H => H) (ptn_le e Nr 32 _ _ ltac:(lia) (steps_ptn e Nr rel Hr)) (acts_vec2 (rv rel)) ltac:(ring) ltac:(lra) one_int P x E) as (w & N & M).
  exists x, w. split; [exact E|]. split; [apply near_within, N|]. apply (meets_ext _ _ _ _ (same_refl _) (shift_place (rval rel) B0)). exact M.
Qed.
End Moved.

(** ** Translations *)
Theorem C58_shapes_hit : forall (e Na Nb Nr : Z) (a b : shape2d b32) (A B : pset) (na nb : nat) (rel : vec2 b32), (-7 <= e <= 14)%Z ->
  grid_shape e Na a A na -> grid_shape e Nb b B nb -> steps2 e Nr rel -> (Na + Nb + Nr <= 32)%Z -> (na * nb <= 20)%nat ->
  overlaps A (shift (rval rel) B) -> hits a b rel /\ hits a b (Translate2d rel).
Proof.
  intros e Na Nb Nr a b A B na nb rel He Ha Hb Hr HN L O. pose proof (fun P D => s_moved_hits e Na Nb Nr a b A B na nb rel He Ha Hb Hr HN P D L O) as H. split.
  - apply (wrapped _ (fun f => forall P D, exists w, f P D rel = Ok (true, w))); [|exact H]. intros X Y SD x y k. apply hits_of, k.
  - apply (wrapped _ (fun f => forall P D, exists w, f P D (Translate2d rel) = Ok (true, w))); [|exact H]. intros X Y SD x y k. apply hits_of, k.
Qed.
Print Assumptions C58_shapes_hit.
Theorem C58_shapes_miss : forall (e Na Nb Nr : Z) (a b : shape2d b32) (A B : pset) (na nb : nat) (rel : vec2 b32), (-7 <= e <= 14)%Z ->
  grid_shape e Na a A na -> grid_shape e Nb b B nb -> steps2 e Nr rel -> (Na + Nb + Nr <= 32)%Z ->
  ~ meets A (shift (rval rel) B) -> misses a b rel /\ misses a b (Translate2d rel).
Proof.
  intros e Na Nb Nr a b A B na nb rel He Ha Hb Hr HN O. pose proof (s_moved_sound e Na Nb Nr a b A B na nb rel He Ha Hb Hr HN) as H. split.
  - apply (wrapped _ (fun f => forall P D, exists r w, f P D rel = Ok (r, w) /\ (r = true -> meets A (shift (rval rel) B)))); [|exact H]. intros X Y SD x y k. exact (misses_sound _ _ _ _ O k).
  - apply (wrapped _ (fun f => forall P D, exists r w, f P D (Translate2d rel) = Ok (r, w) /\ (r = true -> meets A (shift (rval rel) B)))); [|exact H]. intros X Y SD x y k. exact (misses_sound _ _ _ _ O k).
Qed.
Print Assumptions C58_shapes_miss.
Theorem C58_shapes_no_panic : forall (e Na Nb Nr : Z) (a b : shape2d b32) (A B : pset) (na nb : nat) (rel : vec2 b32), (-7 <= e <= 14)%Z ->
  grid_shape e Na a A na -> grid_shape e Nb b B nb -> steps2 e Nr rel -> (Na + Nb + Nr <= 32)%Z ->
  wrapped_or_not (T:=vec2 b32) (fun X Y SD x y => forall P D, exists answer, sdfv_common_rel (F:=b32) P D x y rel = Ok answer) a b.
Proof.
  intros e Na Nb Nr a b A B na nb rel He Ha Hb Hr HN.
  apply (wrapped _ (fun f => forall P D, exists answer, f P D rel = Ok answer)); [intros X Y SD x y k; exact k|].
  intros P D. destruct (s_moved_sound e Na Nb Nr a b A B na nb rel He Ha Hb Hr HN P D) as (r & w & E & _). exists (r, w). exact E.
Qed.
Print Assumptions C58_shapes_no_panic.
Theorem C59_shapes_penetration : forall (e Na Nb Nr : Z) (a b : shape2d b32) (A B0 : pset) (na nb : nat) (rel : vec2 b32), (-7 <= e <= 14)%Z ->
  grid_shape e Na a A na -> grid_shape e Nb b B0 nb -> steps2 e Nr rel -> (Na + Nb + Nr <= 32)%Z -> (na * nb <= 20)%nat ->
  let B := shift (rval rel) B0 in overlaps A B ->
  wrapped_or_not (T:=vec2 b32) (fun X Y SD x y => good_penetration e x y rel A B) a b /\ wrapped_or_not (T:=translate2d b32) (fun X Y SD x y => good_penetration e x y (Translate2d rel) A B) a b.
Proof.
  intros e Na Nb Nr a b A B0 na nb rel He Ha Hb Hr HN L B O. pose proof (fun D => s_moved_vector e Na Nb Nr a b A B0 na nb rel He Ha Hb Hr HN D L O) as H. split.
  - apply (wrapped _ (fun f => forall D, exists x w, f true D rel = Ok (true, x) /\ within e x w /\ resolves A B w)); [|exact H]. intros X Y SD x y k. apply penetration_of, k.
  - apply (wrapped _ (fun f => forall D, exists x w, f true D (Translate2d rel) = Ok (true, x) /\ within e x w /\ resolves A B w)); [|exact H]. intros X Y SD x y k. apply penetration_of, k.
Qed.
Print Assumptions C59_shapes_penetration.
Theorem C59_shapes_distance : forall (e Na Nb Nr : Z) (a b : shape2d b32) (A B0 : pset) (na nb : nat) (rel : vec2 b32), (-7 <= e <= 14)%Z ->
  grid_shape e Na a A na -> grid_shape e Nb b B0 nb -> steps2 e Nr rel -> (Na + Nb + Nr <= 32)%Z ->
  let B := shift (rval rel) B0 in ~ meets A B ->
  wrapped_or_not (T:=vec2 b32) (fun X Y SD x y => good_distance e x y rel A B) a b /\ wrapped_or_not (T:=translate2d b32) (fun X Y SD x y => good_distance e x y (Translate2d rel) A B) a b.
Proof.
  intros e Na Nb Nr a b A B0 na nb rel He Ha Hb Hr HN B O. pose proof (fun P => s_moved_distance e Na Nb Nr a b A B0 na nb rel He Ha Hb Hr HN P O) as H. split.
  - apply (wrapped _ (fun f => forall P, exists x w, f P true rel = Ok (false, x) /\ within e x w /\ meets (shift w A) B)); [|exact H]. intros X Y SD x y k. apply distance_of, k.
  - apply (wrapped _ (fun f => forall P, exists x w, f P true (Translate2d rel) = Ok (false, x) /\ within e x w /\ meets (shift w A) B)); [|exact H]. intros X Y SD x y k. apply distance_of, k.
Qed.
Print Assumptions C59_shapes_distance.

(** ** Quarter turns and whole-number scales *)
Section Turned.
Variables (e Na Nb Nr : Z) (a b : shape2d b32) (A B0 : pset) (na nb : nat) (rel : transform2d b32) (relX : transform2d XR) (z : Z * Z) (c s k : Z).
Hypothesis He : (-7 <= e <= 14)%Z.
Hypothesis Ha : grid_shape e Na a A na.
Hypothesis Hb : grid_shape e Nb b B0 nb.
Hypothesis Hz : (Z.abs (fst z) <= Nr /\ Z.abs (snd z) <= Nr)%Z.
Hypothesis Ht : t2i e z c s k rel relX.
Variable v : pt.
Hypothesis Hact : acts_as relX v (IZR c) (IZR s) (IZR k).
Hypothesis Hk : (0 <= k <= 32)%Z.
Hypothesis HN : (Na + k * Nb + Nr <= 32)%Z.
Hypothesis HNb : (Nb <= 32)%Z.
Let B := image (place v (IZR c) (IZR s) (IZR k) (IZR k)) B0.
Lemma s_t_ranges : (0 <= Na <= 32 /\ 0 <= Nb <= 32 /\ 0 <= k * Nb + Nr /\ 0 <= Nr <= 32 /\ k * Nb <= 32)%Z.
Proof. pose proof (grid_nonneg _ _ _ _ _ Ha). pose proof (grid_nonneg _ _ _ _ _ Hb). assert (0 <= k * Nb)%Z by (apply Z.mul_nonneg_nonneg; lia). lia. Qed.
Lemma s_turned_apply p p' : ptn e Nb p p' -> ptn e (k * Nb + Nr) (apply rel p) (apply relX p').
Proof.
  intros (y & BY & I). pose proof s_t_ranges.
  destruct (t2i_apply e He z c s k rel relX y p p' Nr Nb Ht I Hz BY ltac:(lia) ltac:(lia) ltac:(lia)) as [J C]. eexists. split; [|exact J]. exact C.
Qed.
Lemma s_turned_origin : ptn e 32 (apply_origin rel) (apply_origin relX).
Proof. destruct Ht as (I & _). exists z. split; [|exact I]. pose proof s_t_ranges. lia. Qed.
Lemma s_ints : exists ci si ki, IZR c = IZR ci /\ IZR s = IZR si /\ IZR k = IZR ki. Proof. exists c, s, k. auto. Qed.
Lemma s_turned_sound P D : exists r w, sdfv_common_rel (F:=b32) P D a b rel = Ok (r, w) /\ (r = true -> meets A B).
Proof.
  pose proof s_t_ranges as (R1 & R2 & R3 & R4 & R5). destruct (grid_solid e Na a A na He R1 Ha) as (aX & CA & SA & LA). destruct (grid_solid e Nb b B0 nb He R2 Hb) as (bX & CB & SB & LB).
  exact (solid_sound e He a b aX bX A B0 CA CB rel relX Na Nb (k * Nb + Nr) v (IZR c) (IZR s) (IZR k) SA SB ltac:(lia) s_turned_apply
    (turned_unapply e rel relX z c s k He Ht) s_turned_origin Hact (unit_sq c s (proj1 (proj1 (proj2 Ht)))) (conj (IZR_le _ _ (proj1 Hk)) (IZR_le _ _ (proj2 Hk))) s_ints P D).
Qed.
Lemma s_turned_hits P D : (na * nb <= 20)%nat -> overlaps A B -> exists w, sdfv_common_rel (F:=b32) P D a b rel = Ok (true, w).
Proof.
  intros L O. pose proof s_t_ranges as (R1 & R2 & R3 & R4 & R5). destruct (grid_solid e Na a A na He R1 Ha) as (aX & CA & SA & LA). destruct (grid_solid e Nb b B0 nb He R2 Hb) as (bX & CB & SB & LB).
  rewrite <- LA, <- LB in L.
  exact (solid_hits e He a b aX bX A B0 CA CB rel relX Na Nb (k * Nb + Nr) v (IZR c) (IZR s) (IZR k) SA SB ltac:(lia) s_turned_apply
    (turned_unapply e rel relX z c s k He Ht) s_turned_origin Hact (unit_sq c s (proj1 (proj1 (proj2 Ht)))) (conj (IZR_le _ _ (proj1 Hk)) (IZR_le _ _ (proj2 Hk))) s_ints P D L O).
Qed.
Lemma s_turned_vector D : (na * nb <= 20)%nat -> overlaps A B ->
  exists x w, sdfv_common_rel (F:=b32) true D a b rel = Ok (true, x) /\ within e x w /\ resolves A B w.
Proof.
  intros L O. pose proof s_t_ranges as (R1 & R2 & R3 & R4 & R5). destruct (grid_solid e Na a A na He R1 Ha) as (aX & CA & SA & LA). destruct (grid_solid e Nb b B0 nb He R2 Hb) as (bX & CB & SB & LB).
  rewrite <- LA, <- LB in L.
  destruct (solid_vector e He a b aX bX A B0 CA CB rel relX Na Nb (k * Nb + Nr) v (IZR c) (IZR s) (IZR k) SA SB ltac:(lia) s_turned_apply
    (turned_unapply e rel relX z c s k He Ht) s_turned_origin Hact (unit_sq c s (proj1 (proj1 (proj2 Ht)))) (conj (IZR_le _ _ (proj1 Hk)) (IZR_le _ _ (proj2 Hk))) s_ints D L O) as (x & w & E & N & M).
  exists x, w. split; [exact E|]. split; [apply near_within, N | exact M].
Qed.
Lemma s_turned_distance P : ~ meets A B -> exists x w, sdfv_common_rel (F:=b32) P true a b rel = Ok (false, x) /\ within e x w /\ meets (shift w A) B.
Proof.
  intro NM. destruct (s_turned_sound P true) as (r & x & E & S). destruct r; [exfalso; apply NM, S; reflexivity|].
  pose proof s_t_ranges as (R1 & R2 & R3 & R4 & R5). destruct (grid_solid e Na a A na He R1 Ha) as (aX & CA & SA & LA). destruct (grid_solid e Nb b B0 nb He R2 Hb) as (bX & CB & SB & LB).
  destruct (solid_distance e He a b aX bX A B0 CA CB rel relX Na Nb (k * Nb + Nr) v (IZR c) (IZR s) (IZR k) SA SB ltac:(lia) s_turned_apply
    (turned_unapply e rel relX z c s k He Ht) s_turned_origin Hact (unit_sq c s (proj1 (proj1 (proj2 Ht)))) (conj (IZR_le _ _ (proj1 Hk)) (IZR_le _ _ (proj2 Hk))) s_ints P x E) as (w & N & M).
  exists x, w. split; [exact E|]. split; [apply near_within, N | exact M].
Qed.
End Turned.
Theorem C58_shapes_turned : forall (e Na Nb Nr : Z) (a b : shape2d b32) (A B0 : pset) (na nb : nat) (rel : transform2d b32) (c s k : Z), (-7 <= e <= 14)%Z ->
  grid_shape e Na a A na -> grid_shape e Nb b B0 nb -> quarter_placement e Nr rel c s k -> (0 <= k <= 32)%Z -> (Nb <= 32)%Z -> (Na + k * Nb + Nr <= 32)%Z ->
  let B := image (put rel c s k) B0 in
  ((na * nb <= 20)%nat -> overlaps A B -> hits a b rel) /\ (~ meets A B -> misses a b rel).
Proof.
  intros e Na Nb Nr a b A B0 na nb rel c s k He Ha Hb Hq Hk HNb HN B. destruct (quarter_t2i e Nr rel c s k Hq) as (z & Bz & T). split.
  - intros L O. pose proof (fun P D => s_turned_hits e Na Nb Nr a b A B0 na nb rel _ z c s k He Ha Hb Bz T _ (acts_t2 _ _ _ _) Hk HN HNb P D L O) as H.
    apply (wrapped _ (fun f => forall P D, exists w, f P D rel = Ok (true, w))); [|exact H]. intros X Y SD x y q. apply hits_of, q.
  - intro O. pose proof (s_turned_sound e Na Nb Nr a b A B0 na nb rel _ z c s k He Ha Hb Bz T _ (acts_t2 _ _ _ _) Hk HN HNb) as H.
    apply (wrapped _ (fun f => forall P D, exists r w, f P D rel = Ok (r, w) /\ (r = true -> meets A B))); [|exact H]. intros X Y SD x y q. exact (misses_sound _ _ _ _ O q).
Qed.
Print Assumptions C58_shapes_turned.
Theorem C59_shapes_turned : forall (e Na Nb Nr : Z) (a b : shape2d b32) (A B0 : pset) (na nb : nat) (rel : transform2d b32) (c s k : Z), (-7 <= e <= 14)%Z ->
  grid_shape e Na a A na -> grid_shape e Nb b B0 nb -> quarter_placement e Nr rel c s k -> (0 <= k <= 32)%Z -> (Nb <= 32)%Z -> (Na + k * Nb + Nr <= 32)%Z ->
  let B := image (put rel c s k) B0 in
  ((na * nb <= 20)%nat -> overlaps A B -> wrapped_or_not (T:=transform2d b32) (fun X Y SD x y => good_penetration e x y rel A B) a b) /\
  (~ meets A B -> wrapped_or_not (T:=transform2d b32) (fun X Y SD x y => good_distance e x y rel A B) a b).
Proof.
  intros e Na Nb Nr a b A B0 na nb rel c s k He Ha Hb Hq Hk HNb HN B. destruct (quarter_t2i e Nr rel c s k Hq) as (z & Bz & T). split.
  - intros L O. pose proof (fun D => s_turned_vector e Na Nb Nr a b A B0 na nb rel _ z c s k He Ha Hb Bz T _ (acts_t2 _ _ _ _) Hk HN HNb D L O) as H.
    apply (wrapped _ (fun f => forall D, exists x w, f true D rel = Ok (true, x) /\ within e x w /\ resolves A B w)); [|exact H]. intros X Y SD x y q. apply penetration_of, q.
  - intro O. pose proof (fun P => s_turned_distance e Na Nb Nr a b A B0 na nb rel _ z c s k He Ha Hb Bz T _ (acts_t2 _ _ _ _) Hk HN HNb P O) as H.
    apply (wrapped _ (fun f => forall P, exists x w, f P true rel = Ok (false, x) /\ within e x w /\ meets (shift w A) B)); [|exact H]. intros X Y SD x y q. apply distance_of, q.
Qed.
Print Assumptions C59_shapes_turned.

(** ** Colliders in the world, placed by Vec2 or Translate2d, however far from the origin *)
Theorem C58_shapes_moved_world : forall (e Na Nb Nr : Z) (a b : shape2d b32) (A0 B0 : pset) (na nb : nat) (p q : vec2 b32), (-7 <= e <= 14)%Z ->
  grid_shape e Na a A0 na -> grid_shape e Nb b B0 nb -> steps2 e (2 ^ 22) p -> steps2 e (2 ^ 22) q ->
  Rabs (val (vx q) - val (vx p)) <= IZR Nr * bpow radix2 e -> Rabs (val (vy q) - val (vy p)) <= IZR Nr * bpow radix2 e -> (Na + Nb + Nr <= 32)%Z ->
  let A := shift (rval p) A0 in let B := shift (rval q) B0 in
  ((na * nb <= 20)%nat -> overlaps A B ->
     wrapped_or_not (T:=vec2 b32) (fun X Y SD x y => hits_world (Collider2d x p) (Collider2d y q)) a b /\
     wrapped_or_not (T:=translate2d b32) (fun X Y SD x y => hits_world (Collider2d x (Translate2d p)) (Collider2d y (Translate2d q))) a b) /\
  (~ meets A B ->
     wrapped_or_not (T:=vec2 b32) (fun X Y SD x y => misses_world (Collider2d x p) (Collider2d y q)) a b /\
     wrapped_or_not (T:=translate2d b32) (fun X Y SD x y => misses_world (Collider2d x (Translate2d p)) (Collider2d y (Translate2d q))) a b).
Proof.
  intros e Na Nb Nr a b A0 B0 na nb p q He Ha Hb Hp Hq D1 D2 HN A B. destruct (vec2_delta e Nr p q He Hp Hq D1 D2) as [Hr Er].
  destruct (shift_twice (rval p) (rval q) A0 B0) as [SM SO]. rewrite <- Er in SM, SO. split.
  - intros L O. pose proof (fun P D => s_moved_hits e Na Nb Nr a b A0 B0 na nb _ He Ha Hb Hr HN P D L (SO O)) as H. split.
    + apply (wrapped _ (fun f => forall P D, exists w, f P D (v2add q (v2neg p)) = Ok (true, w))); [|exact H]. intros X Y SD x y k. apply world_hits, hits_of. exact k.
    + apply (wrapped _ (fun f => forall P D, exists w, f P D (Translate2d (v2add q (v2neg p))) = Ok (true, w))); [|exact H]. intros X Y SD x y k. apply world_hits, hits_of. exact k.
  - intro O. pose proof (s_moved_sound e Na Nb Nr a b A0 B0 na nb _ He Ha Hb Hr HN) as H. set (Q := meets A0 (shift (rval (v2add q (v2neg p))) B0)) in * .
    assert (O' : ~ Q) by (intro M; apply O, SM, M). split.
    + apply (wrapped _ (fun f => forall P D, exists r w, f P D (v2add q (v2neg p)) = Ok (r, w) /\ (r = true -> Q))); [|exact H]. intros X Y SD x y k. apply world_misses. exact (misses_sound _ _ _ _ O' k).
    + apply (wrapped _ (fun f => forall P D, exists r w, f P D (Translate2d (v2add q (v2neg p))) = Ok (r, w) /\ (r = true -> Q))); [|exact H]. intros X Y SD x y k. apply world_misses. exact (misses_sound _ _ _ _ O' k).
Qed.
Print Assumptions C58_shapes_moved_world.
Theorem C59_shapes_moved_world : forall (e Na Nb Nr : Z) (a b : shape2d b32) (A0 B0 : pset) (na nb : nat) (p q : vec2 b32), (-7 <= e <= 14)%Z ->
  grid_shape e Na a A0 na -> grid_shape e Nb b B0 nb -> steps2 e (2 ^ 22) p -> steps2 e (2 ^ 22) q ->
  Rabs (val (vx q) - val (vx p)) <= IZR Nr * bpow radix2 e -> Rabs (val (vy q) - val (vy p)) <= IZR Nr * bpow radix2 e -> (Na + Nb + Nr <= 32)%Z ->
  let A := shift (rval p) A0 in let B := shift (rval q) B0 in
  ((na * nb <= 20)%nat -> overlaps A B ->
     wrapped_or_not (T:=vec2 b32) (fun X Y SD x y => good_penetration_world e (Collider2d x p) (Collider2d y q) A B) a b /\
     wrapped_or_not (T:=translate2d b32) (fun X Y SD x y => good_penetration_world e (Collider2d x (Translate2d p)) (Collider2d y (Translate2d q)) A B) a b) /\
  (~ meets A B ->
     wrapped_or_not (T:=vec2 b32) (fun X Y SD x y => good_distance_world e (Collider2d x p) (Collider2d y q) A B) a b /\
     wrapped_or_not (T:=translate2d b32) (fun X Y SD x y => good_distance_world e (Collider2d x (Translate2d p)) (Collider2d y (Translate2d q)) A B) a b).
Proof.
  intros e Na Nb Nr a b A0 B0 na nb p q He Ha Hb Hp Hq D1 D2 HN A B. destruct (vec2_delta e Nr p q He Hp Hq D1 D2) as [Hr Er].
  destruct (shift_twice (rval p) (rval q) A0 B0) as [SM SO]. pose proof (resolves_twice (rval p) (rval q) A0 B0) as RT. pose proof (contact_twice (rval p) (rval q) A0 B0) as CT.
  rewrite <- Er in SM, SO, RT, CT. split.
  - intros L O. pose proof (fun D => s_moved_vector e Na Nb Nr a b A0 B0 na nb _ He Ha Hb Hr HN D L (SO O)) as H. set (B1 := shift (rval (v2add q (v2neg p))) B0) in * . split.
    + apply (wrapped _ (fun f => forall D, exists x w, f true D (v2add q (v2neg p)) = Ok (true, x) /\ within e x w /\ resolves A0 B1 w)); [|exact H].
      intros X Y SD x y k. apply (world_penetration e x y p q A0 B1 A B RT). apply penetration_of, k.
    + apply (wrapped _ (fun f => forall D, exists x w, f true D (Translate2d (v2add q (v2neg p))) = Ok (true, x) /\ within e x w /\ resolves A0 B1 w)); [|exact H].
      intros X Y SD x y k. apply (translate_penetration e x y p q A0 B1 A B RT). apply penetration_of, k.
  - intro O. pose proof (fun P => s_moved_distance e Na Nb Nr a b A0 B0 na nb _ He Ha Hb Hr HN P (fun M => O (SM M))) as H. set (B1 := shift (rval (v2add q (v2neg p))) B0) in * . split.
    + apply (wrapped _ (fun f => forall P, exists x w, f P true (v2add q (v2neg p)) = Ok (false, x) /\ within e x w /\ meets (shift w A0) B1)); [|exact H].
      intros X Y SD x y k. apply (world_distance e x y p q A0 B1 A B CT). apply distance_of, k.
    + apply (wrapped _ (fun f => forall P, exists x w, f P true (Translate2d (v2add q (v2neg p))) = Ok (false, x) /\ within e x w /\ meets (shift w A0) B1)); [|exact H].
      intros X Y SD x y k. apply (translate_distance e x y p q A0 B1 A B CT). apply distance_of, k.
Qed.
Print Assumptions C59_shapes_moved_world.

(** ** Colliders in the world, each turned by a multiple of 90 degrees *)
Section World.
Variables (e Na Nb Nr : Z) (a b : shape2d b32) (A0 B0 : pset) (na nb : nat) (p q : transform2d b32) (c s c' s' : Z).
Hypothesis He : (-7 <= e <= 14)%Z.
Hypothesis Ha : grid_shape e Na a A0 na.
Hypothesis Hb : grid_shape e Nb b B0 nb.
Hypothesis Hp : quarter_placement e (2 ^ 22) p c s 1.
Hypothesis Hq : quarter_placement e (2 ^ 22) q c' s' 1.
Hypothesis Hd : Rabs (val (vx (t_pos q)) - val (vx (t_pos p))) <= IZR Nr * bpow radix2 e /\ Rabs (val (vy (t_pos q)) - val (vy (t_pos p))) <= IZR Nr * bpow radix2 e.
Hypothesis HN : (Na + Nb + Nr <= 32)%Z.
Let v := rotate (IZR c) (- IZR s) (psub (rval (t_pos q)) (rval (t_pos p))).
Let C := IZR (c * c' + s * s').
Let S := IZR (c * s' - s * c').
Let A := image (put p c s 1) A0.
Let B := image (put q c' s' 1) B0.
Lemma s_world_sets : same_set (image (put p c s 1) (image (place v C S 1 1) B0)) B.
Proof.
  assert (E : forall x, put p c s 1 (place v C S 1 1 x) = put q c' s' 1 x).
  { intro x. destruct Hp as (_ & U & _). pose proof (unit_sq c s U) as U2. unfold put, v, C, S. rewrite plus_IZR, minus_IZR, !mult_IZR. apply pt_eq; cbn.
    - transitivity ((IZR c * IZR c + IZR s * IZR s) * (IZR c' * (1 * fst x) - IZR s' * (1 * snd x) + val (vx (t_pos q)) - val (vx (t_pos p))) + val (vx (t_pos p))); [ring | rewrite U2; ring].
    - transitivity ((IZR c * IZR c + IZR s * IZR s) * (IZR s' * (1 * fst x) + IZR c' * (1 * snd x) + val (vy (t_pos q)) - val (vy (t_pos p))) + val (vy (t_pos p))); [ring | rewrite U2; ring]. }
  intro y. split.
  - intros (x & (w & W & ->) & ->). exists w. split; [exact W | apply E].
  - intros (w & W & ->). exists (place v C S 1 1 w). split; [exists w; auto | symmetry; apply E].
Qed.
Lemma s_world_overlaps : overlaps A B <-> overlaps A0 (image (place v C S 1 1) B0).
Proof.
  destruct Hp as (_ & U & _). rewrite <- (rigid_overlaps (rval (t_pos p)) (IZR c) (IZR s) (unit_sq c s U) A0 (image (place v C S 1 1) B0)). symmetry.
  apply (same_overlaps _ _ _ _ (diff_ext _ _ _ _ (same_refl _) s_world_sets)).
Qed.
Lemma s_world_meets : meets A0 (image (place v C S 1 1) B0) -> meets A B.
Proof. intros (x & X1 & X2). exists (put p c s 1 x). split; [exists x; auto|]. apply s_world_sets. exists x. auto. Qed.
Lemma s_world_range : (Na + 1 * Nb + Nr <= 32)%Z. Proof. lia. Qed.
Lemma s_nb_le : (Nb <= 32)%Z.
Proof. pose proof (grid_nonneg _ _ _ _ _ Ha). destruct (delta_rel e Nr p q c s c' s' He Hp Hq Hd) as (z & Bz & _). lia. Qed.
Lemma s_world_sound P D : exists r w, sdfv_common_rel (F:=b32) P D a b (delta_transform p q) = Ok (r, w) /\ (r = true -> meets A B).
Proof.
  destruct (delta_rel e Nr p q c s c' s' He Hp Hq Hd) as (z & Bz & T).
  destruct (s_turned_sound e Na Nb Nr a b A0 B0 na nb _ _ z _ _ 1 He Ha Hb Bz T _ (delta_acts e p q c s c' s' Hp) ltac:(lia) s_world_range s_nb_le P D) as (r & w & E & M).
  exists r, w. split; [exact E|]. intro R. apply s_world_meets, M, R.
Qed.
Lemma s_world_hits P D : (na * nb <= 20)%nat -> overlaps A B -> exists w, sdfv_common_rel (F:=b32) P D a b (delta_transform p q) = Ok (true, w).
Proof.
  intros L O. destruct (delta_rel e Nr p q c s c' s' He Hp Hq Hd) as (z & Bz & T). apply s_world_overlaps in O.
  exact (s_turned_hits e Na Nb Nr a b A0 B0 na nb _ _ z _ _ 1 He Ha Hb Bz T _ (delta_acts e p q c s c' s' Hp) ltac:(lia) s_world_range s_nb_le P D L O).
Qed.
Let turn_p := rotate (IZR c) (IZR s).
Lemma s_world_vector D : (na * nb <= 20)%nat -> overlaps A B ->
  exists x w, sdfv_common_rel (F:=b32) true D a b (delta_transform p q) = Ok (true, x) /\ within e x w /\ resolves A B (turn_p w).
Proof.
  intros L O. destruct (delta_rel e Nr p q c s c' s' He Hp Hq Hd) as (z & Bz & T). apply s_world_overlaps in O.
  destruct (s_turned_vector e Na Nb Nr a b A0 B0 na nb _ _ z _ _ 1 He Ha Hb Bz T _ (delta_acts e p q c s c' s' Hp) ltac:(lia) s_world_range s_nb_le D L O) as (x & w & E & N & G).
  exists x, w. split; [exact E|]. split; [exact N|].
  apply (resolves_ext _ _ _ _ s_world_sets). apply resolves_rigid; [|exact G]. destruct Hp as (_ & U & _). exact (unit_sq c s U).
Qed.
Lemma s_world_contact P : ~ meets A B ->
  exists x w, sdfv_common_rel (F:=b32) P true a b (delta_transform p q) = Ok (false, x) /\ within e x w /\ meets (shift (turn_p w) A) B.
Proof.
  intros NM. destruct (delta_rel e Nr p q c s c' s' He Hp Hq Hd) as (z & Bz & T).
  destruct (s_turned_distance e Na Nb Nr a b A0 B0 na nb _ _ z _ _ 1 He Ha Hb Bz T _ (delta_acts e p q c s c' s' Hp) ltac:(lia) s_world_range s_nb_le P) as (x & w & E & N & G).
  - intro M. apply NM. exact (s_world_meets M).
  - exists x, w. split; [exact E|]. split; [exact N|]. apply (meets_ext _ _ _ _ (same_refl _) s_world_sets).
    destruct Hp as (_ & U & _). apply (rigid_meets _ _ _ (unit_sq c s U)). exact G.
Qed.
End World.
Theorem C58_shapes_world : forall (e Na Nb Nr : Z) (a b : shape2d b32) (A0 B0 : pset) (na nb : nat) (p q : transform2d b32) (c s c' s' : Z), (-7 <= e <= 14)%Z ->
  grid_shape e Na a A0 na -> grid_shape e Nb b B0 nb -> quarter_placement e (2 ^ 22) p c s 1 -> quarter_placement e (2 ^ 22) q c' s' 1 ->
  Rabs (val (vx (t_pos q)) - val (vx (t_pos p))) <= IZR Nr * bpow radix2 e -> Rabs (val (vy (t_pos q)) - val (vy (t_pos p))) <= IZR Nr * bpow radix2 e ->
  (Na + Nb + Nr <= 32)%Z ->
  let A := image (put p c s 1) A0 in let B := image (put q c' s' 1) B0 in
  ((na * nb <= 20)%nat -> overlaps A B -> wrapped_or_not (T:=transform2d b32) (fun X Y SD x y => hits_world (Collider2d x p) (Collider2d y q)) a b) /\
  (~ meets A B -> wrapped_or_not (T:=transform2d b32) (fun X Y SD x y => misses_world (Collider2d x p) (Collider2d y q)) a b).
Proof.
  intros e Na Nb Nr a b A0 B0 na nb p q c s c' s' He Ha Hb Hp Hq D1 D2 HN A B. split.
  - intros L O. pose proof (fun P D => s_world_hits e Na Nb Nr a b A0 B0 na nb p q c s c' s' He Ha Hb Hp Hq (conj D1 D2) HN P D L O) as H.
    apply (wrapped _ (fun f => forall P D, exists w, f P D (delta_transform p q) = Ok (true, w))); [|exact H]. intros X Y SD x y k. apply world_hits, hits_of. exact k.
  - intro O. pose proof (s_world_sound e Na Nb Nr a b A0 B0 na nb p q c s c' s' He Ha Hb Hp Hq (conj D1 D2) HN) as H.
    apply (wrapped _ (fun f => forall P D, exists r w, f P D (delta_transform p q) = Ok (r, w) /\ (r = true -> meets A B))); [|exact H]. intros X Y SD x y k. apply world_misses. exact (misses_sound _ _ _ _ O k).
Qed.
Print Assumptions C58_shapes_world.
(** sdfv turns its vector to the axes of the world; penetrates and distance_to leave it in the axes of the first collider *)
Theorem C59_shapes_turned_world : forall (e Na Nb Nr : Z) (a b : shape2d b32) (A0 B0 : pset) (na nb : nat) (p q : transform2d b32) (c s c' s' : Z), (-7 <= e <= 14)%Z ->
  grid_shape e Na a A0 na -> grid_shape e Nb b B0 nb -> quarter_placement e (2 ^ 22) p c s 1 -> quarter_placement e (2 ^ 22) q c' s' 1 ->
  Rabs (val (vx (t_pos q)) - val (vx (t_pos p))) <= IZR Nr * bpow radix2 e -> Rabs (val (vy (t_pos q)) - val (vy (t_pos p))) <= IZR Nr * bpow radix2 e ->
  (Na + Nb + Nr <= 32)%Z ->
  let A := image (put p c s 1) A0 in let B := image (put q c' s' 1) B0 in
  ((na * nb <= 20)%nat -> overlaps A B -> wrapped_or_not (T:=transform2d b32) (fun X Y SD x y =>
     (exists v w, sdfv (F:=b32) (Collider2d x p) (Collider2d y q) = Ok (true, v) /\ within e v w /\ resolves A B w) /\
     (exists v w, penetrates (F:=b32) (Collider2d x p) (Collider2d y q) = Ok (Some v) /\ within e v w /\ resolves A B (rotate (IZR c) (IZR s) w))) a b) /\
  (~ meets A B -> wrapped_or_not (T:=transform2d b32) (fun X Y SD x y =>
     (exists v w, sdfv (F:=b32) (Collider2d x p) (Collider2d y q) = Ok (false, v) /\ within e v w /\ meets (shift w A) B) /\
     (exists v w, distance_to (F:=b32) (Collider2d x p) (Collider2d y q) = Ok (Some v) /\ within e v w /\ meets (shift (rotate (IZR c) (IZR s) w) A) B)) a b).
Proof.
  intros e Na Nb Nr a b A0 B0 na nb p q c s c' s' He Ha Hb Hp Hq D1 D2 HN A B. pose proof Hp as (_ & U & WC & WS & _). split.
  - intros L O. pose proof (fun D => s_world_vector e Na Nb Nr a b A0 B0 na nb p q c s c' s' He Ha Hb Hp Hq (conj D1 D2) HN D L O) as H.
    apply (wrapped _ (fun f => forall D, exists x w, f true D (delta_transform p q) = Ok (true, x) /\ within e x w /\ resolves A B (rotate (IZR c) (IZR s) w))); [|exact H].
    intros X Y SD x0 y0 k. split.
    + destruct (k true) as (x & w & E & N & G). exists (rotor_rot (t_rot p) x), (rotate (IZR c) (IZR s) w).
      split; [|split; [apply turn_within; assumption | exact G]]. unfold sdfv, sdfv_rel. cbn zeta. cbn [c_shape c_transform]. rewrite E. reflexivity.
    + destruct (k false) as (x & w & E & N & G). exists x, w. split; [|split; assumption].
      unfold penetrates, penetrates_rel. cbn zeta. cbn [c_shape c_transform]. rewrite E. reflexivity.
  - intro O. pose proof (fun P => s_world_contact e Na Nb Nr a b A0 B0 na nb p q c s c' s' He Ha Hb Hp Hq (conj D1 D2) HN P O) as H.
    apply (wrapped _ (fun f => forall P, exists x w, f P true (delta_transform p q) = Ok (false, x) /\ within e x w /\ meets (shift (rotate (IZR c) (IZR s) w) A) B)); [|exact H].
    intros X Y SD x0 y0 k. split.
    + destruct (k true) as (x & w & E & N & G). exists (rotor_rot (t_rot p) x), (rotate (IZR c) (IZR s) w).
      split; [|split; [apply turn_within; assumption | exact G]]. unfold sdfv, sdfv_rel. cbn zeta. cbn [c_shape c_transform]. rewrite E. reflexivity.
    + destruct (k false) as (x & w & E & N & G). exists x, w. split; [|split; assumption].
      unfold distance_to, distance_to_rel. cbn zeta. cbn [c_shape c_transform]. rewrite E. reflexivity.
Qed.
Print Assumptions C59_shapes_turned_world.

(** ** The hypotheses are met: a 2 x 2 square (four half-unit steps) against the triangle of C58, and against a copy of itself to its right, where the search runs along an axis *)
Definition square (n : Z) : shape2d b32 := SBox (Box2d (at_ n)).
Definition along (n : Z) : vec2 b32 := V2 (b32_of n (-1)) (b32_of 0 0).
Lemma square_grid n N : (0 <= n <= N)%Z -> (N <= 2 ^ 24)%Z -> grid_shape (-1) N (square n) (rect (IZR n / 2) (IZR n / 2)) 4.
Proof.
  intros Bn L. destruct (val_of n (-1) ltac:(lia) ltac:(lia)) as [_ V]. assert (E : val (vx (at_ n)) = IZR n / 2) by exact V.
  assert (E' : val (vy (at_ n)) = IZR n / 2) by exact V. rewrite <- E at 1. rewrite <- E'. assert (0 <= IZR n) by (apply (IZR_le 0); lia).
  apply grid_box; [apply at_steps; lia | rewrite E; lra | rewrite E'; lra].
Qed.
Lemma tri_grid n N : (Z.abs n <= N)%Z -> (N <= 2 ^ 24)%Z -> grid_shape (-1) N (SPoly (Poly2d (tri n))) (polygon (tri n)) 3.
Proof. intros B L. rewrite <- (tri_len n). apply grid_poly; [apply tri_ne | apply tri_steps; assumption]. Qed.
Lemma along_steps n N : (Z.abs n <= N)%Z -> (N <= 2 ^ 24)%Z -> steps2 (-1) N (along n).
Proof. intros. split; [apply steps_of; assumption | apply steps_zero; lia]. Qed.
Lemma along_val n : (Z.abs n <= 2 ^ 24)%Z -> rval (along n) = (IZR n / 2, 0).
Proof. intro B. destruct (val_of n (-1) B ltac:(lia)) as [_ V]. destruct (val_of 0 0 ltac:(lia) ltac:(lia)) as [_ V0]. unfold along, rval. cbn [vx vy]. rewrite V, V0. apply pt_eq; cbn; lra. Qed.
Lemma square_triangle : overlaps (rect (4 / 2) (4 / 2)) (shift (rval (at_ 2)) (polygon (tri 4))).
Proof.
  exists 1. split; [lra|]. intros w W. pose proof (norm_x w) as X. pose proof (norm_y w) as Y.
  assert (Rabs (fst w) < 1) by lra. assert (Rabs (snd w) < 1) by lra. apply Rabs_def2 in H. apply Rabs_def2 in H0.
  exists (1, 1). split; [split; cbn; lra|]. unfold shift, polygon. rewrite at_val, tri_map by lia. replace (psub (1, 1) (2 / 2, 2 / 2)) with (0, 0) by (apply pt_eq; cbn; lra).
  apply in_tri; lra.
Qed.
Lemma squares_overlap : overlaps (rect (4 / 2) (4 / 2)) (shift (rval (along 6)) (rect (4 / 2) (4 / 2))).
Proof.
  exists (1 / 2). split; [lra|]. intros w W. pose proof (norm_x w) as X. pose proof (norm_y w) as Y.
  assert (Rabs (fst w) < 1 / 2) by lra. assert (Rabs (snd w) < 1 / 2) by lra. apply Rabs_def2 in H. apply Rabs_def2 in H0.
  exists (3 / 2, 0). rewrite along_val by lia. split; unfold shift, rect; cbn; lra.
Qed.
Lemma squares_apart : ~ meets (rect (4 / 2) (4 / 2)) (shift (rval (along 9)) (rect (4 / 2) (4 / 2))).
Proof. intros (p & [A _] & [B _]). rewrite along_val in B by lia. cbn in * . lra. Qed.
Lemma twenty n m : (n * m <=? 20)%nat = true -> (n * m <= 20)%nat. Proof. apply Nat.leb_le. Qed.
Example grid_shapes : hits (square 4) (SPoly (Poly2d (tri 4))) (at_ 2) /\ hits (square 4) (square 4) (along 6) /\ misses (square 4) (square 4) (along 9) /\
  good_penetration (-1) (square 4) (square 4) (along 6) (rect (4 / 2) (4 / 2)) (shift (rval (along 6)) (rect (4 / 2) (4 / 2))).
Proof.
  pose proof (square_grid 4 4 ltac:(lia) ltac:(lia)) as A. pose proof (tri_grid 4 4 ltac:(lia) ltac:(lia)) as B. split; [|split; [|split]].
  - exact (proj1 (C58_shapes_hit (-1) 4 4 2 _ _ _ _ _ _ (at_ 2) ltac:(lia) A B (at_steps 2 2 ltac:(lia) ltac:(lia)) ltac:(lia) (twenty 4 3 eq_refl) square_triangle)).
  - exact (proj1 (C58_shapes_hit (-1) 4 4 6 _ _ _ _ _ _ (along 6) ltac:(lia) A A (along_steps 6 6 ltac:(lia) ltac:(lia)) ltac:(lia) (twenty 4 4 eq_refl) squares_overlap)).
  - exact (proj1 (C58_shapes_miss (-1) 4 4 9 _ _ _ _ _ _ (along 9) ltac:(lia) A A (along_steps 9 9 ltac:(lia) ltac:(lia)) ltac:(lia) squares_apart)).
  - exact (proj1 (proj1 (C59_shapes_penetration (-1) 4 4 6 _ _ _ _ _ _ (along 6) ltac:(lia) A A (along_steps 6 6 ltac:(lia) ltac:(lia)) ltac:(lia) (twenty 4 4 eq_refl) squares_overlap))).
Qed.
