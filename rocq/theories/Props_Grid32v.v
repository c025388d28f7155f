(** * C59: convex polygons on a small grid: how good the f32 vectors are

    The same polygons as in C58, in binary32. A penetration vector differs, in each coordinate, by at most 1/65536 of a grid step from a vector that does resolve
    the overlap and is at most 2% longer than any other that does; a distance vector by as little from one that brings the polygons into contact. *)
From Coq Require Import Reals ZArith Bool Lra Lia List Psatz.
From Flocq Require Import IEEE754.BinarySingleNaN Core.
From Verif Require Import Num NumXR NumB32 Glam Transform2 Shapes2 Gjk Detect2 Spec SpecLink P_Base P_Transform P_Shapes P_Geo P_B32 Props_F32 Props_F32Gjk Props_F32Box
  P_Grid32 P_Grid32b P_Grid32e P_Grid32h P_Grid32c P_Grid32d Props_Grid32.
Import ListNotations.
Local Open Scope R_scope.

(** ** Vocabulary *)
(** v is finite and each coordinate is within 2^(e - 16) of w *)
Definition within (e : Z) (v : vec2 b32) (w : pt) : Prop :=
  fin2 v /\ Rabs (val (vx v) - fst w) <= bpow radix2 (e - 16) /\ Rabs (val (vy v) - snd w) <= bpow radix2 (e - 16).
(** translating A by w resolves the overlap, and no translation that does is shorter by more than 2% *)
Definition resolves (A B : pset) (w : pt) : Prop := separates w A B /\ forall u, separates u A B -> norm w <= 102 / 100 * norm u.
(** the penetration vectors are good ones for A and B *)
Definition good_penetration {X Y T : Type} {SD : SdfvCommonRel2d b32 X Y T} (e : Z) (a : X) (b : Y) (rel : T) (A B : pset) : Prop :=
  (exists v w, penetrates_rel (F:=b32) a b rel = Ok (Some v) /\ within e v w /\ resolves A B w) /\
  (exists v w, sdfv_rel (F:=b32) a b rel = Ok (true, v) /\ within e v w /\ resolves A B w).
(** the distance vectors lead to contact *)
Definition good_distance {X Y T : Type} {SD : SdfvCommonRel2d b32 X Y T} (e : Z) (a : X) (b : Y) (rel : T) (A B : pset) : Prop :=
  (exists v w, distance_to_rel (F:=b32) a b rel = Ok (Some v) /\ within e v w /\ meets (shift w A) B) /\
  (exists v w, sdfv_rel (F:=b32) a b rel = Ok (false, v) /\ within e v w /\ meets (shift w A) B).

Lemma eta_pow e : eta e = bpow radix2 (e - 16).
Proof. unfold eta. unfold Z.sub. rewrite bpow_plus. reflexivity. Qed.
Lemma near_within e v w : near e v w -> within e v w.
Proof. intros (F & X & Y). rewrite eta_pow in X, Y. split; [exact F|]. split; assumption. Qed.
Lemma shift_ext v X Y : same_set X Y -> same_set (shift v X) (shift v Y).
Proof. intros H p. apply H. Qed.
Lemma same_sym X Y : same_set X Y -> same_set Y X. Proof. intros H p. symmetry. apply H. Qed.
Lemma separates_ext v A B B' : same_set B B' -> separates v A B -> separates v A B'.
Proof. intros H S O. apply S. apply (same_overlaps _ _ _ _ (diff_ext _ _ _ _ (same_refl (shift v A)) H)). exact O. Qed.
Lemma resolves_ext A B B' w : same_set B B' -> resolves A B w -> resolves A B' w.
Proof. intros H [S M]. split; [exact (separates_ext _ _ _ _ H S)|]. intros u U. apply M. exact (separates_ext _ _ _ _ (same_sym _ _ H) U). Qed.

Lemma penetration_of {X Y T : Type} {SD : SdfvCommonRel2d b32 X Y T} e (a : X) (b : Y) (rel : T) A B :
  (forall D, exists x w, sdfv_common_rel (F:=b32) true D a b rel = Ok (true, x) /\ within e x w /\ resolves A B w) -> good_penetration e a b rel A B.
Proof.
  intro H. destruct (H false) as (x & w & E & N). destruct (H true) as (x' & w' & E' & N'). split.
  - exists x, w. unfold penetrates_rel. rewrite E. split; [reflexivity | exact N].
  - exists x', w'. unfold sdfv_rel. rewrite E'. split; [reflexivity | exact N'].
Qed.
Lemma distance_of {X Y T : Type} {SD : SdfvCommonRel2d b32 X Y T} e (a : X) (b : Y) (rel : T) A B :
  (forall P, exists x w, sdfv_common_rel (F:=b32) P true a b rel = Ok (false, x) /\ within e x w /\ meets (shift w A) B) -> good_distance e a b rel A B.
Proof.
  intro H. destruct (H false) as (x & w & E & N). destruct (H true) as (x' & w' & E' & N'). split.
  - exists x, w. unfold distance_to_rel. rewrite E. split; [reflexivity | exact N].
  - exists x', w'. unfold sdfv_rel. rewrite E'. split; [reflexivity | exact N'].
Qed.

Section Moved.
Variables (e Na Nb Nr : Z) (la lb : list (vec2 b32)) (rel : vec2 b32).
Hypothesis He : (-7 <= e <= 14)%Z.
Hypothesis Hne : la <> [] /\ lb <> [].
Hypothesis Ha : Forall (steps2 e Na) la.
Hypothesis Hb : Forall (steps2 e Nb) lb.
Hypothesis Hr : steps2 e Nr rel.
Hypothesis HN : (Na + Nb + Nr <= 32)%Z.
Let B := shift (rval rel) (polygon lb).
Lemma moved_vector D : (length la * length lb <= 20)%nat -> overlaps (polygon la) B ->
  exists x w, sdfv_common_rel (F:=b32) true D (Poly2d la) (Poly2d lb) rel = Ok (true, x) /\ within e x w /\ resolves (polygon la) B w.
Proof.
  intros L O. pose proof (na_nonneg e Na la lb Hne Ha). pose proof (nb_nonneg e Nb la lb Hne Hb). pose proof (steps_nonneg e _ _ Hr).
  destruct (pair_vector e He la lb rel (inj (rv rel)) Na Nb (Nb + Nr) (rv rel) 1 0 1 (list_ptn e Na la Ha) (list_ptn e Nb lb Hb) ltac:(lia)
    (moved_apply e Na Nb Nr la lb rel He Hne Ha Hb Hr HN)
    (fun d d' H => H) (ptn_le e Nr 32 _ _ ltac:(lia) (steps_ptn e Nr rel Hr)) Hne (acts_vec2 (rv rel)) ltac:(ring) ltac:(lra)
    (ex_intro _ 1%Z (ex_intro _ 0%Z (ex_intro _ 1%Z (conj eq_refl (conj eq_refl eq_refl))))) D L) as (x & w & E & N & M).
  - apply (same_overlaps _ _ _ _ (diff_ext _ _ _ _ (same_refl _) (shift_place (rval rel) (polygon lb)))). exact O.
  - exists x, w. split; [exact E|]. split; [apply near_within, N|]. exact (resolves_ext _ _ _ _ (shift_place (rval rel) (polygon lb)) M).
Qed.
Lemma moved_distance P : ~ meets (polygon la) B ->
  exists x w, sdfv_common_rel (F:=b32) P true (Poly2d la) (Poly2d lb) rel = Ok (false, x) /\ within e x w /\ meets (shift w (polygon la)) B.
Proof.
  intros NM. pose proof (na_nonneg e Na la lb Hne Ha). pose proof (nb_nonneg e Nb la lb Hne Hb). pose proof (steps_nonneg e _ _ Hr).
  destruct (moved_sound e Na Nb Nr la lb rel He Hne Ha Hb Hr HN P true) as (r & x & E & S). destruct r; [exfalso; apply NM, S; reflexivity|].
  destruct (pair_distance e He la lb rel (inj (rv rel)) Na Nb (Nb + Nr) (rv rel) 1 0 1 (list_ptn e Na la Ha) (list_ptn e Nb lb Hb) ltac:(lia)
    (moved_apply e Na Nb Nr la lb rel He Hne Ha Hb Hr HN)
    (fun d d' H => H) (ptn_le e Nr 32 _ _ ltac:(lia) (steps_ptn e Nr rel Hr)) Hne (acts_vec2 (rv rel)) ltac:(ring) ltac:(lra)
    (ex_intro _ 1%Z (ex_intro _ 0%Z (ex_intro _ 1%Z (conj eq_refl (conj eq_refl eq_refl))))) P x E) as (w & N & M).
  exists x, w. split; [exact E|]. split; [apply near_within, N|]. apply (meets_ext _ _ _ _ (same_refl _) (shift_place (rval rel) (polygon lb))). exact M.
Qed.
End Moved.

(** ** The theorems *)
Theorem C59_penetration_vector : forall (e Na Nb Nr : Z) (la lb : list (vec2 b32)) (rel : vec2 b32), (-7 <= e <= 14)%Z -> la <> [] -> lb <> [] ->
  Forall (steps2 e Na) la -> Forall (steps2 e Nb) lb -> steps2 e Nr rel -> (Na + Nb + Nr <= 32)%Z -> (length la * length lb <= 20)%nat ->
  let A := polygon la in let B := shift (rval rel) (polygon lb) in overlaps A B ->
  good_penetration e (Poly2d la) (Poly2d lb) rel A B /\ good_penetration e (SPoly (Poly2d la)) (SPoly (Poly2d lb)) rel A B /\
  good_penetration e (Poly2d la) (Poly2d lb) (Translate2d rel) A B.
Proof.
  intros e Na Nb Nr la lb rel He Na0 Nb0 Ha Hb Hr HN L A B O. pose proof (fun D => moved_vector e Na Nb Nr la lb rel He (conj Na0 Nb0) Ha Hb Hr HN D L O) as H.
  split; [|split]; apply penetration_of; intro D; exact (H D).
Qed.
Print Assumptions C59_penetration_vector.
Theorem C59_distance_vector : forall (e Na Nb Nr : Z) (la lb : list (vec2 b32)) (rel : vec2 b32), (-7 <= e <= 14)%Z -> la <> [] -> lb <> [] ->
  Forall (steps2 e Na) la -> Forall (steps2 e Nb) lb -> steps2 e Nr rel -> (Na + Nb + Nr <= 32)%Z ->
  let A := polygon la in let B := shift (rval rel) (polygon lb) in ~ meets A B ->
  good_distance e (Poly2d la) (Poly2d lb) rel A B /\ good_distance e (SPoly (Poly2d la)) (SPoly (Poly2d lb)) rel A B /\
  good_distance e (Poly2d la) (Poly2d lb) (Translate2d rel) A B.
Proof.
  intros e Na Nb Nr la lb rel He Na0 Nb0 Ha Hb Hr HN A B O. pose proof (fun P => moved_distance e Na Nb Nr la lb rel He (conj Na0 Nb0) Ha Hb Hr HN P O) as H.
  split; [|split]; apply distance_of; intro P; exact (H P).
Qed.
Print Assumptions C59_distance_vector.

(** ** Quarter turns and whole-number scales *)
Section Turned.
Variables (e Na Nb Nr : Z) (la lb : list (vec2 b32)) (rel : transform2d b32) (relX : transform2d XR) (z : Z * Z) (c s k : Z).
Hypothesis He : (-7 <= e <= 14)%Z.
Hypothesis Hne : la <> [] /\ lb <> [].
Hypothesis Ha : Forall (steps2 e Na) la.
Hypothesis Hb : Forall (steps2 e Nb) lb.
Hypothesis Hz : (Z.abs (fst z) <= Nr /\ Z.abs (snd z) <= Nr)%Z.
Hypothesis Ht : t2i e z c s k rel relX.
Variable v : pt.
Hypothesis Hact : acts_as relX v (IZR c) (IZR s) (IZR k).
Hypothesis Hk : (0 <= k <= 32)%Z.
Hypothesis HN : (Na + k * Nb + Nr <= 32)%Z.
Hypothesis HNb : (Nb <= 32)%Z.
Let B := image (place v (IZR c) (IZR s) (IZR k) (IZR k)) (polygon lb).
Lemma turned_vector D : (length la * length lb <= 20)%nat -> overlaps (polygon la) B ->
  exists x w, sdfv_common_rel (F:=b32) true D (Poly2d la) (Poly2d lb) rel = Ok (true, x) /\ within e x w /\ resolves (polygon la) B w.
Proof.
  intros L O. destruct (pair_vector e He la lb rel relX Na Nb (k * Nb + Nr) v (IZR c) (IZR s) (IZR k) (list_ptn e Na la Ha) (list_ptn e Nb lb Hb)
    (turned_range e Na Nb Nr la lb z k Hne Ha Hb Hz Hk HN HNb) (turned_apply e Na Nb Nr la lb rel relX z c s k He Hne Ha Hz Ht Hk HN)
    (turned_unapply e rel relX z c s k He Ht) (turned_origin e Na Nb Nr la lb rel relX z c s k Hne Ha Hb Hz Ht Hk HN) Hne Hact (unit_sq c s (proj1 (proj1 (proj2 Ht)))) (conj (IZR_le _ _ (proj1 Hk)) (IZR_le _ _ (proj2 Hk)))
    (ex_intro _ c (ex_intro _ s (ex_intro _ k (conj eq_refl (conj eq_refl eq_refl))))) D L O) as (x & w & E & N & M).
  exists x, w. split; [exact E|]. split; [apply near_within, N | exact M].
Qed.
Lemma turned_distance P : ~ meets (polygon la) B ->
  exists x w, sdfv_common_rel (F:=b32) P true (Poly2d la) (Poly2d lb) rel = Ok (false, x) /\ within e x w /\ meets (shift w (polygon la)) B.
Proof.
  intro NM. destruct (turned_sound e Na Nb Nr la lb rel relX z c s k He Hne Ha Hb Hz Ht v Hact Hk HN HNb P true) as (r & x & E & S). destruct r; [exfalso; apply NM, S; reflexivity|].
  destruct (pair_distance e He la lb rel relX Na Nb (k * Nb + Nr) v (IZR c) (IZR s) (IZR k) (list_ptn e Na la Ha) (list_ptn e Nb lb Hb)
    (turned_range e Na Nb Nr la lb z k Hne Ha Hb Hz Hk HN HNb) (turned_apply e Na Nb Nr la lb rel relX z c s k He Hne Ha Hz Ht Hk HN)
    (turned_unapply e rel relX z c s k He Ht) (turned_origin e Na Nb Nr la lb rel relX z c s k Hne Ha Hb Hz Ht Hk HN) Hne Hact (unit_sq c s (proj1 (proj1 (proj2 Ht)))) (conj (IZR_le _ _ (proj1 Hk)) (IZR_le _ _ (proj2 Hk)))
    (ex_intro _ c (ex_intro _ s (ex_intro _ k (conj eq_refl (conj eq_refl eq_refl))))) P x E) as (w & N & M).
  exists x, w. split; [exact E|]. split; [apply near_within, N | exact M].
Qed.
End Turned.
Theorem C59_turned_penetration : forall (e Na Nb Nr : Z) (la lb : list (vec2 b32)) (rel : transform2d b32) (c s k : Z), (-7 <= e <= 14)%Z -> la <> [] -> lb <> [] ->
  Forall (steps2 e Na) la -> Forall (steps2 e Nb) lb -> quarter_placement e Nr rel c s k -> (0 <= k <= 32)%Z -> (Nb <= 32)%Z -> (Na + k * Nb + Nr <= 32)%Z ->
  (length la * length lb <= 20)%nat -> let A := polygon la in let B := image (put rel c s k) (polygon lb) in overlaps A B ->
  good_penetration e (Poly2d la) (Poly2d lb) rel A B /\ good_penetration e (SPoly (Poly2d la)) (SPoly (Poly2d lb)) rel A B.
Proof.
  intros e Na Nb Nr la lb rel c s k He Na0 Nb0 Ha Hb Hq Hk HNb HN L A B O. destruct (quarter_t2i e Nr rel c s k Hq) as (z & Bz & T).
  pose proof (fun D => turned_vector e Na Nb Nr la lb rel _ z c s k He (conj Na0 Nb0) Ha Hb Bz T _ (acts_t2 _ _ _ _) Hk HN HNb D L O) as H.
  split; apply penetration_of; intro D; exact (H D).
Qed.
Print Assumptions C59_turned_penetration.
Theorem C59_turned_distance : forall (e Na Nb Nr : Z) (la lb : list (vec2 b32)) (rel : transform2d b32) (c s k : Z), (-7 <= e <= 14)%Z -> la <> [] -> lb <> [] ->
  Forall (steps2 e Na) la -> Forall (steps2 e Nb) lb -> quarter_placement e Nr rel c s k -> (0 <= k <= 32)%Z -> (Nb <= 32)%Z -> (Na + k * Nb + Nr <= 32)%Z ->
  let A := polygon la in let B := image (put rel c s k) (polygon lb) in ~ meets A B ->
  good_distance e (Poly2d la) (Poly2d lb) rel A B /\ good_distance e (SPoly (Poly2d la)) (SPoly (Poly2d lb)) rel A B.
Proof.
  intros e Na Nb Nr la lb rel c s k He Na0 Nb0 Ha Hb Hq Hk HNb HN A B O. destruct (quarter_t2i e Nr rel c s k Hq) as (z & Bz & T).
  pose proof (fun P => turned_distance e Na Nb Nr la lb rel _ z c s k He (conj Na0 Nb0) Ha Hb Bz T _ (acts_t2 _ _ _ _) Hk HN HNb P O) as H.
  split; apply distance_of; intro P; exact (H P).
Qed.
Print Assumptions C59_turned_distance.

(** ** Colliders in the world placed by Vec2 or Translate2d, however far from the origin *)
Definition good_penetration_world {X Y T : Type} {SD : SdfvCommonRel2d b32 X Y T} {TR : Transformation2d b32 T} {I : Invertible T} {C : Composable T}
  (e : Z) (a : collider2d X T) (b : collider2d Y T) (A B : pset) : Prop :=
  (exists v w, penetrates (F:=b32) a b = Ok (Some v) /\ within e v w /\ resolves A B w) /\ (exists v w, sdfv (F:=b32) a b = Ok (true, v) /\ within e v w /\ resolves A B w).
Definition good_distance_world {X Y T : Type} {SD : SdfvCommonRel2d b32 X Y T} {TR : Transformation2d b32 T} {I : Invertible T} {C : Composable T}
  (e : Z) (a : collider2d X T) (b : collider2d Y T) (A B : pset) : Prop :=
  (exists v w, distance_to (F:=b32) a b = Ok (Some v) /\ within e v w /\ meets (shift w A) B) /\ (exists v w, sdfv (F:=b32) a b = Ok (false, v) /\ within e v w /\ meets (shift w A) B).

Lemma diff_twice u v X Y w : same_set (minkowski_diff (shift w (shift u X)) (shift v Y)) (minkowski_diff (shift w X) (shift (psub v u) Y)).
Proof.
  intro p. split; intros (x & y & HX & HY & ->); unfold shift in HX, HY.
  - exists (psub x u), (psub y u). unfold shift. split; [|split; [|apply pt_eq; cbn; ring]].
    + replace (psub (psub x u) w) with (psub (psub x w) u); [exact HX|]. apply pt_eq; cbn; ring.
    + replace (psub (psub y u) (psub v u)) with (psub y v); [exact HY|]. apply pt_eq; cbn; ring.
  - exists (padd x u), (padd y u). unfold shift. split; [|split; [|apply pt_eq; cbn; ring]].
    + replace (psub (psub (padd x u) w) u) with (psub x w); [exact HX|]. apply pt_eq; cbn; ring.
    + replace (psub (padd y u) v) with (psub y (psub v u)); [exact HY|]. apply pt_eq; cbn; ring.
Qed.
Lemma resolves_twice u v X Y w : resolves X (shift (psub v u) Y) w -> resolves (shift u X) (shift v Y) w.
Proof.
  assert (E : forall w, separates w (shift u X) (shift v Y) <-> separates w X (shift (psub v u) Y)).
  { intro w'. unfold separates. pose proof (same_overlaps _ _ _ _ (diff_twice u v X Y w')). pose proof (same_overlaps _ _ _ _ (same_sym _ _ (diff_twice u v X Y w'))). tauto. }
  intros [S M]. split; [apply E, S|]. intros w' W. apply M, E, W.
Qed.
Lemma contact_twice u v X Y w : meets (shift w X) (shift (psub v u) Y) -> meets (shift w (shift u X)) (shift v Y).
Proof.
  intros (x & X1 & X2). exists (padd x u). unfold shift in * . split.
  - replace (psub (psub (padd x u) w) u) with (psub x w); [exact X1|]. apply pt_eq; cbn; ring.
  - replace (psub (padd x u) v) with (psub x (psub v u)); [exact X2|]. apply pt_eq; cbn; ring.
Qed.
Lemma world_penetration {X Y : Type} {SD : SdfvCommonRel2d b32 X Y (vec2 b32)} e (a : X) (b : Y) (p q : vec2 b32) A B A' B' :
  (forall w, resolves A B w -> resolves A' B' w) -> good_penetration e a b (v2add q (v2neg p)) A B -> good_penetration_world e (Collider2d a p) (Collider2d b q) A' B'.
Proof.
  intros H [(x & w & E & N & R1) (x' & w' & E' & N' & R2)]. split.
  - exists x, w. split; [exact E|]. auto.
  - exists x', w'. split; [|auto]. unfold sdfv. cbn zeta. change (delta_transform (c_transform (Collider2d a p)) (c_transform (Collider2d b q))) with (v2add q (v2neg p)).
    cbn [c_shape]. rewrite E'. reflexivity.
Qed.
Lemma world_distance {X Y : Type} {SD : SdfvCommonRel2d b32 X Y (vec2 b32)} e (a : X) (b : Y) (p q : vec2 b32) A B A' B' :
  (forall w, meets (shift w A) B -> meets (shift w A') B') -> good_distance e a b (v2add q (v2neg p)) A B -> good_distance_world e (Collider2d a p) (Collider2d b q) A' B'.
Proof.
  intros H [(x & w & E & N & R1) (x' & w' & E' & N' & R2)]. split.
  - exists x, w. split; [exact E|]. auto.
  - exists x', w'. split; [|auto]. unfold sdfv. cbn zeta. change (delta_transform (c_transform (Collider2d a p)) (c_transform (Collider2d b q))) with (v2add q (v2neg p)).
    cbn [c_shape]. rewrite E'. reflexivity.
Qed.
Lemma translate_penetration {X Y : Type} {SD : SdfvCommonRel2d b32 X Y (translate2d b32)} e (a : X) (b : Y) (p q : vec2 b32) A B A' B' :
  (forall w, resolves A B w -> resolves A' B' w) -> good_penetration e a b (Translate2d (v2add q (v2neg p))) A B ->
  good_penetration_world e (Collider2d a (Translate2d p)) (Collider2d b (Translate2d q)) A' B'.
Proof.
  intros H [(x & w & E & N & R1) (x' & w' & E' & N' & R2)]. split.
  - exists x, w. split; [exact E|]. auto.
  - exists x', w'. split; [|auto]. unfold sdfv. cbn zeta. cbn [c_shape c_transform].
    change (delta_transform (Translate2d p) (Translate2d q)) with (Translate2d (v2add q (v2neg p))). rewrite E'. reflexivity.
Qed.
Lemma translate_distance {X Y : Type} {SD : SdfvCommonRel2d b32 X Y (translate2d b32)} e (a : X) (b : Y) (p q : vec2 b32) A B A' B' :
  (forall w, meets (shift w A) B -> meets (shift w A') B') -> good_distance e a b (Translate2d (v2add q (v2neg p))) A B ->
  good_distance_world e (Collider2d a (Translate2d p)) (Collider2d b (Translate2d q)) A' B'.
Proof.
  intros H [(x & w & E & N & R1) (x' & w' & E' & N' & R2)]. split.
  - exists x, w. split; [exact E|]. auto.
  - exists x', w'. split; [|auto]. unfold sdfv. cbn zeta. cbn [c_shape c_transform].
    change (delta_transform (Translate2d p) (Translate2d q)) with (Translate2d (v2add q (v2neg p))). rewrite E'. reflexivity.
Qed.
Theorem C59_moved_world : forall (e Na Nb Nr : Z) (la lb : list (vec2 b32)) (p q : vec2 b32), (-7 <= e <= 14)%Z -> la <> [] -> lb <> [] ->
  Forall (steps2 e Na) la -> Forall (steps2 e Nb) lb -> steps2 e (2 ^ 22) p -> steps2 e (2 ^ 22) q ->
  Rabs (val (vx q) - val (vx p)) <= IZR Nr * bpow radix2 e -> Rabs (val (vy q) - val (vy p)) <= IZR Nr * bpow radix2 e -> (Na + Nb + Nr <= 32)%Z ->
  let A := shift (rval p) (polygon la) in let B := shift (rval q) (polygon lb) in
  ((length la * length lb <= 20)%nat -> overlaps A B ->
     good_penetration_world e (Collider2d (Poly2d la) p) (Collider2d (Poly2d lb) q) A B /\
     good_penetration_world e (Collider2d (SPoly (Poly2d la)) p) (Collider2d (SPoly (Poly2d lb)) q) A B /\
     good_penetration_world e (Collider2d (Poly2d la) (Translate2d p)) (Collider2d (Poly2d lb) (Translate2d q)) A B) /\
  (~ meets A B ->
     good_distance_world e (Collider2d (Poly2d la) p) (Collider2d (Poly2d lb) q) A B /\
     good_distance_world e (Collider2d (SPoly (Poly2d la)) p) (Collider2d (SPoly (Poly2d lb)) q) A B /\
     good_distance_world e (Collider2d (Poly2d la) (Translate2d p)) (Collider2d (Poly2d lb) (Translate2d q)) A B).
Proof.
  intros e Na Nb Nr la lb p q He Na0 Nb0 Ha Hb Hp Hq D1 D2 HN A B. destruct (vec2_delta e Nr p q He Hp Hq D1 D2) as [Hr Er].
  destruct (shift_twice (rval p) (rval q) (polygon la) (polygon lb)) as [SM SO].
  pose proof (resolves_twice (rval p) (rval q) (polygon la) (polygon lb)) as RT. pose proof (contact_twice (rval p) (rval q) (polygon la) (polygon lb)) as CT.
  rewrite <- Er in SM, SO, RT, CT. split.
  - intros L O. destruct (C59_penetration_vector e Na Nb Nr la lb _ He Na0 Nb0 Ha Hb Hr HN L (SO O)) as (H1 & H2 & H3).
    split; [|split]; [exact (world_penetration e _ _ p q _ _ _ _ RT H1) | exact (world_penetration e _ _ p q _ _ _ _ RT H2) | exact (translate_penetration e _ _ p q _ _ _ _ RT H3)].
  - intro O. destruct (C59_distance_vector e Na Nb Nr la lb _ He Na0 Nb0 Ha Hb Hr HN (fun M => O (SM M))) as (H1 & H2 & H3).
    split; [|split]; [exact (world_distance e _ _ p q _ _ _ _ CT H1) | exact (world_distance e _ _ p q _ _ _ _ CT H2) | exact (translate_distance e _ _ p q _ _ _ _ CT H3)].
Qed.
Print Assumptions C59_moved_world.

(** ** Colliders in the world, each turned by a multiple of 90 degrees
    sdfv turns its vector to the axes of the world; penetrates and distance_to leave it in the axes of the first collider. *)
Lemma times_exact n x : (n = 0 \/ n = 1 \/ n = -1)%Z -> forall k, whole k n -> fin x -> fin (fmul k x) /\ val (fmul k x) = IZR n * val x.
Proof.
  intros U k [Fk Vk] Fx. assert (E : rnd (val k * val x) = IZR n * val x).
  { rewrite Vk. destruct U as [->|[->| ->]]; [rewrite Rmult_0_l; apply rnd_0 | rewrite Rmult_1_l; apply rnd_exact |].
    replace (-1 * val x) with (val (fneg x)) by (rewrite val_neg; ring). apply rnd_exact. }
  destruct (mul_ok k x Fk Fx) as [F V].
  - rewrite E, Rabs_mult, <- abs_IZR. pose proof (val_big x). destruct U as [->|[->| ->]]; cbn; [pose proof (Rabs_pos (val x)); lra | rewrite Rmult_1_l; assumption | rewrite Rmult_1_l; assumption].
  - split; [exact F|]. rewrite V. exact E.
Qed.
Lemma turn_exact (t : rotor2d b32) (c s : Z) v : (Z.abs c + Z.abs s = 1)%Z -> whole (vx (ra t)) c -> whole (vy (ra t)) s -> fin2 v ->
  fin2 (rotor_rot t v) /\ rval (rotor_rot t v) = rotate (IZR c) (IZR s) (rval v).
Proof.
  intros U WC WS [FX FY].
  assert (Uc : (c = 0 \/ c = 1 \/ c = -1)%Z) by lia. assert (Us : (s = 0 \/ s = 1 \/ s = -1)%Z) by lia.
  destruct (times_exact c (vx v) Uc _ WC FX) as [F1 V1]. destruct (times_exact s (vy v) Us _ WS FY) as [F2 V2'].
  destruct (times_exact c (vy v) Uc _ WC FY) as [F3 V3]. destruct (times_exact s (vx v) Us _ WS FX) as [F4 V4].
  assert (Z0 : forall x, IZR 0 * x = 0) by (intro; ring).
  assert (E1 : rnd (val (fmul (vx (ra t)) (vx v)) - val (fmul (vy (ra t)) (vy v))) = val (fmul (vx (ra t)) (vx v)) - val (fmul (vy (ra t)) (vy v))).
  { destruct (Z.eq_dec c 0) as [->|Nc].
    - rewrite V1, Z0, Rminus_0_l, <- val_neg. apply rnd_exact.
    - assert (s = 0%Z) by lia. subst s. rewrite V2', Z0, Rminus_0_r. apply rnd_exact. }
  assert (E2 : rnd (val (fmul (vx (ra t)) (vy v)) + val (fmul (vy (ra t)) (vx v))) = val (fmul (vx (ra t)) (vy v)) + val (fmul (vy (ra t)) (vx v))).
  { destruct (Z.eq_dec c 0) as [->|Nc].
    - rewrite V3, Z0, Rplus_0_l. apply rnd_exact.
    - assert (s = 0%Z) by lia. subst s. rewrite V4, Z0, Rplus_0_r. apply rnd_exact. }
  destruct (sub_ok _ _ F1 F2) as [G1 W1].
  { rewrite E1. destruct (Z.eq_dec c 0) as [->|Nc].
    - rewrite V1, Z0, Rminus_0_l, <- val_neg. apply val_big.
    - assert (s = 0%Z) by lia. subst s. rewrite V2', Z0, Rminus_0_r. apply val_big. }
  destruct (add_ok _ _ F3 F4) as [G2 W2].
  { rewrite E2. destruct (Z.eq_dec c 0) as [->|Nc].
    - rewrite V3, Z0, Rplus_0_l. apply val_big.
    - assert (s = 0%Z) by lia. subst s. rewrite V4, Z0, Rplus_0_r. apply val_big. }
  rewrite E1 in W1. rewrite E2 in W2. split; [split; assumption|].
  unfold rval, rotor_rot. cbn [vx vy]. rewrite W1, W2, V1, V2', V3, V4. apply pt_eq; cbn; ring.
Qed.
Lemma turn_within e (t : rotor2d b32) (c s : Z) v w : (Z.abs c + Z.abs s = 1)%Z -> whole (vx (ra t)) c -> whole (vy (ra t)) s -> within e v w ->
  within e (rotor_rot t v) (rotate (IZR c) (IZR s) w).
Proof.
  intros U WC WS (F & X & Y). destruct (turn_exact t c s v U WC WS F) as [F' E]. split; [exact F'|].
  assert (EX : val (vx (rotor_rot t v)) = fst (rotate (IZR c) (IZR s) (rval v))) by (rewrite <- E; reflexivity).
  assert (EY : val (vy (rotor_rot t v)) = snd (rotate (IZR c) (IZR s) (rval v))) by (rewrite <- E; reflexivity).
  rewrite EX, EY. cbn [rotate rval fst snd].
  destruct (unit_cases c s U) as [(-> & ->)|[(-> & ->)|[(-> & ->)|(-> & ->)]]]; rewrite ?Rmult_0_l, ?Rmult_1_l.
  all: split; match goal with |- Rabs ?a <= _ => first
    [ replace a with (val (vx v) - fst w) by lra; assumption | replace a with (val (vy v) - snd w) by lra; assumption
    | replace a with (- (val (vx v) - fst w)) by lra; rewrite Rabs_Ropp; assumption | replace a with (- (val (vy v) - snd w)) by lra; rewrite Rabs_Ropp; assumption ] end.
Qed.
Lemma resolves_rigid v c s A B w : c * c + s * s = 1 -> resolves A B w -> resolves (image (place v c s 1 1) A) (image (place v c s 1 1) B) (rotate c s w).
Proof.
  intros U [S M]. split.
  - unfold separates. rewrite (rigid_overlaps_shift v c s U). exact S.
  - intros x X. rewrite (norm_rotate c s w U). unfold separates in X. rewrite <- (rotate_rotate_inv c s U x) in X. rewrite (rigid_overlaps_shift v c s U) in X.
    rewrite <- (rotate_rotate_inv c s U x), (norm_rotate c s _ U). apply M, X.
Qed.
Section World.
Variables (e Na Nb Nr : Z) (la lb : list (vec2 b32)) (p q : transform2d b32) (c s c' s' : Z).
Hypothesis He : (-7 <= e <= 14)%Z.
Hypothesis Hne : la <> [] /\ lb <> [].
Hypothesis Ha : Forall (steps2 e Na) la.
Hypothesis Hb : Forall (steps2 e Nb) lb.
Hypothesis Hp : quarter_placement e (2 ^ 22) p c s 1.
Hypothesis Hq : quarter_placement e (2 ^ 22) q c' s' 1.
Hypothesis Hd : Rabs (val (vx (t_pos q)) - val (vx (t_pos p))) <= IZR Nr * bpow radix2 e /\ Rabs (val (vy (t_pos q)) - val (vy (t_pos p))) <= IZR Nr * bpow radix2 e.
Hypothesis HN : (Na + Nb + Nr <= 32)%Z.
Let A := image (put p c s 1) (polygon la).
Let B := image (put q c' s' 1) (polygon lb).
Let turn_p := rotate (IZR c) (IZR s).
Lemma world_vector D : (length la * length lb <= 20)%nat -> overlaps A B ->
  exists x w, sdfv_common_rel (F:=b32) true D (Poly2d la) (Poly2d lb) (delta_transform p q) = Ok (true, x) /\ within e x w /\ resolves A B (turn_p w).
Proof.
  intros L O. destruct (delta_rel e Nr p q c s c' s' He Hp Hq Hd) as (z & Bz & T). apply (world_overlaps e la lb p q c s c' s' Hp) in O.
  destruct (turned_vector e Na Nb Nr la lb _ _ z _ _ 1 He Hne Ha Hb Bz T _ (delta_acts e p q c s c' s' Hp) ltac:(lia) (world_range Na Nb Nr HN)
    (nb_le e Na Nb Nr la lb p q c s c' s' He Hne Ha Hp Hq Hd HN) D L O) as (x & w & E & N & G).
  exists x, w. split; [exact E|]. split; [exact N|].
  apply (resolves_ext _ _ _ _ (world_sets e lb p q c s c' s' Hp)). apply resolves_rigid; [|exact G]. destruct Hp as (_ & U & _). exact (unit_sq c s U).
Qed.
Lemma world_contact P : ~ meets A B ->
  exists x w, sdfv_common_rel (F:=b32) P true (Poly2d la) (Poly2d lb) (delta_transform p q) = Ok (false, x) /\ within e x w /\ meets (shift (turn_p w) A) B.
Proof.
  intros NM. destruct (delta_rel e Nr p q c s c' s' He Hp Hq Hd) as (z & Bz & T).
  destruct (turned_distance e Na Nb Nr la lb _ _ z _ _ 1 He Hne Ha Hb Bz T _ (delta_acts e p q c s c' s' Hp) ltac:(lia) (world_range Na Nb Nr HN)
    (nb_le e Na Nb Nr la lb p q c s c' s' He Hne Ha Hp Hq Hd HN) P) as (x & w & E & N & G).
  - intro M. apply NM. exact (world_meets e la lb p q c s c' s' Hp M).
  - exists x, w. split; [exact E|]. split; [exact N|]. apply (meets_ext _ _ _ _ (same_refl _) (world_sets e lb p q c s c' s' Hp)).
    destruct Hp as (_ & U & _). apply (rigid_meets _ _ _ (unit_sq c s U)). exact G.
Qed.
End World.
Theorem C59_turned_world : forall (e Na Nb Nr : Z) (la lb : list (vec2 b32)) (p q : transform2d b32) (c s c' s' : Z), (-7 <= e <= 14)%Z -> la <> [] -> lb <> [] ->
  Forall (steps2 e Na) la -> Forall (steps2 e Nb) lb -> quarter_placement e (2 ^ 22) p c s 1 -> quarter_placement e (2 ^ 22) q c' s' 1 ->
  Rabs (val (vx (t_pos q)) - val (vx (t_pos p))) <= IZR Nr * bpow radix2 e -> Rabs (val (vy (t_pos q)) - val (vy (t_pos p))) <= IZR Nr * bpow radix2 e ->
  (Na + Nb + Nr <= 32)%Z ->
  let a := Collider2d (Poly2d la) p in let b := Collider2d (Poly2d lb) q in
  let A := image (put p c s 1) (polygon la) in let B := image (put q c' s' 1) (polygon lb) in
  ((length la * length lb <= 20)%nat -> overlaps A B ->
     (exists v w, sdfv (F:=b32) a b = Ok (true, v) /\ within e v w /\ resolves A B w) /\
     (exists v w, penetrates (F:=b32) a b = Ok (Some v) /\ within e v w /\ resolves A B (rotate (IZR c) (IZR s) w))) /\
  (~ meets A B ->
     (exists v w, sdfv (F:=b32) a b = Ok (false, v) /\ within e v w /\ meets (shift w A) B) /\
     (exists v w, distance_to (F:=b32) a b = Ok (Some v) /\ within e v w /\ meets (shift (rotate (IZR c) (IZR s) w) A) B)).
Proof.
  intros e Na Nb Nr la lb p q c s c' s' He Na0 Nb0 Ha Hb Hp Hq D1 D2 HN a b A B. pose proof Hp as (_ & U & WC & WS & _). split.
  - intros L O. pose proof (fun D => world_vector e Na Nb Nr la lb p q c s c' s' He (conj Na0 Nb0) Ha Hb Hp Hq (conj D1 D2) HN D L O) as H. split.
    + destruct (H true) as (x & w & E & N & G). exists (rotor_rot (t_rot p) x), (rotate (IZR c) (IZR s) w).
      split; [|split; [apply turn_within; assumption | exact G]]. unfold sdfv, sdfv_rel. cbn zeta. cbn [a b c_shape c_transform]. rewrite E. reflexivity.
    + destruct (H false) as (x & w & E & N & G). exists x, w. split; [|split; assumption].
      unfold penetrates, penetrates_rel. cbn zeta. cbn [a b c_shape c_transform]. rewrite E. reflexivity.
  - intro O. pose proof (fun P => world_contact e Na Nb Nr la lb p q c s c' s' He (conj Na0 Nb0) Ha Hb Hp Hq (conj D1 D2) HN P O) as H. split.
    + destruct (H true) as (x & w & E & N & G). exists (rotor_rot (t_rot p) x), (rotate (IZR c) (IZR s) w).
      split; [|split; [apply turn_within; assumption | exact G]]. unfold sdfv, sdfv_rel. cbn zeta. cbn [a b c_shape c_transform]. rewrite E. reflexivity.
    + destruct (H false) as (x & w & E & N & G). exists x, w. split; [|split; assumption].
      unfold distance_to, distance_to_rel. cbn zeta. cbn [a b c_shape c_transform]. rewrite E. reflexivity.
Qed.
Print Assumptions C59_turned_world.

(** ** The hypotheses are met: the triangles of C58 *)
Example grid_vectors :
  good_penetration (-1) (Poly2d (tri 8)) (Poly2d (tri 4)) (at_ 2) (polygon (tri 8)) (shift (rval (at_ 2)) (polygon (tri 4))) /\
  good_penetration (-1) (Poly2d (tri 8)) (Poly2d (tri 4)) turned (polygon (tri 8)) (image (put turned 0 1 1) (polygon (tri 4))) /\
  good_distance (-1) (Poly2d (tri 8)) (Poly2d (tri 4)) (at_ 5) (polygon (tri 8)) (shift (rval (at_ 5)) (polygon (tri 4))).
Proof.
  pose proof (tri_steps 8 8 ltac:(lia) ltac:(lia)) as A. pose proof (tri_steps 4 4 ltac:(lia) ltac:(lia)) as B. destruct turned_overlap as [O1 O2].
  split; [|split].
  - exact (proj1 (C59_penetration_vector (-1) 8 4 2 _ _ (at_ 2) ltac:(lia) (tri_ne 8) (tri_ne 4) A B (at_steps 2 2 ltac:(lia) ltac:(lia)) ltac:(lia) (tri_few 8 4) O2)).
  - exact (proj1 (C59_turned_penetration (-1) 8 4 2 _ _ turned 0 1 1 ltac:(lia) (tri_ne 8) (tri_ne 4) A B turned_placed ltac:(lia) ltac:(lia) ltac:(lia) (tri_few 8 4) O1)).
  - exact (proj1 (C59_distance_vector (-1) 8 4 5 _ _ (at_ 5) ltac:(lia) (tri_ne 8) (tri_ne 4) A B (at_steps 5 5 ltac:(lia) ltac:(lia)) ltac:(lia) apart)).
Qed.
