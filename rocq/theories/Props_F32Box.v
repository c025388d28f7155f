(** * C56: Box2d v Box2d in binary32, rounding included: the verdict of every query is right unless the boxes are about touching *)
From Coq Require Import Reals ZArith Bool Lra Lia List Psatz.
From Flocq Require Import IEEE754.BinarySingleNaN Core.
From Verif Require Import Num NumXR NumB32 Glam Transform2 Shapes2 Gjk Detect2 Spec P_B32 P_Base P_Shapes Props_F32 Props_F32Gjk P_F32Box.
Import ListNotations.
Local Open Scope R_scope.

(** ** Vocabulary *)
(** what it means for every query to report a collision, or none *)
Section Verdicts.
Context {A B T : Type} {SD : SdfvCommonRel2d b32 A B T}.
Definition every_query_hits (a : A) (b : B) (rel : T) : Prop :=
  collides_rel (F:=b32) a b rel = Ok true /\ (exists v, penetrates_rel (F:=b32) a b rel = Ok (Some v)) /\
  distance_to_rel (F:=b32) a b rel = Ok None /\ (exists v, sdfv_rel (F:=b32) a b rel = Ok (true, v)).
Definition every_query_misses (a : A) (b : B) (rel : T) : Prop :=
  collides_rel (F:=b32) a b rel = Ok false /\ penetrates_rel (F:=b32) a b rel = Ok None /\
  (exists v, distance_to_rel (F:=b32) a b rel = Ok (Some v)) /\ (exists v, sdfv_rel (F:=b32) a b rel = Ok (false, v)).
Lemma hits_of a b rel : (forall P D, exists v, sdfv_common_rel (F:=b32) P D a b rel = Ok (true, v)) -> every_query_hits a b rel.
Proof.
  intro H. unfold every_query_hits, collides_rel, penetrates_rel, distance_to_rel, sdfv_rel.
  destruct (H false false) as (v1 & ->). destruct (H true false) as (v2 & ->). destruct (H false true) as (v3 & ->). destruct (H true true) as (v4 & ->).
  cbn. repeat split; eauto.
Qed.
Lemma misses_of a b rel : (forall P D, exists v, sdfv_common_rel (F:=b32) P D a b rel = Ok (false, v)) -> every_query_misses a b rel.
Proof.
  intro H. unfold every_query_misses, collides_rel, penetrates_rel, distance_to_rel, sdfv_rel.
  destruct (H false false) as (v1 & ->). destruct (H true false) as (v2 & ->). destruct (H false true) as (v3 & ->). destruct (H true true) as (v4 & ->).
  cbn. repeat split; eauto.
Qed.
End Verdicts.

(** A placement without rotation: directions are left alone and each coordinate x goes to r + k x, computed with two roundings. *)
Definition axis_map (r : b32) (k : R) (q : b32 -> b32) : Prop :=
  fin r -> Rabs (val r) <= bpow radix2 27 -> forall x, fin x -> Rabs (k * val x) <= bpow radix2 27 ->
  fin (q x) /\ val (q x) = rnd (val r + rnd (k * val x)).
Definition unrotated {T : Type} {TR : Transformation2d b32 T} (t : T) (k : R) : Prop :=
  (forall n, unapply_normal t n = n) /\
  exists qx qy, (forall p, apply t p = V2 (qx (vx p)) (qy (vy p))) /\
  axis_map (vx (apply_origin t)) k qx /\ axis_map (vy (apply_origin t)) k qy.
(** the four placements of the library without rotation are such *)
Lemma add_27 x y : fin x -> fin y -> Rabs (val x) <= bpow radix2 27 -> Rabs (val y) <= bpow radix2 27 -> fin (fadd x y) /\ val (fadd x y) = rnd (val x + val y).
Proof. intros Fx Fy X Y. destruct (add_bd 27 x y (conj Fx X) (conj Fy Y) ltac:(lia)) as [[F _] V]. split; assumption. Qed.
Lemma axis_shift r : axis_map r 1 (fun x => fadd x r).
Proof.
  intros F B x Fx Bx. rewrite Rmult_1_l in * . rewrite rnd_exact. destruct (add_27 x r Fx F Bx B) as [K V].
  split; [exact K | rewrite V; f_equal; ring].
Qed.
Lemma unrotated_vec2 (t : vec2 b32) : unrotated t 1.
Proof. split; [reflexivity|]. exists (fun x => fadd x (vx t)), (fun y => fadd y (vy t)). split; [reflexivity|]. split; apply axis_shift. Qed.
Lemma unrotated_translate (t : translate2d b32) : unrotated t 1.
Proof. split; [reflexivity|]. exists (fun x => fadd x (vx (tr_pos t))), (fun y => fadd y (vy (tr_pos t))). split; [reflexivity|]. split; apply axis_shift. Qed.
Lemma unrotated_identity : unrotated IdT 1.
Proof.
  assert (A : axis_map f0 1 (fun x => x)) by (intros F B x Fx Bx; split; [exact Fx|]; rewrite Rmult_1_l, rnd_exact; change (val f0) with 0; rewrite Rplus_0_l, rnd_exact; reflexivity).
  split; [reflexivity|]. exists (fun x => x), (fun y => y). split; [intros []; reflexivity|]. split; exact A.
Qed.
Lemma unrotated_axis (t : axis_transform2d b32) : fin (ax_scale t) -> unrotated t (val (ax_scale t)).
Proof.
  intro Fs.
  assert (A : forall r, axis_map r (val (ax_scale t)) (fun x => fadd r (fmul (ax_scale t) x))).
  { intros r F B x Fx Bx. pose proof (rnd_abs_hi 27 _ ltac:(lia) Bx) as R.
    destruct (mul_ok (ax_scale t) x Fs Fx) as [Fm Vm]; [eapply Rle_lt_trans; [exact R | apply bpow_big; lia]|].
    rewrite <- Vm. apply add_27; try assumption. rewrite Vm. exact R. }
  split; [reflexivity|]. exists (fun x => fadd (vx (ax_pos t)) (fmul (ax_scale t) x)), (fun y => fadd (vy (ax_pos t)) (fmul (ax_scale t) y)).
  split; [reflexivity|]. split; apply A.
Qed.

(** On one axis: two segments of half lengths h and h', the second k times longer and its middle moved by d. *)
Definition total (h : b32) (k : R) (h' : b32) : R := val h + k * val h'.
(** half lengths are f32 numbers, not negative, and nothing is beyond 2^27 *)
Definition usable (h h' : b32) (k d : R) : Prop :=
  fin h /\ fin h' /\ 0 <= val h /\ 0 <= k * val h' /\ total h k h' <= bpow radix2 27 /\ Rabs d <= bpow radix2 27.
(** they overlap by at least m (1 + their total length), the exact numbers *)
Definition overlap_by (m : R) (h h' : b32) (k d : R) : Prop := Rabs d + m * (1 + total h k h') <= total h k h'.
(** they are apart by at least m (4^j + |d|) *)
Definition gap_by (m : R) (j : Z) (h h' : b32) (k d : R) : Prop := total h k h' + m * (bpow radix2 (2 * j) + Rabs d) <= Rabs d.
(** they are not too short *)
Definition thick (m : R) (j : Z) (h h' : b32) (k d : R) : Prop := bpow radix2 (- j) + m * Rabs d <= total h k h'.

Section Pair.
Context {T : Type} {TR : Transformation2d b32 T}.
Variables (a b : box2d b32) (t : T) (k : R).
Hypothesis U : unrotated t k.
Hypothesis F : fin2 (apply_origin t).
Let rx := vx (apply_origin t).
Let ry := vy (apply_origin t).
Hypothesis BX : usable (vx (halfsize a)) (vx (halfsize b)) k (val rx).
Hypothesis BY : usable (vy (halfsize a)) (vy (halfsize b)) k (val ry).

Lemma pair_support : exists qx qy, axis_map rx k qx /\ axis_map ry k qy /\
  forall sx sy d, sb sx (vx d) -> sb sy (vy d) ->
  lmd_extreme_point a b t d = corner (axisX (vx (halfsize a)) (vx (halfsize b)) qx) (axisX (vy (halfsize a)) (vy (halfsize b)) qy) sx sy.
Proof.
  destruct U as [N (qx & qy & A & QX & QY)]. exists qx, qy. split; [exact QX|]. split; [exact QY|]. intros sx sy d SX SY.
  unfold lmd_extreme_point. rewrite N, A. unfold extreme_point, Ext_Box, v2neg, v2sub, corner, axisX. cbn [vx vy].
  rewrite (sb_signum _ _ SX), (sb_signum _ _ SY), (sb_signum _ _ (sb_neg _ _ SX)), (sb_signum _ _ (sb_neg _ _ SY)). reflexivity.
Qed.
Lemma start_fin : fin2 (lmd_initial_direction t).
Proof. unfold lmd_initial_direction. destruct (flt _ _); [split; reflexivity | exact F]. Qed.
Lemma start_dir : exists sx sy, dir sx sy (lmd_initial_direction t).
Proof.
  destruct start_fin as [FX FY]. exists (negb (fnegsign (vx (lmd_initial_direction t)))), (negb (fnegsign (vy (lmd_initial_direction t)))).
  split; [apply sb_dec, FX|]. split; [apply sb_dec, FY|]. clear FX FY. unfold lmd_initial_direction.
  destruct (flt (v2lensq (apply_origin t)) feps) eqn:E.
  - cbn [vx vy]. destruct fin_f1 as [_ V1]. rewrite V1. change (val f0) with 0. rewrite Rabs_R0, Rabs_R1. assert (1 <= bpow radix2 90) by (apply (bpow_le radix2 0 90); lia).
    split; [lra|]. split; [lra|]. left. cbn [vx]. rewrite V1, Rabs_R1. apply (bpow_le radix2 (-24) 0). lia.
  - destruct F as [FX FY]. destruct BX as (_ & _ & _ & _ & _ & B1), BY as (_ & _ & _ & _ & _ & B2).
    assert (bpow radix2 27 <= bpow radix2 90) by (apply bpow_le; lia). split; [unfold rx in B1; lra|]. split; [unfold ry in B2; lra|].
    destruct (Rle_lt_dec (bpow radix2 (-24)) (Rabs (val rx))) as [L|L]; [left; exact L|].
    destruct (Rle_lt_dec (bpow radix2 (-24)) (Rabs (val ry))) as [L'|L']; [right; exact L'|]. exfalso.
    assert (E' : flt (v2lensq (apply_origin t)) feps = true); [|congruence]. unfold v2lensq, v2dot.
    assert (X : bd (-24) rx) by (split; [exact FX | lra]). assert (Y : bd (-24) ry) by (split; [exact FY | lra]).
    destruct (mul_bd _ _ _ _ X X ltac:(lia)) as [XX _]. destruct (mul_bd _ _ _ _ Y Y ltac:(lia)) as [YY _].
    destruct (add_bd _ _ _ XX YY ltac:(lia)) as [[K B] _]. destruct (val_of 1 (-23) ltac:(lia) ltac:(lia)) as [Fe Ve]. change (b32_of 1 (-23)) with (@feps b32 _) in Fe, Ve.
    fold rx ry. rewrite flt_fin, Ve by assumption. apply Rltb_true. eapply Rle_lt_trans; [apply Rle_abs|]. eapply Rle_lt_trans; [exact B|]. rewrite Rmult_1_l. apply bpow_lt. lia.
Qed.
Lemma pair_hits : overlap_by (bpow radix2 (-20)) (vx (halfsize a)) (vx (halfsize b)) k (val rx) ->
  overlap_by (bpow radix2 (-20)) (vy (halfsize a)) (vy (halfsize b)) k (val ry) ->
  forall P D, exists v, gjk (lmd_extreme_point a b t) P D (lmd_initial_direction t) = Ok (true, v).
Proof.
  intros OX OY P D. destruct pair_support as (qx & qy & QX & QY & H). destruct start_dir as (sx & sy & SD).
  destruct F as [FX FY]. destruct BX as (A1 & A2 & A3 & A4 & A5 & A6), BY as (B1 & B2 & B3 & B4 & B5 & B6).
  eapply (all_inside _ _ _ H); [| |exact SD].
  - apply (axis_overlap _ _ rx k); try assumption. apply QX; assumption.
  - apply (axis_overlap _ _ ry k); try assumption. apply QY; assumption.
Qed.
Lemma gap_sign m j h h' d : 0 <= m -> gap_by m j h h' k d -> exists g, total h k h' + m * (bpow radix2 (2 * j) + Rabs d) <= - (sg g * d).
Proof.
  intros M G. unfold gap_by in G. exists (if Rlt_dec d 0 then true else false). unfold Rabs in * . destruct (Rlt_dec d 0), (Rcase_abs d); unfold sg; try lra.
Qed.
Lemma pair_misses j : (0 <= j <= 7)%Z ->
  (gap_by (bpow radix2 (-20)) j (vx (halfsize a)) (vx (halfsize b)) k (val rx) \/ gap_by (bpow radix2 (-20)) j (vy (halfsize a)) (vy (halfsize b)) k (val ry)) ->
  thick (bpow radix2 (-20)) j (vx (halfsize a)) (vx (halfsize b)) k (val rx) ->
  thick (bpow radix2 (-20)) j (vy (halfsize a)) (vy (halfsize b)) k (val ry) ->
  forall P D, exists v, gjk (lmd_extreme_point a b t) P D (lmd_initial_direction t) = Ok (false, v).
Proof.
  intros J G TX TY P D. destruct pair_support as (qx & qy & QX & QY & H). destruct start_fin as [SX SY].
  destruct F as [FX FY]. destruct BX as (A1 & A2 & A3 & A4 & A5 & A6), BY as (B1 & B2 & B3 & B4 & B5 & B6).
  pose proof (bpow_ge_0 radix2 (-20)) as E0.
  specialize (QX FX A6). specialize (QY FY B6).
  pose proof (axis_width _ _ rx k qx A1 A2 A3 A4 A5 A6 QX j J TX) as WX. pose proof (axis_width _ _ ry k qy B1 B2 B3 B4 B5 B6 QY j J TY) as WY.
  destruct G as [G|G].
  - destruct (gap_sign _ j (vx (halfsize a)) (vx (halfsize b)) (val rx) E0 G) as [g Hg].
    pose proof (axis_gap _ _ rx k qx A1 A2 A3 A4 A5 A6 QX j g J Hg) as MX.
    apply (x_all_apart _ _ _ H g (2 * j - 21) (- j) (- j)); try assumption; try lia.
    + intro s. destruct (axisX_val _ _ ry k qy B1 B2 B3 B4 B5 B6 QY s) as (K & _ & L). split; assumption.
    + apply WX.
  - destruct (gap_sign _ j (vy (halfsize a)) (vy (halfsize b)) (val ry) E0 G) as [g Hg].
    pose proof (axis_gap _ _ ry k qy B1 B2 B3 B4 B5 B6 QY j g J Hg) as MY.
    apply (y_all_apart _ _ _ H g (2 * j - 21) (- j) (- j)); try assumption; try lia.
    + intro s. destruct (axisX_val _ _ rx k qx A1 A2 A3 A4 A5 A6 QX s) as (K & _ & L). split; assumption.
    + apply WY.
Qed.
End Pair.
Definition micro20 : R := bpow radix2 (-20).
Definition micro19 : R := bpow radix2 (-19).

(** ** C56 *)
(** Boxes that overlap on both axes by a millionth of their size: every query reports the collision, for Box2d and for Shape2d. *)
Theorem C56_boxes_hit : forall (T : Type) (TR : Transformation2d b32 T) (a b : box2d b32) (rel : T) (k : R),
  unrotated rel k -> fin2 (apply_origin rel) ->
  let dx := val (vx (apply_origin rel)) in let dy := val (vy (apply_origin rel)) in
  usable (vx (halfsize a)) (vx (halfsize b)) k dx -> usable (vy (halfsize a)) (vy (halfsize b)) k dy ->
  overlap_by micro20 (vx (halfsize a)) (vx (halfsize b)) k dx -> overlap_by micro20 (vy (halfsize a)) (vy (halfsize b)) k dy ->
  every_query_hits a b rel /\ every_query_hits (SBox a) (SBox b) rel.
Proof.
  intros T TR a b rel k U F dx dy BX BY OX OY. pose proof (pair_hits a b rel k U F BX BY OX OY) as H.
  split; apply hits_of; intros P D; exact (H P D).
Qed.
Print Assumptions C56_boxes_hit.
(** a 6 x 1 box and a unit box drawn three halves as large, its centre at (-3, 1) *)
Definition ex_rel : axis_transform2d b32 := AxisTransform2d (V2 (b32_of (-3) 0) (b32_of 1 0)) (b32_of 3 (-1)).
Definition ex_a : box2d b32 := Box2d (V2 (b32_of 3 0) (b32_of 1 (-1))).
Definition ex_b : box2d b32 := Box2d (V2 (b32_of 1 (-1)) (b32_of 1 (-1))).
Ltac c56 := unfold usable, overlap_by, gap_by, thick, total, fin2, micro20, micro19, ex_rel, ex_a, ex_b;
  cbn [apply_origin Tr_Axis2d Tr_Vec2 ax_pos ax_scale vx vy halfsize];
  repeat match goal with |- _ /\ _ => split | |- fin _ => reflexivity end; b32_vals; cbn -[IZR Rabs];
  try (unfold Rabs; destruct Rcase_abs; lra); try lra; try lia.
Example boxes_hit_met : unrotated ex_rel (val (ax_scale ex_rel)) /\ fin2 (apply_origin ex_rel) /\
  usable (vx (halfsize ex_a)) (vx (halfsize ex_b)) (val (ax_scale ex_rel)) (val (vx (apply_origin ex_rel))) /\
  usable (vy (halfsize ex_a)) (vy (halfsize ex_b)) (val (ax_scale ex_rel)) (val (vy (apply_origin ex_rel))) /\
  overlap_by micro20 (vx (halfsize ex_a)) (vx (halfsize ex_b)) (val (ax_scale ex_rel)) (val (vx (apply_origin ex_rel))) /\
  overlap_by micro20 (vy (halfsize ex_a)) (vy (halfsize ex_b)) (val (ax_scale ex_rel)) (val (vy (apply_origin ex_rel))) /\
  collides_rel (F:=b32) ex_a ex_b ex_rel = Ok true.
Proof. split; [apply unrotated_axis; reflexivity|]. repeat (apply conj); try (vm_compute; reflexivity); c56. Qed.
(** Boxes that are apart on some axis by a millionth of their distance, and not too small: every query says so, and none panics. *)
Theorem C56_boxes_miss : forall (T : Type) (TR : Transformation2d b32 T) (a b : box2d b32) (rel : T) (k : R) (j : Z),
  unrotated rel k -> fin2 (apply_origin rel) ->
  let dx := val (vx (apply_origin rel)) in let dy := val (vy (apply_origin rel)) in
  usable (vx (halfsize a)) (vx (halfsize b)) k dx -> usable (vy (halfsize a)) (vy (halfsize b)) k dy ->
  (0 <= j <= 7)%Z -> thick micro20 j (vx (halfsize a)) (vx (halfsize b)) k dx -> thick micro20 j (vy (halfsize a)) (vy (halfsize b)) k dy ->
  gap_by micro20 j (vx (halfsize a)) (vx (halfsize b)) k dx \/ gap_by micro20 j (vy (halfsize a)) (vy (halfsize b)) k dy ->
  every_query_misses a b rel /\ every_query_misses (SBox a) (SBox b) rel.
Proof.
  intros T TR a b rel k j U F dx dy BX BY J TX TY G. pose proof (pair_misses a b rel k U F BX BY j J G TX TY) as H.
  split; apply misses_of; intros P D; exact (H P D).
Qed.
Print Assumptions C56_boxes_miss.
(** the same boxes, the second unscaled and its centre at (-3, -5/4): they are a quarter apart *)
Definition ex_rel2 : vec2 b32 := V2 (b32_of (-3) 0) (b32_of (-5) (-2)).
Example boxes_miss_met : unrotated ex_rel2 1 /\ fin2 (apply_origin ex_rel2) /\
  usable (vx (halfsize ex_a)) (vx (halfsize ex_b)) 1 (val (vx ex_rel2)) /\ usable (vy (halfsize ex_a)) (vy (halfsize ex_b)) 1 (val (vy ex_rel2)) /\
  thick micro20 1 (vx (halfsize ex_a)) (vx (halfsize ex_b)) 1 (val (vx ex_rel2)) /\ thick micro20 1 (vy (halfsize ex_a)) (vy (halfsize ex_b)) 1 (val (vy ex_rel2)) /\
  gap_by micro20 1 (vy (halfsize ex_a)) (vy (halfsize ex_b)) 1 (val (vy ex_rel2)) /\
  collides_rel (F:=b32) ex_a ex_b ex_rel2 = Ok false.
Proof. split; [apply unrotated_vec2|]. unfold ex_rel2. repeat (apply conj); try (vm_compute; reflexivity); c56. Qed.

(** ** The same for colliders in the world, in terms of their exact positions *)
Definition hits_world {A B T : Type} {SD : SdfvCommonRel2d b32 A B T} {TR : Transformation2d b32 T} {I : Invertible T} {C : Composable T}
  (a : collider2d A T) (b : collider2d B T) : Prop :=
  collides (F:=b32) a b = Ok true /\ (exists v, penetrates (F:=b32) a b = Ok (Some v)) /\
  distance_to (F:=b32) a b = Ok None /\ (exists v, sdfv (F:=b32) a b = Ok (true, v)).
Definition misses_world {A B T : Type} {SD : SdfvCommonRel2d b32 A B T} {TR : Transformation2d b32 T} {I : Invertible T} {C : Composable T}
  (a : collider2d A T) (b : collider2d B T) : Prop :=
  collides (F:=b32) a b = Ok false /\ penetrates (F:=b32) a b = Ok None /\
  (exists v, distance_to (F:=b32) a b = Ok (Some v)) /\ (exists v, sdfv (F:=b32) a b = Ok (false, v)).
Lemma world_hits {A B T : Type} {SD : SdfvCommonRel2d b32 A B T} {TR : Transformation2d b32 T} {I : Invertible T} {C : Composable T} (a : collider2d A T) (b : collider2d B T) :
  every_query_hits (c_shape a) (c_shape b) (delta_transform (c_transform a) (c_transform b)) -> hits_world a b.
Proof.
  intros (H1 & H2 & H3 & v & H4). unfold hits_world, collides, penetrates, distance_to, sdfv. cbn zeta.
  split; [exact H1|]. split; [exact H2|]. split; [exact H3|]. rewrite H4. cbn. eauto.
Qed.
Lemma world_misses {A B T : Type} {SD : SdfvCommonRel2d b32 A B T} {TR : Transformation2d b32 T} {I : Invertible T} {C : Composable T} (a : collider2d A T) (b : collider2d B T) :
  every_query_misses (c_shape a) (c_shape b) (delta_transform (c_transform a) (c_transform b)) -> misses_world a b.
Proof.
  intros (H1 & H2 & H3 & v & H4). unfold misses_world, collides, penetrates, distance_to, sdfv. cbn zeta.
  split; [exact H1|]. split; [exact H2|]. split; [exact H3|]. rewrite H4. cbn. eauto.
Qed.

(** one axis of the rounded offset *)
Lemma offset p q : fin p -> fin q -> Rabs (val q - val p) <= bpow radix2 27 ->
  fin (fadd q (fneg p)) /\ Rabs (val (fadd q (fneg p))) <= bpow radix2 27 /\ Rabs (val (fadd q (fneg p)) - (val q - val p)) <= u32 * Rabs (val q - val p).
Proof.
  intros Fp Fq B. assert (E : val q + val (fneg p) = val q - val p) by (rewrite val_neg; reflexivity).
  pose proof (rnd_abs_hi 27 (val q - val p) ltac:(lia) B) as L.
  destruct (add_ok q (fneg p) Fq (proj2 (fin_neg p) Fp)) as [K V]; [rewrite E; eapply Rle_lt_trans; [exact L | apply bpow_big; lia]|].
  split; [exact K|]. rewrite V. destruct (rnd_error_add q (fneg p)) as (e & He & X). split; [rewrite E; exact L|]. rewrite X, E.
  replace ((val q - val p) * (1 + e) - (val q - val p)) with (e * (val q - val p)) by ring. rewrite Rabs_mult. apply Rmult_le_compat_r; [apply Rabs_pos | exact He].
Qed.
Section OffsetAxis.
Variables (h h' : b32) (d r : R).
Hypothesis U : usable h h' 1 d.
Hypothesis B : Rabs r <= bpow radix2 27.
Hypothesis N : Rabs (r - d) <= u32 * Rabs d.
Lemma m19 : micro19 = 32 * u32. Proof. unfold micro19. rewrite u32_pow. change (-19)%Z with (5 + -24)%Z. rewrite bpow_plus. reflexivity. Qed.
Lemma m20 : micro20 = 16 * u32. Proof. unfold micro20. rewrite u32_pow. change (-20)%Z with (4 + -24)%Z. rewrite bpow_plus. reflexivity. Qed.
Lemma u_small : 0 < u32 <= / 1000.
Proof. split; [rewrite u32_pow; apply bpow_gt_0 | unfold u32; apply Rinv_le; [lra | apply IZR_le; lia]]. Qed.
Lemma off_usable : usable h h' 1 r. Proof. destruct U as (A1 & A2 & A3 & A4 & A5 & A6). repeat split; assumption. Qed.
Lemma off_abs : Rabs d - u32 * Rabs d <= Rabs r <= Rabs d + u32 * Rabs d.
Proof. clear U B. apply Rabs_split in N. revert N. generalize (u32 * Rabs d). intros e N. unfold Rabs in *; destruct (Rcase_abs r), (Rcase_abs d); lra. Qed.
Lemma off_total : 0 <= total h 1 h'. Proof. clear B N. destruct U as (_ & _ & A3 & A4 & _). unfold total. lra. Qed.
Lemma off_overlap : overlap_by micro19 h h' 1 d -> overlap_by micro20 h h' 1 r.
Proof.
  clear B. unfold overlap_by. rewrite m19, m20. intro O. pose proof off_abs. pose proof u_small. pose proof off_total. pose proof (Rabs_pos d).
  assert (0 <= u32 * total h 1 h') by nra. assert (Rabs d <= total h 1 h') by nra. assert (u32 * Rabs d <= u32 * total h 1 h') by (apply Rmult_le_compat_l; lra). nra.
Qed.
Lemma off_gap j : gap_by micro19 j h h' 1 d -> gap_by micro20 j h h' 1 r.
Proof.
  clear B. unfold gap_by. rewrite m19, m20. intro O. pose proof off_abs. pose proof u_small. pose proof off_total. pose proof (Rabs_pos d). pose proof (bpow_gt_0 radix2 (2 * j)).
  set (w := bpow radix2 (2 * j)) in *; clearbody w. assert (0 <= u32 * w) by nra. assert (0 <= u32 * Rabs d) by nra. assert (Rabs r <= 2 * Rabs d) by nra.
  assert (u32 * Rabs r <= u32 * (Rabs d + Rabs d / 1000)) by (apply Rmult_le_compat_l; nra). rewrite !Rmult_plus_distr_l in * . nra.
Qed.
Lemma off_thick j : thick micro19 j h h' 1 d -> thick micro20 j h h' 1 r.
Proof.
  clear B U. unfold thick. rewrite m19, m20. intro O. pose proof off_abs. pose proof u_small. pose proof (Rabs_pos d).
  assert (Rabs r <= 2 * Rabs d) by nra. assert (u32 * Rabs r <= u32 * (2 * Rabs d)) by (apply Rmult_le_compat_l; lra). nra.
Qed.
End OffsetAxis.
Section WorldPair.
Variables (a b : box2d b32) (p q : vec2 b32).
Hypothesis Fp : fin2 p. Hypothesis Fq : fin2 q.
Let dx := val (vx q) - val (vx p).
Let dy := val (vy q) - val (vy p).
Hypothesis BX : usable (vx (halfsize a)) (vx (halfsize b)) 1 dx.
Hypothesis BY : usable (vy (halfsize a)) (vy (halfsize b)) 1 dy.
Let rel := v2add q (v2neg p).
Lemma world_pair_hits : overlap_by micro19 (vx (halfsize a)) (vx (halfsize b)) 1 dx -> overlap_by micro19 (vy (halfsize a)) (vy (halfsize b)) 1 dy ->
  forall P D, exists v, gjk (lmd_extreme_point a b rel) P D (lmd_initial_direction rel) = Ok (true, v).
Proof.
  intros OX OY. destruct (offset _ _ (proj1 Fp) (proj1 Fq) ltac:(apply BX)) as (K1 & L1 & N1). destruct (offset _ _ (proj2 Fp) (proj2 Fq) ltac:(apply BY)) as (K2 & L2 & N2).
  apply (pair_hits a b rel 1 (unrotated_vec2 rel)); [split; assumption | apply (off_usable _ _ _ _ BX L1) | apply (off_usable _ _ _ _ BY L2) | |].
  - exact (off_overlap _ _ _ _ BX N1 OX).
  - exact (off_overlap _ _ _ _ BY N2 OY).
Qed.
Lemma world_pair_misses j : (0 <= j <= 7)%Z -> thick micro19 j (vx (halfsize a)) (vx (halfsize b)) 1 dx -> thick micro19 j (vy (halfsize a)) (vy (halfsize b)) 1 dy ->
  gap_by micro19 j (vx (halfsize a)) (vx (halfsize b)) 1 dx \/ gap_by micro19 j (vy (halfsize a)) (vy (halfsize b)) 1 dy ->
  forall P D, exists v, gjk (lmd_extreme_point a b rel) P D (lmd_initial_direction rel) = Ok (false, v).
Proof.
  intros J TX TY G. destruct (offset _ _ (proj1 Fp) (proj1 Fq) ltac:(apply BX)) as (K1 & L1 & N1). destruct (offset _ _ (proj2 Fp) (proj2 Fq) ltac:(apply BY)) as (K2 & L2 & N2).
  apply (pair_misses a b rel 1 (unrotated_vec2 rel)) with (j := j); [split; assumption | apply (off_usable _ _ _ _ BX L1) | apply (off_usable _ _ _ _ BY L2) | exact J | | |].
  - destruct G as [G|G]; [left; exact (off_gap _ _ _ _ BX N1 j G) | right; exact (off_gap _ _ _ _ BY N2 j G)].
  - exact (off_thick _ _ _ _ N1 j TX).
  - exact (off_thick _ _ _ _ N2 j TY).
Qed.
End WorldPair.
Theorem C56_boxes_hit_world : forall (a b : box2d b32) (p q : vec2 b32), fin2 p -> fin2 q ->
  let dx := val (vx q) - val (vx p) in let dy := val (vy q) - val (vy p) in
  usable (vx (halfsize a)) (vx (halfsize b)) 1 dx -> usable (vy (halfsize a)) (vy (halfsize b)) 1 dy ->
  overlap_by micro19 (vx (halfsize a)) (vx (halfsize b)) 1 dx -> overlap_by micro19 (vy (halfsize a)) (vy (halfsize b)) 1 dy ->
  hits_world (Collider2d a p) (Collider2d b q) /\ hits_world (Collider2d (SBox a) p) (Collider2d (SBox b) q) /\
  hits_world (Collider2d a (Translate2d p)) (Collider2d b (Translate2d q)).
Proof.
  intros a b p q Fp Fq dx dy BX BY OX OY. pose proof (world_pair_hits a b p q Fp Fq BX BY OX OY) as H.
  repeat split; apply world_hits, hits_of; intros P D; exact (H P D).
Qed.
Print Assumptions C56_boxes_hit_world.
Definition ex_p : vec2 b32 := V2 (b32_of 1000 0) (b32_of (-1000) 0).
Definition ex_q : vec2 b32 := V2 (b32_of 1003 0) (b32_of (-3999) (-2)).
Example boxes_hit_world_met : fin2 ex_p /\ fin2 ex_q /\
  usable (vx (halfsize ex_a)) (vx (halfsize ex_b)) 1 (val (vx ex_q) - val (vx ex_p)) /\ usable (vy (halfsize ex_a)) (vy (halfsize ex_b)) 1 (val (vy ex_q) - val (vy ex_p)) /\
  overlap_by micro19 (vx (halfsize ex_a)) (vx (halfsize ex_b)) 1 (val (vx ex_q) - val (vx ex_p)) /\
  overlap_by micro19 (vy (halfsize ex_a)) (vy (halfsize ex_b)) 1 (val (vy ex_q) - val (vy ex_p)).
Proof. unfold ex_p, ex_q. repeat (apply conj); c56. Qed.
Theorem C56_boxes_miss_world : forall (a b : box2d b32) (p q : vec2 b32) (j : Z), fin2 p -> fin2 q ->
  let dx := val (vx q) - val (vx p) in let dy := val (vy q) - val (vy p) in
  usable (vx (halfsize a)) (vx (halfsize b)) 1 dx -> usable (vy (halfsize a)) (vy (halfsize b)) 1 dy ->
  (0 <= j <= 7)%Z -> thick micro19 j (vx (halfsize a)) (vx (halfsize b)) 1 dx -> thick micro19 j (vy (halfsize a)) (vy (halfsize b)) 1 dy ->
  gap_by micro19 j (vx (halfsize a)) (vx (halfsize b)) 1 dx \/ gap_by micro19 j (vy (halfsize a)) (vy (halfsize b)) 1 dy ->
  misses_world (Collider2d a p) (Collider2d b q) /\ misses_world (Collider2d (SBox a) p) (Collider2d (SBox b) q) /\
  misses_world (Collider2d a (Translate2d p)) (Collider2d b (Translate2d q)).
Proof.
  intros a b p q j Fp Fq dx dy BX BY J TX TY G. pose proof (world_pair_misses a b p q Fp Fq BX BY j J TX TY G) as H.
  repeat split; apply world_misses, misses_of; intros P D; exact (H P D).
Qed.
Print Assumptions C56_boxes_miss_world.
Definition ex_q2 : vec2 b32 := V2 (b32_of 1004 0) (b32_of (-3999) (-2)).
Example boxes_miss_world_met : fin2 ex_p /\ fin2 ex_q2 /\
  usable (vx (halfsize ex_a)) (vx (halfsize ex_b)) 1 (val (vx ex_q2) - val (vx ex_p)) /\ usable (vy (halfsize ex_a)) (vy (halfsize ex_b)) 1 (val (vy ex_q2) - val (vy ex_p)) /\
  thick micro19 1 (vx (halfsize ex_a)) (vx (halfsize ex_b)) 1 (val (vx ex_q2) - val (vx ex_p)) /\ thick micro19 1 (vy (halfsize ex_a)) (vy (halfsize ex_b)) 1 (val (vy ex_q2) - val (vy ex_p)) /\
  gap_by micro19 1 (vx (halfsize ex_a)) (vx (halfsize ex_b)) 1 (val (vx ex_q2) - val (vx ex_p)).
Proof. unfold ex_p, ex_q2. repeat (apply conj); c56. Qed.

(** ** What the hypotheses mean for the boxes as sets of points *)
Lemma overlap_is_overlap hx hx' hy hy' k dx dy m : 0 <= m -> usable hx hx' k dx -> usable hy hy' k dy ->
  overlap_by m hx hx' k dx -> overlap_by m hy hy' k dy ->
  meets (rect (val hx) (val hy)) (shift (dx, dy) (rect (k * val hx') (k * val hy'))).
Proof.
  assert (H : forall h h' d, 0 <= m -> usable h h' k d -> overlap_by m h h' k d -> exists x, - val h <= x <= val h /\ - (k * val h') <= x - d <= k * val h').
  { intros h h' d M (_ & _ & A & B & _) O. unfold overlap_by, total in O. assert (Rabs d <= val h + k * val h') by nra. apply Rabs_split in H.
    destruct (Rle_lt_dec (val h) (d + k * val h')); [exists (val h); lra | exists (d + k * val h'); lra]. }
  intros M UX UY OX OY. destruct (H _ _ _ M UX OX) as (x & X1 & X2). destruct (H _ _ _ M UY OY) as (y & Y1 & Y2).
  exists (x, y). unfold rect, shift, psub; cbn. repeat split; lra.
Qed.
Lemma gap_is_gap hx hx' hy hy' k dx dy m j w : gap_by m j hx hx' k dx -> norm w < m * (bpow radix2 (2 * j) + Rabs dx) ->
  ~ meets (shift w (rect (val hx) (val hy))) (shift (dx, dy) (rect (k * val hx') (k * val hy'))).
Proof.
  intros G W (p & [X1 _] & [X2 _]). unfold psub in *; cbn [fst snd] in * . unfold gap_by, total in G. pose proof (norm_x w) as NX. apply Rabs_split in NX.
  unfold Rabs in * . destruct (Rcase_abs dx); lra.
Qed.
