(** * C62: a deep overlap is never missed in f32

    Shape2d values (balls, boxes, convex polygons), the second one turned, shifted and drawn k times as large, all numbers rounded to f32. *)
From Coq Require Import Reals ZArith Bool Lra Lia List Psatz.
From Flocq Require Import IEEE754.BinarySingleNaN Core Relative.
From Verif Require Import Num NumXR NumB32 Glam Transform2 Shapes2 Gjk Detect2 Spec SpecLink P_Base P_Transform P_Shapes P_Geo P_Gjk P_B32 Props_F32 Props_F32Gjk Props_F32Ball P_F32Box Props_F32Box P_Drift P_Deep P_Scene Props_Gjk Props_Deep Spec32 Props_Drift P_Closed32 Props_Closed32 P_Deep32 P_Deep32b P_Deep32c P_Deep32d P_Deep32e P_Deep32f P_Deep32g.
Import ListNotations.
Local Open Scope R_scope.

(** the number of corners; a ball has none *)
Definition corners32 (a : shape2d b32) : option nat :=
  match a with SBall _ => None | SBox _ => Some 4%nat | SPoly p => Some (length (points p)) end.
(** The bodies.  [a] lies within [r] of its own origin, so does [b] drawn [k] times as large, and the origins are at most [r] apart; the overlap
    [del] is between 1/7 and 512 and at least r/1024; no two points are further than [D] apart, and either D is at most 7 del, or at most 63 del
    and the two shapes have corners, at most 19 pairs of them. *)
Definition deep_scene (a b : shape2d b32) (pos : pt) (c s k del D : R) : Prop :=
  sound32 a /\ sound32 b /\
  (exists r rb, included (points_of a) (disc r) /\ included (points_of b) (disc rb) /\ k * rb <= r /\ norm pos <= r /\ r <= 1024 * del) /\
  1 / 7 <= del <= 512 /\
  deep del (points_of a) (image (place pos c s k k) (points_of b)) /\
  span D (points_of a) (image (place pos c s k k) (points_of b)) /\
  (D <= 7 * del \/ D <= 63 * del /\ exists n m, corners32 a = Some n /\ corners32 b = Some m /\ (n * m <= 19)%nat).

Lemma corners_list a n : corners32 a = Some n -> exists l, corner_list a = Some l /\ length l = n.
Proof. destruct a as [b|b|p]; cbn [corners32 corner_list]; intro H; [discriminate | |]; injection H as <-; eexists; split; try reflexivity. Qed.
Lemma disc_radius a r : sound32 a -> included (points_of a) (disc r) -> 0 <= r.
Proof.
  intros S I. assert (H : exists p, points_of a p).
  { destruct a as [b|b|p]; cbn [points_of] in * ; cbn [sound32] in S.
    - exists origin. unfold disc. rewrite norm_origin. apply S.
    - exists (0, 0). unfold rect. cbn [fst snd]. lra.
    - destruct S as [N _]. destruct (points p) as [|q l]; [contradiction|]. exists (rval q). cbn [map]. apply hull_in. left. reflexivity. }
  destruct H as [p Hp]. pose proof (norm_nonneg p). specialize (I p Hp). unfold disc in I. lra.
Qed.
Section Rel.
Context {T : Type} {TR : Transformation2d b32 T}.
Lemma rel_deep (a b : shape2d b32) (t : T) (pos : pt) (c s k del D : R) : deep_scene a b pos c s k del D ->
  1 / 16 <= k <= 16 -> 1 / 2 <= norm (c, s) -> norm (c, s) <= 3 / 2 -> (fin2 (apply_origin t) /\ norm (psub (rval (apply_origin t)) pos) <= 1) ->
  (forall rho, norm pos <= bpow radix2 20 -> 0 <= rho <= bpow radix2 25 -> follows t pos c s k rho (eta0 k rho pos) (5 * u32)) ->
  every_query_hits a b t.
Proof.
  intros (Sa & Sb & (r & rb & Ia & Ib & Hkr & Hp & Hr) & [D1 D2] & Hdeep & Hspan & Hfew) Hk N1 N2 [Fo No] Hf. pose proof (disc_radius a r Sa Ia) as P0. pose proof (disc_radius b rb Sb Ib) as Pb.
  assert (E9 : bpow radix2 9 = 512) by (cbn; lra). assert (E20 : bpow radix2 20 = 1048576) by (cbn; lra). assert (E22 : bpow radix2 22 = 4194304) by (cbn; lra). assert (E24 : bpow radix2 24 = 16777216) by (cbn; lra). assert (E11 : bpow radix2 11 = 2048) by (cbn; lra).
  destruct (rb_bound r rb k del Pb Hkr ltac:(lra) Hr ltac:(lra)) as [B1 B2]. specialize (Hf (rb + slack rb) ltac:(lra) B2).
  pose proof (budget r rb k pos del ltac:(lra) Pb Hkr Hk Hp ltac:(lra)) as HE. pose proof u32_pos as U0. pose proof u32_small as U1.
  assert (SD : dir_ok (lmd_initial_direction t)). { apply start_dir; [exact Fo|]. pose proof (norm_triangle_sub (rval (apply_origin t)) pos). lra. }
  apply hits_of. intros P E. apply (pair_deep a b t pos c s k r rb (eta0 k (rb + slack rb) pos) (5 * u32) del D); try assumption; try lra.
    destruct Hfew as [H|(H & n & m & Hn & Hm & L)]; [left; exact H|]. right. destruct (corners_list a n Hn) as (la & La & <-). destruct (corners_list b m Hm) as (lb & Lb & <-). exists la, lb. auto.
Qed.
End Rel.
Lemma self_near (v : vec2 b32) : norm (psub (rval v) (rval v)) <= 1.
Proof. replace (psub (rval v) (rval v)) with origin by (apply pt_eq; cbn; ring). rewrite norm_origin. lra. Qed.
Lemma bp_20_22 v : norm v <= bpow radix2 20 -> norm v <= bpow radix2 22.
Proof. intro H. eapply Rle_trans; [exact H | apply bpow_le; lia]. Qed.

(** turned by a rotor of length between 1/2 and 3/2, and drawn between 1/16 and 16 times as large *)
Theorem C62_transform : forall (a b : shape2d b32) (v rot : vec2 b32) (k : b32) (del D : R),
  fin2 v -> fin2 rot -> 1 / 2 <= norm (rval rot) <= 3 / 2 -> fin k -> 1 / 16 <= val k <= 16 ->
  deep_scene a b (rval v) (val (vx rot)) (val (vy rot)) (val k) del D ->
  every_query_hits a b (Transform2d v (Rotor rot) (V2 k k)).
Proof.
  intros a b v rot k del D Fv Fr [N1 N2] Fk Hk S. apply (rel_deep a b (Transform2d v (Rotor rot) (V2 k k)) (rval v) (val (vx rot)) (val (vy rot)) (val k) del D S Hk); [exact N1 | exact N2 | split; [exact Fv | apply self_near]|].
  intros rho Nv Hrho. apply full_follows; try assumption; [apply bp_20_22, Nv | lra].
Qed.
Print Assumptions C62_transform.
(** shifted and drawn k times as large, without turning *)
Theorem C62_axis : forall (a b : shape2d b32) (v : vec2 b32) (k : b32) (del D : R), fin2 v -> fin k -> 1 / 16 <= val k <= 16 ->
  deep_scene a b (rval v) 1 0 (val k) del D -> every_query_hits a b (AxisTransform2d v k).
Proof.
  intros a b v k del D Fv Fk Hk S. apply (rel_deep a b (AxisTransform2d v k) (rval v) 1 0 (val k) del D S Hk); [rewrite norm_cs0; lra | rewrite norm_cs0; lra | split; [exact Fv | apply self_near]|].
  intros rho Nv Hrho. apply axis_follows; try assumption; [apply bp_20_22, Nv | lra].
Qed.
Print Assumptions C62_axis.
(** only shifted *)
Theorem C62_translation : forall (a b : shape2d b32) (v : vec2 b32) (del D : R), fin2 v ->
  deep_scene a b (rval v) 1 0 1 del D -> every_query_hits a b v /\ every_query_hits a b (Translate2d v).
Proof.
  intros a b v del D Fv S. split.
  - apply (rel_deep a b v (rval v) 1 0 1 del D S); [lra | rewrite norm_cs0; lra | rewrite norm_cs0; lra | split; [exact Fv | apply self_near]|]. intros rho Nv Hrho. apply vec_follows; try assumption; apply bp_20_22, Nv.
  - apply (rel_deep a b (Translate2d v) (rval v) 1 0 1 del D S); [lra | rewrite norm_cs0; lra | rewrite norm_cs0; lra | split; [exact Fv | apply self_near]|]. intros rho Nv Hrho. apply translate_follows; try assumption; apply bp_20_22, Nv.
Qed.
Print Assumptions C62_translation.

(** ** The verdict does not depend on whether the shapes are given directly or inside Shape2d *)
Lemma same_verdict {T X Y X' Y' : Type} {S1 : SdfvCommonRel2d b32 X Y T} {S2 : SdfvCommonRel2d b32 X' Y' T} (x : X) (y : Y) (x' : X') (y' : Y') (t : T) :
  (forall P D, sdfv_common_rel (F:=b32) P D x y t = sdfv_common_rel (F:=b32) P D x' y' t) -> every_query_hits x' y' t -> every_query_hits x y t.
Proof. intro E. unfold every_query_hits, collides_rel, penetrates_rel, distance_to_rel, sdfv_rel. rewrite !E. exact (fun H => H). Qed.
Theorem C62_pairs : forall (T : Type) (TR : Transformation2d b32 T) (x y : box2d b32) (p q : poly2d b32) (r : ball b32) (t : T),
  (every_query_hits (SBox x) (SBox y) t -> every_query_hits x y t) /\ (every_query_hits (SBox x) (SPoly p) t -> every_query_hits x p t) /\
  (every_query_hits (SPoly p) (SBox x) t -> every_query_hits p x t) /\ (every_query_hits (SPoly p) (SPoly q) t -> every_query_hits p q t) /\
  (every_query_hits (SBall r) (SBox x) t -> every_query_hits r x t).
Proof.
  intros T TR x y p q r t. repeat apply conj; apply same_verdict; intros P D; destruct (C27_pairs_share_search b32 _ T TR P D x y p q r t) as (E1 & E2 & E3 & E4 & E5); [exact E1 | exact E2 | exact E3 | exact E4 | exact E5].
Qed.
Print Assumptions C62_pairs.

(** ** Colliders in the world *)
Section World.
Variables (d : R) (m : chain) (f : pt -> pt).
Hypotheses (Hd : 0 <= d) (M : moves d m f).
Let q := growth d ^ S (weight m) - 1.
Hypotheses (Q1 : q <= 1 / 2000) (Rc : reach m <= bpow radix2 25).
Lemma world_bounds : growth d ^ weight m <= 2 /\ reach m <= bpow radix2 100 /\ 1 <= growth d /\ growth d ^ S (steps m) - 1 <= q /\ growth d ^ weight m - 1 <= q.
Proof.
  destruct (growth_ge d Hd) as (_ & _ & G1). assert (K : forall n, (n <= S (weight m))%nat -> growth d ^ n - 1 <= q) by (intros n Hn; unfold q; apply Rplus_le_compat_r, pow_mono; assumption).
  pose proof (K (weight m) ltac:(lia)). pose proof (K (S (steps m)) ltac:(pose proof (steps_weight m); lia)). repeat split; try lra. eapply Rle_trans; [exact Rc | apply bpow_le; lia].
Qed.
Lemma chain_follows : exists c s P, (forall p, f p = place P c s 1 1 p) /\ norm (c, s) = 1 /\ fin2 (t_pos (build m)) /\ norm (psub (rval (t_pos (build m))) P) <= q * reach m /\ norm P <= reach m /\
  forall rho, 0 <= rho <= bpow radix2 25 -> follows (build m) P c s 1 rho (q * (reach m + rho + bpow radix2 (-100))) (2 * q).
Proof.
  destruct world_bounds as (W & R1 & G1 & KS & KW). destruct (tracks_all d Hd m f M W R1) as ([c s] & P & F & N & HR & HP & Sc). exists c, s, P. pose proof u32_pos as U0. pose proof u32_small as U1. pose proof bot_pos as PB. pose proof (reach_bot m) as RB.
  assert (FP : forall p, f p = place P c s 1 1 p) by (intro p; rewrite F; apply pt_eq; unfold place, padd, cmul; cbn [fst snd]; ring).
  assert (Ks : 1 <= growth d ^ steps m <= 2). { split; [apply pow_R1_Rle, G1|]. eapply Rle_trans; [apply (pow_mono (growth d) _ (weight m)); [exact G1 | apply steps_weight] | exact W]. }
  split; [exact FP|]. split; [exact N|]. destruct HP as (Fp & Ep & Np). split; [exact Fp|]. split; [eapply Rle_trans; [exact Ep|]; apply Rmult_le_compat_r; lra|]. split; [exact Np|].
  intros rho Hrho. split.
  - intros p Fv Nv. assert (B : bpow radix2 25 <= bpow radix2 100) by (apply bpow_le; lia). destruct (C60_apply d m f Hd M W R1 p Fv ltac:(lra)) as [Fa Ea]. split; [exact Fa|]. rewrite FP in Ea. eapply Rle_trans; [exact Ea|]. fold q. apply Rmult_le_compat_l; [|lra].
    assert (1 <= growth d ^ S (weight m)) by (apply pow_R1_Rle, G1). unfold q. lra.
  - intros e He. destruct (neg_dir' e He) as [Fn En]. destruct He as (Fe & Le & Ue). change (unapply_normal (build m) (v2neg e)) with (rotor_rot (rotor_inverse (t_rot (build m))) (v2neg e)). rewrite <- (rotor_eta (t_rot (build m))).
    set (n := norm (rval e)) in * . assert (B100 : 16 * bpow radix2 59 <= bpow radix2 110). { change 16 with (bpow radix2 4). rewrite <- bpow_plus. apply bpow_le; lia. } assert (BB : bot <= bpow radix2 59) by (apply bpow_le; lia). pose proof (norm_nonneg (rval e)) as NN. fold n in NN.
    assert (Q : near (rotor_rot (rotor_inverse (Rotor (ra (t_rot (build m))))) (v2neg e)) (cmul (conj2 (c, s)) (rval (v2neg e))) (n + bot) (growth d ^ S (steps m))).
    { eapply near_weaken; [apply (near_rot _ _ _ _ _ (growth d ^ steps m) 1); [apply (near_conj _ _ _ _ HR) | eapply near_wider; [apply near_self, Fn | lra | rewrite En, norm_neg; fold n; lra] | lra | lra | lra | lra | lra]|]. cbn [pow]. destruct (growth_ge d Hd) as (G8 & _ & _). nra. }
    destruct Q as (Qf & Qe & _). split; [exact Qf|]. rewrite En in Qe.
    replace (rotate c (- s) (pneg (rval e))) with (cmul (conj2 (c, s)) (pneg (rval e))) by (apply pt_eq; unfold rotate, cmul, conj2, pneg; cbn [fst snd]; ring).
    eapply Rle_trans; [exact Qe|]. assert (bot <= n) by (eapply Rle_trans; [|exact Le]; apply bpow_le; lia). assert (P1 : 0 <= growth d ^ S (steps m) - 1) by (assert (1 <= growth d ^ S (steps m)) by (apply pow_R1_Rle, G1); lra).
    apply Rle_trans with (q * (2 * n)); [apply Rmult_le_compat; lra | right; ring].
Qed.
End World.
(** overlap and span seen from the first body *)
Lemma deep_from_self d ma fa ga fb A B del D : 0 <= d -> moves d ma fa -> growth d ^ weight ma <= 2 -> reach ma <= bpow radix2 100 -> (forall p, fa (ga p) = p) ->
  deep del (image fa A) (image fb B) -> span D (image fa A) (image fb B) -> deep del A (image (fun p => ga (fb p)) B) /\ span D A (image (fun p => ga (fb p)) B).
Proof.
  intros Hd Ma W Rc Inv [P0 Hdeep] Hspan. destruct (tracks_all d Hd ma fa Ma W Rc) as (R0 & P & F & N & _).
  assert (IS : forall x y, norm (psub (fa x) (fa y)) = norm (psub x y)). { intros x y. rewrite !F. replace (psub (padd (cmul R0 x) P) (padd (cmul R0 y) P)) with (cmul R0 (psub x y)) by (apply pt_eq; unfold psub, padd, cmul; cbn [fst snd]; ring). rewrite norm_cmul, N. ring. }
  assert (IJ : forall x y, fa x = fa y -> x = y). { intros x y E. pose proof (IS x y) as K. rewrite E in K. replace (psub (fa y) (fa y)) with origin in K by (apply pt_eq; cbn; ring). rewrite norm_origin in K. symmetry in K. apply norm_0 in K. injection K as K1 K2. apply pt_eq; lra. }
  split.
  - split; [exact P0|]. intros w Nw. destruct (Hdeep (cmul R0 w)) as (X & (p & Hp & Ep) & (z & Hz & Ez)). { rewrite norm_cmul, N. lra. }
    exists (padd p w). split; [unfold shift; replace (psub (padd p w) w) with p by (apply pt_eq; cbn; ring); exact Hp|]. exists z. split; [exact Hz|]. apply IJ. rewrite Inv, <- Ez, F. rewrite F in Ep. apply pt_eq; apply (f_equal fst) in Ep as E1; apply (f_equal snd) in Ep as E2; revert E1 E2; unfold psub, padd, cmul; cbn [fst snd]; lra.
  - intros p Q Hp (z & Hz & ->). rewrite <- IS, Inv. apply Hspan; [exists p; auto | exists z; auto].
Qed.
Lemma q_low m d : 0 <= d -> (8 <= weight m)%nat -> 72 * u32 <= growth d ^ S (weight m) - 1.
Proof.
  intros Hd H. destruct (growth_ge d Hd) as (G8 & _ & G1). pose proof u32_pos. assert (growth d ^ 9 <= growth d ^ S (weight m)) by (apply pow_mono; [exact G1 | lia]).
  assert ((1 + 8 * u32) ^ 9 <= growth d ^ 9) by (apply pow_incr; lra). assert (B : 1 + INR 9 * (8 * u32) <= (1 + 8 * u32) ^ 9) by (apply poly; lra). cbn [INR] in B. lra.
Qed.
(** Two colliders whose transforms were built by composing and inverting translations and rotations.  [fa] and [fb] are the exact motions.  Both
    shapes lie within [r] of their own origins.  The overlap is 200 times the rounding errors of the two transforms, their difference and the
    shapes' sizes. *)
Theorem C62_colliders : forall d ma mb fa ga fb (a b : shape2d b32) r del D, 0 <= d -> moves d ma fa -> moves d mb fb -> (forall p, fa (ga p) = p) ->
  let m := Then (Back ma) mb in let q := growth d ^ S (weight m) - 1 in
  q <= 1 / 2000 -> q * (reach m + 8 * r + 1) <= del / 200 ->
  sound32 a -> sound32 b -> included (points_of a) (disc r) -> included (points_of b) (disc r) -> 1 / 7 <= del <= 512 ->
  deep del (image fa (points_of a)) (image fb (points_of b)) -> span D (image fa (points_of a)) (image fb (points_of b)) ->
  D <= 7 * del \/ D <= 63 * del /\ (exists n k, corners32 a = Some n /\ corners32 b = Some k /\ (n * k <= 19)%nat) ->
  hits_world (Collider2d a (build ma)) (Collider2d b (build mb)).
Proof.
  intros d ma mb fa ga fb a b r del D Hd Ma Mb Inv m q Q1 HQ Sa Sb Ia Ib [D1 D2] Hdeep Hspan Hfew.
  assert (M : moves d m (fun p => ga (fb p))) by (apply moves_then; [apply moves_back with (f := fa); assumption | exact Mb]).
  assert (SP : forall x, (1 <= steps x)%nat) by (intro x; destruct x; cbn [steps]; lia).
  assert (WL : (8 <= weight m)%nat). { unfold weight, m. cbn [nesting steps]. pose proof (SP ma). pose proof (SP mb). nia. }
  pose proof (q_low m d Hd WL) as QL. fold q in QL. pose proof (disc_radius a r Sa Ia) as P0. pose proof u32_pos as U0. pose proof u32_small as U1. pose proof (reach_bot m) as RB. pose proof bot_pos as PB.
  assert (X1 : 72 * u32 * (reach m + 8 * r + 1) <= 512 / 200) by (eapply Rle_trans; [apply Rmult_le_compat_r; [lra | exact QL] | lra]).
  assert (UE : u32 = 1 / 16777216) by (unfold u32; cbn; lra). rewrite UE in X1. assert (E20 : bpow radix2 20 = 1048576) by (cbn; lra). assert (E22 : bpow radix2 22 = 4194304) by (cbn; lra). assert (E24 : bpow radix2 24 = 16777216) by (cbn; lra). assert (E25 : bpow radix2 25 = 33554432) by (cbn; lra). assert (E11 : bpow radix2 11 = 2048) by (cbn; lra).
  assert (Rc : reach m <= bpow radix2 20) by lra. assert (Rr : r <= bpow radix2 20) by lra.
  assert (Wa : growth d ^ weight ma <= 2). { apply Rle_trans with (growth d ^ S (weight m)); [|unfold q in Q1; lra]. apply pow_mono; [apply growth_ge, Hd|]. unfold weight, m. cbn [nesting steps]. nia. }
  assert (Ra : reach ma <= bpow radix2 100). { apply Rle_trans with (bpow radix2 20); [|apply bpow_le; lia]. unfold m in Rc. cbn [reach] in Rc. pose proof (reach_bot mb). lra. }
  destruct (deep_from_self d ma fa ga fb (points_of a) (points_of b) del D Hd Ma Wa Ra Inv Hdeep Hspan) as [Hd' Hs'].
  destruct (chain_follows d m _ Hd M Q1 ltac:(lra)) as (c & s & P & FP & N & Fo & Eo & NP & Hf). fold q in Eo, Hf. clearbody q.
  assert (SL : slack r <= 14 / 100 * (q * r) + bpow radix2 (-100)). { unfold slack. assert (0 <= u32 * r) by (apply Rmult_le_pos; lra). assert (72 * u32 * r <= q * r) by (apply Rmult_le_compat_r; lra). lra. }
  pose proof (slack_pos r P0) as PS. assert (B100 : bpow radix2 (-100) <= u32 / 100) by (unfold u32; apply Rle_trans with (bpow radix2 (-40)); [apply bpow_le; lia | cbn; lra]).
  assert (PQ : 0 < q) by lra. assert (QR : 0 <= q * r) by (apply Rmult_le_pos; lra). assert (QR1 : q * r <= r / 2000) by (apply Rle_trans with (1 / 2000 * r); [apply Rmult_le_compat_r; lra | lra]).
  assert (SR : r + slack r <= 101 / 100 * r + 1 / 100) by lra.
  specialize (Hf (r + slack r) ltac:(lra)). 
  apply world_hits. change (delta_transform (c_transform (Collider2d a (build ma))) (c_transform (Collider2d b (build mb)))) with (build m). cbn [c_shape].
  assert (SD : dir_ok (lmd_initial_direction (build m))). { apply start_dir; [exact Fo|]. change (apply_origin (build m)) with (t_pos (build m)). pose proof (norm_triangle_sub (rval (t_pos (build m))) P). assert (q * reach m <= 1 * reach m) by (apply Rmult_le_compat_r; lra). lra. }
  assert (SI : forall X, image (fun p => ga (fb p)) (points_of b) X <-> image (place P c s 1 1) (points_of b) X) by (intro X; split; intros (z & Hz & ->); exists z; rewrite FP; auto).
  assert (Hd2 : deep del (points_of a) (image (place P c s 1 1) (points_of b))). { destruct Hd' as [G1 G2]. split; [exact G1|]. intros w Hw. destruct (G2 w Hw) as (X & X1' & X2'). exists X. split; [exact X1' | apply SI, X2']. }
  assert (Hs2 : span D (points_of a) (image (place P c s 1 1) (points_of b))) by (intros p Q Hp HQ'; apply Hs'; [exact Hp | apply SI, HQ']).
  assert (HE : slack r + q * (reach m + (r + slack r) + bpow radix2 (-100)) + 1 * (3 * (2 * q) * (r + slack r) + 2 * slack r) <= del / 200).
  { eapply Rle_trans; [|exact HQ]. assert (QS : q * slack r <= q * (r / 100 + 1 / 1000)) by (apply Rmult_le_compat_l; lra). assert (QB : q * bpow radix2 (-100) <= q * (1 / 1000)) by (apply Rmult_le_compat_l; lra). lra. }
  apply hits_of. intros PP EE. apply (pair_deep a b (build m) P c s 1 r r (q * (reach m + (r + slack r) + bpow radix2 (-100))) (2 * q) del D); try assumption; try lra.
  destruct Hfew as [H|(H & n & k & Hn & Hm & L)]; [left; exact H|]. right. destruct (corners_list a n Hn) as (la & La & <-). destruct (corners_list b k Hm) as (lb & Lb & <-). exists la, lb. auto.
Qed.
Print Assumptions C62_colliders.

(** ** Cases that meet the hypotheses *)
Lemma deep_point (A B : pset) x del : 0 < del -> B x -> (forall p, norm (psub p x) <= del -> A p) -> deep del A B.
Proof.
  intros P HB HA. split; [exact P|]. intros w Hw. exists x. split; [|exact HB]. unfold shift. apply HA. replace (psub (psub x w) x) with (pneg w) by (apply pt_eq; cbn; ring). rewrite norm_neg. exact Hw.
Qed.
Lemma span_discs (A B : pset) x y R1 R2 : (forall p, A p -> norm (psub p x) <= R1) -> (forall p, B p -> norm (psub p y) <= R2) -> span (R1 + R2 + norm (psub x y)) A B.
Proof.
  intros HA HB p z Hp Hz. specialize (HA p Hp). specialize (HB z Hz). replace (psub p z) with (padd (psub p x) (padd (psub x y) (pneg (psub z y)))) by (apply pt_eq; cbn; ring).
  pose proof (norm_triangle (psub p x) (padd (psub x y) (pneg (psub z y)))). pose proof (norm_triangle (psub x y) (pneg (psub z y))). rewrite norm_neg in * . lra.
Qed.
Lemma rect_disc hx hy R1 : 0 <= R1 -> hx * hx + hy * hy <= R1 * R1 -> included (rect hx hy) (disc R1).
Proof.
  intros P H [x y] Hp. unfold rect, disc in * . cbn [fst snd] in Hp. unfold norm, pdot. cbn [fst snd]. rewrite <- (sqrt_square R1) by exact P. apply sqrt_le_1_alt. destruct Hp as [[X1 X2] [Y1 Y2]].
  assert (x * x <= hx * hx) by nra. assert (y * y <= hy * hy) by nra. lra.
Qed.
Lemma sub_origin p : psub p origin = p. Proof. apply pt_eq; cbn; ring. Qed.
(** a bar 40 long and 2 wide, a 10 by 10 box drawn twice as large and turned by the angle with cosine 3/5, its centre on the bar *)
Definition case_bar : shape2d b32 := SBox (Box2d (V2 (b32_of 20 0) (b32_of 1 0))).
Definition case_box : shape2d b32 := SBox (Box2d (V2 (b32_of 5 0) (b32_of 5 0))).
Definition case_rot : vec2 b32 := V2 (b32_of 10066330 (-24)) (b32_of 13421773 (-24)).
Definition case_at : vec2 b32 := V2 (b32_of 10 0) (b32_of 0 0).
Definition case_k : b32 := b32_of 2 0.
Lemma case_ints : Forall (fun z => fin (b32_of z 0) /\ val (b32_of z 0) = IZR z) [20; 1; 5; 10; 0; 2; 8; -1]%Z.
Proof. repeat (apply Forall_cons; [match goal with |- fin (b32_of ?z 0) /\ _ => destruct (val_of z 0 ltac:(lia) ltac:(lia)) as [F V]; split; [exact F | rewrite V; cbn [bpow]; ring] end|]). apply Forall_nil. Qed.
Lemma case_int z : In z [20; 1; 5; 10; 0; 2; 8; -1]%Z -> fin (b32_of z 0) /\ val (b32_of z 0) = IZR z.
Proof. intro H. pose proof case_ints as C. rewrite Forall_forall in C. exact (C z H). Qed.
Ltac case_z z := destruct (case_int z ltac:(cbn [In]; tauto)) as [? ?].
Example C62_case_turned : fin2 case_at /\ fin2 case_rot /\ 1 / 2 <= norm (rval case_rot) <= 3 / 2 /\ fin case_k /\ 1 / 16 <= val case_k <= 16 /\
  deep_scene case_bar case_box (rval case_at) (val (vx case_rot)) (val (vy case_rot)) (val case_k) 1 50.
Proof.
  destruct (case_int 20 ltac:(cbn [In]; tauto)) as [F20 V20]. destruct (case_int 1 ltac:(cbn [In]; tauto)) as [F1 V1]. destruct (case_int 5 ltac:(cbn [In]; tauto)) as [F5 V5]. destruct (case_int 10 ltac:(cbn [In]; tauto)) as [F10 V10]. destruct (case_int 0 ltac:(cbn [In]; tauto)) as [F0 V0]. destruct (case_int 2 ltac:(cbn [In]; tauto)) as [F2 V2'].
  destruct (val_of 10066330 (-24) ltac:(lia) ltac:(lia)) as [Fc Vc]. destruct (val_of 13421773 (-24) ltac:(lia) ltac:(lia)) as [Fs Vs]. assert (E24 : bpow radix2 (-24) = / 16777216) by (cbn; lra). rewrite E24 in Vc, Vs.
  unfold case_at, case_rot, case_k, case_bar, case_box. set (c := val (b32_of 10066330 (-24))) in * . set (s := val (b32_of 13421773 (-24))) in * . unfold rval. cbn [vx vy]. fold c s. rewrite V10, V0, V2'.
  assert (NR : 1 / 2 <= norm (c, s) <= 101 / 100). { unfold norm, pdot. cbn [fst snd]. assert (Q : (1/2) * (1/2) <= c * c + s * s <= 101 / 100 * (101 / 100)) by (rewrite Vc, Vs; lra). split; [rewrite <- (sqrt_square (1/2)) by lra | rewrite <- (sqrt_square (101/100)) by lra]; apply sqrt_le_1_alt; lra. }
  split; [split; assumption|]. split; [split; assumption|]. split; [lra|]. split; [exact F2|]. split; [lra|].
  assert (N10 : norm (10, 0) = 10) by (unfold norm, pdot; cbn [fst snd]; replace (10 * 10 + 0 * 0) with (10 * 10) by ring; apply sqrt_square; lra).
  assert (IA : included (rect 20 1) (disc (201 / 10))) by (apply rect_disc; lra). assert (IB : included (rect 5 5) (disc (71 / 10))) by (apply rect_disc; lra).
  unfold deep_scene. cbn [points_of sound32 corners32 halfsize vx vy]. rewrite V20, V1, V5.
  split; [split; [split; assumption | lra]|]. split; [split; [split; assumption | lra]|].
  split; [exists (201 / 10), (71 / 10); repeat split; [exact IA | exact IB | lra | rewrite N10; lra | lra]|]. split; [lra|].
  split. { apply deep_point with (10, 0); [lra | exists origin; split; [unfold rect, origin; cbn [fst snd]; lra | apply pt_eq; unfold place, origin; cbn [fst snd]; ring]|]. intros [x y] H. destruct (coord_le_norm (psub (x, y) (10, 0))) as [Cx Cy]. pose proof (Rle_trans _ _ _ Cx H) as C1. pose proof (Rle_trans _ _ _ Cy H) as C2. unfold psub in C1, C2. cbn [fst snd] in C1, C2. apply abs_le2' in C1. apply abs_le2' in C2. unfold rect. cbn [fst snd]. lra. }
  split. { intros p z Hp Hz. assert (SP : span (201 / 10 + 71 / 10 * (202 / 100) + norm (psub origin (10, 0))) (rect 20 1) (image (place (10, 0) c s 2 2) (rect 5 5))).
    - apply span_discs; [intros u Hu; rewrite sub_origin; apply IA, Hu|]. intros u (w & Hw & ->). replace (psub (place (10, 0) c s 2 2 w) (10, 0)) with (pscale 2 (rotate c s w)) by (apply pt_eq; unfold place, psub, pscale, rotate; cbn [fst snd]; ring).
      rewrite norm_scale, rotate_norm, Rabs_pos_eq by lra. pose proof (IB w Hw) as K. unfold disc in K. assert (norm (c, s) * norm w <= 101 / 100 * (71 / 10)) by (apply Rmult_le_compat; try lra; apply norm_nonneg). lra.
    - eapply Rle_trans; [apply SP; assumption|]. replace (psub origin (10, 0)) with (pneg (10, 0)) by (apply pt_eq; cbn; ring). rewrite norm_neg, N10. lra. }
  right. split; [lra|]. exists 4%nat, 4%nat. repeat split. lia.
Qed.
(** a ball of radius 2 and a triangle shifted by (1, 0) *)
Definition case_tri : shape2d b32 := SPoly (Poly2d [V2 (b32_of (-1) 0) (b32_of (-1) 0); V2 (b32_of 1 0) (b32_of (-1) 0); V2 (b32_of 0 0) (b32_of 1 0)]).
Example C62_case_shifted : fin2 (V2 (b32_of 1 0) (b32_of 0 0)) /\ deep_scene (SBall (Ball (b32_of 2 0))) case_tri (rval (V2 (b32_of 1 0) (b32_of 0 0))) 1 0 1 1 5.
Proof.
  destruct (case_int 1 ltac:(cbn [In]; tauto)) as [F1 V1]. destruct (case_int 0 ltac:(cbn [In]; tauto)) as [F0 V0]. destruct (case_int 2 ltac:(cbn [In]; tauto)) as [F2 V2']. destruct (case_int (-1) ltac:(cbn [In]; tauto)) as [Fm Vm].
  split; [split; assumption|]. unfold deep_scene, case_tri. cbn [points_of sound32 corners32 points b_radius map]. unfold rval. cbn [vx vy]. rewrite V1, V0, V2', Vm.
  assert (N1 : norm (1, 0) = 1) by apply norm_cs0. set (tri := [(-1, -1); (1, -1); (0, 1)]).
  assert (IB : included (hull tri) (disc 2)). { intros p Hp. unfold disc. apply (hull_norm tri); [|discriminate|exact Hp]. intros z Hz. assert (K : rect 1 1 z) by (destruct Hz as [<-|[<-|[<-|[]]]]; unfold rect; cbn [fst snd]; lra). revert K. apply (rect_disc 1 1 2); lra. }
  split; [split; [exact F2 | lra]|]. split; [split; [discriminate|]; intros z [<-|[<-|[<-|[]]]]; split; assumption|].
  split; [exists 2, 2; repeat split; [intros p Hp; exact Hp | exact IB | lra | rewrite N1; lra | lra]|]. split; [lra|].
  split. { apply deep_point with (1, 0); [lra | exists origin; split; [|apply pt_eq; unfold place, origin; cbn [fst snd]; ring]|].
    - exists [1 / 4; 1 / 4; 1 / 2]. split; [reflexivity|]. split; [repeat (apply Forall_cons; [lra|]); apply Forall_nil|]. split; [cbn; lra|]. apply pt_eq; unfold origin; cbn; lra.
    - intros p H. unfold disc. pose proof (norm_triangle_sub p (1, 0)). lra. }
  split. { intros p z Hp Hz. assert (SP : span (2 + 2 + norm (psub origin (1, 0))) (disc 2) (image (place (1, 0) 1 0 1 1) (hull tri))).
    - apply span_discs; [intros u Hu; rewrite sub_origin; exact Hu|]. intros u (w & Hw & ->). replace (psub (place (1, 0) 1 0 1 1 w) (1, 0)) with w by (apply pt_eq; unfold place, psub; cbn [fst snd]; ring). exact (IB w Hw).
    - eapply Rle_trans; [apply SP; assumption|]. replace (psub origin (1, 0)) with (pneg (1, 0)) by (apply pt_eq; cbn; ring). rewrite norm_neg, N1. lra. }
  left. lra.
Qed.
(** the colliders of C61's example: a 16 by 16 box, and a ball of radius 1 whose centre belongs at (3, 4) in the box's frame *)
Lemma isometry d m f : 0 <= d -> moves d m f -> growth d ^ weight m <= 2 -> reach m <= bpow radix2 100 -> forall x y, norm (psub (f x) (f y)) = norm (psub x y).
Proof.
  intros Hd M W Rc x y. destruct (tracks_all d Hd m f M W Rc) as (R0 & P & F & N & _). rewrite !F. replace (psub (padd (cmul R0 x) P) (padd (cmul R0 y) P)) with (cmul R0 (psub x y)) by (apply pt_eq; unfold psub, padd, cmul; cbn [fst snd]; ring). rewrite norm_cmul, N. ring.
Qed.
Definition case_square : shape2d b32 := SBox (Box2d (V2 (b32_of 8 0) (b32_of 8 0))).
Definition case_ball : shape2d b32 := SBall (Ball (b32_of 1 0)).
Example C62_case_colliders : exists fa ga fb, let m := Then (Back case_self) case_other in let q := growth (/ 2 ^ 22) ^ S (weight m) - 1 in
  moves (/ 2 ^ 22) case_self fa /\ moves (/ 2 ^ 22) case_other fb /\ (forall p, fa (ga p) = p) /\ q <= 1 / 2000 /\ q * (reach m + 8 * 12 + 1) <= 3 / 200 /\
  sound32 case_square /\ sound32 case_ball /\ included (points_of case_square) (disc 12) /\ included (points_of case_ball) (disc 12) /\
  deep 3 (image fa (points_of case_square)) (image fb (points_of case_ball)) /\ span 21 (image fa (points_of case_square)) (image fb (points_of case_ball)).
Proof.
  destruct C61_case_colliders as (fa & ga & fb & Ma & Mb & Inv & W & Rc & E0 & _). exists fa, ga, fb. intros m q. fold m in W, Rc.
  destruct (case_int 1 ltac:(cbn [In]; tauto)) as [F1 V1]. destruct (case_int 8 ltac:(cbn [In]; tauto)) as [F8 V8].
  assert (H22 : 0 <= / 2 ^ 22 <= / 2 ^ 22) by (split; [apply Rlt_le, Rinv_0_lt_compat; cbn; lra | lra]).
  assert (W16 : (S (weight m) <= 2 ^ 5)%nat) by (vm_compute; lia). assert (W17 : (2 ^ 5 <= 2 ^ 17)%nat) by (apply Nat.pow_le_mono_r; lia).
  destruct (growth_linear (/ 2 ^ 22) (S (weight m)) H22 ltac:(etransitivity; [exact W16|]; etransitivity; [exact W17|]; apply Nat.le_add_r)) as [L _]. fold q in L.
  assert (Wm : INR (S (weight m)) <= 32) by (apply le_INR in W16; rewrite pow_INR in W16; cbn [INR] in W16; eapply Rle_trans; [exact W16 | right; ring]).
  assert (Q : q <= 32 / 2 ^ 20) by (eapply Rle_trans; [exact L|]; apply Rmult_le_compat_r; [apply Rlt_le, Rinv_0_lt_compat; cbn; lra | exact Wm]).
  assert (Q' : q <= 1 / 32768) by (eapply Rle_trans; [exact Q | cbn; lra]). assert (Q0 : 0 <= q) by (pose proof (growth_ge (/ 2 ^ 22) (proj1 H22)) as (_ & _ & G); pose proof (pow_R1_Rle _ (S (weight m)) G); unfold q; lra).
  destruct (val_of 3 0 ltac:(lia) ltac:(lia)) as [F3 V3]. destruct (val_of 4 0 ltac:(lia) ltac:(lia)) as [F4 V4]. cbn [bpow] in V3, V4.
  assert (N5 : norm (rval (t_pos case_t)) = 5). { unfold norm, pdot, rval. cbn [fst snd case_t t_pos vx vy]. rewrite V3, V4. replace (3 * 1 * (3 * 1) + 4 * 1 * (4 * 1)) with (5 * 5) by ring. apply sqrt_square. lra. }
  assert (Rm : 0 <= reach m <= 16). { split; [apply Rle_trans with (bpow radix2 (-100)); [apply bpow_ge_0 | apply reach_bot]|]. assert (bpow radix2 (-100) <= bpow radix2 (-4)) by (apply bpow_le; lia). assert (bpow radix2 (-4) = / 16) by (cbn; lra). cbn [reach m case_self case_other]. rewrite N5. lra. }
  assert (Rab : bpow radix2 58 <= bpow radix2 100) by (apply bpow_le; lia).
  assert (Ra : reach case_self <= bpow radix2 100) by (unfold m in Rc; cbn [reach] in Rc; pose proof (reach_bot case_other); pose proof bot_pos; lra).
  assert (Rb : reach case_other <= bpow radix2 100) by (unfold m in Rc; cbn [reach] in Rc; pose proof (reach_bot case_self); pose proof bot_pos; unfold case_self in * ; cbn [reach] in * ; lra).
  assert (G1 : 1 <= growth (/ 2 ^ 22)) by (apply growth_ge; lra).
  assert (Wa : growth (/ 2 ^ 22) ^ weight case_self <= 2) by (eapply Rle_trans; [apply (pow_mono _ _ (weight m) G1); vm_compute; lia | exact W]).
  assert (Wb : growth (/ 2 ^ 22) ^ weight case_other <= 2) by (eapply Rle_trans; [apply (pow_mono _ _ (weight m) G1); vm_compute; lia | exact W]).
  pose proof (isometry _ _ _ (proj1 H22) Ma Wa Ra) as Ia. pose proof (isometry _ _ _ (proj1 H22) Mb Wb Rb) as Ib.
  assert (N34 : norm (3, 4) = 5) by (unfold norm, pdot; cbn [fst snd]; replace (3 * 3 + 4 * 4) with (5 * 5) by ring; apply sqrt_square; lra).
  assert (IA : included (rect 8 8) (disc 12)) by (apply rect_disc; lra).
  unfold case_square, case_ball. cbn [sound32 points_of halfsize b_radius vx vy]. rewrite V1, V8.
  split; [exact Ma|]. split; [exact Mb|]. split; [exact Inv|]. split; [lra|]. split; [apply Rle_trans with (1 / 32768 * (16 + 8 * 12 + 1)); [apply Rmult_le_compat; lra | lra]|].
  split; [split; [split; assumption | lra]|]. split; [split; [exact F1 | lra]|]. split; [exact IA|]. split; [intros p Hp; unfold disc in * ; lra|].
  assert (EX : fb origin = fa (3, 4)) by (rewrite <- E0, Inv; reflexivity). split.
  - apply deep_point with (fb origin); [lra | exists origin; split; [unfold disc; rewrite norm_origin; lra | reflexivity]|]. intros p Hp. exists (ga p). split; [|rewrite Inv; reflexivity]. rewrite EX, <- (Inv p), Ia in Hp.
    destruct (ga p) as [x y]. destruct (coord_le_norm (psub (x, y) (3, 4))) as [Cx Cy]. pose proof (Rle_trans _ _ _ Cx Hp) as C1. pose proof (Rle_trans _ _ _ Cy Hp) as C2. unfold psub in C1, C2. cbn [fst snd] in C1, C2. apply abs_le2' in C1. apply abs_le2' in C2. unfold rect. cbn [fst snd]. lra.
  - intros p z Hp Hz. eapply Rle_trans; [apply (span_discs (image fa (rect 8 8)) (image fb (disc 1)) (fa origin) (fb origin) 12 1); try assumption|].
    + intros u (w & Hw & ->). rewrite Ia, sub_origin. exact (IA w Hw).
    + intros u (w & Hw & ->). rewrite Ib, sub_origin. exact Hw.
    + rewrite EX, Ia. replace (psub origin (3, 4)) with (pneg (3, 4)) by (apply pt_eq; cbn; ring). rewrite norm_neg, N34. lra.
Qed.
Example C62_turned_hit : every_query_hits case_bar case_box (Transform2d case_at (Rotor case_rot) (V2 case_k case_k)).
Proof. destruct C62_case_turned as (H1 & H2 & H3 & H4 & H5 & H6). exact (C62_transform _ _ _ _ _ _ _ H1 H2 H3 H4 H5 H6). Qed.
