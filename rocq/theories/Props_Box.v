(** * Property theorems C32: two axis-aligned boxes, end to end *)
From Coq Require Import Reals Lra Psatz Bool List Lia Arith.
From Verif Require Import Num NumXR Glam Transform2 Shapes2 Gjk Detect2 Spec SpecLink P_Base P_Transform P_Shapes P_Geo P_GjkShape SpecGjk P_Gjk P_Gjk2 P_Gjk3 P_Dist P_Scene Props_Gjk Props_Dist Props_Epa P_Box Props_NoPanic.
Import ListNotations.
Local Open Scope R_scope.

Section Boxes.
Context {T : Type} {TR : Transformation2d XR T}.
Variables (ax ay bx by_ : R) (v : pt) (t : T).
Hypothesis Hax : 0 < ax. Hypothesis Hay : 0 < ay. Hypothesis Hbx : 0 < bx. Hypothesis Hby : 0 < by_.
Hypothesis AC : acts_as t v 1 0 1.
Let a : shape2d XR := SBox (pbox ax ay).
Let b : shape2d XR := SBox (pbox bx by_).
Definition bs (d : pt) : pt :=
  (rsign (fst d) * ax - (rsign (- fst d) * bx + fst v), rsign (snd d) * ay - (rsign (- snd d) * by_ + snd v)).
Lemma bs_sup d : lmd_extreme_point a b t (inj d) = inj (bs d).
Proof.
  destruct AC as (A1 & _ & _ & A4 & _). unfold lmd_extreme_point.
  change (extreme_point a (inj d)) with (extreme_point (pbox ax ay) (inj d)). rewrite ext_box, v2neg_inj, A4.
  change (extreme_point b) with (extreme_point (pbox bx by_)). rewrite ext_box, A1, v2sub_inj. f_equal.
  unfold bs, rotate, place, pneg, psub; cbn [fst snd].
  replace (1 * - fst d - - 0 * - snd d) with (- fst d) by ring. replace (- 0 * - fst d + 1 * - snd d) with (- snd d) by ring.
  apply pt_eq; cbn [fst snd]; ring.
Qed.
Let B0 : pset := image (place v 1 0 1 1) (rect bx by_).
Let M : pset := minkowski_diff (rect ax ay) B0.
Lemma M_iff m : M m <-> Rabs (fst m + fst v) <= ax + bx /\ Rabs (snd m + snd v) <= ay + by_.
Proof.
  split.
  - intros (p & q & [P1 P2] & (q' & [Q1 Q2] & ->) & ->). cbn in * .
    split; apply Rabs_le; lra.
  - intros [X Y]. apply Rabs_le_iff in X. apply Rabs_le_iff in Y.
    set (kx := ax / (ax + bx)). set (ky := ay / (ay + by_)).
    assert (Kx : 0 < kx < 1). { unfold kx. split; [apply Rdiv_lt_0_compat; lra|]. apply Rmult_lt_reg_r with (ax + bx); [lra|]. unfold Rdiv. rewrite Rmult_assoc, Rinv_l; lra. }
    assert (Ky : 0 < ky < 1). { unfold ky. split; [apply Rdiv_lt_0_compat; lra|]. apply Rmult_lt_reg_r with (ay + by_); [lra|]. unfold Rdiv. rewrite Rmult_assoc, Rinv_l; lra. }
    assert (Ex : kx * (ax + bx) = ax) by (unfold kx; field; lra). assert (Ey : ky * (ay + by_) = ay) by (unfold ky; field; lra).
    assert (Ex' : (1 - kx) * (ax + bx) = bx) by lra. assert (Ey' : (1 - ky) * (ay + by_) = by_) by lra.
    set (x := fst m + fst v) in * . set (y := snd m + snd v) in * .
    assert (Q : forall k h z, 0 < k -> - h <= z <= h -> - (k * h) <= k * z <= k * h) by (intros; split; nra).
    exists (kx * x, ky * y), (padd v (- ((1 - kx) * x), - ((1 - ky) * y))). split; [|split].
    + pose proof (Q kx _ x (proj1 Kx) X). pose proof (Q ky _ y (proj1 Ky) Y). unfold rect; cbn [fst snd]. lra.
    + exists (- ((1 - kx) * x), - ((1 - ky) * y)). split; [|apply pt_eq; cbn; ring].
      pose proof (Q (1 - kx) _ x ltac:(lra) X). pose proof (Q (1 - ky) _ y ltac:(lra) Y). unfold rect; cbn [fst snd]. lra.
    + apply pt_eq; cbn; unfold x, y; ring.
Qed.
Lemma rsign_neg x : 0 < x -> rsign (- x) = -1 /\ rsign x = 1.
Proof. intro H. destruct (rsign_cases (- x)) as [[-> Q]|[-> Q]]; destruct (rsign_cases x) as [[-> Q']|[-> Q']]; lra. Qed.
Lemma rsign_pos x : x < 0 -> rsign (- x) = 1 /\ rsign x = -1.
Proof. intro H. destruct (rsign_cases (- x)) as [[-> Q]|[-> Q]]; destruct (rsign_cases x) as [[-> Q']|[-> Q']]; lra. Qed.
Lemma rsign_0 : rsign (- 0) = 1 /\ rsign 0 = 1.
Proof. rewrite Ropp_0. destruct (rsign_cases 0) as [[-> Q]|[-> Q]]; lra. Qed.
(** one coordinate of the support point *)
Lemma bs_coord h k w x : 0 < h -> 0 < k ->
  (0 < x -> rsign x * h - (rsign (- x) * k + w) = h + k - w) /\ (x < 0 -> rsign x * h - (rsign (- x) * k + w) = - (h + k) - w) /\
  - (h + k) - w < rsign 0 * h - (rsign (- 0) * k + w) < h + k - w /\
  Rabs (rsign x * h - (rsign (- x) * k + w) + w) <= h + k /\
  forall m, Rabs (m + w) <= h + k -> x * m <= x * (rsign x * h - (rsign (- x) * k + w)).
Proof.
  intros Hh Hk. split; [|split; [|split; [|split]]].
  - intro H. destruct (rsign_neg x H) as [-> ->]. lra.
  - intro H. destruct (rsign_pos x H) as [-> ->]. lra.
  - destruct rsign_0 as [-> ->]. lra.
  - apply Rabs_le. destruct (rsign_pm x) as [-> | ->]; destruct (rsign_pm (- x)) as [-> | ->]; lra.
  - intros m Hm. apply Rabs_le_iff in Hm. destruct (Rtotal_order x 0) as [L|[->|G]].
    + destruct (rsign_pos x L) as [-> ->]. nra.
    + lra.
    + destruct (rsign_neg x G) as [-> ->]. nra.
Qed.
Lemma bs_far d : is_farthest M d (bs d).
Proof.
  destruct (bs_coord ax bx (fst v) (fst d) Hax Hbx) as (_ & _ & _ & X1 & X2).
  destruct (bs_coord ay by_ (snd v) (snd d) Hay Hby) as (_ & _ & _ & Y1 & Y2).
  split.
  - apply M_iff. split; [exact X1 | exact Y1].
  - intros m Hm. apply M_iff in Hm. destruct Hm as [MX MY]. pose proof (X2 _ MX). pose proof (Y2 _ MY). unfold pdot, bs; cbn [fst snd]. lra.
Qed.
Lemma bs_scale k d : 0 < k -> bs (pscale k d) = bs d.
Proof.
  intro H. assert (S : forall x, rsign (k * x) = rsign x).
  { intro x. destruct (Rtotal_order x 0) as [L|[->|G]].
    - rewrite (proj2 (rsign_pos x L)). apply rsign_pos. nra.
    - rewrite Rmult_0_r. reflexivity.
    - rewrite (proj2 (rsign_neg x G)). apply rsign_neg. nra. }
  unfold bs, pscale; cbn [fst snd].
  replace (- (k * fst d)) with (k * - fst d) by ring. replace (- (k * snd d)) with (k * - snd d) by ring. rewrite !S. reflexivity.
Qed.
Lemma bs_value d : support_value a b t (bs d).
Proof.
  set (k := / (1 + norm d)). pose proof (norm_nonneg d) as N. assert (Hk : 0 < k) by (apply Rinv_0_lt_compat; lra).
  exists (pscale k d). split; [|rewrite bs_sup, bs_scale by exact Hk; reflexivity].
  rewrite norm_scale, Rabs_right by lra. assert (k * (1 + norm d) = 1) by (unfold k; field; lra). pose proof reach_pos. unfold reach, world in * . nra.
Qed.
(** what a face of the Minkowski difference gives *)
Lemma init_dir : eps <= pdot v v -> lmd_initial_direction t = inj v.
Proof.
  intro H. destruct AC as (_ & O & _). unfold lmd_initial_direction. rewrite O. change (v2lensq (inj v)) with (XFin (pdot v v)).
  change (flt (XFin (pdot v v)) feps) with (Rltb (pdot v v) eps). rewrite Rltb_false by lra. reflexivity.
Qed.
Hypothesis RS : resolved a b t.
Hypothesis BIG : forall h k, (h = ax /\ k = bx) \/ (h = ay /\ k = by_) -> eps <= (h + k) * (h + k).
Definition apart_results : Prop :=
  (exists w, distance_to_rel (F:=XR) a b t = Ok (Some (inj w)) /\ forall m, M m -> norm w <= norm m) /\
  (exists w, sdfv_rel (F:=XR) a b t = Ok (false, inj w) /\ forall m, M m -> 99 / 100 * norm w <= norm m).
Definition touch_results : Prop := collides_rel (F:=XR) a b t = Ok false /\ penetrates_rel (F:=XR) a b t = Ok None.

Section OneFace.
Variables (n1 n2 g lo hi : R).
Hypothesis HU : n1 * n1 + n2 * n2 = 1.
Hypothesis HM : forall m, M m -> pdot (n1, n2) m <= - g /\ lo <= pcross (n1, n2) m <= hi.
Hypothesis HX : forall d, 0 < pdot (n1, n2) d -> pdot (n1, n2) (bs d) = - g.
Hypothesis HX0 : forall d, pdot (n1, n2) d = 0 -> pcross (n1, n2) d <> 0 -> pdot (n1, n2) (bs d) < - g.
Hypothesis HYlo : forall d, pcross (n1, n2) d < 0 -> pcross (n1, n2) (bs d) = lo.
Hypothesis HYhi : forall d, 0 < pcross (n1, n2) d -> pcross (n1, n2) (bs d) = hi.
Hypothesis D0 : 0 < pdot (n1, n2) v.
Hypothesis I0 : eps <= pdot v v.
Hypothesis GT : 0 < g \/ (g = 0 /\ lo <= 0 <= hi).
Lemma face_apart : apart_results.
Proof.
  split.
  - destruct (face_ft n1 n2 g lo hi M (lmd_extreme_point a b t) bs (support_value a b t) HU bs_sup bs_value RS HM bs_far HX HX0 HYlo HYhi v D0 GT) as (S & D & w & E & W & B).
    exists w. split; [|exact B]. unfold distance_to_rel, sdfv_common_rel, Sdfv_ShapeShape, minkowski_sdfv, gjk, gjk_ft.
    rewrite (init_dir I0), E, W. reflexivity.
  - destruct (face_tt n1 n2 g lo hi M (lmd_extreme_point a b t) bs (support_value a b t) HU bs_sup bs_value RS HM bs_far HX HX0 HYlo HYhi v D0 GT) as (S & D & w & E & W & B).
    exists w. split; [|exact B]. unfold sdfv_rel, sdfv_common_rel, Sdfv_ShapeShape, minkowski_sdfv, gjk, gjk_tt.
    rewrite (init_dir I0), E, W. reflexivity.
Qed.
Lemma face_touch : g = 0 -> touch_results.
Proof.
  intro G.
  destruct (face_ff n1 n2 g lo hi M (lmd_extreme_point a b t) bs (support_value a b t) HU bs_sup bs_value RS HM bs_far HX HX0 HYlo HYhi v D0 GT G) as ((S1 & D1 & E1) & (S2 & D2 & E2)).
  split.
  - unfold collides_rel, sdfv_common_rel, Sdfv_ShapeShape, minkowski_sdfv, gjk, gjk_ff. rewrite (init_dir I0), E1. reflexivity.
  - unfold penetrates_rel, sdfv_common_rel, Sdfv_ShapeShape, minkowski_sdfv, gjk, gjk_tf. rewrite (init_dir I0), E2. reflexivity.
Qed.
Lemma face_both : apart_results /\ (g = 0 -> touch_results).
Proof. split; [exact face_apart | exact face_touch]. Qed.
End OneFace.

Ltac face :=
  intros; unfold pdot, pcross in *; cbn [fst snd] in *;
  repeat match goal with H : M _ |- _ => apply M_iff in H; destruct H as [?MX ?MY]; apply Rabs_le_iff in MX; apply Rabs_le_iff in MY end; try (unfold bs; cbn [fst snd]).
Lemma case_x sx : (sx = 1 \/ sx = -1) -> 0 <= sx * fst v - (ax + bx) -> (0 < sx * fst v - (ax + bx) \/ Rabs (snd v) <= ay + by_) ->
  apart_results /\ (sx * fst v - (ax + bx) = 0 -> touch_results).
Proof.
  intros S G C. assert (SS : sx * sx = 1) by (destruct S; subst; lra).
  pose proof (bs_coord ax bx (fst v)) as BX. pose proof (bs_coord ay by_ (snd v)) as BY.
  pose proof (BIG ax bx (or_introl (conj eq_refl eq_refl))) as BG.
  apply (face_both sx 0 (sx * fst v - (ax + bx)) (- (ay + by_) - sx * snd v) (ay + by_ - sx * snd v)).
  - lra.
  - intros m Hm. apply M_iff in Hm. destruct Hm as [MX MY]. apply Rabs_le_iff in MX. apply Rabs_le_iff in MY. unfold pdot, pcross; cbn [fst snd]. destruct S; subst; lra.
  - intros d Hd. destruct (BX (fst d) Hax Hbx) as (X1 & X2 & _). unfold pdot, bs in *; cbn [fst snd] in * . destruct S; subst; [rewrite X1 by lra | rewrite X2 by lra]; ring.
  - intros d Hd _. destruct (BX (fst d) Hax Hbx) as (_ & _ & X3 & _). unfold pdot, bs in *; cbn [fst snd] in * .
    assert (Z : fst d = 0) by (destruct S; subst; lra). rewrite Z. destruct S; subst; lra.
  - intros d Hd. destruct (BY (snd d) Hay Hby) as (Y1 & Y2 & _). unfold pcross, bs in *; cbn [fst snd] in * . destruct S; subst; [rewrite Y2 by lra | rewrite Y1 by lra]; ring.
  - intros d Hd. destruct (BY (snd d) Hay Hby) as (Y1 & Y2 & _). unfold pcross, bs in *; cbn [fst snd] in * . destruct S; subst; [rewrite Y1 by lra | rewrite Y2 by lra]; ring.
  - unfold pdot; cbn [fst snd]. lra.
  - unfold pdot. assert ((ax + bx) * (ax + bx) <= fst v * fst v); [|nra]. assert (ax + bx <= sx * fst v) by lra. destruct S; subst; nra.
  - destruct C as [C|C]; [left; exact C|]. destruct G as [G|G]; [left; lra|]. right. split; [lra|]. apply Rabs_le_iff in C. destruct S; subst; lra.
Qed.
Lemma case_y sy : (sy = 1 \/ sy = -1) -> 0 <= sy * snd v - (ay + by_) -> (0 < sy * snd v - (ay + by_) \/ Rabs (fst v) <= ax + bx) ->
  apart_results /\ (sy * snd v - (ay + by_) = 0 -> touch_results).
Proof.
  intros S G C. assert (SS : sy * sy = 1) by (destruct S; subst; lra).
  pose proof (bs_coord ax bx (fst v)) as BX. pose proof (bs_coord ay by_ (snd v)) as BY.
  pose proof (BIG ay by_ (or_intror (conj eq_refl eq_refl))) as BG.
  apply (face_both 0 sy (sy * snd v - (ay + by_)) (- (ax + bx) + sy * fst v) (ax + bx + sy * fst v)).
  - lra.
  - intros m Hm. apply M_iff in Hm. destruct Hm as [MX MY]. apply Rabs_le_iff in MX. apply Rabs_le_iff in MY. unfold pdot, pcross; cbn [fst snd]. destruct S; subst; lra.
  - intros d Hd. destruct (BY (snd d) Hay Hby) as (Y1 & Y2 & _). unfold pdot, bs in *; cbn [fst snd] in * . destruct S; subst; [rewrite Y1 by lra | rewrite Y2 by lra]; ring.
  - intros d Hd _. destruct (BY (snd d) Hay Hby) as (_ & _ & Y3 & _). unfold pdot, bs in *; cbn [fst snd] in * .
    assert (Z : snd d = 0) by (destruct S; subst; lra). rewrite Z. destruct S; subst; lra.
  - intros d Hd. destruct (BX (fst d) Hax Hbx) as (X1 & X2 & _). unfold pcross, bs in *; cbn [fst snd] in * . destruct S; subst; [rewrite X1 by lra | rewrite X2 by lra]; ring.
  - intros d Hd. destruct (BX (fst d) Hax Hbx) as (X1 & X2 & _). unfold pcross, bs in *; cbn [fst snd] in * . destruct S; subst; [rewrite X2 by lra | rewrite X1 by lra]; ring.
  - unfold pdot; cbn [fst snd]. lra.
  - unfold pdot. assert ((ay + by_) * (ay + by_) <= snd v * snd v); [|nra]. assert (ay + by_ <= sy * snd v) by lra. destruct S; subst; nra.
  - destruct C as [C|C]; [left; exact C|]. destruct G as [G|G]; [left; lra|]. right. split; [lra|]. apply Rabs_le_iff in C. destruct S; subst; lra.
Qed.
Lemma abs_sign x h : 0 < h -> h <= Rabs x -> exists sg, (sg = 1 \/ sg = -1) /\ 0 <= sg * x - h /\ (h < Rabs x -> 0 < sg * x - h).
Proof. intros H Q. unfold Rabs in * . destruct (Rcase_abs x); [exists (-1) | exists 1]; (split; [auto|]); split; intros; lra. Qed.
Lemma no_overlap : ~ (Rabs (fst v) < ax + bx /\ Rabs (snd v) < ay + by_) ->
  apart_results /\ (touch_results \/ ax + bx < Rabs (fst v) \/ ay + by_ < Rabs (snd v)).
Proof.
  intro N. destruct (Rlt_dec (ax + bx) (Rabs (fst v))) as [X|X].
  - destruct (abs_sign (fst v) (ax + bx) ltac:(lra) ltac:(lra)) as (sg & S & G1 & G2). split; [|auto].
    apply (case_x sg S G1). left. apply G2, X.
  - destruct (Rlt_dec (ay + by_) (Rabs (snd v))) as [Y|Y].
    + destruct (abs_sign (snd v) (ay + by_) ltac:(lra) ltac:(lra)) as (sg & S & G1 & G2). split; [|auto].
      apply (case_y sg S G1). left. apply G2, Y.
    + destruct (Req_dec (Rabs (fst v)) (ax + bx)) as [EX|EX].
      * destruct (abs_sign (fst v) (ax + bx) ltac:(lra) ltac:(lra)) as (sg & S & G1 & G2).
        destruct (case_x sg S G1 ltac:(right; lra)) as [R1 R2]. split; [exact R1|]. left. apply R2.
        assert (sg * fst v <= Rabs (fst v)); [|lra]. destruct S; subst; unfold Rabs; destruct (Rcase_abs (fst v)); lra.
      * assert (EY : Rabs (snd v) = ay + by_) by lra.
        destruct (abs_sign (snd v) (ay + by_) ltac:(lra) ltac:(lra)) as (sg & S & G1 & G2).
        destruct (case_y sg S G1 ltac:(right; lra)) as [R1 R2]. split; [exact R1|]. left. apply R2.
        assert (sg * snd v <= Rabs (snd v)); [|lra]. destruct S; subst; unfold Rabs; destruct (Rcase_abs (snd v)); lra.
Qed.
End Boxes.

(** ** The theorems *)
Lemma same_B v bx by_ p : image (place v 1 0 1 1) (rect bx by_) p <-> shift v (rect bx by_) p.
Proof.
  split.
  - intros (q & [X Y] & ->). unfold shift, rect; cbn. cbn in X, Y. lra.
  - intros [X Y]. exists (psub p v). split; [split; assumption | apply pt_eq; cbn; ring].
Qed.
Lemma meets_B v bx by_ A : meets A (image (place v 1 0 1 1) (rect bx by_)) <-> meets A (shift v (rect bx by_)).
Proof. apply meets_ext; [intro; reflexivity | intro; apply same_B]. Qed.
Lemma overlaps_B v bx by_ A : overlaps A (image (place v 1 0 1 1) (rect bx by_)) <-> overlaps A (shift v (rect bx by_)).
Proof. unfold overlaps. split; intros (e & E & H); exists e; (split; [exact E|]); intros w W; apply meets_B, H, W. Qed.
Lemma separates_B w v bx by_ A : separates w A (image (place v 1 0 1 1) (rect bx by_)) <-> separates w A (shift v (rect bx by_)).
Proof. unfold separates. rewrite overlaps_B. reflexivity. Qed.

(** Two axis-aligned boxes overlap iff their centres are closer than the half sizes add up to, in both axes. *)
Theorem C32_boxes_overlap_iff : forall ax ay bx by_ v, 0 < ax -> 0 < ay -> 0 < bx -> 0 < by_ ->
  (overlaps (rect ax ay) (shift v (rect bx by_)) <-> Rabs (fst v) < ax + bx /\ Rabs (snd v) < ay + by_).
Proof.
  intros ax ay bx by_ v Hax Hay Hbx Hby. rewrite <- overlaps_B.
  pose proof (M_iff ax ay bx by_ v Hax Hay Hbx Hby) as MI. cbv zeta in MI.
  split.
  - intro O. apply overlaps_0, overlaps_diff in O. destruct O as (e & E & O). split; apply Rnot_le_lt; intro Q.
    + set (x := if Rcase_abs (fst v) then - (e / 2) else e / 2).
      specialize (O (x, 0)). rewrite psub_0 in O. assert (N : norm (x, 0) < e) by (rewrite norm_xaxis; unfold x; destruct (Rcase_abs (fst v)); unfold Rabs; destruct (Rcase_abs _); lra).
      apply O in N. apply MI in N. cbn in N. destruct N as [N _]. apply Rabs_le_iff in N. unfold x, Rabs in * . destruct (Rcase_abs (fst v)); lra.
    + set (y := if Rcase_abs (snd v) then - (e / 2) else e / 2).
      specialize (O (0, y)). rewrite psub_0 in O.
      assert (N : norm (0, y) < e).
      { unfold norm, pdot; cbn. replace (0 * 0 + y * y) with (y * y) by ring. change (y * y) with (Rsqr y). rewrite sqrt_Rsqr_abs. unfold y; destruct (Rcase_abs (snd v)); unfold Rabs; destruct (Rcase_abs _); lra. }
      apply O in N. apply MI in N. cbn in N. destruct N as [_ N]. apply Rabs_le_iff in N. unfold y, Rabs in * . destruct (Rcase_abs (snd v)); lra.
  - intros [X Y]. apply overlaps_0, overlaps_diff. exists (Rmin (ax + bx - Rabs (fst v)) (ay + by_ - Rabs (snd v))).
    split; [apply Rmin_glb_lt; lra|]. intros u U. rewrite psub_0. apply MI.
    pose proof (norm_x u). pose proof (norm_y u). pose proof (Rabs_triang (fst u) (fst v)). pose proof (Rabs_triang (snd u) (snd v)).
    pose proof (Rmin_l (ax + bx - Rabs (fst v)) (ay + by_ - Rabs (snd v))). pose proof (Rmin_r (ax + bx - Rabs (fst v)) (ay + by_ - Rabs (snd v))). lra.
Qed.
Print Assumptions C32_boxes_overlap_iff.

(** A translation of boxes whose half sizes are at least 1/1000 and where the tolerance does not interfere: all four queries
    are right. Overlapping boxes: collides, a separating vector within 1% of the shortest, no distance. Boxes that
    touch or are apart: no collision, and distance_to is a shortest vector to contact (within 1% for sdfv). *)
Section Final.
Context {T : Type} {TR : Transformation2d XR T}.
Variables (ax ay bx by_ : R) (v : pt) (t : T).
Hypothesis Hax : / 1000 <= ax. Hypothesis Hay : / 1000 <= ay. Hypothesis Hbx : / 1000 <= bx. Hypothesis Hby : / 1000 <= by_.
Hypothesis Wa : norm (ax, ay) <= world. Hypothesis Wb : norm (bx, by_) <= world. Hypothesis Wv : norm v <= world.
Hypothesis AC : acts_as t v 1 0 1.
Let a : shape2d XR := SBox (pbox ax ay).
Let b : shape2d XR := SBox (pbox bx by_).
Let A : pset := rect ax ay.
Let B' : pset := image (place v 1 0 1 1) (rect bx by_).
Let B : pset := shift v (rect bx by_).
Lemma box_scene : scene a b t A B'.
Proof.
  apply (Scene _ _ _ _ _ world v 1 0 1 (rect bx by_)); try assumption; try lra; try reflexivity.
  - apply body_box; try lra.
  - apply body_box; try lra.
Qed.
Hypothesis RS : resolved a b t.
Lemma box_overlap : overlaps A B ->
  collides_rel (F:=XR) a b t = Ok true /\ distance_to_rel (F:=XR) a b t = Ok None /\
  (exists w, penetrates_rel (F:=XR) a b t = Ok (Some (inj w)) /\ separates w A B /\ forall u, separates u A B -> norm w <= 101 / 100 * norm u) /\
  (exists w, sdfv_rel (F:=XR) a b t = Ok (true, inj w) /\ separates w A B /\ forall u, separates u A B -> norm w <= 101 / 100 * norm u).
Proof.
  intro O. apply overlaps_B in O. pose proof (few_corners _ _ _ _ _ 4 4 box_scene eq_refl eq_refl ltac:(lia)) as FV.
  destruct (q_penetration_complete a b t A B' box_scene FV RS O) as ((w1 & E1 & S1 & M1) & (w2 & E2 & S2 & M2)).
  destruct (q_overlap_all a b t A B' box_scene FV RS O) as (_ & D & _).
  split; [apply (q_overlap_collides a b t A B' box_scene FV O)|]. split; [exact D|]. split.
  - exists w1. split; [exact E1|]. split; [apply separates_B, S1|]. intros u U. apply M1, separates_B, U.
  - exists w2. split; [exact E2|]. split; [apply separates_B, S2|]. intros u U. apply M2, separates_B, U.
Qed.
Lemma box_apart : ~ overlaps A B ->
  collides_rel (F:=XR) a b t = Ok false /\ penetrates_rel (F:=XR) a b t = Ok None /\
  (exists w, distance_to_rel (F:=XR) a b t = Ok (Some (inj w)) /\ is_min_contact w A B) /\
  (exists w, sdfv_rel (F:=XR) a b t = Ok (false, inj w) /\ meets (shift w A) B /\ forall u, meets (shift u A) B -> 99 / 100 * norm w <= norm u).
Proof.
  intro N. pose proof box_scene as SC.
  assert (N' : ~ (Rabs (fst v) < ax + bx /\ Rabs (snd v) < ay + by_)) by (intro Q; apply N, C32_boxes_overlap_iff; lra).
  assert (BIG : forall h k, (h = ax /\ k = bx) \/ (h = ay /\ k = by_) -> eps <= (h + k) * (h + k)).
  { assert (E : eps <= / 1000 * / 1000). { unfold eps. rewrite <- Rinv_mult by lra. apply Rinv_le_contravar; [lra|]. replace (1000 * 1000) with (IZR 1000000) by lra. apply IZR_le. cbv. discriminate. }
    intros h k [[-> ->]|[-> ->]]; nra. }
  destruct (no_overlap ax ay bx by_ v t ltac:(lra) ltac:(lra) ltac:(lra) ltac:(lra) AC RS BIG N') as [((w1 & E1 & M1) & (w2 & E2 & M2)) TR'].
  fold a b in E1, E2. fold A B' in M1, M2.
  assert (Tch : collides_rel (F:=XR) a b t = Ok false /\ penetrates_rel (F:=XR) a b t = Ok None).
  { destruct TR' as [[C P]|Far]; [split; assumption|].
    assert (NM : ~ meets A B').
    { intros (p & [P1 P2] & (q & [Q1 Q2] & ->)). cbn in P1, P2. destruct Far as [F|F]; unfold Rabs in F; [destruct (Rcase_abs (fst v)) | destruct (Rcase_abs (snd v))]; lra. }
    destruct (C51_queries_return XR _ T TR a b t) as ((r1 & R1) & (r2 & R2) & _). split.
    - destruct r1; [|exact R1]. exfalso. apply NM. apply (q_collides_true a b t A B' SC R1), RS.
    - destruct r2 as [p|]; [|exact R2]. exfalso. apply NM. apply (q_penetrates_some a b t A B' SC p R2), RS. }
  split; [apply Tch|]. split; [apply Tch|]. split.
  - exists w1. split; [exact E1|]. split; [apply meets_B, (q_distance_contact a b t A B' SC w1 E1)|].
    intros u U. apply meets_B in U. apply meets_diff in U. rewrite <- (norm_neg u). apply M1, U.
  - exists w2. split; [exact E2|]. split; [apply meets_B, (q_sdfv_contact a b t A B' SC w2 E2)|].
    intros u U. apply meets_B in U. apply meets_diff in U. rewrite <- (norm_neg u). apply M2, U.
Qed.
End Final.
Theorem C32_box_box : forall (T : Type) (TR : Transformation2d XR T) ax ay bx by_ v (t : T),
  / 1000 <= ax -> / 1000 <= ay -> / 1000 <= bx -> / 1000 <= by_ -> norm (ax, ay) <= world -> norm (bx, by_) <= world -> norm v <= world ->
  acts_as t v 1 0 1 -> resolved (SBox (pbox ax ay)) (SBox (pbox bx by_)) t ->
  let a := pbox ax ay in let b := pbox bx by_ in let A := rect ax ay in let B := shift v (rect bx by_) in
  (overlaps A B ->
    collides_rel (F:=XR) a b t = Ok true /\ distance_to_rel (F:=XR) a b t = Ok None /\
    (exists w, penetrates_rel (F:=XR) a b t = Ok (Some (inj w)) /\ separates w A B /\ forall u, separates u A B -> norm w <= 101 / 100 * norm u) /\
    (exists w, sdfv_rel (F:=XR) a b t = Ok (true, inj w) /\ separates w A B /\ forall u, separates u A B -> norm w <= 101 / 100 * norm u)) /\
  (~ overlaps A B ->
    collides_rel (F:=XR) a b t = Ok false /\ penetrates_rel (F:=XR) a b t = Ok None /\
    (exists w, distance_to_rel (F:=XR) a b t = Ok (Some (inj w)) /\ is_min_contact w A B) /\
    (exists w, sdfv_rel (F:=XR) a b t = Ok (false, inj w) /\ meets (shift w A) B /\ forall u, meets (shift u A) B -> 99 / 100 * norm w <= norm u)).
Proof.
  intros T TR ax ay bx by_ v t H1 H2 H3 H4 Wa Wb Wv AC RS a b A B. split.
  - exact (box_overlap ax ay bx by_ v t H1 H2 H3 H4 Wa Wb Wv AC RS).
  - exact (box_apart ax ay bx by_ v t H1 H2 H3 H4 Wa Wb Wv AC RS).
Qed.
Print Assumptions C32_box_box.
(** In particular for sizes and positions that are multiples of 1/128 (up to a billion). *)
Theorem C32_box_box_grid : forall (T : Type) (TR : Transformation2d XR T) ax ay bx by_ v (t : T),
  0 < ax -> 0 < ay -> 0 < bx -> 0 < by_ -> norm (ax, ay) <= world -> norm (bx, by_) <= world -> norm v <= world ->
  pt_on_grid (ax, ay) -> pt_on_grid (bx, by_) -> pt_on_grid v -> acts_as t v 1 0 1 ->
  let a := pbox ax ay in let b := pbox bx by_ in let A := rect ax ay in let B := shift v (rect bx by_) in
  (collides_rel (F:=XR) a b t = Ok true <-> Rabs (fst v) < ax + bx /\ Rabs (snd v) < ay + by_) /\
  ((exists p, penetrates_rel (F:=XR) a b t = Ok (Some p)) <-> overlaps A B) /\
  (distance_to_rel (F:=XR) a b t = Ok None <-> overlaps A B) /\
  ((exists p, sdfv_rel (F:=XR) a b t = Ok (true, p)) <-> overlaps A B) /\
  (forall p, penetrates_rel (F:=XR) a b t = Ok (Some p) \/ sdfv_rel (F:=XR) a b t = Ok (true, p) ->
     exists w, p = inj w /\ separates w A B /\ forall u, separates u A B -> norm w <= 101 / 100 * norm u) /\
  (forall p, distance_to_rel (F:=XR) a b t = Ok (Some p) -> exists w, p = inj w /\ is_min_contact w A B) /\
  (forall p, sdfv_rel (F:=XR) a b t = Ok (false, p) ->
     exists w, p = inj w /\ meets (shift w A) B /\ forall u, meets (shift u A) B -> 99 / 100 * norm w <= norm u).
Proof.
  intros T TR ax ay bx by_ v t H1 H2 H3 H4 Wa Wb Wv Ga Gb Gv AC a b A B.
  assert (GP : forall x, 0 < x -> on_grid x -> / 1000 <= x).
  { intros x Px (z & Z). assert (1 <= IZR z). { apply (IZR_le 1). assert (0 < z)%Z; [|lia]. apply lt_IZR. lra. } lra. }
  destruct Ga as [Gax Gay]. destruct Gb as [Gbx Gby]. cbn in Gax, Gay, Gbx, Gby.
  pose proof (GP _ H1 Gax) as K1. pose proof (GP _ H2 Gay) as K2. pose proof (GP _ H3 Gbx) as K3. pose proof (GP _ H4 Gby) as K4.
  assert (RS : resolved (SBox (pbox ax ay)) (SBox (pbox bx by_)) t).
  { apply (resolved_grid _ _ _ _ _ v 4 4 (box_scene ax ay bx by_ v t K1 K2 K3 K4 Wa Wb Wv AC) eq_refl eq_refl); try assumption.
    - exists (ax, ay). split; [reflexivity | split; assumption].
    - exists (bx, by_). split; [reflexivity | split; assumption]. }
  destruct (C32_box_box T TR ax ay bx by_ v t K1 K2 K3 K4 Wa Wb Wv AC RS) as [In Out]. fold a b A B in In, Out.
  pose proof (C32_boxes_overlap_iff ax ay bx by_ v H1 H2 H3 H4) as OI. fold A B in OI.
  destruct (Rlt_dec (Rabs (fst v)) (ax + bx)) as [QX|QX]; [destruct (Rlt_dec (Rabs (snd v)) (ay + by_)) as [QY|QY]|].
  - assert (O : overlaps A B) by (apply OI; auto). destruct (In O) as (C & D & (w & P & SP & MP) & (w' & E & SE & ME)).
    split; [rewrite C; tauto|]. split; [split; [auto | intros _; eexists; exact P]|]. split; [tauto|]. split; [split; [auto | intros _; eexists; exact E]|].
    split; [|split].
    + intros p [Q|Q]; [rewrite P in Q; injection Q as <-; exists w | rewrite E in Q; injection Q as <-; exists w']; auto.
    + intros p Q. rewrite D in Q. discriminate.
    + intros p Q. rewrite E in Q. discriminate.
  - assert (O : ~ overlaps A B) by (intro O; apply OI in O; tauto). destruct (Out O) as (C & P & (w & D & MD) & (w' & E & SE & ME)).
    split; [rewrite C; split; [discriminate | tauto]|]. split; [split; [intros (p & Q); rewrite P in Q; discriminate | tauto]|].
    split; [rewrite D; split; [discriminate | tauto]|]. split; [split; [intros (p & Q); rewrite E in Q; discriminate | tauto]|].
    split; [|split].
    + intros p [Q|Q]; [rewrite P in Q | rewrite E in Q]; discriminate.
    + intros p Q. rewrite D in Q. injection Q as <-. exists w. auto.
    + intros p Q. rewrite E in Q. injection Q as <-. exists w'. auto.
  - assert (O : ~ overlaps A B) by (intro O; apply OI in O; tauto). destruct (Out O) as (C & P & (w & D & MD) & (w' & E & SE & ME)).
    split; [rewrite C; split; [discriminate | tauto]|]. split; [split; [intros (p & Q); rewrite P in Q; discriminate | tauto]|].
    split; [rewrite D; split; [discriminate | tauto]|]. split; [split; [intros (p & Q); rewrite E in Q; discriminate | tauto]|].
    split; [|split].
    + intros p [Q|Q]; [rewrite P in Q | rewrite E in Q]; discriminate.
    + intros p Q. rewrite D in Q. injection Q as <-. exists w. auto.
    + intros p Q. rewrite E in Q. injection Q as <-. exists w'. auto.
Qed.
Print Assumptions C32_box_box_grid.
(** non-vacuity: boxes 2 x 4 and 3 x 1 (half sizes 1, 2 and 3/2, 1/2) moved by (2, 1) overlap; moved by (9/2, 0) they are exactly 2 apart *)
Example C32_example : exists w, distance_to_rel (F:=XR) (pbox 1 2) (pbox (3/2) (1/2)) (inj (9/2, 0)) = Ok (Some (inj w)) /\
  is_min_contact w (rect 1 2) (shift (9/2, 0) (rect (3/2) (1/2))).
Proof.
  assert (G : forall z, on_grid (IZR z / 2)) by (intro z; exists (z * 64)%Z; rewrite mult_IZR; field).
  assert (W : forall x y, Rabs x <= 10 -> Rabs y <= 10 -> norm (x, y) <= world).
  { intros x y X Y. apply Rabs_le_iff in X. apply Rabs_le_iff in Y. apply norm_le_sq; unfold world; [lra|]. unfold pdot; cbn. nra. }
  assert (Q : forall x, -10 <= x <= 10 -> Rabs x <= 10) by (intros; apply Rabs_le; lra).
  destruct (C32_box_box_grid _ _ 1 2 (3/2) (1/2) (9/2, 0) (inj (9/2, 0)) ltac:(lra) ltac:(lra) ltac:(lra) ltac:(lra)
    ltac:(apply W; apply Q; lra) ltac:(apply W; apply Q; lra) ltac:(apply W; apply Q; lra)) as (_ & _ & D & _ & _ & K & _).
  - split; cbn; [replace 1 with (2 / 2) by lra | replace 2 with (4 / 2) by lra]; [apply (G 2%Z) | apply (G 4%Z)].
  - split; cbn; [apply (G 3%Z) | apply (G 1%Z)].
  - split; cbn; [apply (G 9%Z) | replace 0 with (0 / 2) by lra; apply (G 0%Z)].
  - apply acts_vec2.
  - destruct (C51_queries_return XR _ _ Tr_Vec2 (SBox (pbox 1 2)) (SBox (pbox (3/2) (1/2))) (inj (9/2, 0))) as (_ & _ & ([p|] & E) & _).
    + change (distance_to_rel (F:=XR) (pbox 1 2) (pbox (3/2) (1/2)) (inj (9/2, 0)) = Ok (Some p)) in E. destruct (K p E) as (w & -> & MC). exists w. auto.
    + exfalso. change (distance_to_rel (F:=XR) (pbox 1 2) (pbox (3/2) (1/2)) (inj (9/2, 0)) = Ok None) in E. apply D in E.
      apply C32_boxes_overlap_iff in E; try lra. cbn in E. destruct E as [E _]. apply Rabs_def2 in E. lra.
Qed.
