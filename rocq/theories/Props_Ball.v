(** * Property theorems C54: two balls of the Shape2d union, end to end through GJK and EPA *)
From Coq Require Import Reals Lra Psatz Bool List Lia Arith.
From Verif Require Import Num NumXR Glam Transform2 Shapes2 Gjk Detect2 Spec SpecLink P_Base P_Transform P_Shapes P_Geo P_Analytic P_GjkShape SpecGjk P_Gjk P_Gjk2 P_Gjk3 P_Dist P_Scene P_Epa Props_Gjk Props_Epa P_Box P_Ball P_BallEpa.
Import ListNotations.
Local Open Scope R_scope.

Lemma hat_rotate c s d : c * c + s * s = 1 -> hat (rotate c s d) = rotate c s (hat d).
Proof.
  intro U. unfold hat. destruct (pt_eq_dec_origin d) as [->|N].
  - destruct (pt_eq_dec_origin (rotate c s origin)) as [E|E]; [symmetry; rewrite <- E at 1; apply pt_eq; cbn; ring|].
    exfalso. apply E. apply pt_eq; cbn; ring.
  - destruct (pt_eq_dec_origin (rotate c s d)) as [E|E].
    + exfalso. apply N, norm_0. rewrite <- (norm_rotate c s d U), E. apply norm_origin.
    + rewrite norm_rotate by exact U. apply pt_eq; cbn; ring.
Qed.
Lemma hat_neg d : hat (pneg d) = pneg (hat d).
Proof.
  unfold hat. destruct (pt_eq_dec_origin d) as [->|N].
  - destruct (pt_eq_dec_origin (pneg origin)) as [E|E]; [apply pt_eq; cbn; ring|]. exfalso. apply E. apply pt_eq; cbn; ring.
  - destruct (pt_eq_dec_origin (pneg d)) as [E|E].
    + exfalso. apply N. apply pt_eq; [apply (f_equal fst) in E | apply (f_equal snd) in E]; cbn in E |- * ; lra.
    + rewrite norm_neg. apply pt_eq; cbn; ring.
Qed.
Lemma hat_norm d : d <> origin -> norm (hat d) = 1.
Proof.
  intro N. pose proof (norm_pos d N) as P. unfold hat. destruct (pt_eq_dec_origin d) as [E|_]; [contradiction|].
  rewrite norm_scale, Rabs_right; [field; lra|]. apply Rle_ge, Rlt_le, Rdiv_lt_0_compat; lra.
Qed.

Section Balls.
Context {T : Type} {TR : Transformation2d XR T}.
Variables (r1 r2 : R) (v : pt) (c s k : R) (t : T).
Hypothesis H1 : 0 <= r1 <= world. Hypothesis H2 : 0 <= r2 <= world. Hypothesis Hk : 0 <= k. Hypothesis Hkr : k * r2 <= world.
Hypothesis AC : acts_as t v c s k.
Hypothesis U : c * c + s * s = 1.
Hypothesis Wv : norm v <= world.
Hypothesis Far : v = origin \/ eps <= pdot v v.
Let a : shape2d XR := SBall (pball r1).
Let b : shape2d XR := SBall (pball r2).
Let A : pset := disc r1.
Let B' : pset := image (place v c s k k) (disc r2).
Let B : pset := shift v (disc (k * r2)).
Let L := norm v.
Let r := r1 + k * r2.
Lemma kr2 : 0 <= k * r2. Proof. apply Rmult_le_pos; lra. Qed.
Lemma r_nonneg : 0 <= r. Proof. pose proof kr2. unfold r. lra. Qed.
Lemma L_nonneg : 0 <= L. Proof. apply norm_nonneg. Qed.
Lemma ball_scene : scene a b t A B'.
Proof.
  apply (Scene _ _ _ _ _ r2 v c s k (disc r2)); try assumption; try lra; try reflexivity.
  - apply body_ball. lra.
  - apply body_ball. lra.
Qed.
Lemma B_same p : B' p <-> B p.
Proof.
  split.
  - intros (q & Q & ->). unfold B, shift, disc in * . rewrite place_psub, norm_rotate, norm_scale, Rabs_right by (exact U || lra).
    apply Rmult_le_compat_l; assumption.
  - unfold B, shift, disc. intro Q. destruct (Req_dec k 0) as [->|K0].
    + exists origin. split; [unfold disc; rewrite norm_origin; lra|]. rewrite Rmult_0_l in Q.
      assert (Z : norm (psub p v) = 0) by (pose proof (norm_nonneg (psub p v)); lra). apply norm_0 in Z.
      apply pt_eq; [apply (f_equal fst) in Z | apply (f_equal snd) in Z]; cbn in *; lra.
    + exists (unplace v c s k k p). split; [|symmetry; apply place_unplace; [exact U | lra | lra]].
      unfold disc. apply Rmult_le_reg_l with k; [lra|].
      replace (k * norm (unplace v c s k k p)) with (norm (psub p v)); [exact Q|].
      rewrite <- (place_unplace v c s k k p) at 1 by (exact U || lra). rewrite place_psub, norm_rotate, norm_scale, Rabs_right by (exact U || lra). reflexivity.
Qed.
Lemma meets_B2 X : meets X B' <-> meets X B.
Proof. apply meets_ext; [intro; reflexivity | exact B_same]. Qed.
Lemma overlaps_B2 X : overlaps X B' <-> overlaps X B.
Proof. unfold overlaps. split; intros (e & E & H); exists e; (split; [exact E|]); intros w W; apply meets_B2, H, W. Qed.
Lemma separates_B2 w X : separates w X B' <-> separates w X B.
Proof. unfold separates. rewrite overlaps_B2. reflexivity. Qed.
Let M := minkowski_diff A B'.
Lemma MB_iff m : M m <-> norm (padd m v) <= r.
Proof.
  pose proof kr2 as K2. split.
  - intros (p & q & P & Q & ->). apply B_same in Q. unfold A, B, shift, disc in * .
    replace (padd (psub p q) v) with (psub p (psub q v)) by (apply pt_eq; cbn; ring).
    eapply Rle_trans; [apply norm_psub|]. unfold r. lra.
  - intro Q. destruct (Req_dec r 0) as [Z|Z].
    + exists origin, v. assert (r1 = 0 /\ k * r2 = 0) as [Z1 Z2] by (unfold r in Z; lra). split; [unfold A, disc; rewrite norm_origin; lra|].
      split; [apply B_same; unfold B, shift, disc; replace (psub v v) with origin by (apply pt_eq; cbn; ring); rewrite norm_origin; lra|].
      assert (N : norm (padd m v) = 0) by (pose proof (norm_nonneg (padd m v)); lra). apply norm_0 in N.
      apply pt_eq; [apply (f_equal fst) in N | apply (f_equal snd) in N]; cbn in *; lra.
    + assert (PR : 0 < r) by (pose proof r_nonneg; lra).
      assert (F1 : 0 <= r1 / r) by (apply Rmult_le_pos; [lra | left; apply Rinv_0_lt_compat; lra]).
      assert (F2 : 0 <= k * r2 / r) by (apply Rmult_le_pos; [lra | left; apply Rinv_0_lt_compat; lra]).
      exists (pscale (r1 / r) (padd m v)), (psub v (pscale (k * r2 / r) (padd m v))). split; [|split].
      * unfold A, disc. rewrite norm_scale, Rabs_right by lra. replace r1 with (r1 / r * r) at 2 by (field; lra). apply Rmult_le_compat_l; lra.
      * apply B_same. unfold B, shift, disc. replace (psub (psub v (pscale (k * r2 / r) (padd m v))) v) with (pscale (- (k * r2 / r)) (padd m v)) by (apply pt_eq; cbn; ring).
        rewrite norm_scale, Rabs_Ropp, Rabs_right by lra. replace (k * r2) with (k * r2 / r * r) at 2 by (field; lra). apply Rmult_le_compat_l; lra.
      * unfold r. apply pt_eq; cbn; field; unfold r in PR; lra.
Qed.
Lemma balls_overlap : overlaps A B <-> L < r.
Proof.
  rewrite <- overlaps_B2. split.
  - intro O. apply Rnot_le_lt. intro Q. apply (behind_not_overlaps A B') in O; [exact O|]. fold M.
    destruct (pt_eq_dec_origin v) as [E|N].
    + exists (1, 0). split; [intro E1; injection E1; lra|]. intros m Hm. apply MB_iff in Hm. subst v. unfold L in Q. rewrite norm_origin in Q.
      assert (Z : norm (padd m origin) = 0) by (pose proof (norm_nonneg (padd m origin)); lra). apply norm_0 in Z.
      apply (f_equal fst) in Z. unfold pdot; cbn in * . lra.
    + exists v. split; [exact N|]. intros m Hm. apply MB_iff in Hm. pose proof (cauchy v (padd m v)) as C.
      rewrite pdot_add_r, <- norm_sq in C. fold L in C. pose proof L_nonneg. assert (L * norm (padd m v) <= L * L) by (apply Rmult_le_compat_l; lra). lra.
  - intro O. apply overlaps_0, overlaps_diff. exists (r - L). split; [lra|]. intros u Hu. rewrite psub_0. apply MB_iff.
    pose proof (norm_triangle u v). fold L in H. lra.
Qed.
(** the frame *)
Let n : pt := if pt_eq_dec_origin v then (1, 0) else pscale (1 / norm v) v.
Let n1 := fst n. Let n2 := snd n.
Lemma n_unit : n1 * n1 + n2 * n2 = 1.
Proof.
  unfold n1, n2, n. destruct (pt_eq_dec_origin v) as [E|N]; cbn [fst snd]; [ring|]. pose proof (norm_pos v N).
  change (fst (pscale (1 / norm v) v) * fst (pscale (1 / norm v) v) + snd (pscale (1 / norm v) v) * snd (pscale (1 / norm v) v)) with (pdot (pscale (1 / norm v) v) (pscale (1 / norm v) v)).
  rewrite pdot_scale_r, pdot_comm, pdot_scale_r, <- norm_sq. field. lra.
Qed.
Local Notation f := (fr n1 n2 1).
Lemma f_rot d : f d = rotate n1 n2 d.
Proof. unfold fr, rotate. apply pt_eq; cbn; ring. Qed.
Lemma f_v : f (L, 0) = v.
Proof.
  unfold fr, L, n1, n2, n; cbn [fst snd]. destruct (pt_eq_dec_origin v) as [->|N]; [rewrite norm_origin; apply pt_eq; cbn; ring|].
  pose proof (norm_pos v N). apply pt_eq; cbn; field; lra.
Qed.
Let sup := lmd_extreme_point a b t.
Lemma ball_sup d : sup (inj (f d)) = inj (f (du L r d)).
Proof.
  unfold sup, lmd_extreme_point. destruct AC as (A1 & _ & _ & A4 & _).
  change (extreme_point a (inj (f d))) with (extreme_point (pball r1) (inj (f d))). rewrite ext_ball by lra. fold (hat (f d)).
  rewrite v2neg_inj, A4. change (extreme_point b) with (extreme_point (pball r2)). rewrite ext_ball by lra. fold (hat (rotate c (- s) (pneg (f d)))).
  rewrite A1, v2sub_inj. f_equal.
  rewrite hat_rotate by (rewrite <- U; ring). rewrite hat_neg, f_rot, hat_rotate by exact n_unit.
  rewrite <- f_v at 1. rewrite !f_rot. set (h := hat d). unfold du. fold h.
  assert (W : forall p, place (rotate n1 n2 (L, 0)) c s k k (pscale r2 (rotate c (- s) (pneg (rotate n1 n2 p)))) = padd (rotate n1 n2 (L, 0)) (pscale (- (k * r2)) (rotate n1 n2 p))).
  { intro p. apply pt_eq; unfold place, rotate, pscale, pneg, padd; cbn [fst snd].
    - transitivity (- (k * r2) * (c * c + s * s) * (n1 * fst p - n2 * snd p) + (n1 * L - n2 * 0)); [ring|]. rewrite U. ring.
    - transitivity (- (k * r2) * (c * c + s * s) * (n2 * fst p + n1 * snd p) + (n2 * L + n1 * 0)); [ring|]. rewrite U. ring. }
  rewrite W. unfold r. apply pt_eq; cbn; ring.
Qed.
Lemma ball_init : exists l0, 0 < l0 /\ lmd_initial_direction t = inj (f (l0, 0)).
Proof.
  destruct AC as (_ & O & _). unfold lmd_initial_direction. rewrite O. change (v2lensq (inj v)) with (XFin (pdot v v)).
  change (flt (XFin (pdot v v)) feps) with (Rltb (pdot v v) eps). destruct Far as [E|E].
  - exists 1. split; [lra|]. pose proof eps_pos. rewrite Rltb_true by (rewrite E; unfold pdot, origin; cbn; lra).
    unfold fr, n1, n2, n. destruct (pt_eq_dec_origin v) as [_|N]; [|contradiction]. cbn [fst snd]. unfold inj; cbn [fst snd].
    replace (1 * 1 - 0 * (1 * 0)) with 1 by ring. replace (1 * 0 + 0 * (1 * 1)) with 0 by ring. reflexivity.
  - exists L. assert (v <> origin). { intros ->. pose proof eps_pos. unfold pdot, origin in E; cbn in E. lra. }
    split; [apply norm_pos; assumption|]. rewrite Rltb_false by lra. rewrite f_v. reflexivity.
Qed.
Lemma ball_vert d : L < r -> d <> origin -> norm d <= reach -> vert M (sreal a b t) reach (f (du L r d)).
Proof.
  intros O N Hd. pose proof r_nonneg. pose proof L_nonneg.
  assert (E : sreal a b t (f d) = f (du L r d)) by (apply sreal_eq; apply ball_sup).
  assert (Nd : norm (f d) <= reach) by (rewrite (fr_norm n1 n2 1 n_unit one1); exact Hd).
  split.
  - exists (f d). split; [rewrite <- E; apply (proj1 (proj2 (scene_facts a b t A B' ball_scene))), Nd|].
    rewrite (fr_dot n1 n2 1 n_unit one1). unfold du; cbn [fst snd].
    pose proof (norm_pos d N) as PN. unfold hat. destruct (pt_eq_dec_origin d) as [Q|_]; [contradiction|]. cbn [pscale fst snd].
    assert (E2 : fst d * (- L + r * (1 / norm d * fst d)) + snd d * (r * (1 / norm d * snd d)) = r * norm d - L * fst d).
    { transitivity (- L * fst d + r * (1 / norm d) * pdot d d); [unfold pdot; ring|]. rewrite <- norm_sq. field. lra. }
    rewrite E2. pose proof (norm_x d) as X. pose proof (Rle_abs (fst d)). assert (L * fst d <= L * norm d) by (apply Rmult_le_compat_l; lra). nra.
  - exists (f d). split; [exact Nd | symmetry; exact E].
Qed.
Lemma unit_reach d : norm d <= 2 -> norm d <= reach.
Proof. intro. unfold reach, world. lra. Qed.
Lemma start_tri l : L < r -> start_triangle L r l -> exists x y z, map f l = [x; y; z] /\ tri M (sreal a b t) reach x y z.
Proof.
  intros O ST. pose proof L_nonneg as L0. assert (R0 : 0 < r) by lra. pose proof h2_pos as P2. pose proof h2_sq as S2.
  assert (X : vert M (sreal a b t) reach (f (r - L, 0))).
  { rewrite <- (du_x L r 1 ltac:(lra)). apply ball_vert; [exact O | intro E; injection E; lra | apply unit_reach; rewrite norm_xaxis, Rabs_R1; lra]. }
  destruct ST as [-> | ->]; cbn [map]; do 3 eexists; (split; [reflexivity|]).
  - assert (Y : vert M (sreal a b t) reach (f (- L, - r))).
    { rewrite <- (du_my L r 1 ltac:(lra)). apply ball_vert; [exact O | intro E; injection E; lra | apply unit_reach; rewrite norm_yaxis, Rabs_Ropp, Rabs_R1; lra]. }
    assert (Z : vert M (sreal a b t) reach (f (- L - r, 0))).
    { rewrite <- (du_mx L r 1 ltac:(lra)). apply ball_vert; [exact O | intro E; injection E; lra | apply unit_reach; rewrite norm_xaxis, Rabs_Ropp, Rabs_R1; lra]. }
    split; [exact Y|]. split; [exact Z|]. split; [exact X|]. rewrite (fr_abc n1 n2 1 n_unit), !(fr_cross n1 n2 1 n_unit).
    assert (E : abc_ (- L, - r) (- L - r, 0) (r - L, 0) = - (2 * r * r)) by (unfold abc_, pcross; cbn; ring). rewrite E.
    assert (P : 0 < 2 * r * r) by nra. unfold pcross; cbn [fst snd]. split; [lra|]. split; [right; ring|].
    split.
    + match goal with |- 0 < ?x => replace x with (2 * r * r * (r * (r - L))) by ring end. apply Rmult_lt_0_compat; [exact P | apply Rmult_lt_0_compat; lra].
    + match goal with |- 0 < ?x => replace x with (2 * r * r * (r * (r + L))) by ring end. apply Rmult_lt_0_compat; [exact P | apply Rmult_lt_0_compat; lra].
  - assert (Y : vert M (sreal a b t) reach (f (- L - r * h2, - r * h2))).
    { rewrite <- (du_diag L r 1 ltac:(lra)). apply ball_vert; [exact O | intro E; injection E; lra | apply unit_reach].
      apply norm_le_sq; [lra|]. unfold pdot; cbn. lra. }
    assert (Z : vert M (sreal a b t) reach (f (- L, r))).
    { rewrite <- (du_y L r 1 ltac:(lra)). apply ball_vert; [exact O | intro E; injection E; lra | apply unit_reach; rewrite norm_yaxis, Rabs_R1; lra]. }
    split; [exact Y|]. split; [exact Z|]. split; [exact X|]. rewrite (fr_abc n1 n2 1 n_unit), !(fr_cross n1 n2 1 n_unit).
    assert (E : abc_ (- L - r * h2, - r * h2) (- L, r) (r - L, 0) = - (r * r * (1 + 2 * h2))) by (unfold abc_, pcross; cbn; ring). rewrite E.
    assert (P : 0 < r * r * (1 + 2 * h2)) by (apply Rmult_lt_0_compat; [nra | lra]). unfold pcross; cbn [fst snd]. split; [lra|].
    assert (Q1 : 0 < r * (r - L)) by (apply Rmult_lt_0_compat; lra).
    split; [|split].
    + match goal with |- 0 <= ?x => replace x with (r * r * (1 + 2 * h2) * (r * (r - L))) by ring end. apply Rlt_le, Rmult_lt_0_compat; assumption.
    + match goal with |- 0 < ?x => replace x with (r * r * (1 + 2 * h2) * (r * (r - L) * h2)) by ring end. apply Rmult_lt_0_compat; [exact P | apply Rmult_lt_0_compat; assumption].
    + match goal with |- 0 < ?x => replace x with (r * r * (1 + 2 * h2) * (r * (L + r * h2 + L * h2))) by ring end. apply Rmult_lt_0_compat; [exact P|]. apply Rmult_lt_0_compat; [lra | nra].
Qed.
(** "no vector" or a separating vector within 1% of the shortest *)
Definition zero_or_near_min (p : vec2 XR) : Prop :=
  p = v2zero \/ exists w, p = inj w /\ separates w A B /\ forall u, separates u A B -> norm w <= 101 / 100 * norm u.
Lemma epa_balls l : L < r -> start_triangle L r l -> exists p, rmap (fun pts => (true, epa sup 20 pts)) (enforce_ccw (map inj (map f l))) = Ok (true, p) /\ zero_or_near_min p.
Proof.
  intros O ST. destruct (start_tri l O ST) as (x & y & z & -> & T3). destruct (ccw_tri x y z) as (pts & EC).
  exists (epa sup 20 pts). split; [rewrite EC; reflexivity|].
  destruct (tri_result a b t A B' ball_scene x y z pts T3 EC) as [Z|(w & E & S & Mn)]; [left; exact Z | right].
  exists w. split; [exact E|]. split; [apply separates_B2, S|]. intros u Hu. apply Mn, separates_B2, Hu.
Qed.
(** the first triangle in terms of the circle, and what EPA makes of it *)
Lemma start_pc : (- L, - r) = pc L r (- (PI / 2)) /\ (- L - r, 0) = pc L r PI /\ (r - L, 0) = pc L r 0.
Proof.
  unfold pc. rewrite cos_neg, sin_neg, cos_PI2, sin_PI2, cos_PI, sin_PI, cos_0, sin_0.
  repeat split; apply pt_eq; cbn; ring.
Qed.
Let Hsup' : forall d, norm d <= reach -> sup (inj d) = inj (sreal a b t d) := proj1 (scene_facts a b t A B' ball_scene).
Let Hfar' := proj1 (proj2 (scene_facts a b t A B' ball_scene)).
Let HM' := proj1 (proj2 (proj2 (scene_facts a b t A B' ball_scene))).
Let HC' : convex M := proj1 (proj2 (proj2 (proj2 (scene_facts a b t A B' ball_scene)))).
Lemma sreal_f d : sreal a b t (f d) = f (du L r d).
Proof. apply sreal_eq, ball_sup. Qed.
Lemma first_ccw : L < r -> M origin /\
  enforce_ccw (map inj (map f [(- L, - r); (- L - r, 0); (r - L, 0)])) = Ok (map inj [f (pc L r (- (PI / 2))); f (pc L r 0); f (pc L r PI)]) /\
  Poly M (sreal a b t) reach (path (f (pc L r (- (PI / 2)))) [f (pc L r 0); f (pc L r PI)] (f (pc L r (- (PI / 2))))).
Proof.
  intro O. destruct (start_tri _ O (or_introl eq_refl)) as (x & y & z & E & T3). cbn [map] in E. injection E as <- <- <-.
  pose proof (tri_origin M (sreal a b t) reach _ _ _ HC' T3) as HO. split; [exact HO|].
  assert (EC : enforce_ccw (map inj (map f [(- L, - r); (- L - r, 0); (r - L, 0)])) = Ok (map inj [f (- L, - r); f (r - L, 0); f (- L - r, 0)])).
  { cbn [map enforce_ccw].
    assert (E : cross (v2sub (inj (f (- L - r, 0))) (inj (f (- L, - r)))) (v2sub (inj (f (r - L, 0))) (inj (f (- L, - r)))) = XFin (abc_ (f (- L, - r)) (f (- L - r, 0)) (f (r - L, 0)))) by reflexivity.
    rewrite E, (fr_abc n1 n2 1 n_unit). change (flt f0 (XFin (1 * abc_ (- L, - r) (- L - r, 0) (r - L, 0)))) with (Rltb 0 (1 * abc_ (- L, - r) (- L - r, 0) (r - L, 0))).
    rewrite Rltb_false; [reflexivity|]. unfold abc_, pcross; cbn [fst snd psub]. pose proof L_nonneg. nra. }
  destruct (tri_ccw M (sreal a b t) reach _ _ _ T3) as (p & q & r' & E2 & CC). cbn [map] in EC, E2 |- * . rewrite EC in E2.
  destruct start_pc as (<- & <- & <-). split; [exact EC|].
  assert (X : f (- L, - r) = p /\ f (r - L, 0) = q /\ f (- L - r, 0) = r') by (repeat split; apply inj_inj; congruence).
  destruct X as (-> & -> & ->). exact (ccw_poly M (sreal a b t) reach p q r' CC).
Qed.
Definition near_min (w : pt) : Prop := separates w A B /\ forall u, separates u A B -> norm w <= 101 / 100 * norm u.
Lemma first_converges : L < r -> r / 5 <= L -> r / 5000 <= r - L -> exists w,
  rmap (fun pts => (true, epa sup 20 pts)) (enforce_ccw (map inj (map f [(- L, - r); (- L - r, 0); (r - L, 0)]))) = Ok (true, inj w) /\ near_min w.
Proof.
  intros O D S. destruct (first_ccw O) as (HO & EC & P). rewrite EC. cbn [rmap].
  destruct (epa_scheme M (sreal a b t) sup reach (3 * world) Hsup' Hfar' HM' K1' HC' HO (adj n1 n2 L r) (far L r)
    (scheme_fa n1 n2 L r n_unit O D) (scheme_stop n1 n2 L r n_unit (sreal a b t) sreal_f O D S)
    (fun k0 x y H _ => scheme_split n1 n2 L r n_unit (sreal a b t) sreal_f O D S k0 x y H)
    20 _ _ [Some 9%nat; Some 10%nat; None] P) as (w & E & G).
  - cbn [path]. assert (T9 : th 9 = PI / 2) by (unfold th; cbn; field). assert (T10 : th 10 = PI) by (unfold th; cbn; field).
    constructor; [split; [lia | right; rewrite T9; reflexivity]|]. constructor; [split; [lia | left; rewrite T10; reflexivity]|].
    constructor; [exact (far_start n1 n2 L r n_unit O D S) | constructor].
  - exists 9%nat. left. reflexivity.
  - cbn. lia.
  - exists w. unfold epa. cbn [map] in E |- * . rewrite E. split; [reflexivity|].
    apply good_separates in G. destruct G as [G1 G2]. split; [apply separates_B2, G1 | intros u Hu; apply G2, separates_B2, Hu].
Qed.
Lemma first_gives_up : L = 0 -> 0 < r ->
  rmap (fun pts => (true, epa sup 20 pts)) (enforce_ccw (map inj (map f [(- L, - r); (- L - r, 0); (r - L, 0)]))) = Ok (true, v2zero).
Proof.
  intros L0 R0. assert (O : L < r) by lra. destruct (first_ccw O) as (HO & EC & P). rewrite EC. cbn [rmap]. pose proof PI_RGT_0.
  unfold epa. pose proof (epa_gives_up n1 n2 L r n_unit (sreal a b t) sreal_f L0 R0 M sup reach (3 * world) Hsup' Hfar' HM' K1' HC' HO 20 _ _ [PI / 2; PI; PI / 2] P) as E.
  cbn [map] in E |- * . rewrite E; [reflexivity | | cbn; field | cbn; lia].
  cbn [path]. constructor; [split; [lra|]; exists (- (PI / 4)); f_equal; f_equal; f_equal; field|].
  constructor; [split; [lra|]; exists (PI / 2); f_equal; f_equal; f_equal; field|].
  constructor; [|constructor]. split; [lra|]. exists (5 * PI / 4).
  assert (E5 : pc L r (- (PI / 2)) = pc L r (5 * PI / 4 + PI / 2 / 2)).
  { unfold pc. replace (5 * PI / 4 + PI / 2 / 2) with (- (PI / 2) + 2 * INR 1 * PI) by (cbn; field). rewrite cos_period, sin_period. reflexivity. }
  rewrite E5. f_equal. f_equal. f_equal. field.
Qed.
Lemma balls_over_first : L < r ->
  sdfv_rel (F:=XR) a b t = rmap (fun pts => (true, epa sup 20 pts)) (enforce_ccw (map inj (map f [(- L, - r); (- L - r, 0); (r - L, 0)]))) /\
  (eps <= r - L -> penetrates_rel (F:=XR) a b t = rmap (fun x : bool * vec2 XR => if fst x then Some (snd x) else None) (rmap (fun pts => (true, epa sup 20 pts)) (enforce_ccw (map inj (map f [(- L, - r); (- L - r, 0); (r - L, 0)]))))).
Proof.
  intro O. unfold penetrates_rel, sdfv_rel, sdfv_common_rel, Sdfv_ShapeShape, minkowski_sdfv, gjk, gjk_tf, gjk_tt. fold sup.
  destruct ball_init as (l0 & Hl & ->). split.
  - rewrite (ball_tt_over n1 n2 L r n_unit L_nonneg sup ball_sup l0 Hl O). reflexivity.
  - intro E. rewrite (ball_tf_over_first n1 n2 L r n_unit L_nonneg sup ball_sup l0 Hl O E). reflexivity.
Qed.
Lemma balls_over : L < r ->
  collides_rel (F:=XR) a b t = Ok true /\ distance_to_rel (F:=XR) a b t = Ok None /\
  (exists p, penetrates_rel (F:=XR) a b t = Ok (Some p) /\ zero_or_near_min p) /\
  (exists p, sdfv_rel (F:=XR) a b t = Ok (true, p) /\ zero_or_near_min p).
Proof.
  intro O. unfold collides_rel, penetrates_rel, distance_to_rel, sdfv_rel, sdfv_common_rel, Sdfv_ShapeShape, minkowski_sdfv, gjk, gjk_ff, gjk_ft, gjk_tf, gjk_tt. fold sup.
  destruct ball_init as (l0 & Hl & ->).
  destruct (ball_ff_over n1 n2 L r n_unit L_nonneg sup ball_sup l0 Hl O) as (S1 & D1 & ->).
  destruct (ball_tf_over n1 n2 L r n_unit L_nonneg sup ball_sup l0 Hl O) as (l & ST & ->).
  rewrite (ball_ft_over n1 n2 L r n_unit L_nonneg sup ball_sup l0 Hl O), (ball_tt_over n1 n2 L r n_unit L_nonneg sup ball_sup l0 Hl O).
  split; [reflexivity|]. split; [reflexivity|]. split.
  - destruct (epa_balls l O ST) as (p & E & Z). rewrite E. exists p. split; [reflexivity | exact Z].
  - destruct (epa_balls _ O (or_introl eq_refl)) as (p & E & Z). exists p. split; [exact E | exact Z].
Qed.
Lemma balls_apart : r <= L ->
  collides_rel (F:=XR) a b t = Ok false /\ penetrates_rel (F:=XR) a b t = Ok None /\
  let w := pscale ((L - r) / L) v in distance_to_rel (F:=XR) a b t = Ok (Some (inj w)) /\ sdfv_rel (F:=XR) a b t = Ok (false, inj w) /\ is_min_contact w A B.
Proof.
  intro O. assert (EW : f (L - r, 0) = pscale ((L - r) / L) v).
  { rewrite <- f_v. pose proof r_nonneg. destruct (Req_dec L 0) as [Z|Z]; [|unfold fr; apply pt_eq; cbn; field; exact Z].
    assert (r = 0) as -> by lra. rewrite Z. unfold fr. apply pt_eq; cbn; ring. }
  unfold collides_rel, penetrates_rel, distance_to_rel, sdfv_rel, sdfv_common_rel, Sdfv_ShapeShape, minkowski_sdfv, gjk, gjk_ff, gjk_ft, gjk_tf, gjk_tt. fold sup.
  destruct ball_init as (l0 & Hl & ->). pose proof L_nonneg as L0. pose proof r_nonneg as R0.
  destruct (ball_ff_apart n1 n2 L r n_unit sup ball_sup l0 Hl O) as (S1 & D1 & ->).
  destruct (ball_tf_apart n1 n2 L r n_unit sup ball_sup l0 Hl O) as (S2 & D2 & ->).
  destruct (ball_ft_apart n1 n2 L r n_unit sup ball_sup l0 Hl O) as (D3 & ->).
  destruct (ball_tt_apart n1 n2 L r n_unit sup ball_sup l0 Hl O) as (D4 & ->).
  split; [reflexivity|]. split; [reflexivity|]. cbv zeta. rewrite <- EW.
  assert (E : v2neg (inj (f (r - L, 0))) = inj (f (L - r, 0))).
  { rewrite v2neg_inj. f_equal. rewrite (fr_neg n1 n2 1). f_equal. apply pt_eq; cbn; ring. }
  cbn [distance_to_origin rmap fst snd]. rewrite E. split; [reflexivity|]. split; [reflexivity|].
  assert (N : norm (f (L - r, 0)) = L - r) by (rewrite (fr_norm n1 n2 1 n_unit one1), norm_xaxis, Rabs_right; lra).
  split.
  - apply meets_B2, meets_diff. apply MB_iff. rewrite (fr_neg n1 n2 1).
    assert (E2 : padd (f (pneg (L - r, 0))) v = f (r, 0)).
    { transitivity (padd (f (pneg (L - r, 0))) (f (L, 0))); [f_equal; symmetry; apply f_v | unfold fr; apply pt_eq; cbn; ring]. }
    rewrite E2.
    rewrite (fr_norm n1 n2 1 n_unit one1), norm_xaxis, Rabs_right; lra.
  - intros u Hu. apply meets_B2, meets_diff in Hu. apply MB_iff in Hu. rewrite N.
    pose proof (norm_triangle u (padd (pneg u) v)) as TT. replace (padd u (padd (pneg u) v)) with v in TT by (apply pt_eq; cbn; ring). fold L in TT. lra.
Qed.
End Balls.

(** Two balls of the Shape2d union (solved by GJK), ball b placed by a similarity with scale k at v, centres
    coincident or not closer than about 0.00035 (eps = f32::EPSILON): the verdict of all four queries is right; balls that do not overlap get the
    exact shortest vector to contact; overlapping balls get either a separating vector within 1% of the shortest or,
    when the polytope search gives up, the zero vector. *)
Theorem C54_ball_ball : forall (T : Type) (TR : Transformation2d XR T) r1 r2 v c s k (t : T),
  0 <= r1 <= world -> 0 <= r2 <= world -> 0 <= k -> k * r2 <= world -> norm v <= world ->
  acts_as t v c s k -> c * c + s * s = 1 -> (v = origin \/ eps <= pdot v v) ->
  let a := SBall (pball r1) in let b := SBall (pball r2) in let A := disc r1 in let B := shift v (disc (k * r2)) in
  (overlaps A B <-> norm v < r1 + k * r2) /\
  (overlaps A B ->
    collides_rel (F:=XR) a b t = Ok true /\ distance_to_rel (F:=XR) a b t = Ok None /\
    (exists p, penetrates_rel (F:=XR) a b t = Ok (Some p) /\
       (p = v2zero \/ exists w, p = inj w /\ separates w A B /\ forall u, separates u A B -> norm w <= 101 / 100 * norm u)) /\
    (exists p, sdfv_rel (F:=XR) a b t = Ok (true, p) /\
       (p = v2zero \/ exists w, p = inj w /\ separates w A B /\ forall u, separates u A B -> norm w <= 101 / 100 * norm u))) /\
  (~ overlaps A B ->
    collides_rel (F:=XR) a b t = Ok false /\ penetrates_rel (F:=XR) a b t = Ok None /\
    exists w, distance_to_rel (F:=XR) a b t = Ok (Some (inj w)) /\ sdfv_rel (F:=XR) a b t = Ok (false, inj w) /\ is_min_contact w A B).
Proof.
  intros T TR r1 r2 v c s k t H1 H2 Hk Hkr Wv AC U Far a b A B.
  pose proof (balls_overlap r1 r2 v c s k t H1 H2 Hk Hkr AC U Wv Far) as OI. split; [exact OI|]. split.
  - intro O. apply OI in O. exact (balls_over r1 r2 v c s k t H1 H2 Hk Hkr AC U Wv Far O).
  - intro O. assert (Q : r1 + k * r2 <= norm v) by (apply Rnot_lt_le; intro Q; apply O, OI, Q).
    destruct (balls_apart r1 r2 v c s k t H1 H2 Hk Hkr AC U Wv Far Q) as (C & P & D). split; [exact C|]. split; [exact P|]. eexists. exact D.
Qed.
Print Assumptions C54_ball_ball.

(** When the centres are at least D/5 apart (D the sum of the radii) and the penetration is at least D/5000, the search
    converges: sdfv gives a true separating vector within 1% of the shortest, and so does penetrates when the penetration is
    at least f32::EPSILON. *)
Theorem C54_penetration_converges : forall (T : Type) (TR : Transformation2d XR T) r1 r2 v c s k (t : T),
  0 <= r1 <= world -> 0 <= r2 <= world -> 0 <= k -> k * r2 <= world -> norm v <= world ->
  acts_as t v c s k -> c * c + s * s = 1 -> eps <= pdot v v ->
  let a := SBall (pball r1) in let b := SBall (pball r2) in let A := disc r1 in let B := shift v (disc (k * r2)) in
  let D := r1 + k * r2 in D / 5 <= norm v -> norm v <= D - D / 5000 ->
  (exists w, sdfv_rel (F:=XR) a b t = Ok (true, inj w) /\ separates w A B /\ forall u, separates u A B -> norm w <= 101 / 100 * norm u) /\
  (eps <= D - norm v ->
   exists w, penetrates_rel (F:=XR) a b t = Ok (Some (inj w)) /\ separates w A B /\ forall u, separates u A B -> norm w <= 101 / 100 * norm u).
Proof.
  intros T TR r1 r2 v c s k t H1 H2 Hk Hkr Wv AC U Far a b A B D D1 D2. assert (Far' : v = origin \/ eps <= pdot v v) by tauto.
  assert (Nv : 0 < norm v). { apply norm_pos. intros ->. pose proof eps_pos. unfold pdot, origin in Far; cbn in Far. lra. }
  assert (O : norm v < r1 + k * r2) by (fold D; lra).
  destruct (first_converges r1 r2 v c s k t H1 H2 Hk Hkr AC U Wv Far' O) as (w & E & NM); [exact D1 | fold D; lra|].
  destruct (balls_over_first r1 r2 v c s k t H1 H2 AC U Wv Far' O) as (S & P). rewrite E in S, P. split.
  - exists w. split; [exact S | exact NM].
  - intro EP. exists w. split; [exact (P EP) | exact NM].
Qed.
Print Assumptions C54_penetration_converges.

(** Concentric balls always make the search give up: both queries report the overlap with the zero vector, which does
    not separate anything. *)
Theorem C54_concentric_zero_vector : forall (T : Type) (TR : Transformation2d XR T) r1 r2 c s k (t : T),
  0 <= r1 <= world -> 0 <= r2 <= world -> 0 <= k -> k * r2 <= world ->
  acts_as t origin c s k -> c * c + s * s = 1 -> 0 < r1 + k * r2 ->
  let a := SBall (pball r1) in let b := SBall (pball r2) in
  sdfv_rel (F:=XR) a b t = Ok (true, v2zero) /\ (eps <= r1 + k * r2 -> penetrates_rel (F:=XR) a b t = Ok (Some v2zero)) /\
  ~ separates origin (disc r1) (shift origin (disc (k * r2))).
Proof.
  intros T TR r1 r2 c s k t H1 H2 Hk Hkr AC U D a b.
  assert (Wv : norm origin <= world) by (rewrite norm_origin; unfold world; lra). assert (Far' : origin = origin \/ eps <= pdot origin origin) by (left; reflexivity).
  assert (O : norm origin < r1 + k * r2) by (rewrite norm_origin; exact D).
  pose proof (first_gives_up r1 r2 origin c s k t H1 H2 Hk Hkr AC U Wv Far' norm_origin D) as E.
  destruct (balls_over_first r1 r2 origin c s k t H1 H2 AC U Wv Far' O) as (S & P). rewrite E in S, P.
  split; [exact S|]. split; [intro EP; apply P; rewrite norm_origin; lra|].
  pose proof (proj2 (balls_overlap r1 r2 origin c s k t H1 H2 Hk Hkr AC U Wv Far') O) as OV. intro SEP. pose proof (overlaps_0 (disc r1) (shift origin (disc (k * r2)))) as Q0; unfold separates in SEP; tauto.
Qed.
Print Assumptions C54_concentric_zero_vector.
(** non-vacuity: unit balls 3/2 apart converge; two concentric unit balls do not *)
Example C54_converges_case : exists w, penetrates_rel (F:=XR) (SBall (pball 1)) (SBall (pball 1)) (t2 (3/2, 0) 1 0 1 1) = Ok (Some (inj w)) /\
  separates w (disc 1) (shift (3/2, 0) (disc (1 * 1))).
Proof.
  assert (W : 3 / 2 <= world) by (unfold world; lra). assert (E1 : eps <= 1 / 2).
  { unfold eps. replace (1 / 2) with (/ 2) by field. apply Rinv_le_contravar; [lra|]. apply IZR_le. cbv. discriminate. }
  assert (N : norm (3/2, 0) = 3 / 2) by (rewrite norm_xaxis, Rabs_right; lra).
  destruct (C54_penetration_converges _ _ 1 1 (3/2, 0) 1 0 1 (t2 (3/2, 0) 1 0 1 1)) as (_ & P); try lra; [apply acts_t2 | unfold pdot; cbn; lra|].
  destruct P as (w & P & S & _); [lra|]. exists w. auto.
Qed.
Example C54_concentric_case : penetrates_rel (F:=XR) (SBall (pball 1)) (SBall (pball 1)) (t2 (0, 0) 1 0 1 1) = Ok (Some v2zero).
Proof.
  assert (E1 : eps <= 1 / 2).
  { unfold eps. replace (1 / 2) with (/ 2) by field. apply Rinv_le_contravar; [lra|]. apply IZR_le. cbv. discriminate. }
  apply (C54_concentric_zero_vector _ _ 1 1 1 0 1 (t2 (0, 0) 1 0 1 1)); try (unfold world; lra); apply acts_t2.
Qed.

Lemma closed_form (T : Type) (TR : Transformation2d XR T) r1 r2 (t : T) :
  collides_rel (F:=XR) (pball r1) (pball r2) t = Ok (fst (ball_point_sdfv false false (pball (r1 + r2)) t)) /\
  penetrates_rel (F:=XR) (pball r1) (pball r2) t = Ok (let r := ball_point_sdfv true false (pball (r1 + r2)) t in if fst r then Some (snd r) else None) /\
  distance_to_rel (F:=XR) (pball r1) (pball r2) t = Ok (let r := ball_point_sdfv false true (pball (r1 + r2)) t in if fst r then None else Some (snd r)) /\
  sdfv_rel (F:=XR) (pball r1) (pball r2) t = Ok (ball_point_sdfv true true (pball (r1 + r2)) t).
Proof. repeat split. Qed.

(** The same scene through the two implementations, GJK (Shape2d balls) and the closed form (Ball v Ball): same verdicts,
    same distance vector, and GJK's penetration vector is zero or at most 1% longer than the closed form's. *)
Theorem C54_agrees_with_closed_form : forall (T : Type) (TR : Transformation2d XR T) r1 r2 v c s (t : T),
  0 <= r1 <= world -> 0 <= r2 <= world -> norm v <= world ->
  acts_as t v c s 1 -> c * c + s * s = 1 -> ((v = origin /\ 0 < r1 + r2) \/ eps <= pdot v v) ->
  let a := SBall (pball r1) in let b := SBall (pball r2) in let x := pball r1 in let y := pball r2 in
  collides_rel (F:=XR) a b t = collides_rel (F:=XR) x y t /\
  distance_to_rel (F:=XR) a b t = distance_to_rel (F:=XR) x y t /\
  (forall p, sdfv_rel (F:=XR) a b t = Ok (false, p) <-> sdfv_rel (F:=XR) x y t = Ok (false, p)) /\
  (penetrates_rel (F:=XR) a b t = Ok None <-> penetrates_rel (F:=XR) x y t = Ok None) /\
  (forall p, penetrates_rel (F:=XR) a b t = Ok (Some p) -> exists w, penetrates_rel (F:=XR) x y t = Ok (Some (inj w)) /\
     (p = v2zero \/ exists w', p = inj w' /\ norm w <= norm w' <= 101 / 100 * norm w)).
Proof.
  intros T TR r1 r2 v c s t H1 H2 Wv AC U Far a b x y.
  assert (Far' : v = origin \/ eps <= pdot v v) by tauto.
  assert (NZ : 0 < r1 + r2 \/ v <> origin).
  { destruct Far as [[_ Q]|Q]; [left; exact Q | right]. intros ->. pose proof eps_pos. unfold pdot, origin in Q; cbn in Q. lra. }
  assert (K2 : 1 * r2 <= world) by lra. assert (K0 : 0 <= 1) by lra.
  pose proof (balls_overlap r1 r2 v c s 1 t H1 H2 K0 K2 AC U Wv Far') as OI.
  destruct (closed_form T TR r1 r2 t) as (X1 & X2 & X3 & X4). fold x y in X1, X2, X3, X4.
  pose proof (proj1 (proj2 AC)) as AO.
  destruct (Rlt_le_dec (norm v) (r1 + 1 * r2)) as [In|Out].
  - destruct (balls_over r1 r2 v c s 1 t H1 H2 K0 K2 AC U Wv Far' In) as (C & D & (p & P & Zp) & (q & S & Zq)). fold a b in C, D, P, S.
    assert (G : exists w, (forall P D, ball_point_sdfv P D (pball (r1 + r2)) t = (true, inj w)) /\ is_min_separation w (disc r1) (shift v (disc (1 * r2)))).
    { assert (SM : same_set (minkowski_diff (disc (r1 + r2)) (single v)) (minkowski_diff (disc r1) (shift v (disc (1 * r2))))).
      { intro m. rewrite (diff_disc_disc r1 r2 v c s (proj1 H1) (proj1 H2) U m). pose proof (B_same r1 r2 v c s 1 t H2 K0 K2 AC U) as BS. split; intros (p' & q' & Hp & Hq & ->); exists p', q'; (split; [exact Hp|]); (split; [|reflexivity]); apply BS, Hq. }
      destruct (pt_eq_dec_origin v) as [E|N].
      - exists (r1 + r2, 0). split; [intros; apply ball_point_eq0; rewrite AO, E; reflexivity|].
        apply (same_min_separation _ _ _ _ SM). rewrite E. apply disc_centre. destruct NZ; [assumption | contradiction].
      - exists (pscale ((norm v - (r1 + r2)) / norm v) v). split.
        + intros. rewrite (ball_point_eq _ _ _ _ _ AO N), Rltb_true by lra. reflexivity.
        + apply (same_min_separation _ _ _ _ SM). apply disc_in; [lra | lra | exact N]. }
    destruct G as (w & GE & GS & GM).
    rewrite X1, X2, X3, X4, !GE. cbv zeta. cbn [fst snd].
    split; [exact C|]. split; [exact D|]. split; [intro p'; rewrite S; split; discriminate|]. split; [rewrite P; split; discriminate|].
    intros p' E. rewrite P in E. injection E as <-. exists w. split; [reflexivity|]. destruct Zp as [Zp|(w' & -> & SW & MW)]; [left; exact Zp | right].
    exists w'. split; [reflexivity|]. split; [apply GM, SW | apply MW, GS].
  - destruct (balls_apart r1 r2 v c s 1 t H1 H2 K0 K2 AC U Wv Far' Out) as (C & P & D & S & _). fold a b in C, D, P, S.
    assert (N : v <> origin). { intros ->. destruct NZ as [Q|Q]; [|apply Q; reflexivity]. rewrite norm_origin in Out. lra. }
    assert (G : forall P D, ball_point_sdfv P D (pball (r1 + r2)) t = (false, inj (pscale ((norm v - (r1 + 1 * r2)) / norm v) v))).
    { intros. rewrite (ball_point_eq _ _ _ _ _ AO N), Rltb_false by lra. replace (r1 + 1 * r2) with (r1 + r2) by ring. reflexivity. }
    rewrite X1, X2, X3, X4, !G. cbv zeta. cbn [fst snd].
    split; [exact C|]. split; [exact D|]. split; [intro p'; rewrite S; tauto|]. split; [rewrite P; tauto|]. intros p' E. rewrite P in E. discriminate.
Qed.
Print Assumptions C54_agrees_with_closed_form.
(** non-vacuity: balls of radius 1 and 2 (the second scaled by 3/2), 5 apart: gap 1, along the line of the centres *)
Example C54_example : exists w, distance_to_rel (F:=XR) (SBall (pball 1)) (SBall (pball 2)) (t2 (3, 4) (3/5) (4/5) (3/2) (3/2)) = Ok (Some (inj w)) /\
  is_min_contact w (disc 1) (shift (3, 4) (disc (3/2 * 2))).
Proof.
  assert (N5 : norm (3, 4) = 5) by (unfold norm, pdot; cbn; replace (3 * 3 + 4 * 4) with (5 * 5) by ring; apply sqrt_square; lra).
  assert (W : 5 <= world) by (unfold world; lra).
  destruct (C54_ball_ball _ _ 1 2 (3, 4) (3/5) (4/5) (3/2) (t2 (3, 4) (3/5) (4/5) (3/2) (3/2))) as (OI & _ & Out); try lra.
  - apply acts_t2.
  - right. unfold pdot; cbn. assert (eps <= 1); [|lra]. unfold eps. rewrite <- Rinv_1. apply Rinv_le_contravar; [lra|]. apply IZR_le. cbv. discriminate.
  - destruct Out as (_ & _ & w & D & _ & MC); [rewrite OI; lra|]. exists w. auto.
Qed.
