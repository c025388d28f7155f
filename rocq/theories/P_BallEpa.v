(** * EPA on two discs: it converges when the penetration is neither too shallow nor too deep, and gives up on
    concentric discs (proofs).

    Frame as in P_Ball: the Minkowski difference is the disc of radius r about (-L, 0), the origin is inside. The points
    found by EPA are points of the circle; edges are chords. *)
From Coq Require Import Reals Lra Psatz Bool List Lia Arith Machin.
From Verif Require Import Num NumXR Glam Transform2 Shapes2 Gjk Detect2 Spec SpecLink P_Base P_Transform P_Shapes P_Geo P_GjkShape SpecGjk P_Gjk P_Gjk2 P_Gjk3 P_Dist P_Scene P_Box P_Ball P_Epa.
Import ListNotations.
Local Open Scope R_scope.

Lemma sc1 x : sin x * sin x + cos x * cos x = 1.
Proof. pose proof (sin2_cos2 x) as H. unfold Rsqr in H. exact H. Qed.
Lemma cos_half x : 1 - cos (2 * x) = 2 * (sin x * sin x).
Proof. rewrite cos_2a_sin. ring. Qed.
Lemma cos_lt_1 x : 0 < x <= PI -> cos x < 1.
Proof.
  intro H. pose proof (cos_half (x / 2)) as E. replace (2 * (x / 2)) with x in E by field.
  pose proof PI_RGT_0. assert (0 < sin (x / 2)) by (apply sin_gt_0; lra). assert (0 < sin (x / 2) * sin (x / 2)) by (apply Rmult_lt_0_compat; lra). lra.
Qed.
Lemma cos_3 x : 1 - cos (3 * x) = (1 - cos x) * ((1 + 2 * cos x) * (1 + 2 * cos x)).
Proof.
  replace (3 * x) with (2 * x + x) by ring. rewrite cos_plus, cos_2a_cos, sin_2a. pose proof (sc1 x) as S.
  assert (E : sin x * sin x = 1 - cos x * cos x) by lra.
  transitivity (1 - (2 * cos x * cos x - 1) * cos x + 2 * cos x * (sin x * sin x)); [ring|]. rewrite E. ring.
Qed.

Section Chords.
Variables (n1 n2 L r : R).
Hypothesis HU : n1 * n1 + n2 * n2 = 1.
Local Notation f := (fr n1 n2 1).
Definition pc (x : R) : pt := (- L + r * cos x, r * sin x).
Lemma nrm_fr a b : nrm (f a) (f b) = f (nrm a b).
Proof. unfold nrm, fr. apply pt_eq; cbn; ring. Qed.
Lemma cross_fr a b : pcross (f a) (f b) = pcross a b.
Proof. rewrite (fr_cross n1 n2 1 HU). ring. Qed.
Lemma segd_fr a b : segd (f a) (f b) = segd a b.
Proof.
  unfold segd. assert (E : segp (f a) (f b) = f (segp a b)).
  { unfold segp, segt. rewrite (fr_neg n1 n2 1), (fr_sub n1 n2 1), !(fr_dot n1 n2 1 HU one1). fold (pdot (pneg a) (psub b a)) (pdot (psub b a) (psub b a)).
    set (t := clamp01 _). unfold fr. apply pt_eq; cbn; ring. }
  rewrite E, (fr_dot n1 n2 1 HU one1). reflexivity.
Qed.
Lemma chord_nrm m h : nrm (pc (m - h)) (pc (m + h)) = pscale (2 * r * sin h) (cos m, sin m).
Proof. unfold nrm, pc. rewrite sin_plus, sin_minus, cos_plus, cos_minus. apply pt_eq; cbn; ring. Qed.
Lemma chord_cross m h : pcross (pc (m - h)) (pc (m + h)) = 2 * r * sin h * (r * cos h - L * cos m).
Proof.
  rewrite <- nrm_a, chord_nrm. unfold pc. rewrite sin_minus, cos_minus. unfold pdot; cbn.
  pose proof (sc1 m) as S. transitivity (2 * r * sin h * (r * cos h * (sin m * sin m + cos m * cos m) - L * cos m)); [ring|]. rewrite S. ring.
Qed.
Lemma chord_fit m h : pdot (nrm (pc (m - h)) (pc (m + h))) (pc m) = 2 * r * sin h * (r - L * cos m).
Proof.
  rewrite chord_nrm. unfold pc, pdot; cbn. pose proof (sc1 m) as S.
  transitivity (2 * r * sin h * (r * (sin m * sin m + cos m * cos m) - L * cos m)); [ring|]. rewrite S. ring.
Qed.
Lemma chord_line m h : 0 < r -> 0 < sin h -> (r * cos h - L * cos m) * (r * cos h - L * cos m) <= segd (pc (m - h)) (pc (m + h)).
Proof.
  intros R0 H. pose proof (segd_line (pc (m - h)) (pc (m + h))) as Q. rewrite chord_cross, chord_nrm in Q.
  assert (E : pdot (pscale (2 * r * sin h) (cos m, sin m)) (pscale (2 * r * sin h) (cos m, sin m)) = 2 * r * sin h * (2 * r * sin h)).
  { pose proof (sc1 m) as S. unfold pdot; cbn. transitivity (2 * r * sin h * (2 * r * sin h) * (sin m * sin m + cos m * cos m)); [ring|]. rewrite S. ring. }
  rewrite E in Q. set (q := 2 * r * sin h) in * . assert (0 < q) by (unfold q; apply Rmult_lt_0_compat; lra).
  apply Rmult_le_reg_l with (q * q); [apply Rmult_lt_0_compat; assumption|]. lra.
Qed.
Lemma du_dir k m : 0 < k -> du L r (pscale k (cos m, sin m)) = pc m.
Proof.
  intro K. assert (N : norm (pscale k (cos m, sin m)) = k).
  { rewrite norm_scale, Rabs_right by lra. unfold norm, pdot; cbn. replace (cos m * cos m + sin m * sin m) with 1 by (pose proof (sc1 m); lra). rewrite sqrt_1. ring. }
  unfold du, hat. destruct (pt_eq_dec_origin (pscale k (cos m, sin m))) as [E|E]; [rewrite E, norm_origin in N; lra|].
  rewrite N. unfold pc. apply pt_eq; cbn; field; lra.
Qed.
Lemma chord_ne m h : 0 < r -> 0 < sin h -> pc (m - h) <> pc (m + h).
Proof.
  intros R0 H E. pose proof (chord_nrm m h) as Q. rewrite E in Q.
  assert (N : norm (nrm (pc (m + h)) (pc (m + h))) = norm (pscale (2 * r * sin h) (cos m, sin m))) by (rewrite Q; reflexivity).
  rewrite nrm_norm, norm_scale in N. replace (psub (pc (m + h)) (pc (m + h))) with origin in N by (apply pt_eq; cbn; ring).
  assert (U1 : norm (cos m, sin m) = 1). { unfold norm, pdot; cbn. replace (cos m * cos m + sin m * sin m) with 1 by (pose proof (sc1 m); lra). apply sqrt_1. }
  assert (0 < 2 * r * sin h) by (apply Rmult_lt_0_compat; lra). rewrite norm_origin, U1, Rabs_right in N by lra. lra.
Qed.
Variable s : pt -> pt.
Hypothesis Hs : forall d, s (f d) = f (du L r d).
Lemma chord_sup m h : 0 < r -> 0 < sin h -> s (nrm (f (pc (m - h))) (f (pc (m + h)))) = f (pc m).
Proof. intros R0 H. rewrite nrm_fr, chord_nrm, Hs, du_dir; [reflexivity|]. apply Rmult_lt_0_compat; lra. Qed.

(** ** Convergence *)
Section Conv.
Hypothesis O : L < r.
Hypothesis Deep : r / 5 <= L.
Hypothesis Shallow : r / 5000 <= r - L.
Lemma r0 : 0 < r. Proof. lra. Qed.
Definition th (k : nat) : R := PI / 2 ^ (10 - k).
Definition adj (k : nat) (e : pt * pt) : Prop :=
  (k <= 10)%nat /\ (e = (f (pc 0), f (pc (th k))) \/ e = (f (pc (- th k)), f (pc 0))).
Definition far (e : pt * pt) : Prop := (r - L) * (r - L) <= segd (fst e) (snd e).
Lemma th_pos k : 0 < th k.
Proof. unfold th. pose proof PI_RGT_0. apply Rdiv_lt_0_compat; [lra | apply pow_lt; lra]. Qed.
Lemma th_step k : (k < 10)%nat -> th (S k) = 2 * th k.
Proof. intro H. unfold th. replace (10 - k)%nat with (S (10 - S k)) by lia. cbn [pow]. field. apply pow_nonzero. lra. Qed.
Lemma th_le k : (k <= 10)%nat -> th k <= PI.
Proof.
  intro H. unfold th. pose proof PI_RGT_0. assert (1 <= 2 ^ (10 - k)) by (apply pow_R1_Rle; lra).
  apply Rmult_le_reg_r with (2 ^ (10 - k)); [lra|]. unfold Rdiv. rewrite Rmult_assoc, Rinv_l by lra. nra.
Qed.
Lemma half_chord h : pc 0 = pc (h - h) /\ pc (2 * h) = pc (h + h) /\ pc (- (2 * h)) = pc (- h - h) /\ pc 0 = pc (- h + h).
Proof. repeat split; f_equal; ring. Qed.
Lemma adj_seg x : 0 < x <= PI -> segd (pc 0) (pc x) < (r - L) * (r - L) /\ segd (pc (- x)) (pc 0) < (r - L) * (r - L).
Proof.
  intro H. pose proof r0 as R0. pose proof (cos_lt_1 x H) as C. pose proof (sc1 x) as S.
  assert (T : 0 <= (r - L) / (2 * r) <= 1).
  { split; [apply Rmult_le_pos; [lra | left; apply Rinv_0_lt_compat; lra]|]. apply Rmult_le_reg_r with (2 * r); [lra|]. unfold Rdiv. rewrite Rmult_assoc, Rinv_l; lra. }
  assert (T' : 0 <= 1 - (r - L) / (2 * r) <= 1) by lra.
  assert (N0 : pc 0 <> pc x) by (intro E; apply (f_equal fst) in E; unfold pc in E; cbn in E; rewrite cos_0 in E; nra).
  assert (N1 : pc (- x) <> pc 0) by (intro E; apply (f_equal fst) in E; unfold pc in E; cbn in E; rewrite cos_0, cos_neg in E; nra).
  assert (V : (r - L) * (r - L) * (1 - (1 - cos x) / 2) < (r - L) * (r - L)).
  { assert (0 < (r - L) * (r - L)) by (apply Rmult_lt_0_compat; lra). nra. }
  assert (G : forall y t, y = sin x \/ y = - sin x -> t = (r - L) / (2 * r) ->
     (- L + r + t * (r * cos x - r)) * (- L + r + t * (r * cos x - r)) + (t * (r * y)) * (t * (r * y)) = (r - L) * (r - L) * (1 - (1 - cos x) / 2)).
  { intros y t Hy ->. assert (Ey : y * y = 1 - cos x * cos x) by (destruct Hy as [->| ->]; nra).
    transitivity ((r - L) * (r - L) * (1 - (1 - cos x) + ((1 - cos x) * (1 - cos x) + y * y) / 4)); [field; lra|]. rewrite Ey. field. }
  split.
  - eapply Rle_lt_trans; [apply (segd_min _ _ _ N0 T)|]. eapply Rle_lt_trans; [|exact V]. right. rewrite <- (G (sin x) _ (or_introl eq_refl) eq_refl).
    unfold pc, pdot, padd, pscale, psub; cbn. rewrite cos_0, sin_0. ring.
  - eapply Rle_lt_trans; [apply (segd_min _ _ _ N1 T')|]. eapply Rle_lt_trans; [|exact V]. right. rewrite <- (G (- sin x) _ (or_intror eq_refl) eq_refl).
    unfold pc, pdot, padd, pscale, psub; cbn. rewrite cos_0, sin_0, cos_neg, sin_neg. ring.
Qed.
Lemma far_chord h m : 0 < h <= PI / 4 -> cos m = cos (3 * h) -> (r - L) * (r - L) <= segd (pc (m - h)) (pc (m + h)).
Proof.
  intros H E. pose proof r0 as R0. pose proof PI_RGT_0 as PP. assert (Sh : 0 < sin h) by (apply sin_gt_0; lra).
  eapply Rle_trans; [|apply chord_line; assumption]. rewrite E. pose proof (cos_3 h) as C3. set (c := cos h) in * .
  assert (C : 1 / 2 <= c).
  { unfold c. rewrite <- cos_PI3. apply cos_decr_1; lra. }
  assert (C2 : 1 / 2 <= c * c).
  { assert (Q : cos (PI / 4) <= c) by (unfold c; apply cos_decr_1; lra). rewrite cos_PI4 in Q. pose proof (sqrt_lt_R0 2 ltac:(lra)) as S2.
    assert (X : 0 < 1 / sqrt 2) by (apply Rdiv_lt_0_compat; lra). assert (Y : 1 / sqrt 2 * (1 / sqrt 2) = 1 / 2).
    { transitivity (1 / (sqrt 2 * sqrt 2)); [field; lra|]. rewrite sqrt_sqrt by lra. reflexivity. }
    rewrite <- Y. apply Rmult_le_compat; lra. }
  assert (C1 : c <= 1) by apply COS_bound.
  assert (W : 5 <= (1 + 2 * c) * (1 + 2 * c)) by lra.
  assert (X : r * (1 - c) <= L * (1 - cos (3 * h))).
  { rewrite C3. assert (r <= L * ((1 + 2 * c) * (1 + 2 * c))) by nra.
    assert (r * (1 - c) <= L * ((1 + 2 * c) * (1 + 2 * c)) * (1 - c)) by (apply Rmult_le_compat_r; lra). lra. }
  apply Rmult_le_compat; lra.
Qed.
Lemma scheme_fa k e e' : adj k e -> far e' -> segd (fst e) (snd e) < segd (fst e') (snd e').
Proof.
  intros [K A] Fe. unfold far in Fe. pose proof (th_pos k). pose proof (th_le k K). destruct (adj_seg (th k) ltac:(lra)) as [S1 S2].
  destruct A as [-> | ->]; cbn [fst snd]; rewrite segd_fr; lra.
Qed.
Lemma sin_small h : 0 < h -> h <= 1 / 512 -> 0 < sin h /\ 1 - 1 / 400000 <= cos h /\ 1 - cos h <= 1 / 520000.
Proof.
  intros H1 H2. pose proof PI2_3_2 as P. unfold PI2 in P. assert (0 < sin h) by (apply sin_gt_0; lra). split; [assumption|].
  pose proof (cos_half (h / 2)) as E. replace (2 * (h / 2)) with h in E by field.
  assert (S1 : 0 < sin (h / 2)) by (apply sin_gt_0; lra). pose proof (sin_lt_x (h / 2) ltac:(lra)) as S2.
  assert (sin (h / 2) * sin (h / 2) <= 1 / 1024 * (1 / 1024)) by (apply Rmult_le_compat; lra). lra.
Qed.
Lemma scheme_stop a b : adj 0 (a, b) -> pdot (nrm a b) (s (nrm a b)) <= 101 / 100 * pcross a b.
Proof.
  intros [_ A]. pose proof r0 as R0. set (h := PI / 2048).
  assert (T : th 0 = 2 * h) by (unfold th, h; cbn [Nat.sub pow]; field).
  assert (H : 0 < h <= 1 / 512) by (unfold h; pose proof PI_RGT_0; pose proof PI_4; lra).
  destruct (sin_small h (proj1 H) (proj2 H)) as (Sh & C1 & C2). rewrite T in A. destruct (half_chord h) as (E1 & E2 & E3 & E4).
  assert (G : forall m, cos m = cos h -> 2 * r * sin h * (r - L * cos m) <= 101 / 100 * (2 * r * sin h * (r * cos h - L * cos m))).
  { intros m ->. assert (0 < 2 * r * sin h) by (apply Rmult_lt_0_compat; lra).
    assert (r - L * cos h <= 101 / 100 * (r * cos h - L * cos h)).
    { assert (r * (1 - cos h) <= r * (1 / 520000)) by (apply Rmult_le_compat_l; lra).
      assert ((r - L) * (1 - 1 / 400000) <= (r - L) * cos h) by (apply Rmult_le_compat_l; lra). lra. }
    apply Rle_trans with (2 * r * sin h * (101 / 100 * (r * cos h - L * cos h))); [apply Rmult_le_compat_l; lra | right; ring]. }
  destruct A as [A|A]; injection A as -> ->.
  - rewrite E2, E1. rewrite (chord_sup h h R0 Sh), nrm_fr, (fr_dot n1 n2 1 HU one1), cross_fr.
    fold (pdot (nrm (pc (h - h)) (pc (h + h))) (pc h)). rewrite chord_fit, chord_cross. apply G. reflexivity.
  - rewrite E3, E4. rewrite (chord_sup (- h) h R0 Sh), nrm_fr, (fr_dot n1 n2 1 HU one1), cross_fr.
    fold (pdot (nrm (pc (- h - h)) (pc (- h + h))) (pc (- h))). rewrite chord_fit, chord_cross. apply G. apply cos_neg.
Qed.
Lemma scheme_split k a b : adj (S k) (a, b) ->
  (adj k (a, s (nrm a b)) /\ far (s (nrm a b), b)) \/ (far (a, s (nrm a b)) /\ adj k (s (nrm a b), b)).
Proof.
  intros [K A]. pose proof r0 as R0. set (h := th k). pose proof (th_pos k) as Hp. fold h in Hp. pose proof (th_step k ltac:(lia)) as T. fold h in T.
  pose proof (th_le (S k) K) as Tl. rewrite T in A, Tl. pose proof PI_RGT_0. assert (Sh : 0 < sin h) by (apply sin_gt_0; lra).
  destruct (half_chord h) as (E1 & E2 & E3 & E4).
  destruct A as [A|A]; injection A as -> ->.
  - left. assert (X : s (nrm (f (pc 0)) (f (pc (2 * h)))) = f (pc h)) by (rewrite E2; rewrite E1; apply chord_sup; assumption). rewrite X.
    split; [split; [lia | left; reflexivity]|]. unfold far. cbn [fst snd]. rewrite segd_fr.
    replace (pc h) with (pc (3 * (h / 2) - h / 2)) by (f_equal; field). replace (pc (2 * h)) with (pc (3 * (h / 2) + h / 2)) by (f_equal; field).
    apply far_chord; [lra | reflexivity].
  - right. assert (X : s (nrm (f (pc (- (2 * h)))) (f (pc 0))) = f (pc (- h))) by (rewrite E3; rewrite E4; apply chord_sup; assumption). rewrite X.
    split; [|split; [lia | right; reflexivity]]. unfold far. cbn [fst snd]. rewrite segd_fr.
    replace (pc (- h)) with (pc (- (3 * (h / 2)) + h / 2)) by (f_equal; field). replace (pc (- (2 * h))) with (pc (- (3 * (h / 2)) - h / 2)) by (f_equal; field).
    apply far_chord; [lra | apply cos_neg].
Qed.
Lemma far_start : far (f (pc PI), f (pc (- (PI / 2)))).
Proof.
  unfold far. cbn [fst snd]. rewrite segd_fr. pose proof PI_RGT_0.
  replace (pc PI) with (pc (- (3 * (PI / 4)) - PI / 4)).
  - replace (pc (- (PI / 2))) with (pc (- (3 * (PI / 4)) + PI / 4)) by (f_equal; field). apply far_chord; [lra | apply cos_neg].
  - unfold pc. replace (- (3 * (PI / 4)) - PI / 4) with (- PI) by field. rewrite cos_neg, sin_neg, sin_PI. f_equal; ring.
Qed.
End Conv.

(** ** Concentric discs: 20 steps are not enough *)
Lemma pi_lower : 3.13 < PI.
Proof.
  destruct (PI_2_3_7_ineq 0) as [H _]. unfold tg_alt, PI_2_3_7_tg, Ratan_seq in H. cbn [sum_f_R0 Nat.mul Nat.add pow INR] in H.
  cbn in H. lra.
Qed.
Lemma cos_coarse h : PI / 22 <= h -> h <= PI / 2 -> 101 / 100 * cos h < 1.
Proof.
  intros H1 H2. pose proof pi_lower as P. pose proof PI_4 as P4.
  assert (C : cos h <= cos (PI / 22)) by (apply cos_decr_1; lra).
  pose proof (cos_half (PI / 44)) as E. replace (2 * (PI / 44)) with (PI / 22) in E by field.
  destruct (sin_bound (PI / 44) 0 ltac:(lra) ltac:(lra)) as [S _].
  assert (SA : sin_approx (PI / 44) (2 * 0 + 1) = PI / 44 - PI / 44 * (PI / 44) * (PI / 44) / 6).
  { unfold sin_approx, sum_f_R0, sin_term. cbn. field. }
  rewrite SA in S. set (x := PI / 44) in * . assert (X : 0.071136 <= x <= 0.091) by (unfold x; lra).
  assert (Sx : 0.071 <= sin x).
  { eapply Rle_trans; [|exact S]. assert (X2 : x * x <= 0.091 * 0.091) by (apply Rmult_le_compat; lra).
    assert (x * x * x <= 0.091 * 0.091 * x) by (apply Rmult_le_compat_r; lra). lra. }
  assert (0.071 * 0.071 <= sin x * sin x) by (apply Rmult_le_compat; lra). lra.
Qed.
Definition gap (e : pt * pt) (g : R) : Prop :=
  0 < g <= PI /\ exists m, e = (f (pc (m - g / 2)), f (pc (m + g / 2))).
Definition gsum (gs : list R) : R := fold_right Rplus 0 gs.
Lemma gsum_app x y : gsum (x ++ y) = gsum x + gsum y.
Proof. induction x as [|g x IH]; [change (gsum y = 0 + gsum y); ring|]. cbn [app]. change (g + gsum (x ++ y) = g + gsum x + gsum y). rewrite IH. ring. Qed.
Lemma gsum_max gs g : (forall g', In g' gs -> g' <= g) -> gsum gs <= INR (length gs) * g.
Proof.
  induction gs as [|x gs IH]; intro H; [cbn; lra|]. assert (X : x <= g) by (apply H; left; reflexivity).
  assert (Y := IH (fun g' I => H g' (or_intror I))). cbn [length]. rewrite S_INR. change (x + gsum gs <= (INR (length gs) + 1) * g). lra.
Qed.
Section Conc.
Hypothesis L0 : L = 0.
Hypothesis R0 : 0 < r.
Lemma gap_seg e g : gap e g -> segd (fst e) (snd e) = r * cos (g / 2) * (r * cos (g / 2)).
Proof.
  intros (G & m & ->). cbn [fst snd]. rewrite segd_fr. pose proof PI_RGT_0. assert (Sh : 0 < sin (g / 2)) by (apply sin_gt_0; lra).
  apply Rle_antisym.
  - eapply Rle_trans; [apply (segd_min _ _ (1 / 2) (chord_ne m (g / 2) R0 Sh)); lra|]. right. unfold pc, pdot, padd, pscale, psub; cbn.
    rewrite L0, sin_plus, sin_minus, cos_plus, cos_minus. pose proof (sc1 m) as S.
    transitivity (r * cos (g / 2) * (r * cos (g / 2)) * (sin m * sin m + cos m * cos m)); [field | rewrite S; ring].
  - eapply Rle_trans; [|apply (chord_line m (g / 2) R0 Sh)]. rewrite L0. right. ring.
Qed.
Lemma gap_le g g' : 0 < g <= PI -> 0 < g' <= PI -> r * cos (g / 2) * (r * cos (g / 2)) <= r * cos (g' / 2) * (r * cos (g' / 2)) -> g' <= g.
Proof.
  intros G G' H. apply Rnot_lt_le. intro C. pose proof PI_RGT_0.
  assert (X : cos (g' / 2) < cos (g / 2)) by (apply cos_decreasing_1; lra). assert (Y : 0 <= cos (g' / 2)) by (apply cos_ge_0; lra).
  assert (r * cos (g' / 2) * (r * cos (g' / 2)) < r * cos (g / 2) * (r * cos (g / 2))); [|lra].
  assert (0 <= r * cos (g' / 2)) by (apply Rmult_le_pos; lra). assert (r * cos (g' / 2) < r * cos (g / 2)) by (apply Rmult_lt_compat_l; lra).
  apply Rmult_le_0_lt_compat; assumption.
Qed.
Variables (M : pset) (sup : vec2 XR -> vec2 XR) (K rho : R).
Hypothesis Hsup : forall d, norm d <= K -> sup (inj d) = inj (s d).
Hypothesis Hfar : forall d, norm d <= K -> is_farthest M d (s d).
Hypothesis HM : forall m, M m -> norm m <= rho.
Hypothesis K1 : 2 * rho <= K.
Hypothesis HC : convex M.
Hypothesis HO : M origin.
Lemma epa_gives_up n : forall p l gs, Poly M s K (path p l p) -> Forall2 gap (path p l p) gs -> gsum gs = 2 * PI -> (length gs + n <= 23)%nat ->
  epa_run sup n (map inj (p :: l)) = None.
Proof.
  induction n as [|n IH]; intros p l gs P F GS LE; [reflexivity|].
  destruct (epa_step_min M s sup K rho Hsup Hfar HM K1 HC HO n p l P) as (a & b & i & NE & MIN & CASES).
  pose proof (edge_ok M s K p l i a b P NE) as OK.
  assert (GAP : forall e, In e (path p l p) -> exists g, gap e g).
  { clear - F. induction F as [|e0 g0 E gs0 H _ IHf]; intros e I; [contradiction|]. destruct I as [<-|I]; [exists g0; exact H | auto]. }
  assert (EX : forall g, In g gs -> exists e, In e (path p l p) /\ gap e g).
  { clear - F. induction F as [|e0 g0 E gs0 H _ IHf]; intros g I; [contradiction|]. destruct I as [<-|I]; [exists e0; split; [left; reflexivity | exact H]|].
    destruct (IHf g I) as (e & A & B). exists e. split; [right; exact A | exact B]. }
  pose proof PI_RGT_0 as PP.
  assert (BIG : forall g, gap (a, b) g -> PI / 22 <= g / 2 /\ g / 2 <= PI / 2).
  { intros g G. assert (GG : gap (a, b) g) by exact G. destruct G as (G1 & _).
    assert (MX : gsum gs <= INR (length gs) * g).
    { apply gsum_max. intros g' I. destruct (EX g' I) as (e & Ie & Ge). rewrite Forall_forall in MIN. pose proof (MIN e Ie) as Q.
      rewrite (gap_seg e g' Ge) in Q. pose proof (gap_seg (a, b) g GG) as Q2. cbn [fst snd] in Q2. rewrite Q2 in Q.
      destruct Ge as (G2 & _). apply (gap_le g g' G1 G2 Q). }
    rewrite GS in MX. assert (LN : INR (length gs) <= 22). { replace 22 with (INR 22) by (cbn; ring). apply le_INR. lia. }
    assert (INR (length gs) * g <= 22 * g) by (apply Rmult_le_compat_r; lra). lra. }
  destruct CASES as [[ST _]|(NS & BE & HK & E2)].
  - exfalso. destruct (GAP (a, b) (nth_error_In _ _ NE)) as (g & G). pose proof (BIG g G) as [B1 B2]. pose proof (cos_coarse (g / 2) B1 B2) as CC.
    destruct G as (G1 & m & E). injection E as -> ->. assert (Sh : 0 < sin (g / 2)) by (apply sin_gt_0; lra).
    rewrite (chord_sup m (g / 2) R0 Sh), nrm_fr, (fr_dot n1 n2 1 HU one1), cross_fr in ST.
    fold (pdot (nrm (pc (m - g / 2)) (pc (m + g / 2))) (pc m)) in ST. rewrite chord_fit, chord_cross, L0 in ST.
    assert (Q : 0 < 2 * r * sin (g / 2) * r) by (apply Rmult_lt_0_compat; [apply Rmult_lt_0_compat; lra | lra]). nra.
  - destruct (poly_insert M s K p l i a b P NE HK BE (new_vert M s K Hfar a b OK HK BE)) as (E1 & E3 & EP & EI & P').
    rewrite E2. rewrite EP in F. apply Forall2_app_inv_l in F. destruct F as (g1 & g2' & F1 & F2 & ->).
    inversion F2 as [|? g ? g2 Fg F3]; subst. pose proof Fg as (G1 & m & E). injection E as Ea Eb.
    assert (Sh : 0 < sin (g / 2)) by (apply sin_gt_0; lra).
    assert (X : s (nrm a b) = f (pc m)) by (rewrite Ea, Eb; apply chord_sup; assumption).
    apply (IH p _ (g1 ++ [g / 2; g / 2] ++ g2)).
    + exact P'.
    + rewrite EI. apply Forall2_app; [exact F1|]. constructor; [|constructor; [|exact F3]].
      * split; [lra|]. exists (m - g / 4). rewrite X, Ea. f_equal; f_equal; f_equal; field.
      * split; [lra|]. exists (m + g / 4). rewrite X, Eb. f_equal; f_equal; f_equal; field.
    + rewrite gsum_app in GS |- * . rewrite gsum_app. change (gsum (g :: g2)) with (g + gsum g2) in GS. change (gsum [g / 2; g / 2]) with (g / 2 + (g / 2 + 0)). lra.
    + rewrite !app_length in * . cbn [length] in * . lia.
Qed.
End Conc.
End Chords.
