(** * GJK on two discs in closed form (proofs).

    In the frame of P_Box whose first axis points from disc A to disc B the Minkowski difference is the disc of radius R (the
    sum of the radii) about (-L, 0), L the distance of the centres. *)
From Coq Require Import Reals Lra Psatz Bool List Lia Arith.
From Verif Require Import Num NumXR Glam Transform2 Shapes2 Gjk Detect2 Spec SpecLink P_Base P_Transform P_Shapes P_Geo P_GjkShape SpecGjk P_Gjk P_Gjk2 P_Gjk3 P_Dist P_Scene P_Box.
Import ListNotations.
Local Open Scope R_scope.

Lemma one1 : 1 * 1 = 1.
Proof. ring. Qed.
Section Discs.
Variables (n1 n2 L r : R).
Hypothesis HU : n1 * n1 + n2 * n2 = 1.
Hypothesis HL : 0 <= L.
Hypothesis HR : 0 <= r.
Local Notation f := (fr n1 n2 1).
Local Notation HS := one1.
Variable sup : vec2 XR -> vec2 XR.
Definition hat (d : pt) : pt := if pt_eq_dec_origin d then origin else pscale (1 / norm d) d.
Definition du (d : pt) : pt := (- L + r * fst (hat d), r * snd (hat d)).
Hypothesis Hsup : forall d, sup (inj (f d)) = inj (f (du d)).
Lemma hat_0 : hat origin = origin.
Proof. unfold hat. destruct (pt_eq_dec_origin origin); [reflexivity | contradiction]. Qed.
Lemma hat_x l : 0 < l -> hat (l, 0) = (1, 0).
Proof.
  intro H. unfold hat. destruct (pt_eq_dec_origin (l, 0)) as [E|E]; [injection E; lra|].
  rewrite norm_xaxis, Rabs_right by lra. apply pt_eq; cbn; field; lra.
Qed.
Lemma hat_mx l : 0 < l -> hat (- l, 0) = (-1, 0).
Proof.
  intro H. unfold hat. destruct (pt_eq_dec_origin (- l, 0)) as [E|E]; [injection E; lra|].
  rewrite norm_xaxis, Rabs_Ropp, Rabs_right by lra. apply pt_eq; cbn; field; lra.
Qed.
Lemma norm_yaxis y : norm (0, y) = Rabs y.
Proof. unfold norm, pdot; cbn. replace (0 * 0 + y * y) with (y * y) by ring. change (y * y) with (Rsqr y). apply sqrt_Rsqr_abs. Qed.
Lemma hat_y l : 0 < l -> hat (0, l) = (0, 1).
Proof.
  intro H. unfold hat. destruct (pt_eq_dec_origin (0, l)) as [E|E]; [injection E; lra|].
  rewrite norm_yaxis, Rabs_right by lra. apply pt_eq; cbn; field; lra.
Qed.
Lemma hat_my l : 0 < l -> hat (0, - l) = (0, -1).
Proof.
  intro H. unfold hat. destruct (pt_eq_dec_origin (0, - l)) as [E|E]; [injection E; lra|].
  rewrite norm_yaxis, Rabs_Ropp, Rabs_right by lra. apply pt_eq; cbn; field; lra.
Qed.
Definition h2 : R := / sqrt 2.
Lemma h2_pos : 0 < h2. Proof. apply Rinv_0_lt_compat, sqrt_lt_R0. lra. Qed.
Lemma h2_sq : h2 * h2 = / 2.
Proof. unfold h2. pose proof (sqrt_lt_R0 2 ltac:(lra)). rewrite <- Rinv_mult by lra. rewrite sqrt_sqrt by lra. reflexivity. Qed.
Lemma hat_diag l : 0 < l -> hat (- l, - l) = (- h2, - h2).
Proof.
  intro H. unfold hat. destruct (pt_eq_dec_origin (- l, - l)) as [E|E]; [injection E; lra|].
  assert (N : norm (- l, - l) = l * sqrt 2).
  { unfold norm, pdot; cbn. replace (- l * - l + - l * - l) with (l * l * 2) by ring. rewrite sqrt_mult by nra. rewrite sqrt_square by lra. reflexivity. }
  pose proof (sqrt_lt_R0 2 ltac:(lra)). rewrite N. unfold h2. apply pt_eq; cbn; field; lra.
Qed.
Lemma du_x l : 0 < l -> du (l, 0) = (r - L, 0).
Proof. intro H. unfold du. rewrite hat_x by exact H. apply pt_eq; cbn; ring. Qed.
Lemma du_mx l : 0 < l -> du (- l, 0) = (- L - r, 0).
Proof. intro H. unfold du. rewrite hat_mx by exact H. apply pt_eq; cbn; ring. Qed.
Lemma du_y l : 0 < l -> du (0, l) = (- L, r).
Proof. intro H. unfold du. rewrite hat_y by exact H. apply pt_eq; cbn; ring. Qed.
Lemma du_my l : 0 < l -> du (0, - l) = (- L, - r).
Proof. intro H. unfold du. rewrite hat_my by exact H. apply pt_eq; cbn; ring. Qed.
Lemma du_diag l : 0 < l -> du (- l, - l) = (- L - r * h2, - r * h2).
Proof. intro H. unfold du. rewrite hat_diag by exact H. apply pt_eq; cbn; ring. Qed.
Lemma du_0 : du origin = (- L, 0).
Proof. unfold du. rewrite hat_0. apply pt_eq; cbn; ring. Qed.

Variable l0 : R.
Hypothesis Hl0 : 0 < l0.

(** ** Not overlapping *)
Section Apart.
Hypothesis A : r <= L.
Lemma ball_ff_apart : exists S D, run_ff sup 20 [] (inj (f (l0, 0))) = Separated S D.
Proof. do 2 eexists. apply (ff_stop n1 n2 1 HU HS sup du Hsup). rewrite du_x by exact Hl0. unfold dot2; cbn. nra. Qed.
Lemma ball_tf_apart : exists S D, run_tf sup 20 [] (inj (f (l0, 0))) = Separated S D.
Proof. do 2 eexists. apply (tf_stop n1 n2 1 HU HS sup du Hsup). rewrite du_x by exact Hl0. unfold dot2; cbn. nra. Qed.
Lemma du_back : dot2 (du (L - r, 0)) (L - r, 0) = - ((L - r) * (L - r)) /\ dot2 (r - L, 0) (L - r, 0) = - ((L - r) * (L - r)).
Proof.
  split; [|unfold dot2; cbn; ring].
  destruct (Rle_lt_or_eq_dec _ _ A) as [Q|Q].
  - rewrite du_x by lra. unfold dot2; cbn; ring.
  - replace (L - r) with 0 by lra. change (0, 0) with origin. rewrite du_0. unfold dot2, origin; cbn. ring.
Qed.
Lemma neg_start : pneg (r - L, 0) = (L - r, 0).
Proof. apply pt_eq; cbn; ring. Qed.
Lemma ball_ft_apart : exists D, start_ft sup (inj (f (l0, 0))) = Separated [inj (f (r - L, 0))] D.
Proof.
  unfold start_ft. rewrite Hsup, du_x by exact Hl0. rewrite (add1 n1 n2 1), neg_start. eexists. destruct du_back as [Q1 Q2].
  pose proof (Rle_0_sqr (L - r)) as SQ. unfold Rsqr in SQ. apply (ft_stop n1 n2 1 HU HS sup du Hsup); rewrite ?Q1, ?Q2; lra.
Qed.
Lemma ball_tt_apart : exists D, start_tt sup (inj (f (l0, 0))) = Separated [inj (f (r - L, 0))] D.
Proof.
  unfold start_tt. rewrite Hsup, du_x by exact Hl0. rewrite (add1 n1 n2 1), neg_start. eexists. destruct du_back as [Q1 Q2].
  pose proof (Rle_0_sqr (L - r)) as SQ. unfold Rsqr in SQ. apply (tt_stop n1 n2 1 HU HS sup du Hsup); rewrite ?Q1, ?Q2; lra.
Qed.
End Apart.

(** ** Overlapping *)
Section Over.
Hypothesis O : L < r.
Let rho := r - L.
Lemma Hrho : 0 < rho. Proof. unfold rho. lra. Qed.
Lemma HR0 : 0 < r. Proof. lra. Qed.
Lemma start_neg : pneg (r - L, 0) = (- rho, 0).
Proof. apply pt_eq; unfold rho; cbn; ring. Qed.
Lemma too_small_0 : direction_is_too_small (inj (f (0, 0))) = true.
Proof.
  unfold direction_is_too_small. rewrite v2lensq_inj, (fr_dot n1 n2 1 HU HS). cbn [fst snd]. pose proof eps_pos.
  replace (0 * 0 + 0 * 0) with 0 by ring. change (flt (XFin 0) (fmul feps feps)) with (Rltb 0 (eps * eps)). apply Rltb_true. nra.
Qed.
Lemma perp_fr d : v2perp (inj (f d)) = inj (f (- snd d, fst d)).
Proof. rewrite perp_inj. f_equal. unfold perp, fr. apply pt_eq; cbn; ring. Qed.
(** the second point closes the diameter: the next direction is zero *)
Lemma add_diam : add_point [inj (f (rho, 0))] (inj (f (- L - r, 0))) = Ok ([inj (f (- L - r, 0)); inj (f (rho, 0))], (false, inj (f (0, 0)))).
Proof.
  rewrite (add2 n1 n2 1 HU HS), Rleb_true.
  - do 4 f_equal. unfold raba. apply pt_eq; unfold pcross; cbn; ring.
  - unfold dot2; cbn. unfold rho. nra.
Qed.
(** the triangle of two antipodal points and (-L, -r) *)
Lemma add_low : add_point [inj (f (- L - r, 0)); inj (f (rho, 0))] (inj (f (- L, - r))) =
  Ok (map inj (map f [(- L, - r); (- L - r, 0); (rho, 0)]), (true, v2nan)).
Proof.
  assert (P3 : 0 < 2 * r * r * r) by (apply Rmult_lt_0_compat; [nra | lra]).
  rewrite (add3 n1 n2 1 HU HS), Rleb_false, Rleb_false; [reflexivity | |].
  - unfold dot2, acp, abc_, pcross; cbn. unfold rho.
    match goal with |- ?x < 0 => replace x with (- (2 * r * r * r * (r - L))) by ring end.
    assert (0 < 2 * r * r * r * (r - L)) by (apply Rmult_lt_0_compat; lra). lra.
  - unfold dot2, abp, abc_, pcross; cbn. unfold rho.
    match goal with |- ?x < 0 => replace x with (- (2 * r * r * r * (r + L))) by ring end.
    assert (0 < 2 * r * r * r * (r + L)) by (apply Rmult_lt_0_compat; lra). lra.
Qed.
Definition start_triangle (l : list pt) : Prop :=
  l = [(- L, - r); (- L - r, 0); (rho, 0)] \/ l = [(- L - r * h2, - r * h2); (- L, r); (rho, 0)].
Ltac pos := unfold dot2; cbn [fst snd]; pose proof Hrho; pose proof HR0; pose proof h2_pos; nra.
Lemma ball_ff_over : exists S D, run_ff sup 20 [] (inj (f (l0, 0))) = TooSmall S D.
Proof.
  change 20%nat with (S (S 18)). cbn [run_ff].
  rewrite Hsup, (du_x _ Hl0), (fle0_fr n1 n2 1 HU HS), Rleb_false by pos.
  rewrite (add1 n1 n2 1), start_neg.
  destruct (direction_is_too_small (inj (f (- rho, 0)))); [do 2 eexists; reflexivity|].
  rewrite Hsup, (du_mx _ Hrho), (fle0_fr n1 n2 1 HU HS), Rleb_false by pos.
  fold rho. rewrite add_diam, too_small_0. do 2 eexists; reflexivity.
Qed.
Lemma diam_tf n k : 0 < k -> run_tf sup (S n) [inj (f (- L - r, 0)); inj (f (rho, 0))] (inj (f (0, - k))) =
  Captured (map inj (map f [(- L, - r); (- L - r, 0); (rho, 0)])).
Proof.
  intro Hk. cbn [run_tf]. rewrite Hsup, (du_my _ Hk), (fle0_fr n1 n2 1 HU HS), Rleb_false by pos.
  rewrite add_low. reflexivity.
Qed.
Lemma add_side : add_point [inj (f (rho, 0))] (inj (f (- L, r))) =
  Ok ([inj (f (- L, r)); inj (f (rho, 0))], (false, inj (f (- (r * r * rho), - (r * r * rho))))).
Proof.
  rewrite (add2 n1 n2 1 HU HS), Rleb_true.
  - do 4 f_equal. unfold raba. apply pt_eq; unfold pcross, rho; cbn; ring.
  - unfold dot2; cbn. unfold rho. nra.
Qed.
Lemma add_diag : add_point [inj (f (- L, r)); inj (f (rho, 0))] (inj (f (- L - r * h2, - r * h2))) =
  Ok (map inj (map f [(- L - r * h2, - r * h2); (- L, r); (rho, 0)]), (true, v2nan)).
Proof.
  pose proof h2_pos as P2. pose proof h2_sq as S2. pose proof HR0 as HR0. pose proof Hrho as Hrho.
  assert (K : 0 < r * r * (1 + 2 * h2)) by (apply Rmult_lt_0_compat; [nra | lra]).
  rewrite (add3 n1 n2 1 HU HS), Rleb_false, Rleb_false; [reflexivity | |].
  - unfold dot2, acp, abc_, pcross; cbn. unfold rho in * .
    match goal with |- ?x < 0 => replace x with (- (r * r * (1 + 2 * h2) * (r * h2 * (r - L)))) by ring end.
    assert (0 < r * r * (1 + 2 * h2) * (r * h2 * (r - L))); [|lra]. apply Rmult_lt_0_compat; [exact K|]. apply Rmult_lt_0_compat; [nra | lra].
  - unfold dot2, abp, abc_, pcross; cbn. unfold rho in * .
    match goal with |- ?x < 0 => replace x with (- (r * r * (1 + 2 * h2) * (r * (L + r * h2 + L * h2)))) by ring end.
    assert (0 < r * r * (1 + 2 * h2) * (r * (L + r * h2 + L * h2))); [|lra]. apply Rmult_lt_0_compat; [exact K|]. apply Rmult_lt_0_compat; [lra | nra].
Qed.
Lemma add_third : add_point [inj (f (- L, r)); inj (f (rho, 0))] (inj (f (- L - r, 0))) =
  Ok ([inj (f (- L - r, 0)); inj (f (rho, 0))], (false, inj (f (0, - (4 * r * r * r))))).
Proof.
  pose proof HR0 as HR0. pose proof Hrho as Hrho. assert (P3 : 0 < 2 * r * r * r) by (apply Rmult_lt_0_compat; [nra | lra]).
  rewrite (add3 n1 n2 1 HU HS), Rleb_false, Rleb_true.
  - do 4 f_equal. apply pt_eq; unfold acp, abc_, pcross, rho; cbn; ring.
  - right. unfold dot2, acp, abc_, pcross; cbn. unfold rho. ring.
  - unfold dot2, abp, abc_, pcross; cbn. unfold rho.
    match goal with |- ?x < 0 => replace x with (- (2 * r * r * r * (r + L))) by ring end.
    assert (0 < 2 * r * r * r * (r + L)) by (apply Rmult_lt_0_compat; lra). lra.
Qed.
Lemma ball_tf_over : exists l, start_triangle l /\ run_tf sup 20 [] (inj (f (l0, 0))) = Captured (map inj (map f l)).
Proof.
  change 20%nat with (S (S (S (S (S 15))))). cbn [run_tf].
  rewrite Hsup, (du_x _ Hl0), (fle0_fr n1 n2 1 HU HS), Rleb_false by pos.
  rewrite (add1 n1 n2 1), start_neg. fold rho.
  destruct (direction_is_too_small (inj (f (- rho, 0)))).
  - rewrite perp_fr. cbn [fst snd]. replace (- 0) with 0 by ring.
    rewrite Hsup, (du_y _ Hl0), (fle0_fr n1 n2 1 HU HS), Rleb_false by pos.
    rewrite add_side. destruct (direction_is_too_small (inj (f (- (r * r * rho), - (r * r * rho))))).
    + rewrite perp_fr. cbn [fst snd]. rewrite Hsup, (du_mx _ Hl0), (fle0_fr n1 n2 1 HU HS), Rleb_false by pos.
      rewrite add_third. exists [(- L, - r); (- L - r, 0); (rho, 0)]. split; [left; reflexivity|].
      destruct (direction_is_too_small (inj (f (0, - (4 * r * r * r))))).
      * rewrite perp_fr. cbn [fst snd]. replace (- 0) with 0 by ring. exact (diam_tf 16 l0 Hl0).
      * apply (diam_tf 16 (4 * r * r * r)). pose proof HR0. apply Rmult_lt_0_compat; [nra | lra].
    + assert (K : 0 < r * r * rho). { pose proof HR0. pose proof Hrho. apply Rmult_lt_0_compat; [nra | assumption]. }
      assert (Q : 0 < r * r * rho * (L + 2 * r * h2)). { apply Rmult_lt_0_compat; [exact K|]. pose proof HR0. pose proof h2_pos. nra. }
      rewrite Hsup, (du_diag _ K), (fle0_fr n1 n2 1 HU HS), Rleb_false by (unfold dot2; cbn [fst snd]; lra).
      rewrite add_diag. exists [(- L - r * h2, - r * h2); (- L, r); (rho, 0)]. split; [right; reflexivity | reflexivity].
  - rewrite Hsup, (du_mx _ Hrho), (fle0_fr n1 n2 1 HU HS), Rleb_false by pos.
    rewrite add_diam, too_small_0, perp_fr. cbn [fst snd]. replace (- 0) with 0 by ring.
    exists [(- L, - r); (- L - r, 0); (rho, 0)]. split; [left; reflexivity | exact (diam_tf 17 rho Hrho)].
Qed.
Lemma ball_tf_over_first : eps <= rho -> run_tf sup 20 [] (inj (f (l0, 0))) = Captured (map inj (map f [(- L, - r); (- L - r, 0); (rho, 0)])).
Proof.
  intro E. change 20%nat with (S (S (S 17))). cbn [run_tf].
  rewrite Hsup, (du_x _ Hl0), (fle0_fr n1 n2 1 HU HS), Rleb_false by pos.
  rewrite (add1 n1 n2 1), start_neg. fold rho.
  assert (NS : direction_is_too_small (inj (f (- rho, 0))) = false).
  { unfold direction_is_too_small. rewrite v2lensq_inj, (fr_dot n1 n2 1 HU HS). cbn [fst snd]. pose proof eps_pos.
    change (flt (XFin (- rho * - rho + 0 * 0)) (fmul feps feps)) with (Rltb (- rho * - rho + 0 * 0) (eps * eps)). apply Rltb_false.
    assert (eps * eps <= rho * rho) by (apply Rmult_le_compat; lra). lra. }
  rewrite NS. rewrite Hsup, (du_mx _ Hrho), (fle0_fr n1 n2 1 HU HS), Rleb_false by pos.
  rewrite add_diam, too_small_0, perp_fr. cbn [fst snd]. replace (- 0) with 0 by ring. exact (diam_tf 17 rho Hrho).
Qed.
Lemma ball_ft_over : start_ft sup (inj (f (l0, 0))) = Captured (map inj (map f [(- L, - r); (- L - r, 0); (rho, 0)])).
Proof.
  unfold start_ft. rewrite Hsup, (du_x _ Hl0), (add1 n1 n2 1), start_neg. fold rho. change 20%nat with (S (S 18)). cbn [run_ft].
  rewrite Hsup, (du_mx _ Hrho), (fle0_fr n1 n2 1 HU HS), Rleb_false by pos. cbn [andb].
  rewrite add_diam, too_small_0, perp_fr. cbn [fst snd]. replace (- 0) with 0 by ring.
  rewrite Hsup, (du_my _ Hrho), (fle0_fr n1 n2 1 HU HS), Rleb_false by pos. cbn [andb].
  rewrite add_low. reflexivity.
Qed.
Lemma ball_tt_over : start_tt sup (inj (f (l0, 0))) = Captured (map inj (map f [(- L, - r); (- L - r, 0); (rho, 0)])).
Proof.
  unfold start_tt. rewrite Hsup, (du_x _ Hl0), (add1 n1 n2 1), start_neg. fold rho. change 20%nat with (S (S 18)). cbn [run_tt].
  rewrite Hsup, (du_mx _ Hrho), (fle0_fr n1 n2 1 HU HS), Rleb_false by pos. cbn [andb].
  rewrite add_diam, too_small_0, perp_fr. cbn [fst snd]. replace (- 0) with 0 by ring.
  rewrite Hsup, (du_my _ Hrho), (fle0_fr n1 n2 1 HU HS), Rleb_false by pos. cbn [andb].
  rewrite add_low. reflexivity.
Qed.
End Over.
End Discs.
