(** * Support points in binary32 (proofs for C62) *)
From Coq Require Import Reals ZArith Bool Lra Lia List Psatz.
From Flocq Require Import IEEE754.BinarySingleNaN Core Relative.
From Verif Require Import Num NumXR NumB32 Glam Transform2 Shapes2 Gjk Spec SpecLink P_Base P_Transform P_Shapes P_Geo P_Gjk P_B32 Props_F32 Props_F32Gjk Props_F32Ball P_F32Box P_Drift P_Deep Spec32 P_Closed32 P_Deep32 P_Deep32b.
Import ListNotations.
Local Open Scope R_scope.

(** the numbers of a shape are finite, its extents are not negative, a polygon has a corner *)
Definition sound32 (a : shape2d b32) : Prop :=
  match a with
  | SBall b => fin (b_radius b) /\ 0 <= val (b_radius b)
  | SBox b => fin2 (halfsize b) /\ 0 <= val (vx (halfsize b)) /\ 0 <= val (vy (halfsize b))
  | SPoly p => points p <> [] /\ forall q, In q (points p) -> fin2 q
  end.
(** the corners an extreme point can be *)
Definition corner_list (a : shape2d b32) : option (list (vec2 b32)) :=
  match a with
  | SBall _ => None
  | SBox b => let c s1 s2 := V2 (fmul (one s1) (vx (halfsize b))) (fmul (one s2) (vy (halfsize b))) in Some [c true true; c true false; c false true; c false false]
  | SPoly p => Some (points p)
  end.
Definition slack (r : R) : R := 10 * u32 * r + bpow radix2 (-100).
Definition probe (e : vec2 b32) : Prop := fin2 e /\ bpow radix2 (-26) <= norm (rval e) <= bpow radix2 60.
Lemma slack_pos r : 0 <= r -> 0 <= slack r.
Proof. intro H. unfold slack. pose proof u32_pos. pose proof (bpow_gt_0 radix2 (-100)). assert (0 <= u32 * r) by (apply Rmult_le_pos; lra). lra. Qed.
Lemma probe_small e : probe e -> small2 e 60.
Proof. intros [F [_ U]]. split; [exact F | exact (fin_small2 _ _ U)]. Qed.
Lemma rlen_norm p : rlen p = norm (rval p).
Proof. unfold rlen, norm, pdot, rval. cbn [fst snd]. reflexivity. Qed.
Lemma tiny100 : 20 * tiny <= bpow radix2 (-100).
Proof. unfold tiny. replace (-100)%Z with (50 + -150)%Z by reflexivity. rewrite bpow_plus. apply Rmult_le_compat_r; [apply bpow_ge_0 | cbn; lra]. Qed.
Lemma tiny_probe n : bpow radix2 (-26) <= n -> 20 * tiny <= bpow radix2 (-100) * n.
Proof. intro H. apply Rle_trans with (bpow radix2 (-100) * bpow radix2 (-26)); [|apply Rmult_le_compat_l; [apply bpow_ge_0 | exact H]]. rewrite <- bpow_plus. unfold tiny. replace (-100 + -26)%Z with (24 + -150)%Z by reflexivity. rewrite bpow_plus. apply Rmult_le_compat_r; [apply bpow_ge_0 | cbn; lra]. Qed.

Lemma finite_fin (x : b32) : fin x -> fisfinite x = true.
Proof. unfold fin. destruct x; try discriminate; reflexivity. Qed.

Section Ball.
Variables (r : b32) (e : vec2 b32).
Hypotheses (Fr : fin r) (R0 : 0 <= val r) (R1 : val r <= bpow radix2 24) (Pe : probe e).
Lemma ball_normal : let n := v2normalize_or_zero e in fin2 n /\ norm (psub (rval n) (pscale (/ norm (rval e)) (rval e))) <= 7 * u32.
Proof.
  destruct Pe as [Fe [Le Ue]]. pose proof (probe_small e Pe) as Se. assert (MR : mid_range e) by (split; [exact Se|]; rewrite rlen_norm; eapply Rle_trans; [|exact Le]; apply bpow_le; lia).
  destruct (length_ok e MR) as [FL EL]. rewrite rlen_norm in EL. set (L := val (v2len e)) in * . set (ne := norm (rval e)) in * . pose proof u32_pos as U0. pose proof u32_small as U1. apply abs_le2' in EL. pose proof (bpow_gt_0 radix2 (-26)) as B26.
  assert (Pn : 0 < ne) by lra. assert (4 * u32 * ne <= 1 / 1000000 * ne) by (apply Rmult_le_compat_r; lra). assert (PL : 0 < L) by lra.
  assert (IL : / L <= bpow radix2 27). { replace (bpow radix2 27) with (/ bpow radix2 (-27)) by (rewrite <- bpow_opp; reflexivity). apply Rinv_le; [apply bpow_gt_0|]. replace (-26)%Z with (1 + -27)%Z in Le by reflexivity. rewrite bpow_plus in Le. change (bpow radix2 1) with 2 in Le. pose proof (bpow_gt_0 radix2 (-27)). lra. }
  assert (IL2 : bpow radix2 (-61) <= / L). { replace (bpow radix2 (-61)) with (/ bpow radix2 61) by (rewrite <- bpow_opp; reflexivity). apply Rinv_le; [exact PL|]. replace 61%Z with (1 + 60)%Z by reflexivity. rewrite bpow_plus. change (bpow radix2 1) with 2. lra. }
  pose proof (Rinv_0_lt_compat L PL) as PI. destruct P_F32Box.fin_f1 as [F1 V1].
  destruct (div_ok f1 (v2len e) F1) as [FR VR]. { fold L. lra. } { rewrite V1. fold L. eapply small_big; [|apply rnd_small; [|unfold small; unfold Rdiv; rewrite Rmult_1_l, Rabs_pos_eq by lra; exact IL]]; lia. }
  rewrite V1 in VR. fold L in VR. change (fdiv f1 (v2len e)) with (v2lenrecip e) in FR, VR. set (k := v2lenrecip e) in * .
  pose proof (rnd_near (1 / L)) as ER. rewrite <- VR in ER. unfold Rdiv in ER. rewrite Rmult_1_l, (Rabs_pos_eq (/ L)) in ER by lra.
  assert (TT : tiny <= u32 / 100 * / L) by (apply tiny_100; eapply Rle_trans; [|exact IL2]; apply bpow_le; lia). apply abs_le2' in ER.
  assert (UL : u32 * / L <= 1 / 16777216 * / L) by (apply Rmult_le_compat_r; lra).
  assert (K1 : 99 / 100 * / L <= val k <= 101 / 100 * / L) by lra. assert (Pk : 0 < val k) by lra.
  assert (EN : v2normalize_or_zero e = v2muls e k).
  { unfold v2normalize_or_zero. fold k. rewrite flt_fin; [|reflexivity | exact FR]. change (val f0) with 0. rewrite (Rltb_true 0 (val k) Pk). rewrite (finite_fin k FR). reflexivity. }
  cbv zeta. rewrite EN. unfold v2muls. destruct Fe as [Fx Fy]. destruct (proj2 Se) as [Sx Sy].
  assert (Sk : small (val k) 28). { unfold small. rewrite Rabs_pos_eq by lra. replace 28%Z with (1 + 27)%Z by reflexivity. rewrite bpow_plus. change (bpow radix2 1) with 2. lra. }
  destruct (mul32 (vx e) k 60 28 ltac:(lia) ltac:(lia) Fx FR Sx Sk) as [Gx Ex]. destruct (mul32 (vy e) k 60 28 ltac:(lia) ltac:(lia) Fy FR Sy Sk) as [Gy Ey]. rewrite (Rabs_pos_eq (val k)) in Ex, Ey by lra.
  split; [split; assumption|]. set (n := V2 (fmul (vx e) k) (fmul (vy e) k)) in * .
  assert (KE : val k * ne <= 102 / 100). { apply Rle_trans with (101 / 100 * / L * ne); [apply Rmult_le_compat_r; lra|]. apply Rmult_le_reg_r with L; [exact PL|]. replace (101 / 100 * / L * ne * L) with (101 / 100 * ne) by (field; lra). lra. }
  assert (N1 : norm (psub (rval n) (pscale (val k) (rval e))) <= 142 / 100 * (u32 * (102 / 100) + tiny)).
  { destruct (coord_le_norm (rval e)) as [Cx Cy]. cbn [rval fst snd] in Cx, Cy. change (val (vx e), val (vy e)) with (rval e) in Cx, Cy. fold ne in Cx, Cy.
    apply norm_box; cbn [psub pscale rval fst snd n vx vy].
    - rewrite (Rmult_comm (val k)). eapply Rle_trans; [exact Ex|]. apply Rplus_le_compat_r, Rmult_le_compat_l; [lra|]. eapply Rle_trans; [|exact KE]. rewrite (Rmult_comm (val k)). apply Rmult_le_compat_r; lra.
    - rewrite (Rmult_comm (val k)). eapply Rle_trans; [exact Ey|]. apply Rplus_le_compat_r, Rmult_le_compat_l; [lra|]. eapply Rle_trans; [|exact KE]. rewrite (Rmult_comm (val k)). apply Rmult_le_compat_r; lra. }
  assert (N2 : norm (psub (pscale (val k) (rval e)) (pscale (/ ne) (rval e))) <= 52 / 10 * u32).
  { replace (psub (pscale (val k) (rval e)) (pscale (/ ne) (rval e))) with (pscale (val k - / ne) (rval e)) by (apply pt_eq; cbn; ring). rewrite norm_scale. fold ne.
    rewrite <- (Rabs_pos_eq ne) at 2 by lra. rewrite <- Rabs_mult. replace ((val k - / ne) * ne) with ((val k - / L) * ne + (ne - L) * / L) by (field; lra). eapply Rle_trans; [apply Rabs_triang|]. rewrite !Rabs_mult, (Rabs_pos_eq ne), (Rabs_pos_eq (/ L)) by lra.
    assert (A1 : Rabs (val k - / L) <= 102 / 100 * (u32 * / L)). { assert (0 <= u32 * / L) by (apply Rmult_le_pos; lra). apply Rabs_le. lra. }
    assert (A2 : Rabs (ne - L) <= 4 * u32 * ne) by (apply Rabs_le; lra).
    assert (NL : / L * ne <= 1001 / 1000) by (apply Rmult_le_reg_r with L; [exact PL|]; replace (/ L * ne * L) with ne by (field; lra); lra).
    assert (Rabs (val k - / L) * ne <= 102 / 100 * (u32 * / L) * ne) by (apply Rmult_le_compat_r; lra). assert (Rabs (ne - L) * / L <= 4 * u32 * ne * / L) by (apply Rmult_le_compat_r; lra).
    assert (u32 * (/ L * ne) <= u32 * (1001 / 1000)) by (apply Rmult_le_compat_l; lra). lra. }
  replace (psub (rval n) (pscale (/ ne) (rval e))) with (padd (psub (rval n) (pscale (val k) (rval e))) (psub (pscale (val k) (rval e)) (pscale (/ ne) (rval e)))) by (apply pt_eq; cbn; ring).
  eapply Rle_trans; [apply norm_triangle|]. assert (tiny <= u32 / 100) by (unfold tiny; apply Rle_trans with (u32 / 100 * bpow radix2 (-100)); [apply tiny_100; lra | rewrite <- (Rmult_1_r (u32 / 100)) at 2; apply Rmult_le_compat_l; [lra | apply (bpow_le radix2 (-100) 0); lia]]). lra.
Qed.
Lemma ball_ext : let x := extreme_point (Ball r) e in let w := pscale (val r / norm (rval e)) (rval e) in
  fin2 x /\ norm (psub (rval x) w) <= slack (val r) /\ norm w = val r /\ pdot (rval e) w = val r * norm (rval e).
Proof.
  destruct ball_normal as [[Fx Fy] N]. set (n := v2normalize_or_zero e) in * . destruct Pe as [Fe [Le Ue]]. pose proof (bpow_gt_0 radix2 (-26)) as B26. set (ne := norm (rval e)) in * . assert (Pn : 0 < ne) by lra. pose proof u32_pos as U0. pose proof u32_small as U1.
  set (h := pscale (/ ne) (rval e)) in * . assert (Nh : norm h = 1) by (unfold h; rewrite norm_scale, Rabs_pos_eq by (apply Rlt_le, Rinv_0_lt_compat, Pn); fold ne; field; lra).
  pose proof (norm_triangle_sub (rval n) h) as T. rewrite Nh in T. assert (Nn : norm (rval n) <= 101 / 100) by lra. cbv zeta. change (extreme_point (Ball r) e) with (v2smul r n).
  assert (Sn : norm (rval n) <= bpow radix2 1) by (change (bpow radix2 1) with 2; lra). destruct (fin_small2 _ _ Sn) as [Sx Sy]. assert (Sr : small (val r) 24) by (unfold small; rewrite Rabs_pos_eq by lra; exact R1).
  destruct (mul32 r (vx n) 24 1 ltac:(lia) ltac:(lia) Fr Fx Sr Sx) as [Gx Ex]. destruct (mul32 r (vy n) 24 1 ltac:(lia) ltac:(lia) Fr Fy Sr Sy) as [Gy Ey]. rewrite (Rabs_pos_eq (val r)) in Ex, Ey by lra.
  assert (Nw : norm (pscale (val r / ne) (rval e)) = val r). { rewrite norm_scale, Rabs_pos_eq by (apply Rmult_le_pos; [lra | apply Rlt_le, Rinv_0_lt_compat, Pn]). fold ne. field. lra. }
  split; [split; [exact Gx | exact Gy]|]. split; [|split; [exact Nw|]].
  - assert (N1 : norm (psub (rval (v2smul r n)) (pscale (val r) (rval n))) <= 142 / 100 * (u32 * (101 / 100 * val r) + tiny)).
    { destruct (coord_le_norm (rval n)) as [Cx Cy]. cbn [rval fst snd] in Cx, Cy. change (val (vx n), val (vy n)) with (rval n) in Cx, Cy. apply norm_box; cbn [psub pscale rval fst snd v2smul vx vy].
      - eapply Rle_trans; [exact Ex|]. apply Rplus_le_compat_r, Rmult_le_compat_l; [lra|]. rewrite (Rmult_comm (101 / 100)). apply Rmult_le_compat_l; lra.
      - eapply Rle_trans; [exact Ey|]. apply Rplus_le_compat_r, Rmult_le_compat_l; [lra|]. rewrite (Rmult_comm (101 / 100)). apply Rmult_le_compat_l; lra. }
    assert (N2 : norm (psub (pscale (val r) (rval n)) (pscale (val r / ne) (rval e))) <= val r * (7 * u32)).
    { replace (psub (pscale (val r) (rval n)) (pscale (val r / ne) (rval e))) with (pscale (val r) (psub (rval n) h)) by (unfold h; apply pt_eq; cbn; unfold Rdiv; ring). rewrite norm_scale, Rabs_pos_eq by lra. apply Rmult_le_compat_l; lra. }
    replace (psub (rval (v2smul r n)) (pscale (val r / ne) (rval e))) with (padd (psub (rval (v2smul r n)) (pscale (val r) (rval n))) (psub (pscale (val r) (rval n)) (pscale (val r / ne) (rval e)))) by (apply pt_eq; cbn; ring).
    eapply Rle_trans; [apply norm_triangle|]. unfold slack. pose proof tiny100. pose proof tiny_pos. assert (0 <= u32 * val r) by (apply Rmult_le_pos; lra). lra.
  - rewrite pdot_scale_r, <- norm_sq. fold ne. field. lra.
Qed.
End Ball.

(** the computed extreme point of a shape within radius r *)
Theorem ext32 a e r : sound32 a -> included (points_of a) (disc r) -> r <= bpow radix2 24 -> probe e ->
  let x := extreme_point a e in
  fin2 x /\ (exists p, points_of a p /\ norm (psub (rval x) p) <= slack r) /\
  (forall p, points_of a p -> pdot (rval e) p <= pdot (rval e) (rval x) + slack r * norm (rval e)) /\
  (forall l, corner_list a = Some l -> In x l).
Proof.
  intros S I R1 Pe. pose proof Pe as [Fe [Le Ue]]. pose proof (bpow_gt_0 radix2 (-26)) as B26. pose proof u32_pos as U0. assert (Pn : 0 < norm (rval e)) by lra. pose proof (norm_nonneg (rval e)) as Nn.
  destruct a as [b|b|p]; cbn [sound32 points_of corner_list] in * .
  - destruct S as [Fr R0]. assert (Hr : val (b_radius b) <= r). { pose proof (I (val (b_radius b), 0)) as K. unfold disc in K. assert (E : norm (val (b_radius b), 0) = val (b_radius b)) by (unfold norm, pdot; cbn [fst snd]; rewrite Rmult_0_l, Rplus_0_r; apply sqrt_square, R0). rewrite E in K. apply K. lra. }
    destruct (ball_ext (b_radius b) e Fr R0 ltac:(lra) Pe) as (Fx & Nx & Nw & Dw). change (extreme_point (SBall b) e) with (extreme_point (Ball (b_radius b)) e). set (x := extreme_point (Ball (b_radius b)) e) in * . set (w := pscale (val (b_radius b) / norm (rval e)) (rval e)) in * .
    assert (SL : slack (val (b_radius b)) <= slack r) by (unfold slack; assert (u32 * val (b_radius b) <= u32 * r) by (apply Rmult_le_compat_l; lra); lra). cbv zeta.
    split; [exact Fx|]. split; [exists w; split; [unfold disc; lra | lra]|]. split; [|discriminate]. intros p Hp. unfold disc in Hp. pose proof (cauchy (rval e) p) as C. assert (norm (rval e) * norm p <= norm (rval e) * val (b_radius b)) by (apply Rmult_le_compat_l; lra).
    pose proof (cauchy_abs (rval e) (psub (rval x) w)) as CA. apply abs_le2' in CA. rewrite pdot_sub_r in CA. assert (norm (rval e) * norm (psub (rval x) w) <= norm (rval e) * slack r) by (apply Rmult_le_compat_l; lra). lra.
  - destruct S as ([Fx Fy] & X0 & Y0). destruct Fe as [Gx Gy]. destruct (sb_sgn _ Gx) as (s1 & S1 & [E1 Z1]). destruct (sb_sgn _ Gy) as (s2 & S2 & [E2 Z2]).
    assert (EX : extreme_point (SBox b) e = V2 (fmul (one s1) (vx (halfsize b))) (fmul (one s2) (vy (halfsize b)))). { change (extreme_point (SBox b) e) with (V2 (fmul (fsignum (vx e)) (vx (halfsize b))) (fmul (fsignum (vy e)) (vy (halfsize b)))). rewrite (sb_signum _ _ S1), (sb_signum _ _ S2). reflexivity. }
    destruct (one_mul s1 _ Fx) as [K1 W1]. destruct (one_mul s2 _ Fy) as [K2 W2]. cbv zeta. rewrite EX. set (x := val (vx (halfsize b))) in * . set (y := val (vy (halfsize b))) in * .
    assert (RX : rval (V2 (fmul (one s1) (vx (halfsize b))) (fmul (one s2) (vy (halfsize b)))) = (sg s1 * x, sg s2 * y)) by (unfold rval; cbn [vx vy]; rewrite W1, W2; reflexivity). rewrite RX.
    assert (P0 : 0 <= r) by (eapply Rle_trans; [apply (norm_nonneg (0, 0))|]; apply I; unfold rect; cbn; lra). pose proof (slack_pos r P0) as PS.
    split; [split; assumption|]. split; [|split].
    + exists (sg s1 * x, sg s2 * y). split; [unfold rect; cbn [fst snd]; destruct s1, s2; cbn [sg]; lra|]. replace (psub (sg s1 * x, sg s2 * y) (sg s1 * x, sg s2 * y)) with origin by (apply pt_eq; cbn; ring). rewrite norm_origin. exact PS.
    + intros p [H1 H2]. assert (0 <= slack r * norm (rval e)) by (apply Rmult_le_pos; lra). unfold pdot. cbn [rval fst snd].
      assert (A1 : sg s1 * val (vx e) = Rabs (val (vx e))) by (rewrite E1 at 1; rewrite <- Rmult_assoc, sg_sq; ring).
      assert (Q1 : val (vx e) * fst p <= val (vx e) * (sg s1 * x)). { replace (val (vx e) * (sg s1 * x)) with (Rabs (val (vx e)) * x) by (rewrite <- A1; ring). eapply Rle_trans; [apply Rle_abs|]. rewrite Rabs_mult. apply Rmult_le_compat_l; [apply Rabs_pos | apply Rabs_le; lra]. }
      assert (A2 : sg s2 * val (vy e) = Rabs (val (vy e))) by (rewrite E2 at 1; rewrite <- Rmult_assoc, sg_sq; ring).
      assert (Q2 : val (vy e) * snd p <= val (vy e) * (sg s2 * y)). { replace (val (vy e) * (sg s2 * y)) with (Rabs (val (vy e)) * y) by (rewrite <- A2; ring). eapply Rle_trans; [apply Rle_abs|]. rewrite Rabs_mult. apply Rmult_le_compat_l; [apply Rabs_pos | apply Rabs_le; lra]. }
      lra.
    + intros l HL. injection HL as <-. destruct s1, s2; cbn; tauto.
  - destruct S as [NE Fp]. assert (Np : forall q, In q (points p) -> norm (rval q) <= r) by (intros q Hq; apply I, hull_in, in_map, Hq).
    assert (Sp : forall q, In q (points p) -> small2 q 60). { intros q Hq. split; [apply Fp, Hq|]. apply (fin_small2 q 60). eapply Rle_trans; [apply Np, Hq|]. eapply Rle_trans; [exact R1 | apply bpow_le; lia]. }
    assert (EX : extreme_point (SPoly p) e = extreme_point (Poly2d (points p)) e) by reflexivity. cbv zeta. rewrite EX.
    destruct (C35_f32_support (points p) e NE (probe_small e Pe) Sp) as [Hin Hmax]. set (x := extreme_point (Poly2d (points p)) e) in * .
    assert (P0 : 0 <= r) by (eapply Rle_trans; [apply norm_nonneg | apply (Np x Hin)]). pose proof (slack_pos r P0) as PS.
    split; [apply Fp, Hin|]. split; [|split].
    + exists (rval x). split; [apply hull_in, in_map, Hin|]. replace (psub (rval x) (rval x)) with origin by (apply pt_eq; cbn; ring). rewrite norm_origin. exact PS.
    + intros q Hq. revert Hq. apply hull_bound. intros q' Hq'. apply in_map_iff in Hq'. destruct Hq' as (z & <- & Hz). specialize (Hmax z Hz).
      assert (AB : forall z, In z (points p) -> rdot_abs e z <= norm (rval e) * r). { intros z' Hz'. apply Rle_trans with (norm (rval e) * norm (rval z')); [unfold rdot_abs; rewrite !Rabs_mult; apply (abs_dot (rval e) (rval z')) | apply Rmult_le_compat_l; [lra | apply Np, Hz']]. }
      pose proof (AB z Hz) as A1. pose proof (AB x Hin) as A2. change (rdot e z) with (pdot (rval e) (rval z)) in Hmax. change (rdot e x) with (pdot (rval e) (rval x)) in Hmax.
      assert (3 * u32 * (rdot_abs e z + rdot_abs e x) <= 3 * u32 * (2 * (norm (rval e) * r))) by (apply Rmult_le_compat_l; lra). pose proof (tiny_probe _ Le). pose proof tiny_pos. unfold slack. assert (0 <= u32 * (norm (rval e) * r)) by (apply Rmult_le_pos; [lra | apply Rmult_le_pos; lra]). lra.
    + intros l HL. injection HL as <-. exact Hin.
Qed.
