(** * C37 (approx_eq) and C38 (lerp) *)
From Coq Require Import Reals ZArith Bool Lra Lia List Psatz.
From Flocq Require Import IEEE754.BinarySingleNaN Core Relative Sterbenz.
From Verif Require Import Num NumXR NumB32 Glam Transform2 Shapes2 Gjk Detect2 Misc P_Base P_B32 Props_F32.
Import ListNotations.
Local Open Scope R_scope.

(** ** Reflexivity on all finite values, in f32 *)
Lemma sub_self (x : b32) : fin x -> fin (fsub x x) /\ val (fsub x x) = 0.
Proof.
  intro Fx. destruct (sub_ok x x Fx Fx) as [A B].
  - rewrite Rminus_eq_0, rnd_0, Rabs_R0. apply bpow_gt_0.
  - split; [exact A|]. rewrite B, Rminus_eq_0. apply rnd_0.
Qed.
Lemma zero_cases (x : b32) : fin x -> val x = 0 -> exists s, x = B754_zero s.
Proof.
  intros Fx V. destruct x; try discriminate; [exists s; reflexivity|]. exfalso. revert V. apply Rgt_not_eq_abs || idtac.
  unfold val, B2R. intro V. apply F2R_eq_0 in V || (apply eq_0_F2R in V). destruct s; cbn in V; discriminate.
Qed.
(** zero divided by anything but zero and NaN is a zero *)
Lemma zero_div (z m : b32) : fin z -> val z = 0 -> fisnan m = false -> feq m f0 = false -> fin (fdiv z m) /\ val (fdiv z m) = 0.
Proof.
  intros Fz Vz N Z. destruct (zero_cases z Fz Vz) as (s & ->). destruct m as [s'|s'| |s' m e b]; try discriminate; split; reflexivity.
Qed.
Lemma zero_mul (z m : b32) : fin z -> val z = 0 -> fin m -> fin (fmul z m) /\ val (fmul z m) = 0.
Proof.
  intros Fz Vz N. destruct (zero_cases z Fz Vz) as (s & ->). destruct m as [s'|s'| |s' m e b]; try discriminate; split; reflexivity.
Qed.
Lemma zero_add (z m : b32) : fin z -> val z = 0 -> fin m -> val m = 0 -> fin (fadd z m) /\ val (fadd z m) = 0.
Proof.
  intros Fz Vz N V. destruct (zero_cases z Fz Vz) as (s & ->). destruct (zero_cases m N V) as (s' & ->). destruct s, s'; split; reflexivity.
Qed.
Lemma sq_not_nan (x : b32) : fin x -> fisnan (fmul x x) = false /\ fnegsign (fmul x x) = false.
Proof.
  intro Fx. cbn. rewrite bsign_eq. pose proof (Bmult_correct 24 128 _ _ mode_NE x x) as C.
  destruct (Rlt_bool _ _) eqn:E in C.
  - destruct C as (_ & C2 & C3). unfold fin in Fx. rewrite Fx in C2. cbn in C2.
    assert (N : is_nan (Bmult mode_NE x x) = false) by (destruct (Bmult mode_NE x x); cbn in *; congruence).
    split; [exact N|]. rewrite (C3 N). apply xorb_nilpotent.
  - rewrite xorb_nilpotent in C. destruct (Bmult mode_NE x x); cbn in *; try discriminate C; split; try reflexivity; congruence.
Qed.
Lemma add_not_nan (a b : b32) : fisnan a = false -> fnegsign a = false -> fisnan b = false -> fnegsign b = false -> fisnan (fadd a b) = false /\ fnegsign (fadd a b) = false.
Proof.
  intros A1 A2 B1 B2. cbn in * . rewrite bsign_eq in * .
  destruct (is_finite a) eqn:Fa, (is_finite b) eqn:Fb.
  - pose proof (Bplus_correct 24 128 _ _ mode_NE a b Fa Fb) as C. destruct (Rlt_bool _ _) eqn:E in C.
    + destruct C as (_ & C2 & C3). split; [unfold b32_isnan; destruct (Bplus mode_NE a b); cbn in *; congruence|].
      rewrite C3. rewrite A2, B2. destruct (Rcompare_spec (B2R a + B2R b) 0) as [c|c|c]; try reflexivity.
      exfalso. assert (0 <= B2R a). { destruct a; cbn in *; try lra. subst. apply F2R_ge_0. cbn. lia. }
      assert (0 <= B2R b). { destruct b; cbn in *; try lra. subst. apply F2R_ge_0. cbn. lia. } lra.
    + destruct C as [C _]. rewrite A2 in C. destruct (Bplus mode_NE a b); cbn in *; try discriminate C; split; congruence.
  - destruct a as [|[|]| |], b as [|[|]| |]; cbn in *; split; congruence.
  - destruct a as [|[|]| |], b as [|[|]| |]; cbn in *; split; congruence.
  - destruct a as [|[|]| |], b as [|[|]| |]; cbn in *; split; congruence.
Qed.
Lemma fmax_self (a : b32) : fmax a a = a.
Proof. unfold fmax. destruct (fisnan a); [reflexivity|]. rewrite flt_irrefl32. reflexivity. Qed.
Lemma not_gt (z t : b32) : fin z -> val z = 0 -> flt t f0 = false -> flt t z = false.
Proof.
  intros Fz Vz Ht. destruct (flt t z) eqn:E; [|reflexivity]. rewrite <- Ht. symmetry. rewrite flt_bx in * . 
  replace (bx z) with (XFin 0) in E by (destruct (zero_cases z Fz Vz) as (s & ->); reflexivity). exact E.
Qed.

(** For every finite f32 and every positive tolerance *)
Theorem C37_f32_reflexive : forall (x tol : b32), fin x -> flt f0 tol = true -> approx_eq_tolerance x x tol = true.
Proof.
  intros x tol Fx Ht. unfold approx_eq_tolerance. destruct (sub_self x Fx) as [Fe Ve]. set (e := fsub x x) in * .
  rewrite (fin_nan _ Fe), (fin_inf _ Fe). assert (Fae : fin (fabs e)) by (apply fin_abs, Fe). assert (Vae : val (fabs e) = 0) by (rewrite val_abs, Ve, Rabs_R0; reflexivity).
  assert (L : flt (fabs e) tol = true). { rewrite flt_bx in * . replace (bx (fabs e)) with (XFin 0); [exact Ht|]. destruct (zero_cases _ Fae Vae) as (s & ->). reflexivity. }
  assert (G : flt tol f0 = false). { destruct (flt tol f0) eqn:E; [|reflexivity]. pose proof (flt_trans32 _ _ _ Ht E) as X. rewrite flt_irrefl32 in X. discriminate. }
  destruct (feq x f0) eqn:Z; cbn [orb]; [exact L|].
  destruct (zero_div e x Fe Ve (fin_nan _ Fx) Z) as [Fd Vd]. rewrite not_gt; [reflexivity | apply fin_abs, Fd | rewrite val_abs, Vd; apply Rabs_R0 | exact G].
Qed.
Print Assumptions C37_f32_reflexive.
Example C37_reflexive_case : fin (b32_of 3 (-5)) /\ flt f0 (b32_of 1 (-20)) = true /\ approx_eq_tolerance (b32_of 3 (-5)) (b32_of 3 (-5)) (b32_of 1 (-20)) = true.
Proof. split; [reflexivity|]. split; [reflexivity|]. apply C37_f32_reflexive; reflexivity. Qed.
Definition fin3 (p : vec3 b32) : Prop := fin (wx p) /\ fin (wy p) /\ fin (wz p).
Lemma tol_sq (tol : b32) : flt (fmul tol tol) f0 = false.
Proof.
  rewrite flt_bx. destruct (is_finite tol) eqn:Ft.
  - destruct (sq_not_nan tol Ft) as [N S]. cbn [fnegsign FloatB32] in S. rewrite bsign_eq in S. destruct (fmul tol tol) as [s|s| |s m e b] eqn:E; cbn in * .
    + apply Rltb_false. lra.
    + rewrite S. reflexivity.
    + discriminate.
    + subst s. apply Rltb_false. apply F2R_ge_0. cbn. lia.
  - destruct tol as [|[|]| |]; try discriminate; cbn; reflexivity.
Qed.
Theorem C37_vec2_reflexive : forall (p : vec2 b32) (tol : b32), fin2 p -> approx_eq_tolerance2 p p tol = true.
Proof.
  intros [x y] tol [Fx Fy]. cbn in Fx, Fy. unfold approx_eq_tolerance2, v2sub. cbn [vx vy]. cbv zeta. rewrite fmax_self.
  set (m := v2lensq (V2 x y)).
  assert (M : fisnan m = false). { unfold m, v2lensq, v2dot; cbn [vx vy]. destruct (sq_not_nan x Fx), (sq_not_nan y Fy). apply add_not_nan; assumption. }
  destruct (feq m f0) eqn:Z; [reflexivity|].
  destruct (sub_self x Fx) as [Ex Vx], (sub_self y Fy) as [Ey Vy]. set (ex := fsub x x) in * . set (ey := fsub y y) in * .
  rewrite (fin_nan _ Ex), (fin_nan _ Ey), (fin_inf _ Ex), (fin_inf _ Ey). cbn [orb].
  pose proof (tol_sq tol) as G.
  assert (Q : fin (v2lensq (V2 ex ey)) /\ val (v2lensq (V2 ex ey)) = 0).
  { unfold v2lensq, v2dot; cbn [vx vy]. destruct (zero_mul ex ex Ex Vx Ex), (zero_mul ey ey Ey Vy Ey). apply zero_add; assumption. }
  destruct Q as [Q1 Q2]. destruct (zero_div _ m Q1 Q2 M Z) as [R1 R2]. rewrite (not_gt _ _ R1 R2 G).
  destruct (zero_div ex m Ex Vx M Z) as [S1 S2]. destruct (zero_mul ex _ Ex Vx S1) as [S3 S4]. rewrite (not_gt _ _ S3 S4 G).
  destruct (zero_div ey m Ey Vy M Z) as [T1 T2]. destruct (zero_mul ey _ Ey Vy T1) as [T3 T4]. rewrite (not_gt _ _ T3 T4 G). reflexivity.
Qed.
Print Assumptions C37_vec2_reflexive.
Theorem C37_vec3_reflexive : forall (p : vec3 b32) (tol : b32), fin3 p -> approx_eq_tolerance3 p p tol = true.
Proof.
  intros [x y z] tol (Fx & Fy & Fz). cbn in Fx, Fy, Fz. unfold approx_eq_tolerance3, v3sub. cbn [wx wy wz]. cbv zeta. rewrite fmax_self.
  set (m := v3lensq (V3 x y z)).
  assert (M : fisnan m = false). { unfold m, v3lensq, v3dot; cbn [wx wy wz]. destruct (sq_not_nan x Fx), (sq_not_nan y Fy), (sq_not_nan z Fz). apply add_not_nan; try assumption; apply add_not_nan; assumption. }
  destruct (feq m f0) eqn:Z; [reflexivity|].
  destruct (sub_self x Fx) as [Ex Vx], (sub_self y Fy) as [Ey Vy], (sub_self z Fz) as [Ez Vz]. set (ex := fsub x x) in * . set (ey := fsub y y) in * . set (ez := fsub z z) in * .
  rewrite (fin_nan _ Ex), (fin_nan _ Ey), (fin_nan _ Ez), (fin_inf _ Ex), (fin_inf _ Ey), (fin_inf _ Ez). cbn [orb].
  pose proof (tol_sq tol) as G.
  assert (Q : fin (v3lensq (V3 ex ey ez)) /\ val (v3lensq (V3 ex ey ez)) = 0).
  { unfold v3lensq, v3dot; cbn [wx wy wz]. destruct (zero_mul ex ex Ex Vx Ex), (zero_mul ey ey Ey Vy Ey), (zero_mul ez ez Ez Vz Ez).
    destruct (zero_add (fmul ex ex) (fmul ey ey)); try assumption. apply zero_add; assumption. }
  destruct Q as [Q1 Q2]. destruct (zero_div _ m Q1 Q2 M Z) as [R1 R2]. rewrite (not_gt _ _ R1 R2 G).
  destruct (zero_div ex m Ex Vx M Z) as [S1 S2]. destruct (zero_mul ex _ Ex Vx S1) as [S3 S4]. rewrite (not_gt _ _ S3 S4 G).
  destruct (zero_div ey m Ey Vy M Z) as [T1 T2]. destruct (zero_mul ey _ Ey Vy T1) as [T3 T4]. rewrite (not_gt _ _ T3 T4 G).
  destruct (zero_div ez m Ez Vz M Z) as [U1 U2]. destruct (zero_mul ez _ Ez Vz U1) as [U3 U4]. rewrite (not_gt _ _ U3 U4 G). reflexivity.
Qed.
Print Assumptions C37_vec3_reflexive.
Example C37_vec_case : approx_eq_tolerance2 (V2 (b32_of 3 100) f0) (V2 (b32_of 3 100) f0) f0 = true /\
  approx_eq_tolerance3 (V3 f1 (b32_of 3 (-140)) f0) (V3 f1 (b32_of 3 (-140)) f0) f0 = true.
Proof. split; [apply C37_vec2_reflexive | apply C37_vec3_reflexive]; repeat split; reflexivity. Qed.

(** ** Symmetry of the vector comparisons, on all f32 values *)
Definition pm (a b : b32) : Prop := a = b \/ a = fneg b.
Lemma opp_opp (x : b32) : fneg (fneg x) = x. Proof. apply Bopp_involutive. Qed.
Lemma overflow_eq (a b : b32) s : B2SF a = binary_overflow 24 128 mode_NE s -> B2SF b = binary_overflow 24 128 mode_NE s -> a = b.
Proof. intros A B. apply B2SF_inj. congruence. Qed.
Lemma b32_eq (a b : b32) : is_finite a = true -> is_finite b = true -> B2R a = B2R b -> Bsign a = Bsign b -> a = b.
Proof. apply B2R_Bsign_inj. Qed.
Lemma sub_swap (x y : b32) : pm (fsub x y) (fsub y x).
Proof.
  unfold pm. cbn. destruct (is_finite x) eqn:Fx, (is_finite y) eqn:Fy.
  - pose proof (Bminus_correct 24 128 _ _ mode_NE x y Fx Fy) as C. pose proof (Bminus_correct 24 128 _ _ mode_NE y x Fy Fx) as D.
    change (round_mode mode_NE) with ZnearestE in * . fold (rnd (B2R x - B2R y)) in C. fold (rnd (B2R y - B2R x)) in D.
    assert (E : rnd (B2R y - B2R x) = - rnd (B2R x - B2R y)) by (rewrite <- rnd_opp; f_equal; ring).
    rewrite E, Rabs_Ropp in D. destruct (Rlt_bool _ _) eqn:B in C; rewrite B in D.
    + destruct C as (C1 & C2 & C3), D as (D1 & D2 & D3).
      destruct (Rcompare_spec (B2R x - B2R y) 0) as [c|c|c] in C3; destruct (Rcompare_spec (B2R y - B2R x) 0) as [d|d|d] in D3; try lra.
      * right. apply b32_eq; [exact C2 | rewrite is_finite_Bopp; exact D2 | rewrite B2R_Bopp, C1, D1; ring|].
        rewrite Bsign_Bopp, C3, D3; [reflexivity|]. destruct (Bminus mode_NE y x); cbn in *; congruence.
      * replace (B2R x - B2R y) with 0 in C1, D1 by lra. rewrite rnd_0 in C1, D1. rewrite Ropp_0 in D1.
        assert (N : is_nan (Bminus mode_NE y x) = false) by (destruct (Bminus mode_NE y x); cbn in *; congruence).
        destruct (Bsign x) eqn:Sx, (Bsign y) eqn:Sy; cbn in C3, D3;
        [left | right | right | left]; (apply b32_eq; [exact C2 | rewrite ?is_finite_Bopp; exact D2 | rewrite ?B2R_Bopp, C1, D1; ring |]);
        rewrite ?Bsign_Bopp by exact N; rewrite C3, D3; reflexivity.
      * right. apply b32_eq; [exact C2 | rewrite is_finite_Bopp; exact D2 | rewrite B2R_Bopp, C1, D1; ring|].
        rewrite Bsign_Bopp, C3, D3; [reflexivity|]. destruct (Bminus mode_NE y x); cbn in *; congruence.
    + destruct C as (C1 & C2), D as (D1 & D2). right. rewrite C2 in C1. apply B2SF_inj.
      destruct (Bminus mode_NE x y), (Bminus mode_NE y x); cbn in *; try discriminate. rewrite D2 in D1. cbn in * . congruence.
  - right. destruct x as [|[|]| |], y as [|[|]| |]; try discriminate; reflexivity.
  - right. destruct x as [|[|]| |], y as [|[|]| |]; try discriminate; reflexivity.
  - destruct x as [|[|]| |], y as [|[|]| |]; try discriminate; cbn; tauto.
Qed.
Lemma mul_opp_opp (a b : b32) : fmul (fneg a) (fneg b) = fmul a b.
Proof.
  cbn. destruct (is_finite a && is_finite b) eqn:Fab.
  - pose proof (Bmult_correct 24 128 _ _ mode_NE a b) as C. pose proof (Bmult_correct 24 128 _ _ mode_NE (Bopp a) (Bopp b)) as D.
    rewrite !B2R_Bopp, !is_finite_Bopp, Rmult_opp_opp in D. rewrite Fab in * . apply andb_prop in Fab. destruct Fab as [Fa Fb].
    assert (Na : is_nan a = false) by (destruct a; cbn in *; congruence). assert (Nb : is_nan b = false) by (destruct b; cbn in *; congruence).
    rewrite !Bsign_Bopp in D by assumption. replace (xorb (negb (Bsign a)) (negb (Bsign b))) with (xorb (Bsign a) (Bsign b)) in D by (destruct (Bsign a), (Bsign b); reflexivity).
    destruct (Rlt_bool _ _).
    + destruct C as (C1 & C2 & C3), D as (D1 & D2 & D3). apply b32_eq; try assumption; [congruence|].
      rewrite C3, D3; [reflexivity| |]; [destruct (Bmult mode_NE (Bopp a) (Bopp b)) | destruct (Bmult mode_NE a b)]; cbn in *; congruence.
    + eapply overflow_eq; eassumption.
  - destruct a as [[|]|[|]| |[|]], b as [[|]|[|]| |[|]]; try discriminate; reflexivity.
Qed.
Lemma div_opp (a m : b32) : fdiv (fneg a) m = fneg (fdiv a m).
Proof.
  cbn. destruct (Req_EM_T (B2R m) 0) as [E|E].
  - destruct m as [[|]|[|]| |s m e b].
    1-5: destruct a as [[|]|[|]| |[|]]; reflexivity.
    exfalso. destruct (zero_cases (B754_finite s m e b) eq_refl E) as (s' & X). discriminate.
  - destruct (is_finite a) eqn:Fa.
    + pose proof (Bdiv_correct 24 128 _ _ mode_NE a m E) as C. pose proof (Bdiv_correct 24 128 _ _ mode_NE (Bopp a) m E) as D.
      rewrite B2R_Bopp, is_finite_Bopp in D. assert (Na : is_nan a = false) by (destruct a; cbn in *; congruence). rewrite Bsign_Bopp in D by exact Na.
      replace (- B2R a / B2R m) with (- (B2R a / B2R m)) in D by (field; exact E). change (round_mode mode_NE) with ZnearestE in * .
      rewrite round_NE_opp, Rabs_Ropp in D. destruct (Rlt_bool _ _).
      * destruct C as (C1 & C2 & C3), D as (D1 & D2 & D3). rewrite Fa in * .
        assert (N1 : is_nan (Bdiv mode_NE a m) = false) by (destruct (Bdiv mode_NE a m); cbn in *; congruence).
        assert (N2 : is_nan (Bdiv mode_NE (Bopp a) m) = false) by (destruct (Bdiv mode_NE (Bopp a) m); cbn in *; congruence).
        apply b32_eq; [exact D2 | rewrite is_finite_Bopp; exact C2 | rewrite B2R_Bopp, C1, D1; reflexivity |].
        rewrite Bsign_Bopp by exact N1. rewrite C3, D3 by assumption. destruct (Bsign a), (Bsign m); reflexivity.
      * apply B2SF_inj. replace (xorb (negb (Bsign a)) (Bsign m)) with (negb (xorb (Bsign a) (Bsign m))) in D by (destruct (Bsign a), (Bsign m); reflexivity).
        rewrite D. destruct (Bdiv mode_NE a m); cbn in C |- *; try discriminate; congruence.
    + destruct a as [|[|]| |]; try discriminate; destruct m as [[|]|[|]| |[|]]; try reflexivity; exfalso; apply E; reflexivity.
Qed.
Lemma pm_sq (a b : b32) : pm a b -> fmul a a = fmul b b.
Proof. intros [-> | ->]; [reflexivity | apply mul_opp_opp]. Qed.
Lemma pm_sq_div (a b m : b32) : pm a b -> fmul a (fdiv a m) = fmul b (fdiv b m).
Proof. intros [-> | ->]; [reflexivity|]. rewrite div_opp. apply mul_opp_opp. Qed.
Lemma pm_nan (a b : b32) : pm a b -> fisnan a = fisnan b. Proof. intros [-> | ->]; [reflexivity|]. destruct b; reflexivity. Qed.
Lemma pm_inf (a b : b32) : pm a b -> fisinf a = fisinf b. Proof. intros [-> | ->]; [reflexivity|]. destruct b; reflexivity. Qed.
Lemma feq_sym32 (a b : b32) : feq a b = feq b a.
Proof.
  destruct (is_finite a) eqn:Fa, (is_finite b) eqn:Fb.
  - rewrite !feq_fin by assumption. destruct (Reqb_spec (val a) (val b)), (Reqb_spec (val b) (val a)); congruence.
  - destruct a as [|[|]| |], b as [|[|]| |]; try discriminate; reflexivity.
  - destruct a as [|[|]| |], b as [|[|]| |]; try discriminate; reflexivity.
  - destruct a as [|[|]| |], b as [|[|]| |]; try discriminate; reflexivity.
Qed.
Lemma sq_sign (x : b32) : fnegsign (fmul x x) = false.
Proof. destruct (is_finite x) eqn:E; [apply sq_not_nan, E|]. destruct x as [|[|]| |]; try discriminate; reflexivity. Qed.
Lemma add_sign (a b : b32) : fnegsign a = false -> fnegsign b = false -> fnegsign (fadd a b) = false.
Proof.
  intros A B. destruct (fisnan a) eqn:Na; [destruct a; try discriminate; destruct b; reflexivity|].
  destruct (fisnan b) eqn:Nb; [destruct b; try discriminate; destruct a; reflexivity|]. apply add_not_nan; assumption.
Qed.
Lemma fmax_comm (a b : b32) : fnegsign a = false -> fnegsign b = false -> fmax a b = fmax b a.
Proof.
  intros A B. unfold fmax. destruct (fisnan a) eqn:Na, (fisnan b) eqn:Nb; try reflexivity.
  { destruct a, b; try discriminate; reflexivity. }
  destruct (flt a b) eqn:L, (flt b a) eqn:G; try reflexivity.
  { pose proof (flt_trans32 _ _ _ L G) as X. rewrite flt_irrefl32 in X. discriminate. }
  cbn in A, B. rewrite bsign_eq in A, B. destruct (is_finite a) eqn:Fa, (is_finite b) eqn:Fb.
  - rewrite flt_fin in L, G by assumption. apply b32_eq; try assumption; [|congruence]. unfold val in * .
    destruct (Rltb_spec (B2R a) (B2R b)); [discriminate|]. destruct (Rltb_spec (B2R b) (B2R a)); [discriminate|]. lra.
  - destruct a as [|[|]| |], b as [|[|]| |]; try discriminate.
  - destruct a as [|[|]| |], b as [|[|]| |]; try discriminate.
  - destruct a as [|[|]| |], b as [|[|]| |]; try discriminate; reflexivity.
Qed.
Theorem C37_vec2_symmetric : forall (p q : vec2 b32) (tol : b32), approx_eq_tolerance2 p q tol = approx_eq_tolerance2 q p tol.
Proof.
  intros [px py] [qx qy] tol. unfold approx_eq_tolerance2, v2sub, v2eq. cbn [vx vy]. cbv zeta.
  rewrite (fmax_comm (v2lensq (V2 px py))) by (unfold v2lensq, v2dot; apply add_sign; apply sq_sign).
  set (m := fmax _ _). destruct (feq m f0); [reflexivity|].
  pose proof (sub_swap px qx) as X. pose proof (sub_swap py qy) as Y. unfold v2lensq, v2dot; cbn [vx vy].
  rewrite (pm_nan _ _ X), (pm_nan _ _ Y), (pm_inf _ _ X), (pm_inf _ _ Y), (pm_sq _ _ X), (pm_sq _ _ Y), (pm_sq_div _ _ m X), (pm_sq_div _ _ m Y).
  rewrite (feq_sym32 px qx), (feq_sym32 py qy). reflexivity.
Qed.
Print Assumptions C37_vec2_symmetric.
Theorem C37_vec3_symmetric : forall (p q : vec3 b32) (tol : b32), approx_eq_tolerance3 p q tol = approx_eq_tolerance3 q p tol.
Proof.
  intros [px py pz] [qx qy qz] tol. unfold approx_eq_tolerance3, v3sub, v3eq. cbn [wx wy wz]. cbv zeta.
  rewrite (fmax_comm (v3lensq (V3 px py pz))) by (unfold v3lensq, v3dot; repeat apply add_sign; apply sq_sign).
  set (m := fmax _ _). destruct (feq m f0); [reflexivity|].
  pose proof (sub_swap px qx) as X. pose proof (sub_swap py qy) as Y. pose proof (sub_swap pz qz) as Z. unfold v3lensq, v3dot; cbn [wx wy wz].
  rewrite (pm_nan _ _ X), (pm_nan _ _ Y), (pm_nan _ _ Z), (pm_inf _ _ X), (pm_inf _ _ Y), (pm_inf _ _ Z), (pm_sq _ _ X), (pm_sq _ _ Y), (pm_sq _ _ Z),
    (pm_sq_div _ _ m X), (pm_sq_div _ _ m Y), (pm_sq_div _ _ m Z).
  rewrite (feq_sym32 px qx), (feq_sym32 py qy), (feq_sym32 pz qz). reflexivity.
Qed.
Print Assumptions C37_vec3_symmetric.
(** Anything accepted has finite operands whose f32 difference is finite: NaN, infinities (even equal ones) and overflowing differences are rejected *)
Theorem C37_f32_specials : forall (a b tol : b32), approx_eq_tolerance a b tol = true -> fin a /\ fin b /\ fin (fsub a b).
Proof.
  intros a b tol H. unfold approx_eq_tolerance in H. cbv zeta in H.
  destruct (fisnan (fsub a b)) eqn:N; [discriminate|]. destruct (fisinf (fsub a b)) eqn:I.
  - exfalso. destruct (is_finite a) eqn:Fa; [destruct (is_finite b) eqn:Fb|].
    + rewrite feq_fin in H by assumption. destruct (Reqb_spec (val a) (val b)) as [E|E]; [|discriminate].
      destruct (sub_ok a b Fa Fb) as [G _]; [rewrite E, Rminus_eq_0, rnd_0, Rabs_R0; apply bpow_gt_0|].
      rewrite (fin_inf _ G) in I. discriminate.
    + destruct b as [s|s| |s m e B]; try discriminate Fb; destruct a as [s'|s'| |s' m' e' B']; try discriminate Fa; try discriminate N; destruct s; try destruct s'; discriminate H.
    + destruct a as [s'|s'| |s' m' e' B']; try discriminate Fa; destruct b as [s|s| |s m e B]; try discriminate N; destruct s'; try destruct s; first [discriminate H | discriminate N].
  - assert (G : fin (fsub a b)) by (apply fin_intro; assumption). clear H.
    repeat split; [| |exact G]; destruct a as [s'|s'| |s' m' e' B'], b as [s|s| |s m e B]; try reflexivity; try discriminate G; destruct s, s'; discriminate.
Qed.
Example C37_specials_case : @approx_eq b32 _ finf (fneg finf) = false /\ @approx_eq b32 _ (b32_of 3 126) (b32_of (-3) 126) = false /\ @approx_eq b32 _ f1 (b32_of 8388609 (-23)) = true.
Proof. repeat split; reflexivity. Qed.

(** ** What is not true of approx_eq *)
(** the scalar comparison depends on the order of its arguments *)
Theorem C37_f32_symmetric_refuted : exists a b : b32, approx_eq a b = true /\ approx_eq b a = false /\ fin a /\ fin b.
Proof. exists (b32_of 9000003 (-23)), (b32_of 8999994 (-23)). repeat split; vm_compute; reflexivity. Qed.
(** an infinite value is not approximately equal to itself *)
Theorem C37_infinity_refuted : @approx_eq b32 _ finf finf = false /\ @approx_eq2 b32 _ (V2 finf f0) (V2 finf f0) = false.
Proof. split; vm_compute; reflexivity. Qed.
(** a vector with a NaN component is approximately equal to zero *)
Theorem C37_nan_vec_refuted : @approx_eq2 b32 _ v2nan v2zero = true /\ @approx_eq3 b32 _ (V3 fnan f1 f1) v3zero = true.
Proof. split; vm_compute; reflexivity. Qed.
Print Assumptions C37_f32_symmetric_refuted. Print Assumptions C37_infinity_refuted. Print Assumptions C37_nan_vec_refuted.

(** ** Meaning in exact arithmetic *)
Theorem C37_exact_scalar : forall a b tol : R,
  approx_eq_tolerance (XFin a) (XFin b) (XFin tol) = true <->
  ((a = 0 \/ b = 0) /\ Rabs (a - b) < tol) \/ (a <> 0 /\ b <> 0 /\ Rabs (a - b) <= tol * Rabs a).
Proof.
  intros a b tol. unfold approx_eq_tolerance. cbn.
  destruct (Reqb_spec a 0) as [A|A], (Reqb_spec b 0) as [B|B]; cbn.
  1-3: destruct (Rltb_spec (Rabs (a - b)) tol); (split; [intro; try discriminate; left; tauto | intros [[_ H]|(H1 & H2 & _)]; try contradiction; try reflexivity; lra]).
  assert (Q : Rabs ((a - b) / a) = Rabs (a - b) / Rabs a) by (unfold Rdiv; rewrite Rabs_mult, Rabs_inv; reflexivity).
  assert (P : 0 < Rabs a) by (apply Rabs_pos_lt, A).
  destruct (Rltb_spec tol (Rabs ((a - b) / a))) as [L|L]; split; try discriminate; try reflexivity.
  - intros [[[H|H] _]|(_ & _ & H)]; try contradiction. exfalso. rewrite Q in L.
    apply (Rmult_lt_compat_r (Rabs a)) in L; [|exact P]. unfold Rdiv in L. rewrite Rmult_assoc, Rinv_l in L; lra.
  - intros _. right. split; [exact A|]. split; [exact B|]. rewrite Q in L. apply Rnot_lt_le in L.
    apply (Rmult_le_compat_r (Rabs a)) in L; [|lra]. unfold Rdiv in L. rewrite Rmult_assoc, Rinv_l in L; lra.
Qed.
Print Assumptions C37_exact_scalar.
(** vectors: the distance is at most [tol] times the length of the longer one *)
Theorem C37_exact_vec2 : forall ax ay bx by_ tol : R, 0 <= tol ->
  approx_eq_tolerance2 (V2 (XFin ax) (XFin ay)) (V2 (XFin bx) (XFin by_)) (XFin tol) = true <->
  (ax - bx) ^ 2 + (ay - by_) ^ 2 <= tol ^ 2 * Rmax (ax ^ 2 + ay ^ 2) (bx ^ 2 + by_ ^ 2).
Proof.
  intros ax ay bx by_ tol Ht. unfold approx_eq_tolerance2, fmax, v2lensq, v2dot, v2sub. cbn.
  assert (E : (if Rltb (ax * ax + ay * ay) (bx * bx + by_ * by_) then XFin (bx * bx + by_ * by_) else XFin (ax * ax + ay * ay)) = XFin (Rmax (ax ^ 2 + ay ^ 2) (bx ^ 2 + by_ ^ 2))).
  { replace (ax ^ 2 + ay ^ 2) with (ax * ax + ay * ay) by ring. replace (bx ^ 2 + by_ ^ 2) with (bx * bx + by_ * by_) by ring.
    destruct (Rltb_spec (ax * ax + ay * ay) (bx * bx + by_ * by_)) as [H|H].
    - rewrite Rmax_right by lra. reflexivity.
    - rewrite Rmax_left by lra. reflexivity. }
  change (ax * (ax * 1)) with (ax ^ 2) in * . 
  assert (P : 0 <= Rmax (ax ^ 2 + ay ^ 2) (bx ^ 2 + by_ ^ 2)) by (eapply Rle_trans; [|apply Rmax_l]; nra).
  change (approx_eq_tolerance2 (V2 (XFin ax) (XFin ay)) (V2 (XFin bx) (XFin by_)) (XFin tol) = true <-> (ax - bx) ^ 2 + (ay - by_) ^ 2 <= tol ^ 2 * Rmax (ax ^ 2 + ay ^ 2) (bx ^ 2 + by_ ^ 2)).
  unfold approx_eq_tolerance2. set (m := fmax _ _). assert (Em : m = XFin (Rmax (ax ^ 2 + ay ^ 2) (bx ^ 2 + by_ ^ 2))).
  { unfold m, fmax, v2lensq, v2dot. cbn [vx vy fisnan FloatXR fadd fmul xadd xmul flt xlt]. exact E. }
  rewrite Em. clear Em m E. set (m := Rmax _ _) in * . cbn. destruct (Reqb_spec m 0) as [M|M].
  - split; [|reflexivity]. intros _. rewrite M.
    assert (ax ^ 2 + ay ^ 2 <= 0) by (rewrite <- M; apply Rmax_l). assert (bx ^ 2 + by_ ^ 2 <= 0) by (rewrite <- M; apply Rmax_r).
    assert (ax = 0) by nra. assert (ay = 0) by nra. assert (bx = 0) by nra. assert (by_ = 0) by nra. subst. lra.
  - cbn. assert (Pm : 0 < m) by lra.
    assert (Dv : forall n, tol * tol < n / m <-> tol ^ 2 * m < n).
    { intro n. split; intro H.
      - apply (Rmult_lt_compat_r m) in H; [|exact Pm]. unfold Rdiv in H. rewrite (Rmult_assoc n), Rinv_l in H; lra.
      - apply (Rmult_lt_reg_r m); [exact Pm|]. unfold Rdiv. rewrite (Rmult_assoc n), Rinv_l; lra. }
    set (dx := ax - bx). set (dy := ay - by_).
    replace (dx * (dx / m)) with (dx ^ 2 / m) by (field; exact M). replace (dy * (dy / m)) with (dy ^ 2 / m) by (field; exact M).
    destruct (Rltb_spec (tol * tol) ((dx * dx + dy * dy) / m)) as [L|L].
    + split; [discriminate|]. apply Dv in L. intro. lra.
    + assert (L' : dx ^ 2 + dy ^ 2 <= tol ^ 2 * m). { apply Rnot_lt_le. intro H. apply L, Dv. lra. }
      destruct (Rltb_spec (tol * tol) (dx ^ 2 / m)) as [L1|L1]. { apply Dv in L1. pose proof (pow2_ge_0 dy). lra. }
      destruct (Rltb_spec (tol * tol) (dy ^ 2 / m)) as [L2|L2]. { apply Dv in L2. pose proof (pow2_ge_0 dx). lra. }
      split; [intros _; exact L' | reflexivity].
Qed.
Print Assumptions C37_exact_vec2.
(** the same for three coordinates *)
Theorem C37_exact_vec3 : forall ax ay az bx by_ bz tol : R, 0 <= tol ->
  approx_eq_tolerance3 (V3 (XFin ax) (XFin ay) (XFin az)) (V3 (XFin bx) (XFin by_) (XFin bz)) (XFin tol) = true <->
  (ax - bx) ^ 2 + (ay - by_) ^ 2 + (az - bz) ^ 2 <= tol ^ 2 * Rmax (ax ^ 2 + ay ^ 2 + az ^ 2) (bx ^ 2 + by_ ^ 2 + bz ^ 2).
Proof.
  intros ax ay az bx by_ bz tol Ht. set (m := Rmax _ _).
  assert (P : 0 <= m) by (unfold m; eapply Rle_trans; [|apply Rmax_l]; nra).
  assert (E : fmax (v3lensq (V3 (XFin ax) (XFin ay) (XFin az))) (v3lensq (V3 (XFin bx) (XFin by_) (XFin bz))) = XFin m).
  { unfold v3lensq, v3dot. cbn [wx wy wz]. change (fmax (XFin (ax * ax + ay * ay + az * az)) (XFin (bx * bx + by_ * by_ + bz * bz)) = XFin m).
    rewrite P_Base.fmax_fin. f_equal. unfold m. f_equal; ring. }
  unfold approx_eq_tolerance3. rewrite E. unfold v3sub, v3lensq, v3dot. cbn. destruct (Reqb_spec m 0) as [M|M].
  - split; [|reflexivity]. intros _. rewrite M.
    assert (ax ^ 2 + ay ^ 2 + az ^ 2 <= 0) by (rewrite <- M; apply Rmax_l). assert (bx ^ 2 + by_ ^ 2 + bz ^ 2 <= 0) by (rewrite <- M; apply Rmax_r).
    assert (ax = 0) by nra. assert (ay = 0) by nra. assert (az = 0) by nra. assert (bx = 0) by nra. assert (by_ = 0) by nra. assert (bz = 0) by nra. subst ax ay az bx by_ bz. lra.
  - cbn. assert (Pm : 0 < m) by lra.
    assert (Dv : forall n, tol * tol < n / m <-> tol ^ 2 * m < n).
    { intro n. split; intro H.
      - apply (Rmult_lt_compat_r m) in H; [|exact Pm]. unfold Rdiv in H. rewrite (Rmult_assoc n), Rinv_l in H; lra.
      - apply (Rmult_lt_reg_r m); [exact Pm|]. unfold Rdiv. rewrite (Rmult_assoc n), Rinv_l; lra. }
    change (ax * (ax * 1)) with (ax ^ 2) in * .
    set (dx := ax - bx). set (dy := ay - by_). set (dz := az - bz).
    replace (dx * (dx / m)) with (dx ^ 2 / m) by (field; exact M). replace (dy * (dy / m)) with (dy ^ 2 / m) by (field; exact M). replace (dz * (dz / m)) with (dz ^ 2 / m) by (field; exact M).
    pose proof (pow2_ge_0 dx). pose proof (pow2_ge_0 dy). pose proof (pow2_ge_0 dz).
    destruct (Rltb_spec (tol * tol) ((dx * dx + dy * dy + dz * dz) / m)) as [L|L].
    + split; [discriminate|]. apply Dv in L. intro. lra.
    + assert (L' : dx ^ 2 + dy ^ 2 + dz ^ 2 <= tol ^ 2 * m). { apply Rnot_lt_le. intro H2. apply L, Dv. lra. }
      destruct (Rltb_spec (tol * tol) (dx ^ 2 / m)) as [L1|L1]. { apply Dv in L1. lra. }
      destruct (Rltb_spec (tol * tol) (dy ^ 2 / m)) as [L2|L2]. { apply Dv in L2. lra. }
      destruct (Rltb_spec (tol * tol) (dz ^ 2 / m)) as [L3|L3]. { apply Dv in L3. lra. }
      split; [intros _; exact L' | reflexivity].
Qed.
Print Assumptions C37_exact_vec3.
(** approx_eq without a tolerance: one part in a million (f32: with the number nearest to it) *)
Theorem C37_default_tolerance :
  (forall a b : R, approx_eq (XFin a) (XFin b) = approx_eq_tolerance (XFin a) (XFin b) (XFin (1 / 1000000))) /\
  (forall a b : vec2 XR, approx_eq2 a b = approx_eq_tolerance2 a b (XFin (1 / 1000000))) /\
  (forall a b : vec3 XR, approx_eq3 a b = approx_eq_tolerance3 a b (XFin (1 / 1000000))) /\
  exists tol : b32, fin tol /\ (1 - u32) / 1000000 <= val tol <= (1 + u32) / 1000000 /\
    (forall a b : b32, approx_eq a b = approx_eq_tolerance a b tol) /\
    (forall a b : vec2 b32, approx_eq2 a b = approx_eq_tolerance2 a b tol) /\
    (forall a b : vec3 b32, approx_eq3 a b = approx_eq_tolerance3 a b tol).
Proof.
  split; [reflexivity|]. split; [reflexivity|]. split; [reflexivity|]. exists fmicro. split; [vm_compute; reflexivity|]. split; [|repeat split].
  assert (E : val (fmicro : b32) = IZR 8796093 * / IZR (2 ^ 43)).
  { unfold val. assert (S : B2SF (fmicro : b32) = SpecFloat.S754_finite false 8796093 (-43)) by (vm_compute; reflexivity).
    rewrite <- SF2R_B2SF, S. cbn. unfold F2R. cbn. lra. }
  rewrite E. unfold u32. cbn. lra.
Qed.
Print Assumptions C37_default_tolerance.
Example C37_exact_case : approx_eq_tolerance2 (V2 (XFin 100) (XFin 0)) (V2 (XFin 100) (XFin 1)) (XFin (1/10)) = true /\
  approx_eq_tolerance2 (V2 (XFin 1) (XFin 0)) (V2 (XFin 1) (XFin 1)) (XFin (1/10)) = false.
Proof.
  split.
  - apply C37_exact_vec2; [lra|]. pose proof (Rmax_l (100 ^ 2 + 0 ^ 2) (100 ^ 2 + 1 ^ 2)). nra.
  - destruct (approx_eq_tolerance2 _ _ _) eqn:E; [exfalso | reflexivity]. apply C37_exact_vec2 in E; [|lra].
    rewrite Rmax_right in E by lra. lra.
Qed.
