(** * C37 in f32 (accuracy) and C38 (lerp) *)
From Coq Require Import Reals ZArith Bool Lra Lia List Psatz.
From Flocq Require Import IEEE754.BinarySingleNaN Core Relative Sterbenz.
From Verif Require Import Num NumXR NumB32 Glam Transform2 Shapes2 Gjk Detect2 Misc P_B32 Props_F32 Props_Approx.
Import ListNotations.
Local Open Scope R_scope.

Lemma small_weak r i j : (i <= j)%Z -> small r i -> small r j.
Proof. unfold small. intros H S. eapply Rle_trans; [exact S|]. apply bpow_le, H. Qed.
Lemma small_opp r i : small r i -> small (- r) i. Proof. unfold small. rewrite Rabs_Ropp. exact (fun H => H). Qed.
Lemma rnd_abs r : rnd (Rabs r) = Rabs (rnd r).
Proof.
  unfold Rabs at 1. destruct (Rcase_abs r) as [H|H].
  - rewrite rnd_opp. rewrite Rabs_left1; [reflexivity|]. rewrite <- rnd_0. apply rnd_le. lra.
  - rewrite Rabs_pos_eq; [reflexivity|]. rewrite <- rnd_0. apply rnd_le. lra.
Qed.
(** In f32, with a tolerance between 2^-100 and 1 and arguments below 2^126: true implies |a-b| <= (1+2^-22) tol |a|,
    and (1+2^-24)|a-b| <= tol |a| implies true. *)
Theorem C37_f32_accuracy : forall a b tol : b32, fin a -> fin b -> fin tol -> val a <> 0 -> val b <> 0 ->
  small (val a) 126 -> small (val b) 126 -> bpow radix2 (-100) <= val tol <= 1 ->
  (approx_eq_tolerance a b tol = true -> Rabs (val a - val b) <= (1 + 4 * u32) * val tol * Rabs (val a)) /\
  ((1 + u32) * Rabs (val a - val b) <= val tol * Rabs (val a) -> approx_eq_tolerance a b tol = true).
Proof.
  intros a b tol Fa Fb Ft Na Nb Sa Sb [T1 T2].
  assert (Sd : small (rnd (val a - val b)) 127) by (apply rnd_small; [lia|]; apply (small_add _ _ 126); [exact Sa | apply small_opp, Sb]).
  destruct (sub_ok a b Fa Fb ltac:(eapply small_big; [|exact Sd]; lia)) as [E1 E2].
  assert (Er : exists e, Rabs e <= u32 /\ val (fsub a b) = (val a - val b) * (1 + e)).
  { rewrite E2. destruct (rnd_error_add a (fneg b)) as (e & X & Y). exists e. split; [exact X|]. rewrite val_neg in Y. exact Y. }
  destruct Er as (e & He & Ee). pose proof u32_pos as Up. pose proof u32_small as Us. pose proof tiny_pos as Tp.
  unfold approx_eq_tolerance. set (err := fsub a b) in * . cbv zeta.
  rewrite (fin_nan _ E1), (fin_inf _ E1), !feq_fin by (assumption || reflexivity). change (val f0) with 0. rewrite !Reqb_false by assumption. cbn [orb].
  assert (Pa : 0 < Rabs (val a)) by (apply Rabs_pos_lt, Na).
  set (q := val err / val a). assert (Q : val err = q * val a) by (unfold q; field; exact Na).
  pose proof (Rabs_le_inv _ _ He) as He'.
  destruct (Rlt_or_le (Rabs (rnd q)) big) as [B|B].
  - destruct (div_ok err a E1 Na B) as [D1 D2]. rewrite flt_fin; [|exact Ft | apply (proj2 (fin_abs _)), D1]. rewrite val_abs, D2. fold q.
    destruct (Rltb_spec (val tol) (Rabs (rnd q))) as [L|L]; split; try discriminate; try reflexivity.
    + intro H. exfalso. apply (Rlt_not_le _ _ L). rewrite <- rnd_abs, <- (rnd_exact tol). apply rnd_le.
      apply (Rmult_le_reg_r (Rabs (val a))); [exact Pa|]. rewrite <- Rabs_mult, <- Q, Ee, Rabs_mult.
      eapply Rle_trans; [|exact H]. rewrite Rmult_comm. apply Rmult_le_compat_r; [apply Rabs_pos|]. apply Rabs_le. lra.
    + intros _. apply Rnot_lt_le in L. destruct (rnd_error q) as (e2 & t2 & He2 & Ht2 & Eq). rewrite Eq in L.
      assert (L2 : Rabs q * (1 - u32) <= val tol + tiny).
      { assert (Rabs (q * (1 + e2)) <= val tol + tiny). { replace (q * (1 + e2)) with (q * (1 + e2) + t2 + - t2) by ring. eapply Rle_trans; [apply Rabs_triang|]. rewrite Rabs_Ropp. lra. }
        rewrite Rabs_mult in H. eapply Rle_trans; [|exact H]. apply Rmult_le_compat_l; [apply Rabs_pos|]. pose proof (Rabs_le_inv _ _ He2). rewrite Rabs_pos_eq; lra. }
      assert (T3 : tiny <= u32 * u32 * val tol).
      { eapply Rle_trans; [|apply Rmult_le_compat_l; [nra | exact T1]]. unfold tiny, u32. replace (/ IZR (2 ^ 24)) with (bpow radix2 (-24)) by reflexivity.
        rewrite <- !bpow_plus. apply bpow_le. lia. }
      assert (L3 : Rabs (val a - val b) * (1 - u32) <= Rabs q * Rabs (val a)).
      { rewrite <- Rabs_mult, <- Q, Ee, Rabs_mult. apply Rmult_le_compat_l; [apply Rabs_pos|]. rewrite Rabs_pos_eq; lra. }
      assert (Pt : 0 < val tol) by (eapply Rlt_le_trans; [apply bpow_gt_0 | exact T1]).
      assert (L4 : Rabs (val a - val b) * (1 - u32) * (1 - u32) <= (val tol + tiny) * Rabs (val a)) by (pose proof (Rabs_pos q); nra).
      apply (Rmult_le_reg_r ((1 - u32) * (1 - u32))); [nra|].
      eapply Rle_trans; [rewrite <- Rmult_assoc; exact L4|].
      replace ((1 + 4 * u32) * val tol * Rabs (val a) * ((1 - u32) * (1 - u32))) with (((1 + 4 * u32) * ((1 - u32) * (1 - u32)) * val tol) * Rabs (val a)) by ring.
      apply Rmult_le_compat_r; [lra|]. assert (1 + u32 * u32 <= (1 + 4 * u32) * ((1 - u32) * (1 - u32))) by nra. nra.
  - (* the quotient overflows: it is then certainly above the tolerance *)
    assert (C := Bdiv_correct 24 128 _ _ mode_NE err a Na). rewrite Rlt_bool_false in C by exact B.
    assert (I : flt tol (fabs (fdiv err a)) = true).
    { rewrite flt_bx. cbn [fdiv FloatB32 fabs]. destruct (Bdiv mode_NE err a); cbn in C; try discriminate. cbn. destruct tol; try discriminate; reflexivity. }
    rewrite I. split; [discriminate|]. intro H. exfalso.
    assert (Rabs q <= 1).
    { apply (Rmult_le_reg_r (Rabs (val a))); [exact Pa|]. rewrite <- Rabs_mult, <- Q, Ee, Rabs_mult. rewrite Rmult_1_l.
      assert (Rabs (val a - val b) * Rabs (1 + e) <= (1 + u32) * Rabs (val a - val b)). { rewrite Rmult_comm. apply Rmult_le_compat_r; [apply Rabs_pos|]. apply Rabs_le. lra. }
      nra. }
    assert (small (rnd q) 0) by (apply rnd_small; [lia | exact H0]). apply (Rlt_not_le big (Rabs (rnd q))); [eapply (small_big _ 0); [lia | assumption] | exact B].
Qed.
Print Assumptions C37_f32_accuracy.
Example accuracy_met : let a := b32_of 3 0 in let b := b32_of 12582914 (-22) in let tol := @fmicro b32 _ in
  (fin a /\ fin b /\ fin tol) /\ (val a <> 0 /\ val b <> 0) /\ (small (val a) 126 /\ small (val b) 126) /\ bpow radix2 (-100) <= val tol <= 1 /\ approx_eq_tolerance a b tol = true.
Proof.
  assert (Va : val (b32_of 3 0) = 3) by (rewrite (proj2 (val_of 3 0 ltac:(lia) ltac:(lia))); cbn; lra).
  assert (Vb : val (b32_of 12582914 (-22)) = 12582914 / 4194304) by (rewrite (proj2 (val_of 12582914 (-22) ltac:(lia) ltac:(lia))); cbn; lra).
  assert (Vt : val (@fmicro b32 _) = 8796093 / 8796093022208) by (rewrite (val_sf _ false 8796093 (-43)) by (vm_compute; reflexivity); cbn; lra).
  cbv zeta. rewrite Va, Vb, Vt. split; [repeat split; vm_compute; reflexivity|]. split; [split; lra|].
  assert (B : 4 <= bpow radix2 126). { change 4 with (bpow radix2 2). apply bpow_le. lia. }
  split; [unfold small; split; rewrite Rabs_pos_eq; lra|]. split.
  - split; [|lra]. eapply Rle_trans; [apply (bpow_le radix2 (-100) (-20)); lia|]. cbn. lra.
  - vm_compute. reflexivity.
Qed.

(** ** C38: lerp *)
(** t = 0 gives the first argument *)
Theorem C38_zero_f32 : forall a b : b32, fin a -> fin (fsub b a) -> feq (lerp a b f0) a = true.
Proof.
  intros a b Fa Fd. unfold lerp. assert (Z : fin (fmul f0 (fsub b a)) /\ val (fmul f0 (fsub b a)) = 0) by (apply zero_mul; [reflexivity | reflexivity | exact Fd]).
  destruct Z as [Z1 Z2]. assert (R0 : rnd (val a + val (fmul f0 (fsub b a))) = val a) by (rewrite Z2, Rplus_0_r; apply rnd_exact).
  destruct (add_ok a _ Fa Z1 ltac:(rewrite R0; apply val_big)) as [A1 A2]. rewrite feq_fin by assumption. apply Reqb_true. rewrite A2. exact R0.
Qed.
Print Assumptions C38_zero_f32.
(** equal end points give that point for every finite t *)
Theorem C38_constant_f32 : forall a t : b32, fin a -> fin t -> feq (lerp a a t) a = true.
Proof.
  intros a t Fa Ft. unfold lerp. destruct (sub_self a Fa) as [S1 S2].
  assert (Z : fin (fmul t (fsub a a)) /\ val (fmul t (fsub a a)) = 0).
  { destruct (zero_cases _ S1 S2) as (s & ->). destruct t; try discriminate; split; reflexivity. }
  destruct Z as [Z1 Z2]. assert (R0 : rnd (val a + val (fmul t (fsub a a))) = val a) by (rewrite Z2, Rplus_0_r; apply rnd_exact).
  destruct (add_ok a _ Fa Z1 ltac:(rewrite R0; apply val_big)) as [A1 A2]. rewrite feq_fin by assumption. apply Reqb_true. rewrite A2. exact R0.
Qed.
Print Assumptions C38_constant_f32.
(** t = 1 gives the second argument whenever it is within a factor two of the first (same sign) *)
Lemma val_f1 : val (@f1 b32 _) = 1.
Proof. change (@f1 b32 _) with (b32_of 1 0). rewrite (proj2 (val_of 1 0 ltac:(lia) ltac:(lia))). cbn. lra. Qed.
Lemma fin_f1 : fin (@f1 b32 FloatB32). Proof. reflexivity. Qed.
Theorem C38_one_f32 : forall a b : b32, fin a -> fin b -> val a / 2 <= val b <= 2 * val a -> feq (lerp a b f1) b = true.
Proof.
  intros a b Fa Fb H. unfold lerp.
  assert (S : rnd (val b - val a) = val b - val a).
  { apply round_generic; [apply valid_rnd_N|]. apply sterbenz; [exact fexp_valid | apply FLT_exp_monotone | apply generic_format_B2R | apply generic_format_B2R |]. exact H. }
  assert (Bd : Rabs (val b - val a) < big).
  { eapply Rle_lt_trans; [|apply (val_big a)]. rewrite (Rabs_pos_eq (val a)) by lra. apply Rabs_le. lra. }
  destruct (sub_ok b a Fb Fa ltac:(rewrite S; exact Bd)) as [A1 A2]. rewrite S in A2.
  destruct (mul_ok f1 (fsub b a) fin_f1 A1) as [M1 M2]. { rewrite val_f1, Rmult_1_l, rnd_exact. apply val_big. }
  rewrite val_f1, Rmult_1_l, rnd_exact, A2 in M2.
  assert (R0 : rnd (val a + val (fmul f1 (fsub b a))) = val b). { rewrite M2. replace (val a + (val b - val a)) with (val b) by ring. apply rnd_exact. }
  destruct (add_ok a _ Fa M1 ltac:(rewrite R0; apply val_big)) as [B1 B2]. rewrite feq_fin by assumption. apply Reqb_true. rewrite B2. exact R0.
Qed.
Print Assumptions C38_one_f32.
Example C38_case : feq (lerp (b32_of 3 0) (b32_of 7 (-3)) f0) (b32_of 3 0) = true /\ feq (lerp (b32_of 3 0) (b32_of 3 0) (b32_of 1 (-4))) (b32_of 3 0) = true /\
  feq (lerp (b32_of 3 0) (b32_of 13 (-2)) f1) (b32_of 13 (-2)) = true.
Proof. vm_compute. auto. Qed.
(** but not in general: lerp(1, 2^-30, 1) is 0 *)
Theorem C38_one_f32_refuted : exists a b : b32, fin a /\ fin b /\ feq (lerp a b f1) b = false /\ feq (lerp a b f1) f0 = true.
Proof. exists (b32_of 1 0), (b32_of 1 (-30)). repeat split; vm_compute; reflexivity. Qed.
(** and the answer can be infinite although both ends are finite *)
Theorem C38_overflow_refuted : exists a b : b32, fin a /\ fin b /\ lerp a b fhalf = finf.
Proof. exists (fneg fmaxval), fmaxval. split; [reflexivity|]. split; [reflexivity|]. apply B2SF_inj. vm_compute. reflexivity. Qed.
Print Assumptions C38_one_f32_refuted. Print Assumptions C38_overflow_refuted.
(** exact arithmetic: affine, hence between the ends for t in [0,1] and equal to them at 0 and 1 *)
Theorem C38_exact : forall a b t : R, exists r, lerp (XFin a) (XFin b) (XFin t) = XFin r /\ r = (1 - t) * a + t * b /\
  (0 <= t <= 1 -> Rmin a b <= r <= Rmax a b).
Proof.
  intros a b t. exists (a + t * (b - a)). split; [reflexivity|]. split; [ring|]. intros H.
  unfold Rmin, Rmax. destruct (Rle_dec a b); nra.
Qed.
Theorem C38_exact_vec2 : forall ax ay bx by_ t : R,
  lerp2 (V2 (XFin ax) (XFin ay)) (V2 (XFin bx) (XFin by_)) (XFin t) = V2 (XFin ((1 - t) * ax + t * bx)) (XFin ((1 - t) * ay + t * by_)).
Proof. intros. unfold lerp2, v2add, v2smul, v2sub. cbn. f_equal; f_equal; ring. Qed.
Print Assumptions C38_exact. Print Assumptions C38_exact_vec2.

(** ** lerp and square in f32: accuracy and order *)
Lemma lerp_val (a b t : b32) : fin a -> fin b -> fin t -> small (val a) 125 -> small (val b) 125 -> 0 <= val t <= 1 ->
  fin (lerp a b t) /\ val (lerp a b t) = rnd (val a + rnd (val t * rnd (val b - val a))) /\ small (rnd (val b - val a)) 126 /\
  val (fmul t (fsub b a)) = rnd (val t * rnd (val b - val a)) /\ val (fsub b a) = rnd (val b - val a).
Proof.
  intros Fa Fb Ft Sa Sb Ht. unfold lerp.
  assert (Sd : small (rnd (val b - val a)) 126) by (apply rnd_small; [lia|]; apply (small_add _ _ 125); [exact Sb | apply small_opp, Sa]).
  destruct (sub_ok b a Fb Fa ltac:(apply (small_big _ 126); [lia | exact Sd])) as [D1 D2].
  assert (Sm : small (rnd (val t * rnd (val b - val a))) 126).
  { apply rnd_small; [lia|]. change 126%Z with (0 + 126)%Z. apply small_mul; [|exact Sd]. unfold small. cbn. rewrite Rabs_pos_eq; lra. }
  destruct (mul_ok t (fsub b a) Ft D1 ltac:(rewrite D2; apply (small_big _ 126); [lia | exact Sm])) as [M1 M2]. rewrite D2 in M2.
  assert (Sr : small (rnd (val a + val (fmul t (fsub b a)))) 127).
  { apply rnd_small; [lia|]. apply (small_add _ _ 126); [eapply small_weak; [|exact Sa]; lia | rewrite M2; exact Sm]. }
  destruct (add_ok a _ Fa M1 ltac:(apply (small_big _ 127); [lia | exact Sr])) as [A1 A2]. rewrite M2 in A2.
  split; [exact A1|]. split; [exact A2|]. split; [exact Sd|]. split; [exact M2 | exact D2].
Qed.

(** lerp is within 2^-21 of the larger end of the exact interpolation, for ends below 2^125 *)
Theorem C38_f32_accuracy : forall a b t : b32, fin a -> fin b -> fin t -> small (val a) 125 -> small (val b) 125 -> 0 <= val t <= 1 ->
  fin (lerp a b t) /\
  Rabs (val (lerp a b t) - ((1 - val t) * val a + val t * val b)) <= bpow radix2 (-21) * Rmax (Rabs (val a)) (Rabs (val b)) + bpow radix2 (-149).
Proof.
  intros a b t Fa Fb Ft Sa Sb Ht. destruct (lerp_val a b t Fa Fb Ft Sa Sb Ht) as (F1 & V & _ & VM & _). split; [exact F1|]. rewrite V.
  set (M := Rmax (Rabs (val a)) (Rabs (val b))).
  assert (Ma : Rabs (val a) <= M) by apply Rmax_l. assert (Mb : Rabs (val b) <= M) by apply Rmax_r.
  assert (M0 : 0 <= M) by (pose proof (Rabs_pos (val a)); lra).
  destruct (rnd_error_add b (fneg a)) as (e1 & E1 & R1). rewrite val_neg in R1. change (val b + - val a) with (val b - val a) in R1.
  destruct (rnd_error (val t * rnd (val b - val a))) as (e2 & n2 & E2 & N2 & R2).
  destruct (rnd_error_add a (fmul t (fsub b a))) as (e3 & E3 & R3). rewrite VM in R3. rewrite R3, R2, R1.
  set (x := val a) in * . set (y := val b) in * . set (s := val t) in * . clearbody M. clearbody x y s. clear - E1 E2 E3 N2 Ma Mb M0 Ht.
  assert (U : u32 = / 16777216) by (unfold u32; cbn; lra). rewrite U in * .
  assert (T : tiny <= bpow radix2 (-149) / 2) by (unfold tiny; change (-149)%Z with (-150 + 1)%Z; rewrite bpow_plus; cbn [bpow]; pose proof (bpow_ge_0 radix2 (-150)); cbn -[bpow]; lra).
  assert (B21 : bpow radix2 (-21) = / 2097152) by (cbn; lra). rewrite B21.
  set (p := s * (y - x)). assert (P : Rabs p <= 2 * M).
  { unfold p. rewrite Rabs_mult, (Rabs_pos_eq s) by lra. pose proof (Rabs_triang y (- x)) as TT. rewrite Rabs_Ropp in TT. change (y + - x) with (y - x) in TT.
    apply Rle_trans with (1 * Rabs (y - x)); [apply Rmult_le_compat_r; [apply Rabs_pos | lra] | lra]. }
  assert (Q : Rabs (x + p) <= M).
  { unfold p. replace (x + s * (y - x)) with ((1 - s) * x + s * y) by ring. eapply Rle_trans; [apply Rabs_triang|].
    rewrite !Rabs_mult, (Rabs_pos_eq s), (Rabs_pos_eq (1 - s)) by lra.
    apply Rle_trans with ((1 - s) * M + s * M); [apply Rplus_le_compat; apply Rmult_le_compat_l; lra | lra]. }
  replace ((1 - s) * x + s * y) with (x + p) by (unfold p; ring).
  replace (s * ((y - x) * (1 + e1)) * (1 + e2) + n2) with (p + p * (e1 + e2 + e1 * e2) + n2) by (unfold p; ring).
  set (g := p * (e1 + e2 + e1 * e2)).
  assert (G : Rabs g <= 2 * M * (3 * / 16777216)).
  { unfold g. rewrite Rabs_mult. apply Rmult_le_compat; try apply Rabs_pos; [exact P|].
    eapply Rle_trans; [apply Rabs_triang|]. rewrite (Rabs_mult e1 e2). pose proof (Rabs_triang e1 e2).
    assert (Rabs e1 * Rabs e2 <= / 16777216 * 1) by (apply Rmult_le_compat; try apply Rabs_pos; lra). lra. }
  replace ((x + (p + g + n2)) * (1 + e3) - (x + p)) with (g + n2 + (x + p + (g + n2)) * e3) by ring.
  assert (GN : Rabs (g + n2) <= 2 * M * (3 * / 16777216) + bpow radix2 (-149) / 2) by (eapply Rle_trans; [apply Rabs_triang|]; lra).
  eapply Rle_trans; [apply Rabs_triang|]. rewrite (Rabs_mult _ e3).
  assert (W : Rabs (x + p + (g + n2)) * Rabs e3 <= (2 * M + bpow radix2 (-149) / 2) * / 16777216).
  { apply Rmult_le_compat; try apply Rabs_pos; [|exact E3]. eapply Rle_trans; [apply Rabs_triang|]. lra. }
  pose proof (bpow_ge_0 radix2 (-149)) as Z0. lra.
Qed.
Print Assumptions C38_f32_accuracy.
(** the answer never goes back: from a towards b, a larger t gives an answer at least as far, and none lies on the wrong side of a *)
Theorem C38_f32_monotone : forall a b t u : b32, fin a -> fin b -> fin t -> fin u -> small (val a) 125 -> small (val b) 125 ->
  0 <= val t -> val t <= val u -> val u <= 1 ->
  (val a <= val b -> val a <= val (lerp a b t) <= val (lerp a b u)) /\
  (val b <= val a -> val (lerp a b u) <= val (lerp a b t) <= val a).
Proof.
  intros a b t u Fa Fb Ft Fu Sa Sb T0 TU U1.
  destruct (lerp_val a b t Fa Fb Ft Sa Sb ltac:(lra)) as (_ & Vt & _). destruct (lerp_val a b u Fa Fb Fu Sa Sb ltac:(lra)) as (_ & Vu & _). rewrite Vt, Vu.
  split; intro AB.
  - assert (D : 0 <= rnd (val b - val a)) by (rewrite <- rnd_0; apply rnd_le; lra).
    split.
    + apply Rle_trans with (rnd (val a)); [rewrite rnd_exact; lra|]. apply rnd_le. assert (0 <= rnd (val t * rnd (val b - val a))) by (rewrite <- rnd_0 at 1; apply rnd_le, Rmult_le_pos; assumption). lra.
    + apply rnd_le, Rplus_le_compat_l, rnd_le, Rmult_le_compat_r; assumption.
  - assert (D : rnd (val b - val a) <= 0) by (rewrite <- rnd_0; apply rnd_le; lra).
    split.
    + apply rnd_le, Rplus_le_compat_l, rnd_le. apply Ropp_le_cancel. rewrite !Ropp_mult_distr_r. apply Rmult_le_compat_r; lra.
    + apply Rle_trans with (rnd (val a)); [|rewrite rnd_exact; lra]. apply rnd_le. assert (rnd (val t * rnd (val b - val a)) <= 0).
      { apply Rle_trans with (rnd 0); [|rewrite rnd_0; lra]. apply rnd_le. apply Ropp_le_cancel. rewrite Ropp_0, Ropp_mult_distr_r. apply Rmult_le_pos; lra. }
      lra.
Qed.
Print Assumptions C38_f32_monotone.
Example C38_f32_case : let a := b32_of 3 0 in let b := b32_of (-5) (-1) in let t := b32_of 1 (-2) in
  (fin a /\ fin b /\ fin t) /\ (small (val a) 125 /\ small (val b) 125) /\ 0 <= val t <= 1 /\ feq (lerp a b t) (b32_of 13 (-3)) = true.
Proof.
  intros a b t. destruct (val_of 3 0 ltac:(lia) ltac:(lia)) as [F1 V1]. destruct (val_of (-5) (-1) ltac:(lia) ltac:(lia)) as [F2 V2].
  destruct (val_of 1 (-2) ltac:(lia) ltac:(lia)) as [F3 V3]. split; [repeat split; assumption|].
  assert (B : 8 <= bpow radix2 125) by (change 8 with (bpow radix2 3); apply bpow_le; lia).
  split; [unfold small, a, b; rewrite V1, V2; split; rewrite Rabs_mult, (Rabs_pos_eq (bpow radix2 _)) by apply bpow_ge_0; cbn -[bpow]; unfold Rabs; repeat destruct (Rcase_abs _); cbn; lra|].
  split; [unfold t; rewrite V3; cbn; lra | vm_compute; reflexivity].
Qed.

(** Square for f32: exact numbers; in f32 the correctly rounded square, never negative, and monotone in the magnitude *)
Theorem C38_square : forall (x : R) (a b : b32), fin a -> fin b -> small (val a) 63 -> small (val b) 63 ->
  square (XFin x) = XFin (x * x) /\
  fin (square a) /\ 0 <= val (square a) /\ Rabs (val (square a) - val a * val a) <= bpow radix2 (-24) * (val a * val a) + bpow radix2 (-150) /\
  (Rabs (val a) <= Rabs (val b) -> val (square a) <= val (square b)).
Proof.
  intros x a b Fa Fb Sa Sb. split; [reflexivity|].
  assert (Q : forall c, fin c -> small (val c) 63 -> fin (square c) /\ val (square c) = rnd (val c * val c)).
  { intros c Fc Sc. apply mul_ok; try exact Fc. apply (small_big _ 126); [lia|]. apply rnd_small; [lia|]. apply (small_mul _ _ 63 63); exact Sc. }
  destruct (Q a Fa Sa) as [F1 V1]. destruct (Q b Fb Sb) as [F2 V2]. rewrite V1, V2.
  assert (P : 0 <= val a * val a) by apply Rle_0_sqr.
  split; [exact F1|]. split; [rewrite <- rnd_0; apply rnd_le; exact P|]. split.
  - destruct (rnd_error (val a * val a)) as (e & n & E & N & ->). replace (val a * val a * (1 + e) + n - val a * val a) with (val a * val a * e + n) by ring.
    eapply Rle_trans; [apply Rabs_triang|]. apply Rplus_le_compat; [|exact N]. rewrite Rabs_mult, (Rabs_pos_eq (val a * val a)) by exact P. rewrite Rmult_comm.
    apply Rmult_le_compat_r; [exact P | exact E].
  - intro L. apply rnd_le. rewrite <- (Rabs_pos_eq (val a * val a)), <- (Rabs_pos_eq (val b * val b)) by apply Rle_0_sqr. rewrite !Rabs_mult.
    apply Rmult_le_compat; try apply Rabs_pos; exact L.
Qed.
Print Assumptions C38_square.
Example C38_square_case : feq (square (b32_of (-3) (-1))) (b32_of 9 (-2)) = true.
Proof. vm_compute. reflexivity. Qed.
