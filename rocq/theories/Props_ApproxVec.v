(** * C37 for vectors in f32: approx_eq_tolerance of Vec2 and Vec3 with all rounding *)
From Coq Require Import Reals ZArith Bool Lra Lia.
From Flocq Require Import IEEE754.BinarySingleNaN Core.
From Verif Require Import Num NumXR NumB32 Glam Transform2 Shapes2 Gjk Detect2 Misc Spec SpecLink P_Base P_Shapes P_B32 Props_F32 Props_F32Gjk Props_Lerp Props_Approx P_Drift Props_Sdf32 P_Geo3 P_Space32 Spec32s P_Quat32.
Local Open Scope R_scope.

(** an f32 x within c units of relative error 2^-24 of y, plus t *)
Definition ner (c t : R) (x : b32) (y : R) : Prop := fin x /\ Rabs (val x - y) <= c * u32 * Rabs y + t.
Lemma u32_facts : 0 < u32 /\ u32 <= 1 / 16777216 /\ 0 < tiny /\ tiny <= 1 / 1000 * u32.
Proof.
  pose proof u32_pos. pose proof u32_small. pose proof tiny_pos. split; [lra|]. split; [lra|]. split; [lra|].
  unfold tiny, u32. apply Rle_trans with (bpow radix2 (-40)); [apply bpow_le; lia | cbn; lra].
Qed.
Lemma times_le c x y : 0 <= c -> x <= y -> c * x <= c * y. Proof. intros; apply Rmult_le_compat_l; assumption. Qed.
Lemma ner_sub (x y : b32) : fin x -> fin y -> Rabs (val x) <= bpow radix2 100 -> Rabs (val y) <= bpow radix2 100 -> ner 1 0 (fsub x y) (val x - val y).
Proof.
  intros Fx Fy X Y. destruct (sub_ok x y Fx Fy) as (F & V).
  { apply small_big with 101%Z; [lia|]. apply rnd_small; [lia|]. apply (small_add _ _ 100); [exact X | apply small_opp; exact Y]. }
  split; [exact F|]. rewrite V. destruct (rnd_error_add x (fneg y)) as (e & E & Q). rewrite val_neg in Q. change (val x + - val y) with (val x - val y) in Q. rewrite Q.
  replace ((val x - val y) * (1 + e) - (val x - val y)) with ((val x - val y) * e) by ring. rewrite Rabs_mult, Rmult_comm, Rplus_0_r, Rmult_1_l. apply Rmult_le_compat_r; [apply Rabs_pos | exact E].
Qed.
Lemma ner_rnd c t r y : 0 <= c <= 20 -> 0 <= t -> Rabs (r - y) <= c * u32 * Rabs y + t -> Rabs (rnd r - y) <= (c + 101 / 100) * u32 * Rabs y + (101 / 100 * t + tiny).
Proof.
  intros C T H. destruct u32_facts as (U0 & U1 & T0 & T1). destruct (rnd_error r) as (e & h & E & Eh & ->).
  assert (R1 : Rabs r <= (1 + c * u32) * Rabs y + t) by (replace r with ((r - y) + y) by ring; apply Rle_trans with (1 := Rabs_triang _ _); lra).
  replace (r * (1 + e) + h - y) with ((r - y) + r * e + h) by ring. apply Rle_trans with (1 := Rabs_triang _ _). apply Rle_trans with (Rabs (r - y) + Rabs (r * e) + tiny); [apply Rplus_le_compat; [apply Rabs_triang | exact Eh]|].
  assert (RE : Rabs (r * e) <= ((1 + c * u32) * Rabs y + t) * u32) by (rewrite Rabs_mult; apply Rmult_le_compat; try apply Rabs_pos; assumption).
  pose proof (Rabs_pos y) as PY. set (w := u32 * Rabs y) in * . assert (W : 0 <= w) by (unfold w; apply Rmult_le_pos; lra).
  assert (A : c * u32 * w <= 1 / 100 * w) by (apply Rmult_le_compat_r; [exact W|]; assert (c * u32 <= 20 * u32) by (apply Rmult_le_compat_r; lra); lra).
  assert (B : t * u32 <= t * (1 / 100)) by (apply Rmult_le_compat_l; lra).
  replace (((1 + c * u32) * Rabs y + t) * u32) with (w + c * u32 * w + t * u32) in RE by (unfold w; ring).
  replace (c * u32 * Rabs y) with (c * w) in H by (unfold w; ring). replace ((c + 101 / 100) * u32 * Rabs y) with (c * w + 101 / 100 * w) by (unfold w; ring). lra.
Qed.
Lemma ner_big c t r y k : 0 <= c <= 20 -> Rabs (r - y) <= c * u32 * Rabs y + t -> t <= bpow radix2 k -> Rabs y <= bpow radix2 k -> (-140 <= k < 120)%Z -> Rabs (rnd r) < big.
Proof.
  intros C H T Y K. destruct u32_facts as (U0 & U1 & T0 & T1). apply small_big with (k + 2)%Z; [lia|]. apply rnd_small; [lia|]. unfold small.
  rewrite bpow_plus. change (bpow radix2 2) with 4. replace r with ((r - y) + y) by ring. apply Rle_trans with (1 := Rabs_triang _ _).
  assert (c * u32 * Rabs y <= 1 * Rabs y) by (apply Rmult_le_compat_r; [apply Rabs_pos|]; assert (c * u32 <= 20 * u32) by (apply Rmult_le_compat_r; lra); lra). pose proof (bpow_ge_0 radix2 k). lra.
Qed.
(** squares *)
Lemma ner_sq (x : b32) y : ner 1 0 x y -> Rabs y <= bpow radix2 61 -> ner (302 / 100) (102 / 100 * tiny) (fmul x x) (y * y).
Proof.
  intros (F & H) Y. destruct u32_facts as (U0 & U1 & T0 & T1). rewrite Rplus_0_r, Rmult_1_l in H.
  assert (K : Rabs (val x * val x - y * y) <= (201 / 100) * u32 * Rabs (y * y) + 0).
  { replace (val x * val x - y * y) with ((val x - y) * ((val x - y) + 2 * y)) by ring. rewrite Rabs_mult, (Rabs_mult y y). set (z := Rabs y) in * . assert (Z : 0 <= z) by apply Rabs_pos.
    assert (S : Rabs (val x - y + 2 * y) <= (201 / 100) * z). { apply Rle_trans with (1 := Rabs_triang _ _). rewrite Rabs_mult, (Rabs_pos_eq 2) by lra. fold z. assert (u32 * z <= 1 / 100 * z) by (apply Rmult_le_compat_r; lra). lra. }
    rewrite Rplus_0_r. replace (201 / 100 * u32 * (z * z)) with ((u32 * z) * (201 / 100 * z)) by ring. apply Rmult_le_compat; try apply Rabs_pos; assumption. }
  assert (Y2 : Rabs (y * y) <= bpow radix2 118 * 16). { rewrite Rabs_mult. replace (bpow radix2 118 * 16) with (bpow radix2 61 * bpow radix2 61) by (rewrite <- bpow_plus; change 16 with (bpow radix2 4); rewrite <- bpow_plus; reflexivity). apply Rmult_le_compat; try apply Rabs_pos; assumption. }
  assert (B : Rabs (rnd (val x * val x)) < big).
  { apply small_big with 124%Z; [lia|]. apply rnd_small; [lia|]. unfold small. replace (bpow radix2 124) with (4 * (bpow radix2 118 * 16)) by (change 16 with (bpow radix2 4); rewrite <- bpow_plus; change 4 with (bpow radix2 2); rewrite <- bpow_plus; reflexivity).
    replace (val x * val x) with ((val x * val x - y * y) + y * y) by ring. apply Rle_trans with (1 := Rabs_triang _ _). assert (201 / 100 * u32 * Rabs (y * y) <= 1 * Rabs (y * y)) by (apply Rmult_le_compat_r; [apply Rabs_pos | lra]). pose proof (bpow_ge_0 radix2 118). lra. }
  destruct (mul_ok x x F F B) as (FS & VS). split; [exact FS|]. rewrite VS.
  apply Rle_trans with (1 := ner_rnd (201 / 100) 0 _ (y * y) ltac:(lra) ltac:(lra) K). assert (0 <= u32 * Rabs (y * y)) by (apply Rmult_le_pos; [lra | apply Rabs_pos]). lra.
Qed.
(** sums of non-negative numbers *)
Lemma ner_add c t x a t' y b : 0 <= c <= 10 -> 0 <= t <= 100 * tiny -> 0 <= t' <= 100 * tiny -> ner c t x a -> ner c t' y b -> 0 <= a <= bpow radix2 124 -> 0 <= b <= bpow radix2 124 -> ner (c + 102 / 100) (102 / 100 * (t + t')) (fadd x y) (a + b).
Proof.
  intros C T T' (Fx & Hx) (Fy & Hy) A B. destruct u32_facts as (U0 & U1 & T0 & T1). rewrite (Rabs_pos_eq a) in Hx by lra. rewrite (Rabs_pos_eq b) in Hy by lra.
  assert (S : Rabs (val x + val y - (a + b)) <= c * u32 * (a + b) + (t + t')) by (replace (val x + val y - (a + b)) with ((val x - a) + (val y - b)) by ring; apply Rle_trans with (1 := Rabs_triang _ _); lra).
  set (w := u32 * (a + b)) in * . assert (W : 0 <= w) by (unfold w; apply Rmult_le_pos; lra). assert (W1 : w <= 1 / 16777216 * (a + b)) by (unfold w; apply Rmult_le_compat_r; lra).
  replace (c * u32 * (a + b)) with (c * w) in S by (unfold w; ring). assert (CW : c * w <= 10 * w) by (apply Rmult_le_compat_r; lra).
  assert (TB : 200 * tiny <= bpow radix2 124) by (apply Rle_trans with 1; [lra | apply (bpow_le radix2 0 124); lia]).
  assert (Bg : Rabs (rnd (val x + val y)) < big).
  { apply small_big with 127%Z; [lia|]. apply rnd_small; [lia|]. unfold small. replace (bpow radix2 127) with (8 * bpow radix2 124) by (change 8 with (bpow radix2 3); rewrite <- bpow_plus; reflexivity). apply Rabs_le_iff in S. apply Rabs_le. lra. }
  destruct (add_ok x y Fx Fy Bg) as (F & V). split; [exact F|]. rewrite V. destruct (rnd_error_add x y) as (e & E & ->). rewrite (Rabs_pos_eq (a + b)) by lra.
  assert (P : Rabs ((val x + val y) * e) <= (101 / 100 * (a + b) + (t + t')) * u32). { rewrite Rabs_mult. apply Rmult_le_compat; try apply Rabs_pos; [|exact E]. apply Rabs_le_iff in S. apply Rabs_le. lra. }
  replace ((101 / 100 * (a + b) + (t + t')) * u32) with (101 / 100 * w + (t + t') * u32) in P by (unfold w; ring). assert ((t + t') * u32 <= (t + t') * (1 / 100)) by (apply Rmult_le_compat_l; lra).
  replace ((val x + val y) * (1 + e) - (a + b)) with ((val x + val y - (a + b)) + (val x + val y) * e) by ring. apply Rle_trans with (1 := Rabs_triang _ _). replace ((c + 102 / 100) * u32 * (a + b)) with (c * w + 102 / 100 * w) by (unfold w; ring). lra.
Qed.
(** the quotient by a rounded squared length *)
Section Quot.
Variables (M : b32) (n2 : R).
Hypotheses (FM : fin M) (HM : Rabs (val M - n2) <= 5 * u32 * n2) (N0 : bpow radix2 (-60) <= n2).
Lemma n2_pos : 0 < n2. Proof. pose proof (bpow_gt_0 radix2 (-60)). lra. Qed.
Lemma M_pos : 99 / 100 * n2 <= val M <= 101 / 100 * n2 /\ val M <> 0.
Proof. destruct u32_facts as (U0 & U1 & _). pose proof n2_pos. apply Rabs_le_iff in HM. assert (5 * u32 * n2 <= 1 / 100 * n2) by (apply Rmult_le_compat_r; lra). split; lra. Qed.
Lemma quot_ner c t (x : b32) y : 0 <= c <= 10 -> 0 <= t <= 10 * tiny -> ner c t x y -> Rabs (y / n2) <= bpow radix2 110 -> ner (c + 611 / 100) (110 / 100 * (t / n2) + tiny) (fdiv x M) (y / n2).
Proof.
  intros C T (Fx & H) Q. destruct u32_facts as (U0 & U1 & T0 & T1). pose proof n2_pos as NP. destruct M_pos as (MB & MZ).
  set (w := y / n2) in * . set (s := t / n2). assert (S0 : 0 <= s) by (apply Rmult_le_pos; [lra | apply Rlt_le, Rinv_0_lt_compat, NP]).
  assert (S1 : s <= 1). { unfold s. apply (Rmult_le_reg_r n2); [exact NP|]. replace (t / n2 * n2) with t by (field; lra). rewrite Rmult_1_l. apply Rle_trans with (bpow radix2 (-60)); [|exact N0]. apply Rle_trans with (10 * tiny); [lra|]. unfold tiny. apply Rle_trans with (16 * bpow radix2 (-150)); [pose proof (bpow_ge_0 radix2 (-150)); lra|]. change 16 with (bpow radix2 4). rewrite <- bpow_plus. apply bpow_le. lia. }
  assert (K : Rabs (val x / val M - w) <= (c + 502 / 100) * u32 * Rabs w + 102 / 100 * s).
  { set (r := val M / n2). assert (R0 : Rabs (r - 1) <= 5 * u32) by (replace (r - 1) with ((val M - n2) / n2) by (unfold r; field; lra); unfold Rdiv; rewrite Rabs_mult, (Rabs_pos_eq (/ n2)) by (apply Rlt_le, Rinv_0_lt_compat, NP); apply (Rmult_le_reg_r n2); [exact NP|]; rewrite Rmult_assoc, Rinv_l, Rmult_1_r by lra; exact HM).
    set (g := val x / n2). assert (G : Rabs (g - w) <= c * u32 * Rabs w + s).
    { replace (g - w) with ((val x - y) / n2) by (unfold g, w; field; lra). unfold Rdiv. rewrite Rabs_mult, (Rabs_pos_eq (/ n2)) by (apply Rlt_le, Rinv_0_lt_compat, NP). apply (Rmult_le_reg_r n2); [exact NP|]. rewrite Rmult_assoc, Rinv_l, Rmult_1_r by lra.
      replace ((c * u32 * Rabs w + s) * n2) with (c * u32 * (Rabs w * n2) + t) by (unfold s; field; lra). replace (Rabs w * n2) with (Rabs y); [exact H|]. rewrite <- (Rabs_pos_eq n2) at 1 by lra. rewrite <- Rabs_mult. f_equal. unfold w. field. lra. }
    assert (RP : 999 / 1000 <= r) by (apply Rabs_le_iff in R0; lra). assert (RZ : r <> 0) by lra.
    replace (val x / val M - w) with ((g - w - w * (r - 1)) * / r) by (unfold g, r; field; split; [exact MZ | lra]). rewrite Rabs_mult.
    assert (IR : Rabs (/ r) <= 1 + 6 * u32). { rewrite Rabs_pos_eq by (apply Rlt_le, Rinv_0_lt_compat; lra). apply (Rmult_le_reg_r r); [lra|]. rewrite Rinv_l by lra. apply Rabs_le_iff in R0. assert ((1 + 6 * u32) * (1 - 5 * u32) <= (1 + 6 * u32) * r) by (apply Rmult_le_compat_l; lra). assert (u32 * u32 <= 1 / 1000 * u32) by (apply Rmult_le_compat_r; lra). lra. }
    assert (NU : Rabs (g - w - w * (r - 1)) <= (c + 5) * (u32 * Rabs w) + s). { unfold Rminus at 1. apply Rle_trans with (1 := Rabs_triang _ _). rewrite Rabs_Ropp, Rabs_mult. assert (Rabs w * Rabs (r - 1) <= Rabs w * (5 * u32)) by (apply Rmult_le_compat_l; [apply Rabs_pos | exact R0]). lra. }
    set (v := u32 * Rabs w) in * . assert (V : 0 <= v) by (unfold v; apply Rmult_le_pos; [lra | apply Rabs_pos]).
    apply Rle_trans with (((c + 5) * v + s) * (1 + 6 * u32)); [apply Rmult_le_compat; try apply Rabs_pos; assumption|].
    assert (CV : 0 <= (c + 5) * v <= 15 * v) by (split; [apply Rmult_le_pos; lra | apply Rmult_le_compat_r; lra]).
    assert (((c + 5) * v + s) * (6 * u32) <= ((c + 5) * v + s) * (1 / 1000)) by (apply Rmult_le_compat_l; lra). replace ((c + 502 / 100) * u32 * Rabs w) with ((c + 5) * v + 2 / 100 * v) by (unfold v; field). lra. }
  destruct (div_ok x M Fx MZ) as (F & V).
  { apply (ner_big (c + 502 / 100) (102 / 100 * s) _ w 110); [lra | exact K | | exact Q | lia]. apply Rle_trans with 2; [lra|]. apply (bpow_le radix2 1 110). lia. }
  split; [exact F|]. rewrite V. fold s. apply Rle_trans with (1 := ner_rnd (c + 502 / 100) (102 / 100 * s) _ w ltac:(lra) ltac:(lra) K). assert (0 <= u32 * Rabs w) by (apply Rmult_le_pos; [lra | apply Rabs_pos]). lra.
Qed.
End Quot.
Lemma ner_sq0 (x : b32) : fin x -> Rabs (val x) <= bpow radix2 60 -> ner (101 / 100) tiny (fmul x x) (val x * val x).
Proof.
  intros F X. destruct u32_facts as (U0 & U1 & T0 & T1).
  destruct (mul_ok x x F F) as (FS & VS). { apply small_big with 120%Z; [lia|]. apply rnd_small; [lia|]. apply (small_mul _ _ 60 60); exact X. }
  split; [exact FS|]. rewrite VS. apply Rle_trans with (1 := ner_rnd 0 0 _ (val x * val x) ltac:(lra) ltac:(lra) ltac:(rewrite Rminus_eq_0, Rabs_R0; lra)). assert (0 <= u32 * Rabs (val x * val x)) by (apply Rmult_le_pos; [lra | apply Rabs_pos]). lra.
Qed.
Lemma tiny_far : 64 * tiny <= bpow radix2 (-144). Proof. unfold tiny. change 64 with (bpow radix2 6). rewrite <- bpow_plus. apply bpow_le. lia. Qed.
(** the largest squared length, rounded *)
Lemma ner_max c t (x y : b32) a b n : 0 <= c <= 49 / 10 -> t <= 64 * tiny -> ner c t x a -> ner c t y b -> 0 <= a -> 0 <= b -> n = Rmax a b -> bpow radix2 (-60) <= n -> fin (fmax x y) /\ Rabs (val (fmax x y) - n) <= 5 * u32 * n.
Proof.
  intros C T (Fx & Hx) (Fy & Hy) A B N N0. destruct (fmax_fin32 x y Fx Fy) as (F & V). split; [exact F|]. rewrite V. clear V F. destruct u32_facts as (U0 & U1 & T0 & T1).
  assert (TN : 64 * tiny <= 1 / 10 * u32 * n).
  { apply Rle_trans with (1 := tiny_far). apply Rle_trans with (1 / 10 * u32 * bpow radix2 (-60)); [|apply Rmult_le_compat_l; lra]. unfold u32. change (-144)%Z with (-84 + -60)%Z. rewrite bpow_plus. apply Rmult_le_compat_r; [apply bpow_ge_0|]. apply Rle_trans with (bpow radix2 (-40)); [apply bpow_le; lia | cbn; lra]. }
  rewrite (Rabs_pos_eq a) in Hx by lra. rewrite (Rabs_pos_eq b) in Hy by lra. apply Rabs_le_iff in Hx. apply Rabs_le_iff in Hy.
  assert (CU : 0 <= c * u32) by (apply Rmult_le_pos; lra). assert (CN : c * u32 * n <= 49 / 10 * u32 * n) by (apply Rmult_le_compat_r; [pose proof (bpow_gt_0 radix2 (-60)); lra | apply Rmult_le_compat_r; lra]).
  assert (LA : a <= n) by (rewrite N; apply Rmax_l). assert (LB : b <= n) by (rewrite N; apply Rmax_r).
  assert (HA : c * u32 * a <= c * u32 * n) by (apply Rmult_le_compat_l; assumption). assert (HB : c * u32 * b <= c * u32 * n) by (apply Rmult_le_compat_l; assumption).
  apply Rabs_le. unfold Rmax in N |- * . destruct (Rle_dec (val x) (val y)), (Rle_dec a b); subst n; lra.
Qed.
Section Verdict.
Variables (M E tol : b32) (n2 d2 : R).
Hypotheses (FM : fin M) (HM : Rabs (val M - n2) <= 5 * u32 * n2) (N0 : bpow radix2 (-60) <= n2) (HE : ner (62 / 10) (10 * tiny) E d2) (D0 : 0 <= d2 <= 4 * n2) (Ft : fin tol) (Tt : bpow radix2 (-24) <= val tol <= bpow radix2 10).
Let Q := d2 / n2.
Let P2 := val tol * val tol.
Lemma Q_range : 0 <= Q <= 4.
Proof. pose proof (n2_pos n2 N0). unfold Q. split; [apply Rmult_le_pos; [lra | apply Rlt_le, Rinv_0_lt_compat; lra]|]. apply (Rmult_le_reg_r n2); [lra|]. unfold Rdiv. rewrite Rmult_assoc, Rinv_l by lra. lra. Qed.
Lemma P2_low : bpow radix2 (-48) <= P2.
Proof. unfold P2. change (-48)%Z with (-24 + -24)%Z. rewrite bpow_plus. pose proof (bpow_ge_0 radix2 (-24)). apply Rmult_le_compat; lra. Qed.
Lemma tol_sq : fin (fmul tol tol) /\ Rabs (val (fmul tol tol) - P2) <= 102 / 100 * u32 * P2.
Proof.
  destruct u32_facts as (U0 & U1 & T0 & T1). pose proof (bpow_gt_0 radix2 (-24)). assert (A : Rabs (val tol) <= bpow radix2 60) by (rewrite Rabs_pos_eq by lra; apply Rle_trans with (bpow radix2 10); [lra | apply bpow_le; lia]).
  destruct (ner_sq0 tol Ft A) as (F & V). split; [exact F|]. fold P2 in V. pose proof P2_low as L. pose proof (bpow_gt_0 radix2 (-48)). rewrite (Rabs_pos_eq P2) in V by lra.
  assert (tiny <= 1 / 100 * u32 * P2). { apply Rle_trans with (1 / 100 * u32 * bpow radix2 (-48)); [|apply Rmult_le_compat_l; lra]. unfold tiny, u32. change (-150)%Z with (-102 + -48)%Z. rewrite bpow_plus. apply Rmult_le_compat_r; [lra|]. apply Rle_trans with (bpow radix2 (-40)); [apply bpow_le; lia | cbn; lra]. }
  lra.
Qed.
Lemma slack : bpow radix2 (-84) <= 1 / 10 * u32 * P2.
Proof. pose proof P2_low. destruct u32_facts as (U0 & _). apply Rle_trans with (1 / 10 * u32 * bpow radix2 (-48)); [|apply Rmult_le_compat_l; lra]. unfold u32. change (-84)%Z with (-36 + -48)%Z. rewrite bpow_plus. apply Rmult_le_compat_r; [apply bpow_ge_0|]. cbn. lra. Qed.
Lemma quot_ok : fin (fdiv E M) /\ Rabs (val (fdiv E M) - Q) <= 125 / 10 * u32 * Q + bpow radix2 (-84).
Proof.
  destruct u32_facts as (U0 & U1 & T0 & T1). pose proof Q_range as QR. pose proof (n2_pos n2 N0) as NP.
  destruct (quot_ner M n2 HM N0 (62 / 10) (10 * tiny) E d2 ltac:(lra) ltac:(lra) HE) as (F & V).
  { fold Q. rewrite Rabs_pos_eq by lra. apply Rle_trans with (bpow radix2 2); [cbn; lra | apply bpow_le; lia]. }
  split; [exact F|]. fold Q in V. rewrite (Rabs_pos_eq Q) in V by lra.
  assert (S : 10 * tiny / n2 <= bpow radix2 (-85)).
  { apply (Rmult_le_reg_r n2); [exact NP|]. unfold Rdiv. rewrite Rmult_assoc, Rinv_l, Rmult_1_r by lra. apply Rle_trans with (bpow radix2 (-85) * bpow radix2 (-60)); [|apply Rmult_le_compat_l; [apply bpow_ge_0 | exact N0]]. rewrite <- bpow_plus. apply Rle_trans with (16 * tiny); [lra|]. unfold tiny. change 16 with (bpow radix2 4). rewrite <- bpow_plus. apply bpow_le. lia. }
  assert (T84 : tiny <= 1 / 100 * bpow radix2 (-85)). { unfold tiny. change (-150)%Z with (-65 + -85)%Z. rewrite bpow_plus. apply Rmult_le_compat_r; [apply bpow_ge_0 | cbn; lra]. }
  replace (bpow radix2 (-84)) with (2 * bpow radix2 (-85)) by (change 2 with (bpow radix2 1); rewrite <- bpow_plus; reflexivity). assert (0 <= u32 * Q) by (apply Rmult_le_pos; lra). pose proof (bpow_ge_0 radix2 (-85)). lra.
Qed.
Lemma below x : Rabs (val x - Q) <= 125 / 10 * u32 * Q + bpow radix2 (-84) \/ (val x <= Q + 125 / 10 * u32 * Q + bpow radix2 (-84)) -> fin x -> Q <= (1 - 16 * u32) * P2 -> flt (fmul tol tol) x = false.
Proof.
  intros H F L. destruct u32_facts as (U0 & U1 & T0 & T1). destruct tol_sq as (FT & VT). rewrite (flt_fin _ _ FT F). apply Rltb_false. apply Rabs_le_iff in VT. pose proof slack. pose proof P2_low. pose proof (bpow_gt_0 radix2 (-48)). pose proof Q_range.
  assert (H' : val x <= Q + 125 / 10 * u32 * Q + bpow radix2 (-84)) by (destruct H as [H|H]; [apply Rabs_le_iff in H; lra | exact H]).
  assert (U2 : 0 <= u32 * P2) by (apply Rmult_le_pos; lra). assert (U3 : u32 * u32 * P2 <= 1 / 1000 * u32 * P2) by (apply Rmult_le_compat_r; [lra|]; apply Rmult_le_compat_r; lra). assert (0 <= u32 * u32 * P2) by (apply Rmult_le_pos; [apply Rmult_le_pos; lra | lra]).
  assert (u32 * Q <= u32 * ((1 - 16 * u32) * P2)) by (apply Rmult_le_compat_l; lra). lra.
Qed.
Lemma quot_low : Q <= (1 - 16 * u32) * P2 -> flt (fmul tol tol) (fdiv E M) = false.
Proof. destruct quot_ok as (F & V). apply below; [left; exact V | exact F]. Qed.
Lemma quot_high : flt (fmul tol tol) (fdiv E M) = false -> Q <= (1 + 16 * u32) * P2.
Proof.
  destruct quot_ok as (F & V). destruct u32_facts as (U0 & U1 & T0 & T1). destruct tol_sq as (FT & VT). rewrite (flt_fin _ _ FT F). intro H. destruct (Rltb_spec (val (fmul tol tol)) (val (fdiv E M))) as [|L]; [discriminate|]. apply Rnot_lt_le in L || idtac.
  apply Rabs_le_iff in V. apply Rabs_le_iff in VT. pose proof slack. pose proof P2_low. pose proof (bpow_gt_0 radix2 (-48)). pose proof Q_range.
  assert (K : Q * (1 - 125 / 10 * u32) <= P2 * (1 + 113 / 100 * u32)) by lra.
  apply (Rmult_le_reg_r (1 - 125 / 10 * u32)); [lra|]. apply Rle_trans with (1 := K). assert (U2 : 0 <= u32 * P2) by (apply Rmult_le_pos; lra).
  assert (U3 : u32 * (u32 * P2) <= 1 / 1000 * (u32 * P2)) by (apply Rmult_le_compat_r; lra). replace ((1 + 16 * u32) * P2 * (1 - 125 / 10 * u32)) with (P2 + 35 / 10 * (u32 * P2) - 200 * (u32 * (u32 * P2))) by field. lra.
Qed.
(** one component: its own check never fails when the whole is clearly within *)
Lemma comp_low (e : b32) x : ner 1 0 e x -> Rabs x <= bpow radix2 61 -> x * x <= d2 -> Q <= (1 - 16 * u32) * P2 -> flt (fmul tol tol) (fmul e (fdiv e M)) = false.
Proof.
  intros NE X XD. destruct u32_facts as (U0 & U1 & T0 & T1). pose proof Q_range as QR. pose proof (n2_pos n2 N0) as NP. set (w := x / n2).
  assert (I60 : / n2 <= bpow radix2 60) by (change 60%Z with (- (-60))%Z; rewrite bpow_opp; apply Rinv_le_contravar; [apply bpow_gt_0 | exact N0]). assert (IP : 0 < / n2) by (apply Rinv_0_lt_compat, NP).
  assert (W : Rabs w <= bpow radix2 110 ). 
  { unfold w, Rdiv. rewrite Rabs_mult, (Rabs_pos_eq (/ n2)) by lra. assert (X2 : Rabs x * Rabs x <= 4 * n2) by (rewrite <- Rabs_mult, Rabs_pos_eq by apply Rle_0_sqr; lra).
    assert (Y : Rabs x * / n2 * (Rabs x * / n2) <= 4 * bpow radix2 60). { replace (Rabs x * / n2 * (Rabs x * / n2)) with ((Rabs x * Rabs x) * / n2 * / n2) by ring. apply Rle_trans with (4 * n2 * / n2 * / n2); [apply Rmult_le_compat_r; [lra|]; apply Rmult_le_compat_r; lra|]. replace (4 * n2 * / n2) with 4 by (field; lra). lra. }
    apply Rnot_lt_le. intro G. assert (bpow radix2 110 * bpow radix2 110 <= Rabs x * / n2 * (Rabs x * / n2)) by (pose proof (bpow_ge_0 radix2 110); apply Rmult_le_compat; lra). rewrite <- bpow_plus in H. assert (4 * bpow radix2 60 < bpow radix2 (110 + 110)) by (change 4 with (bpow radix2 2); rewrite <- bpow_plus; apply bpow_lt; lia). lra. }
  destruct (quot_ner M n2 HM N0 1 0 e x ltac:(lra) ltac:(lra) NE W) as (FQ & VQ). fold w in VQ. destruct NE as (Fe & He). replace (110 / 100 * (0 / n2) + tiny) with tiny in VQ by (unfold Rdiv; ring). rewrite Rplus_0_r, Rmult_1_l in He.
  set (r := fdiv e M) in * . set (z := x * w). assert (Z : 0 <= z <= Q). { unfold z, w, Q. replace (x * (x / n2)) with ((x * x) / n2) by (field; lra). pose proof (Rle_0_sqr x) as S. unfold Rsqr in S. split; [apply Rmult_le_pos; lra | apply Rmult_le_compat_r; lra]. }
  assert (AZ : Rabs x * Rabs w = z) by (rewrite <- Rabs_mult; apply Rabs_pos_eq, Z).
  assert (K : Rabs (val e * val r - z) <= (82 / 10) * u32 * Rabs z + bpow radix2 (-86)).
  { rewrite (Rabs_pos_eq z) by lra. replace (val e * val r - z) with ((val e - x) * val r + x * (val r - w)) by (unfold z; ring). apply Rle_trans with (1 := Rabs_triang _ _). rewrite !Rabs_mult.
    assert (R1 : Rabs (val r) <= 101 / 100 * Rabs w + tiny). { replace (val r) with ((val r - w) + w) by ring. apply Rle_trans with (1 := Rabs_triang _ _). assert (u32 * Rabs w <= 1 / 1000 * Rabs w) by (apply Rmult_le_compat_r; [apply Rabs_pos | lra]). pose proof (Rabs_pos w). lra. }
    assert (A1 : Rabs (val e - x) * Rabs (val r) <= u32 * Rabs x * (101 / 100 * Rabs w + tiny)) by (apply Rmult_le_compat; try apply Rabs_pos; assumption).
    assert (A2 : Rabs x * Rabs (val r - w) <= Rabs x * ((1 + 611 / 100) * u32 * Rabs w + tiny)) by (apply Rmult_le_compat_l; [apply Rabs_pos | exact VQ]).
    replace (u32 * Rabs x * (101 / 100 * Rabs w + tiny)) with (101 / 100 * u32 * z + u32 * (Rabs x * tiny)) in A1 by (rewrite <- AZ; ring). replace (Rabs x * ((1 + 611 / 100) * u32 * Rabs w + tiny)) with (711 / 100 * u32 * z + Rabs x * tiny) in A2 by (rewrite <- AZ; field).
    assert (XT : 0 <= Rabs x * tiny <= bpow radix2 (-89)) by (split; [apply Rmult_le_pos; [apply Rabs_pos | lra] | unfold tiny; change (-89)%Z with (61 + -150)%Z; rewrite bpow_plus; apply Rmult_le_compat_r; [apply bpow_ge_0 | exact X]]). assert (u32 * (Rabs x * tiny) <= 1 * (Rabs x * tiny)) by (apply Rmult_le_compat_r; lra).
    replace (bpow radix2 (-86)) with (8 * bpow radix2 (-89)) by (change 8 with (bpow radix2 3); rewrite <- bpow_plus; reflexivity). assert (0 <= u32 * z) by (apply Rmult_le_pos; lra). lra. }
  assert (B86 : 0 < bpow radix2 (-86)) by apply bpow_gt_0. destruct (mul_ok e r Fe FQ) as (F & V).
  { apply (ner_big (82 / 10) (bpow radix2 (-86)) _ z 10); [lra | exact K | apply bpow_le; lia | rewrite Rabs_pos_eq by lra; apply Rle_trans with 4; [lra | apply (bpow_le radix2 2 10); lia] | lia]. }
  apply below; [right | exact F]. rewrite V. pose proof (ner_rnd (82 / 10) (bpow radix2 (-86)) _ z ltac:(lra) ltac:(lra) K) as B. rewrite (Rabs_pos_eq z) in B by lra. apply Rabs_le_iff in B.
  assert (T86 : tiny <= bpow radix2 (-86)) by (unfold tiny; apply bpow_le; lia). replace (bpow radix2 (-84)) with (4 * bpow radix2 (-86)) by (change 4 with (bpow radix2 2); rewrite <- bpow_plus; reflexivity). assert (0 <= u32 * z <= u32 * Q) by (split; [apply Rmult_le_pos; lra | apply Rmult_le_compat_l; lra]). lra.
Qed.
End Verdict.
Lemma norm_form D N t n2 d2 : 0 < N -> 0 <= D -> 0 < t -> N * N = n2 -> D * D = d2 ->
  (D <= (1 - 9 * u32) * t * N -> d2 / n2 <= (1 - 16 * u32) * (t * t)) /\ (d2 / n2 <= (1 + 16 * u32) * (t * t) -> D <= (1 + 9 * u32) * t * N).
Proof.
  intros NP DP TP <- <-. destruct u32_facts as (U0 & U1 & _). set (r := D / N). assert (RP : 0 <= r) by (apply Rmult_le_pos; [exact DP | apply Rlt_le, Rinv_0_lt_compat, NP]). assert (RD : D = r * N) by (unfold r; field; lra).
  replace (D * D / (N * N)) with (r * r) by (unfold r; field; lra). split; intro H.
  - assert (L : r <= (1 - 9 * u32) * t) by (apply (Rmult_le_reg_r N); [exact NP|]; rewrite <- RD; exact H).
    apply Rle_trans with ((1 - 9 * u32) * t * ((1 - 9 * u32) * t)); [apply Rmult_le_compat; assumption|]. replace ((1 - 9 * u32) * t * ((1 - 9 * u32) * t)) with ((1 - 9 * u32) * (1 - 9 * u32) * (t * t)) by ring. apply Rmult_le_compat_r; [apply Rlt_le, Rmult_lt_0_compat; exact TP|].
    assert (u32 * u32 <= 1 / 1000 * u32) by (apply Rmult_le_compat_r; lra). lra.
  - rewrite RD. apply Rmult_le_compat_r; [lra|]. apply Rnot_lt_le. intro L. assert (P : 0 <= (1 + 9 * u32) * t) by (apply Rmult_le_pos; lra).
    assert ((1 + 9 * u32) * t * ((1 + 9 * u32) * t) < r * r) by (apply Rmult_le_0_lt_compat; lra). replace ((1 + 9 * u32) * t * ((1 + 9 * u32) * t)) with ((1 + 9 * u32) * (1 + 9 * u32) * (t * t)) in H0 by ring.
    assert ((1 + 16 * u32) * (t * t) <= (1 + 9 * u32) * (1 + 9 * u32) * (t * t)) by (apply Rmult_le_compat_r; [apply Rlt_le, Rmult_lt_0_compat; exact TP|]; assert (0 <= u32 * u32) by (apply Rmult_le_pos; lra); lra). lra.
Qed.
Lemma max_sq a b : 0 <= a -> 0 <= b -> Rmax a b * Rmax a b = Rmax (a * a) (b * b).
Proof.
  intros A B. unfold Rmax. destruct (Rle_dec a b) as [L|L], (Rle_dec (a * a) (b * b)) as [M|M]; try reflexivity.
  - exfalso. apply M. apply Rmult_le_compat; assumption.
  - apply Rle_antisym; [exact M | apply Rmult_le_compat; lra].
Qed.
Lemma bounds_N N : bpow radix2 (-30) <= N <= bpow radix2 59 -> 0 < N /\ bpow radix2 (-60) <= N * N /\ 2 * N <= bpow radix2 60 /\ N * N <= bpow radix2 118.
Proof.
  intros (A & B). pose proof (bpow_gt_0 radix2 (-30)) as P. split; [lra|]. split; [change (-60)%Z with (-30 + -30)%Z; rewrite bpow_plus; apply Rmult_le_compat; lra|]. split; [change 60%Z with (1 + 59)%Z; rewrite bpow_plus; change (bpow radix2 1) with 2; lra|].
  change 118%Z with (59 + 59)%Z. rewrite bpow_plus. apply Rmult_le_compat; lra.
Qed.
Lemma sq_pos x : 0 <= x * x. Proof. exact (Rle_0_sqr x). Qed.

(** Vec2: with the longer of the two lengths N in [2^-30, 2^59] and a tolerance in [2^-24, 2^10], approx_eq_tolerance decides |a - b| <= tol * N up to
    9 units of relative error 2^-24. *)
Theorem C37_f32_vec2_accuracy : forall (a b : vec2 b32) (tol : b32), fin2 a -> fin2 b -> fin tol -> let N := Rmax (norm (rval a)) (norm (rval b)) in let D := norm (psub (rval a) (rval b)) in
  bpow radix2 (-30) <= N <= bpow radix2 59 -> bpow radix2 (-24) <= val tol <= bpow radix2 10 ->
  (D <= (1 - 9 * u32) * val tol * N -> approx_eq_tolerance2 a b tol = true) /\ (approx_eq_tolerance2 a b tol = true -> D <= (1 + 9 * u32) * val tol * N).
Proof.
  intros a b tol (Ax & Ay) (Bx & By) Ft N D NR TR. destruct (bounds_N N NR) as (NP & N0 & N2 & N4). pose proof (bpow_gt_0 radix2 (-24)) as P24. destruct u32_facts as (U0 & U1 & T0 & T1).
  pose proof (Rmax_l (norm (rval a)) (norm (rval b))) as LA. pose proof (Rmax_r (norm (rval a)) (norm (rval b))) as LB. fold N in LA, LB.
  assert (CA : Rabs (val (vx a)) <= N /\ Rabs (val (vy a)) <= N) by (split; [apply Rle_trans with (2 := LA); apply (norm_x (rval a)) | apply Rle_trans with (2 := LA); apply (norm_y (rval a))]).
  assert (CB : Rabs (val (vx b)) <= N /\ Rabs (val (vy b)) <= N) by (split; [apply Rle_trans with (2 := LB); apply (norm_x (rval b)) | apply Rle_trans with (2 := LB); apply (norm_y (rval b))]).
  destruct CA as (CA1 & CA2). destruct CB as (CB1 & CB2).
  assert (DN : 0 <= D <= 2 * N). { split; [apply norm_nonneg|]. unfold D. pose proof (norm_triangle (rval a) (pneg (rval b))) as T. rewrite norm_neg in T. replace (padd (rval a) (pneg (rval b))) with (psub (rval a) (rval b)) in T by (apply pt_eq; unfold padd, pneg, psub; cbn [fst snd]; ring). lra. }
  assert (W : forall r, r <= N -> r <= bpow radix2 60) by (intros; lra). assert (W1 : bpow radix2 60 <= bpow radix2 100) by (apply bpow_le; lia). assert (W2 : bpow radix2 118 * 4 <= bpow radix2 124) by (change 4 with (bpow radix2 2); rewrite <- bpow_plus; apply bpow_le; lia). assert (W3 : bpow radix2 60 <= bpow radix2 61) by (apply bpow_le; lia).
  set (n2 := N * N) in * . set (d2 := D * D).
  assert (D2 : 0 <= d2 <= 4 * n2) by (split; [apply sq_pos|]; unfold d2, n2; replace (4 * (N * N)) with (2 * N * (2 * N)) by ring; apply Rmult_le_compat; lra).
  (* the squared lengths *)
  assert (LQ : forall v : vec2 b32, fin (vx v) -> fin (vy v) -> Rabs (val (vx v)) <= N -> Rabs (val (vy v)) <= N -> ner (203 / 100) (3 * tiny) (v2lensq v) (norm (rval v) * norm (rval v))).
  { intros v F1 F2 B1 B2. rewrite norm_sq. destruct (ner_add (101 / 100) tiny _ _ tiny _ _ ltac:(lra) ltac:(lra) ltac:(lra) (ner_sq0 (vx v) F1 ltac:(auto)) (ner_sq0 (vy v) F2 ltac:(auto))) as (FS & VS).
    - split; [apply sq_pos|]. rewrite <- (Rabs_pos_eq (val (vx v) * val (vx v))) by apply sq_pos. rewrite Rabs_mult. apply Rle_trans with n2; [apply Rmult_le_compat; try apply Rabs_pos; assumption | pose proof (bpow_ge_0 radix2 118); lra].
    - split; [apply sq_pos|]. rewrite <- (Rabs_pos_eq (val (vy v) * val (vy v))) by apply sq_pos. rewrite Rabs_mult. apply Rle_trans with n2; [apply Rmult_le_compat; try apply Rabs_pos; assumption | pose proof (bpow_ge_0 radix2 118); lra].
    - split; [exact FS|]. unfold v2lensq, v2dot. unfold pdot, rval; cbn [fst snd]. eapply Rle_trans; [exact VS|]. lra. }
  destruct (ner_max (203 / 100) (3 * tiny) (v2lensq a) (v2lensq b) (norm (rval a) * norm (rval a)) (norm (rval b) * norm (rval b)) n2 ltac:(lra) ltac:(lra) (LQ a Ax Ay CA1 CA2) (LQ b Bx By CB1 CB2) (sq_pos _) (sq_pos _) (max_sq _ _ (norm_nonneg _) (norm_nonneg _)) N0) as (FM & HM).
  set (M := fmax (v2lensq a) (v2lensq b)) in * . destruct (M_pos M n2 HM N0) as (MB & MZ).
  (* the error *)
  pose proof (ner_sub (vx a) (vx b) Ax Bx ltac:(pose proof (W _ CA1); lra) ltac:(pose proof (W _ CB1); lra)) as EX. pose proof (ner_sub (vy a) (vy b) Ay By ltac:(pose proof (W _ CA2); lra) ltac:(pose proof (W _ CB2); lra)) as EY.
  set (x := val (vx a) - val (vx b)) in * . set (y := val (vy a) - val (vy b)) in * .
  assert (XY : x * x + y * y = d2) by (unfold d2, D; rewrite norm_sq; reflexivity).
  assert (X1 : Rabs x <= bpow radix2 61) by (apply Rle_trans with D; [apply (norm_x (psub (rval a) (rval b))) | lra]). assert (Y1 : Rabs y <= bpow radix2 61) by (apply Rle_trans with D; [apply (norm_y (psub (rval a) (rval b))) | lra]).
  pose proof (sq_pos x) as SX. pose proof (sq_pos y) as SY. pose proof (bpow_ge_0 radix2 118) as P118.
  assert (HE : ner (62 / 10) (10 * tiny) (v2lensq (v2sub a b)) d2).
  { destruct (ner_add (302 / 100) (102 / 100 * tiny) _ _ (102 / 100 * tiny) _ _ ltac:(lra) ltac:(lra) ltac:(lra) (ner_sq _ _ EX X1) (ner_sq _ _ EY Y1)) as (FS & VS); [lra | lra |]. rewrite XY in VS. split; [exact FS|]. eapply Rle_trans; [exact VS|].
    assert (0 <= u32 * Rabs d2) by (apply Rmult_le_pos; [lra | apply Rabs_pos]). lra. }
  destruct (norm_form D N (val tol) n2 d2 NP (proj1 DN) ltac:(lra) eq_refl eq_refl) as (NF1 & NF2).
  unfold approx_eq_tolerance2. cbv zeta. fold M. assert (FO : fin (f0 : b32)) by reflexivity. rewrite (feq_fin M f0 FM FO). change (val f0) with 0. rewrite (Reqb_false _ _ MZ).
  change (vx (v2sub a b)) with (fsub (vx a) (vx b)). change (vy (v2sub a b)) with (fsub (vy a) (vy b)). rewrite (fin_nan _ (proj1 EX)), (fin_nan _ (proj1 EY)), (fin_inf _ (proj1 EX)), (fin_inf _ (proj1 EY)). cbn [orb].
  split; intro H.
  - apply NF1 in H. rewrite (quot_low M _ tol n2 d2 HM N0 HE D2 Ft TR H). rewrite (comp_low M tol n2 d2 HM N0 D2 Ft TR _ x EX X1 ltac:(lra) H), (comp_low M tol n2 d2 HM N0 D2 Ft TR _ y EY Y1 ltac:(lra) H). reflexivity.
  - apply NF2. apply (quot_high M _ tol n2 d2 HM N0 HE D2 Ft TR). destruct (flt (fmul tol tol) (fdiv (v2lensq (v2sub a b)) M)); [discriminate H | reflexivity].
Qed.
Print Assumptions C37_f32_vec2_accuracy.

(** Vec3: the same *)
Theorem C37_f32_vec3_accuracy : forall (a b : vec3 b32) (tol : b32), fin3 a -> fin3 b -> fin tol -> let N := Rmax (norm3 (rval3 a)) (norm3 (rval3 b)) in let D := norm3 (sub3 (rval3 a) (rval3 b)) in
  bpow radix2 (-30) <= N <= bpow radix2 59 -> bpow radix2 (-24) <= val tol <= bpow radix2 10 ->
  (D <= (1 - 9 * u32) * val tol * N -> approx_eq_tolerance3 a b tol = true) /\ (approx_eq_tolerance3 a b tol = true -> D <= (1 + 9 * u32) * val tol * N).
Proof.
  intros a b tol (Ax & Ay & Az) (Bx & By & Bz) Ft N D NR TR. destruct (bounds_N N NR) as (NP & N0 & N2 & N4). pose proof (bpow_gt_0 radix2 (-24)) as P24. destruct u32_facts as (U0 & U1 & T0 & T1).
  pose proof (Rmax_l (norm3 (rval3 a)) (norm3 (rval3 b))) as LA. pose proof (Rmax_r (norm3 (rval3 a)) (norm3 (rval3 b))) as LB. fold N in LA, LB.
  destruct (coord_le_norm3 (rval3 a)) as (CA1 & CA2 & CA3). destruct (coord_le_norm3 (rval3 b)) as (CB1 & CB2 & CB3). unfold rval3, x3, y3, z3 in CA1, CA2, CA3, CB1, CB2, CB3. cbn [fst snd] in CA1, CA2, CA3, CB1, CB2, CB3. fold (rval3 a) in CA1, CA2, CA3. fold (rval3 b) in CB1, CB2, CB3.
  apply (fun H => Rle_trans _ _ _ H LA) in CA1. apply (fun H => Rle_trans _ _ _ H LA) in CA2. apply (fun H => Rle_trans _ _ _ H LA) in CA3. apply (fun H => Rle_trans _ _ _ H LB) in CB1. apply (fun H => Rle_trans _ _ _ H LB) in CB2. apply (fun H => Rle_trans _ _ _ H LB) in CB3.
  assert (DN : 0 <= D <= 2 * N). { split; [apply norm3_nonneg|]. unfold D. pose proof (norm3_triangle (rval3 a) (neg3 (rval3 b))) as T. rewrite norm3_neg in T. replace (add3 (rval3 a) (neg3 (rval3 b))) with (sub3 (rval3 a) (rval3 b)) in T by (apply pt3_eq; unfold add3, neg3, sub3, x3, y3, z3; cbn [fst snd]; ring). lra. }
  assert (W : forall r, r <= N -> r <= bpow radix2 60) by (intros; lra). assert (W1 : bpow radix2 60 <= bpow radix2 100) by (apply bpow_le; lia). assert (W2 : bpow radix2 118 * 16 <= bpow radix2 124) by (change 16 with (bpow radix2 4); rewrite <- bpow_plus; apply bpow_le; lia). assert (W3 : bpow radix2 60 <= bpow radix2 61) by (apply bpow_le; lia).
  set (n2 := N * N) in * . set (d2 := D * D).
  assert (D2 : 0 <= d2 <= 4 * n2) by (split; [apply sq_pos|]; unfold d2, n2; replace (4 * (N * N)) with (2 * N * (2 * N)) by ring; apply Rmult_le_compat; lra). pose proof (bpow_ge_0 radix2 118) as P118.
  assert (SQ : forall r, Rabs r <= N -> 0 <= r * r <= n2). { intros r Hr. split; [apply sq_pos|]. rewrite <- (Rabs_pos_eq (r * r)) by apply sq_pos. rewrite Rabs_mult. apply Rmult_le_compat; try apply Rabs_pos; assumption. }
  (* the squared lengths *)
  assert (LQ : forall v : vec3 b32, fin (wx v) -> fin (wy v) -> fin (wz v) -> Rabs (val (wx v)) <= N -> Rabs (val (wy v)) <= N -> Rabs (val (wz v)) <= N -> ner (305 / 100) (5 * tiny) (v3lensq v) (norm3 (rval3 v) * norm3 (rval3 v))).
  { intros v F1 F2 F3 B1 B2 B3. rewrite norm3_sq. destruct (SQ _ B1) as (S1 & S1'). destruct (SQ _ B2) as (S2 & S2'). destruct (SQ _ B3) as (S3 & S3').
    pose proof (ner_add (101 / 100) tiny _ _ tiny _ _ ltac:(lra) ltac:(lra) ltac:(lra) (ner_sq0 (wx v) F1 ltac:(auto)) (ner_sq0 (wy v) F2 ltac:(auto)) ltac:(lra) ltac:(lra)) as K.
    assert (K3 : ner (101 / 100 + 102 / 100) tiny (fmul (wz v) (wz v)) (val (wz v) * val (wz v))). { destruct (ner_sq0 (wz v) F3 ltac:(auto)) as (G & H). split; [exact G|]. assert (0 <= u32 * Rabs (val (wz v) * val (wz v))) by (apply Rmult_le_pos; [lra | apply Rabs_pos]). lra. }
    destruct (ner_add (101 / 100 + 102 / 100) (102 / 100 * (tiny + tiny)) _ _ tiny _ _ ltac:(lra) ltac:(lra) ltac:(lra) K K3 ltac:(lra) ltac:(lra)) as (FS & VS). split; [exact FS|]. unfold v3lensq, v3dot. unfold dot3, rval3, x3, y3, z3; cbn [fst snd]. eapply Rle_trans; [exact VS|]. lra. }
  destruct (ner_max (305 / 100) (5 * tiny) (v3lensq a) (v3lensq b) (norm3 (rval3 a) * norm3 (rval3 a)) (norm3 (rval3 b) * norm3 (rval3 b)) n2 ltac:(lra) ltac:(lra) (LQ a Ax Ay Az CA1 CA2 CA3) (LQ b Bx By Bz CB1 CB2 CB3) (sq_pos _) (sq_pos _) (max_sq _ _ (norm3_nonneg _) (norm3_nonneg _)) N0) as (FM & HM).
  set (M := fmax (v3lensq a) (v3lensq b)) in * . destruct (M_pos M n2 HM N0) as (MB & MZ).
  (* the error *)
  pose proof (ner_sub (wx a) (wx b) Ax Bx ltac:(pose proof (W _ CA1); lra) ltac:(pose proof (W _ CB1); lra)) as EX. pose proof (ner_sub (wy a) (wy b) Ay By ltac:(pose proof (W _ CA2); lra) ltac:(pose proof (W _ CB2); lra)) as EY. pose proof (ner_sub (wz a) (wz b) Az Bz ltac:(pose proof (W _ CA3); lra) ltac:(pose proof (W _ CB3); lra)) as EZ.
  destruct (coord_le_norm3 (sub3 (rval3 a) (rval3 b))) as (X1 & Y1 & Z1). fold D in X1, Y1, Z1.
  change (x3 (sub3 (rval3 a) (rval3 b))) with (val (wx a) - val (wx b)) in X1. change (y3 (sub3 (rval3 a) (rval3 b))) with (val (wy a) - val (wy b)) in Y1. change (z3 (sub3 (rval3 a) (rval3 b))) with (val (wz a) - val (wz b)) in Z1.
  assert (XY : (val (wx a) - val (wx b)) * (val (wx a) - val (wx b)) + (val (wy a) - val (wy b)) * (val (wy a) - val (wy b)) + (val (wz a) - val (wz b)) * (val (wz a) - val (wz b)) = d2) by (unfold d2, D; rewrite norm3_sq; reflexivity).
  set (x := val (wx a) - val (wx b)) in * . set (y := val (wy a) - val (wy b)) in * . set (z := val (wz a) - val (wz b)) in * .
  assert (X2 : Rabs x <= bpow radix2 61) by lra. assert (Y2 : Rabs y <= bpow radix2 61) by lra. assert (Z2 : Rabs z <= bpow radix2 61) by lra.
  pose proof (sq_pos x) as SX. pose proof (sq_pos y) as SY. pose proof (sq_pos z) as SZ.
  assert (HE : ner (62 / 10) (10 * tiny) (v3lensq (v3sub a b)) d2).
  { pose proof (ner_add (302 / 100) (102 / 100 * tiny) _ _ (102 / 100 * tiny) _ _ ltac:(lra) ltac:(lra) ltac:(lra) (ner_sq _ _ EX X2) (ner_sq _ _ EY Y2) ltac:(lra) ltac:(lra)) as K.
    assert (K3 : ner (302 / 100 + 102 / 100) (102 / 100 * tiny) (fmul (fsub (wz a) (wz b)) (fsub (wz a) (wz b))) (z * z)). { destruct (ner_sq _ _ EZ Z2) as (G & H). split; [exact G|]. assert (0 <= u32 * Rabs (z * z)) by (apply Rmult_le_pos; [lra | apply Rabs_pos]). lra. }
    destruct (ner_add (302 / 100 + 102 / 100) (102 / 100 * (102 / 100 * tiny + 102 / 100 * tiny)) _ _ (102 / 100 * tiny) _ _ ltac:(lra) ltac:(lra) ltac:(lra) K K3 ltac:(lra) ltac:(lra)) as (FS & VS). rewrite XY in VS. split; [exact FS|]. eapply Rle_trans; [exact VS|].
    assert (0 <= u32 * Rabs d2) by (apply Rmult_le_pos; [lra | apply Rabs_pos]). lra. }
  destruct (norm_form D N (val tol) n2 d2 NP (proj1 DN) ltac:(lra) eq_refl eq_refl) as (NF1 & NF2).
  unfold approx_eq_tolerance3. cbv zeta. fold M. assert (FO : fin (f0 : b32)) by reflexivity. rewrite (feq_fin M f0 FM FO). change (val f0) with 0. rewrite (Reqb_false _ _ MZ).
  change (wx (v3sub a b)) with (fsub (wx a) (wx b)). change (wy (v3sub a b)) with (fsub (wy a) (wy b)). change (wz (v3sub a b)) with (fsub (wz a) (wz b)).
  rewrite (fin_nan _ (proj1 EX)), (fin_nan _ (proj1 EY)), (fin_nan _ (proj1 EZ)), (fin_inf _ (proj1 EX)), (fin_inf _ (proj1 EY)), (fin_inf _ (proj1 EZ)). cbn [orb].
  split; intro H.
  - apply NF1 in H. rewrite (quot_low M _ tol n2 d2 HM N0 HE D2 Ft TR H). rewrite (comp_low M tol n2 d2 HM N0 D2 Ft TR _ x EX X2 ltac:(lra) H), (comp_low M tol n2 d2 HM N0 D2 Ft TR _ y EY Y2 ltac:(lra) H), (comp_low M tol n2 d2 HM N0 D2 Ft TR _ z EZ Z2 ltac:(lra) H). reflexivity.
  - apply NF2. apply (quot_high M _ tol n2 d2 HM N0 HE D2 Ft TR). destruct (flt (fmul tol tol) (fdiv (v3lensq (v3sub a b)) M)); [discriminate H | reflexivity].
Qed.
Print Assumptions C37_f32_vec3_accuracy.

(** The hypotheses are met: (3, 4) against (3, 4 + 2^-7) with tolerance 2^-9 and 2^-10; and what happens outside the range of lengths: below 2^-75 and
    above 2^64 any two vectors are approx_eq, opposite ones included. *)
Example C37_vec_f32_case : let a := V2 (b32_of 3 0) (b32_of 4 0) in let b := V2 (b32_of 3 0) (b32_of 513 (-7)) in
  fin2 a /\ fin2 b /\ bpow radix2 (-30) <= Rmax (norm (rval a)) (norm (rval b)) <= bpow radix2 59 /\ bpow radix2 (-24) <= val (b32_of 1 (-9)) <= bpow radix2 10 /\
  approx_eq_tolerance2 a b (b32_of 1 (-9)) = true /\ approx_eq_tolerance2 a b (b32_of 1 (-10)) = false.
Proof.
  cbv zeta. split; [split; reflexivity|]. split; [split; reflexivity|]. split; [|split; [|split; vm_compute; reflexivity]].
  - assert (B30 : bpow radix2 (-30) <= 3) by (apply Rle_trans with 1; [apply (bpow_le radix2 (-30) 0); lia | lra]). assert (B59 : 8 <= bpow radix2 59) by (apply (bpow_le radix2 3 59); lia).
    assert (VA : rval (V2 (b32_of 3 0) (b32_of 4 0)) = (3, 4)) by (unfold rval; cbn [vx vy]; rewrite (proj2 (val_of 3 0 ltac:(lia) ltac:(lia))), (proj2 (val_of 4 0 ltac:(lia) ltac:(lia))); change (bpow radix2 0) with 1; apply pt_eq; cbn [fst snd]; lra).
    assert (VB : rval (V2 (b32_of 3 0) (b32_of 513 (-7))) = (3, 513 / 128)) by (unfold rval; cbn [vx vy]; rewrite (proj2 (val_of 3 0 ltac:(lia) ltac:(lia))), (proj2 (val_of 513 (-7) ltac:(lia) ltac:(lia))); change (bpow radix2 0) with 1; change (bpow radix2 (-7)) with (/ 128); apply pt_eq; cbn [fst snd]; lra).
    rewrite VA, VB. pose proof (Rmax_l (norm (3, 4)) (norm (3, 513 / 128))) as L. pose proof (norm_x (3, 4)) as X. cbn [fst] in X. rewrite Rabs_pos_eq in X by lra. split; [lra|].
    apply Rle_trans with (2 := B59). apply Rmax_lub; apply norm_le_sq; unfold pdot; cbn [fst snd]; lra.
  - rewrite (proj2 (val_of 1 (-9) ltac:(lia) ltac:(lia))). change (bpow radix2 (-24)) with (/ 16777216). change (bpow radix2 (-9)) with (/ 512). change (bpow radix2 10) with 1024. lra.
Qed.
Theorem C37_f32_vec_extremes_refuted :
  @approx_eq2 b32 _ (V2 (b32_of 1 (-80)) f0) (V2 (b32_of (-1) (-80)) f0) = true /\ @approx_eq2 b32 _ (V2 (b32_of 1 64) f0) (V2 (b32_of (-1) 64) f0) = true /\
  @approx_eq3 b32 _ (V3 (b32_of 1 (-80)) f0 f0) (V3 f0 (b32_of 1 (-80)) f0) = true /\ @approx_eq3 b32 _ (V3 (b32_of 1 64) f0 f0) (V3 f0 f0 (b32_of 1 64)) = true.
Proof. repeat split; vm_compute; reflexivity. Qed.
Print Assumptions C37_f32_vec_extremes_refuted.
