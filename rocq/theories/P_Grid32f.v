(** * Penetration vectors of the f32 search on small grids. *)
From Coq Require Import Reals ZArith Bool Lra Lia List Psatz.
From Flocq Require Import IEEE754.BinarySingleNaN Core Relative.
From Verif Require Import Num NumXR NumB32 Glam Transform2 Shapes2 Gjk Detect2 Spec SpecLink SpecGjk P_Base P_Transform P_Shapes P_Geo P_GjkShape P_Gjk P_Gjk2 P_Gjk3 P_Dist P_Scene P_Epa
  Props_Gjk Props_Dist P_B32 Props_F32 P_Grid32 P_Grid32b P_Grid32e.
Import ListNotations.
Local Open Scope R_scope.

Lemma abs_le2 x y : Rabs x <= y -> - y <= x <= y.
Proof. intro H. pose proof (Rle_abs x). pose proof (Rle_abs (- x)) as Q. rewrite Rabs_Ropp in Q. lra. Qed.
Lemma nsub_comm p q : norm (psub p q) = norm (psub q p).
Proof. unfold norm. f_equal. unfold pdot; cbn. ring. Qed.
Section Edge.
Variable e : Z.
Hypothesis He : (-7 <= e <= 14)%Z.
Local Notation u := (bpow radix2 e).
Local Notation eta := (eta e).
Local Notation pe := (pe e).
Lemma one32 : fin (f1 : b32) /\ val (f1 : b32) = 1.
Proof. destruct (val_of 1 0 ltac:(lia) ltac:(lia)) as [F1 V1]; split; [exact F1 | rewrite Rmult_1_r in V1; exact V1]. Qed.
Lemma clamp32 tau T : fin tau -> val tau = rnd T -> fin (fclamp tau f0 f1) /\ val (fclamp tau f0 f1) = rnd (clamp01 T).
Proof.
  intros F V. destruct one32 as [F1 V1]. assert (F0 : fin (f0 : b32)) by reflexivity. assert (V0 : val (f0 : b32) = 0) by reflexivity.
  assert (R1 : rnd 1 = 1) by (rewrite <- V1; apply rnd_exact).
  unfold fclamp, clamp01. rewrite (flt_fin tau f0) by assumption. rewrite V, V0.
  destruct (Rltb_spec (rnd T) 0) as [L|L].
  - rewrite (flt_fin f1 f0) by assumption. rewrite V0, V1, Rltb_false by lra. split; [exact F0|]. rewrite V0.
    assert (T < 0). { apply Rnot_le_lt. intro C. apply rnd_le in C. rewrite rnd_0 in C. lra. } rewrite Rltb_true by assumption. rewrite rnd_0. reflexivity.
  - rewrite (flt_fin f1 tau) by assumption. rewrite V, V1. destruct (Rltb_spec 1 (rnd T)) as [L1|L1].
    + assert (1 < T). { apply Rnot_le_lt. intro C. apply rnd_le in C. rewrite R1 in C. lra. } rewrite Rltb_false by lra. rewrite Rltb_true by assumption. split; [exact F1 | rewrite R1; exact V1].
    + split; [exact F|]. rewrite V. destruct (Rltb_spec T 0) as [Q|Q].
      * rewrite rnd_0. apply Rle_antisym; [rewrite <- rnd_0; apply rnd_le; lra | lra].
      * destruct (Rltb_spec 1 T) as [Q1|Q1]; [|reflexivity]. apply Rle_antisym; [rewrite R1; lra | apply rnd_le; lra].
Qed.
(** squared length *)
Lemma lens32 x y : fin x -> fin y -> Rabs (val x) <= 100 * u -> Rabs (val y) <= 100 * u ->
  let S := val x * val x + val y * val y in
  let L := v2lensq (V2 x y) in
  fin L /\ Rabs (val L - S) <= 3 * u32 * S + 4 * tiny.
Proof.
  intros Fx Fy Bx By. pose proof (u_pos e) as U0. pose proof (u_small e He) as US. pose proof tiny_pos as T0.
  assert (TT : tiny <= / 16777216) by (replace (/ 16777216) with (bpow radix2 (-24)) by (cbn; lra); apply bpow_le; lia).
  set (X := val x * val x). set (Y := val y * val y). cbv zeta.
  assert (HX : 0 <= X <= 100 * u * (100 * u)). { unfold X. rewrite <- (sq_abs (val x)). pose proof (Rabs_pos (val x)). split; [apply Rmult_le_pos; lra | apply Rmult_le_compat; lra]. }
  assert (HY : 0 <= Y <= 100 * u * (100 * u)). { unfold Y. rewrite <- (sq_abs (val y)). pose proof (Rabs_pos (val y)). split; [apply Rmult_le_pos; lra | apply Rmult_le_compat; lra]. }
  assert (UB : 100 * u * (100 * u) <= 1638400 * 1638400) by (apply Rmult_le_compat; lra).
  pose proof (rnd_abs X) as EX. pose proof (rnd_abs Y) as EY. rewrite (Rabs_pos_eq X) in EX by lra. rewrite (Rabs_pos_eq Y) in EY by lra. rewrite u32_val in * .
  assert (RX : 0 <= rnd X) by (rewrite <- rnd_0; apply rnd_le; lra). assert (RY : 0 <= rnd Y) by (rewrite <- rnd_0; apply rnd_le; lra).
  assert (BIG : forall r, 0 <= r <= 10000000000000 -> Rabs r < big).
  { intros r Hr. rewrite Rabs_pos_eq by lra. apply Rle_lt_trans with (bpow radix2 60); [cbn; lra | apply bpow_lt; lia]. }
  apply abs_le2 in EX. apply abs_le2 in EY.
  destruct (mul_ok x x Fx Fx) as [M1 M2]; [fold X; apply BIG; lra|]. fold X in M2.
  destruct (mul_ok y y Fy Fy) as [M3 M4]; [fold Y; apply BIG; lra|]. fold Y in M4.
  set (S' := rnd X + rnd Y). assert (S0 : 0 <= S') by (unfold S'; lra). pose proof (rnd_abs S') as ES. rewrite (Rabs_pos_eq S') in ES by lra. rewrite u32_val in ES.
  assert (RS : 0 <= rnd S') by (rewrite <- rnd_0; apply rnd_le; lra). apply abs_le2 in ES.
  assert (SB : S' <= X + Y + / 16777216 * (X + Y) + 2 * tiny) by (unfold S'; lra).
  destruct (add_ok _ _ M1 M3) as [A1 A2]; [rewrite M2, M4; fold S'; apply BIG; lra|]. rewrite M2, M4 in A2. fold S' in A2.
  unfold v2lensq, v2dot; cbn [vx vy]. split; [exact A1|]. rewrite A2. apply Rabs_le. unfold S' in * . split; lra.
Qed.
Lemma seg32 a b P Q : pe a P -> pe b Q -> P <> Q ->
  exists c, norm (psub c (segp P Q)) <= 2 * eta /\ fin (edge_dist_sq a b) /\ Rabs (val (edge_dist_sq a b) - pdot c c) <= 3 * u32 * pdot c c + 4 * tiny.
Proof.
  intros Ha Hb N. pose proof (u_pos e) as U0. destruct (par32 e He a b P Q Ha Hb N) as (FT & VT & _ & _ & _ & [FDX FDY] & ED & BX & BY & _).
  destruct (pe_val e a P Ha) as ([FAX FAY] & EP & BAX & BAY). unfold edge_dist_sq. set (tau := fdiv _ _) in * .
  destruct (clamp32 tau (par P Q) FT VT) as [FC VC]. set (tc := fclamp tau f0 f1) in * . pose proof (clamp01_range (par P Q)) as CR.
  assert (VX : val (vx a) = fst P) by (rewrite EP; reflexivity). assert (VY : val (vy a) = snd P) by (rewrite EP; reflexivity).
  assert (DX : val (vx (v2sub b a)) = fst (psub Q P)) by (rewrite <- ED; reflexivity). assert (DY : val (vy (v2sub b a)) = snd (psub Q P)) by (rewrite <- ED; reflexivity).
  destruct (add_acc e He (vx a) (vx (v2sub b a)) tc (clamp01 (par P Q)) FAX FDX FC) as [X1 X2]; [rewrite VX; exact BAX | rewrite DX; exact BX | lra | exact VC|].
  destruct (add_acc e He (vy a) (vy (v2sub b a)) tc (clamp01 (par P Q)) FAY FDY FC) as [Y1 Y2]; [rewrite VY; exact BAY | rewrite DY; exact BY | lra | exact VC|].
  rewrite VX, DX in X2. rewrite VY, DY in Y2.
  set (x := fadd (vx a) (fmul (vx (v2sub b a)) tc)) in * . set (y := fadd (vy a) (fmul (vy (v2sub b a)) tc)) in * .
  change (v2add a (v2muls (v2sub b a) tc)) with (V2 x y).
  assert (Bd : forall p d t r, Rabs p <= 32 * u -> Rabs d <= 64 * u -> 0 <= t <= 1 -> Rabs (r - (p + d * t)) <= eta -> Rabs r <= 100 * u).
  { intros p d t r Hp Hd Ht Hr. replace r with ((r - (p + d * t)) + (p + d * t)) by ring. pose proof (Rabs_triang (r - (p + d * t)) (p + d * t)) as T1.
    pose proof (Rabs_triang p (d * t)) as T2. rewrite Rabs_mult, (Rabs_pos_eq t) in T2 by lra. pose proof (Rabs_pos d). assert (Rabs d * t <= 64 * u * 1) by (apply Rmult_le_compat; lra).
    unfold P_Grid32e.eta in Hr. lra. }
  exists (rv (V2 x y)). split.
  - eapply Rle_trans; [apply norm_sum|]. unfold rv, segp, segt. fold (par P Q). cbn [fst snd psub padd pscale vx vy] in * .
    rewrite !(Rmult_comm (clamp01 (par P Q))). lra.
  - destruct (lens32 x y X1 Y1 (Bd _ _ _ _ BAX BX CR X2) (Bd _ _ _ _ BAY BY CR Y2)) as [L1 L2]. split; [exact L1 | exact L2].
Qed.
(** the edge that looks closest is nearly the closest *)
Lemma order32 a b P Q a' b' P' Q' : pe a P -> pe b Q -> P <> Q -> pe a' P' -> pe b' Q' -> P' <> Q' ->
  val (edge_dist_sq a b) <= val (edge_dist_sq a' b') -> u / 91 <= norm (segp P Q) -> 1000 * norm (segp P Q) <= 1007 * norm (segp P' Q').
Proof.
  intros Ha Hb N Ha' Hb' N' LE LO. pose proof (u_pos e) as U0.
  destruct (seg32 a b P Q Ha Hb N) as (c & C1 & _ & C2). destruct (seg32 a' b' P' Q' Ha' Hb' N') as (c' & C1' & _ & C2').
  apply Rnot_lt_le. intro LT. set (A := norm (segp P Q)) in * . set (B := norm (segp P' Q')) in * .
  assert (NA : A - u / 32768 <= norm c). { pose proof (norm_triangle (psub (segp P Q) c) c) as T. replace (padd (psub (segp P Q) c) c) with (segp P Q) in T by (apply pt_eq; cbn; ring).
    rewrite nsub_comm in T. fold A in T. unfold P_Grid32e.eta in C1. lra. }
  assert (NB : norm c' <= B + u / 32768). { pose proof (norm_triangle (psub c' (segp P' Q')) (segp P' Q')) as T. replace (padd (psub c' (segp P' Q')) (segp P' Q')) with c' in T by (apply pt_eq; cbn; ring).
    fold B in T. unfold P_Grid32e.eta in C1'. lra. }
  rewrite <- !norm_sq in C2, C2'. apply abs_le2 in C2. apply abs_le2 in C2'. rewrite u32_val in * .
  assert (TI : tiny <= A * A / 1000000).
  { assert (u / 91 * (u / 91) <= A * A) by (apply Rmult_le_compat; lra). unfold tiny. apply Rle_trans with (u * u / 16777216 / 16777216); [|nra].
    replace (u * u / 16777216 / 16777216) with (bpow radix2 (e + e + -24 + -24)) by (rewrite !bpow_plus; cbn; lra). apply bpow_le. lia. }
  assert (A0 : 0 < A) by lra. pose proof (norm_nonneg c'). pose proof (norm_nonneg c).
  assert (NA' : 9972 / 10000 * A <= norm c) by lra. assert (NB' : norm c' <= 9959 / 10000 * A) by lra.
  assert (QA : 9972 / 10000 * A * (9972 / 10000 * A) <= norm c * norm c) by (apply Rmult_le_compat; lra).
  assert (QB : norm c' * norm c' <= 9959 / 10000 * A * (9959 / 10000 * A)) by (apply Rmult_le_compat; lra).
  assert (0 < A * A) by (apply Rmult_lt_0_compat; lra). lra.
Qed.
End Edge.
