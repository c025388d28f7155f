(** * GJK in binary32 on bodies that overlap deeply, continued (proofs for C62): the normals and one step of the search *)
From Coq Require Import Reals ZArith Bool Lra Lia List Psatz.
From Flocq Require Import IEEE754.BinarySingleNaN Core Relative.
From Verif Require Import Num NumXR NumB32 Glam Transform2 Shapes2 Gjk Spec SpecLink P_Base P_Transform P_Shapes P_Geo P_Gjk P_B32 Props_F32 Props_F32Gjk P_F32Box P_Drift P_Deep P_Deep32.
Import ListNotations.
Local Open Scope R_scope.

Lemma bp39 : bpow radix2 39 = 549755813888. Proof. cbn. lra. Qed.
Lemma bp20 : bpow radix2 20 = 1048576. Proof. cbn. lra. Qed.
Lemma norm_swap_sub p q : norm (psub p q) = norm (psub q p).
Proof. rewrite <- norm_neg. f_equal. apply pt_eq; cbn; ring. Qed.
(** the squared length against eps^2 *)
Lemma too_small32 (d : vec2 b32) : fin2 d -> norm (rval d) <= bpow radix2 59 ->
  (direction_is_too_small d = true -> norm (rval d) <= 101 / 100 * bpow radix2 (-23)) /\
  (direction_is_too_small d = false -> 99 / 100 * bpow radix2 (-23) <= norm (rval d)).
Proof.
  intros Fd N. destruct (dot32 d d 59 59 ltac:(lia) ltac:(lia) Fd Fd N N) as [F E]. destruct eps_sq as [Fe Ve].
  unfold direction_is_too_small, v2lensq. rewrite (flt_fin _ _ F Fe), Ve. rewrite <- norm_sq in E. apply abs_le2' in E.
  assert (TT : tiny <= u32 / 100 * bpow radix2 (-46)) by (apply tiny_100, bpow_le; lia). pose proof u32_pos. pose proof u32_small. pose proof (norm_nonneg (rval d)) as P.
  assert (B : bpow radix2 (-46) = bpow radix2 (-23) * bpow radix2 (-23)) by (rewrite <- bpow_plus; reflexivity). pose proof (bpow_gt_0 radix2 (-23)) as P23. rewrite B in * .
  set (e := bpow radix2 (-23)) in * . set (x := norm (rval d)) in * . assert (0 <= x * x) by nra. assert (Pe : 0 < e * e) by nra.
  assert (u32 * (x * x) <= 1 / 16777216 * (x * x)) by (apply Rmult_le_compat_r; lra). assert (u32 / 100 * (e * e) <= 1 / 16777216 * (e * e)) by (apply Rmult_le_compat_r; lra).
  split; intro T; destruct (Rltb_spec (val (v2dot d d)) (e * e)) as [L|L]; try discriminate.
  - apply Rnot_lt_le. intro K. assert ((101 / 100 * e) * (101 / 100 * e) <= x * x) by (apply Rmult_le_compat; lra). lra.
  - apply Rnot_lt_le. intro K. assert (x * x <= (99 / 100 * e) * (99 / 100 * e)) by (apply Rmult_le_compat; lra). lra.
Qed.

Section Step.
Variable dl : R.
Hypotheses (Hlo : bpow radix2 (-20) <= dl) (Hhi : dl <= bpow radix2 12).
Local Notation okp := (okp dl).
Lemma dl0 : 0 < dl. Proof. pose proof (bpow_gt_0 radix2 (-20)). lra. Qed.
(** a scaled perpendicular of x - a, as the two triangle normals and the segment normal compute it *)
Lemma perp32 (a x r : vec2 b32) (k s : R) : okp a -> okp x -> s * s = 1 -> bpow radix2 (-70) <= Rabs k * norm (psub (rval x) (rval a)) -> Rabs k <= bpow radix2 39 ->
  let w := v2sub x a in
  Rabs (val (vx r) + s * (val (vy w) * k)) <= u32 * (Rabs (val (vy w)) * Rabs k) + tiny ->
  Rabs (val (vy r) - s * (val (vx w) * k)) <= u32 * (Rabs (val (vx w)) * Rabs k) + tiny ->
  norm (psub (rval r) (pscale (s * k) (J (psub (rval x) (rval a))))) <= 3 * u32 * (Rabs k * norm (psub (rval x) (rval a))) /\
  99 / 100 * (Rabs k * norm (psub (rval x) (rval a))) <= norm (rval r) <= bpow radix2 59.
Proof.
  intros A X S L K w Ex Ey. destruct (sub32 dl Hlo Hhi x a X A) as (Fw & Ew & Lw & Nw). fold w in Fw, Ew, Nw.
  assert (L' : bpow radix2 (-100) <= Rabs k * norm (psub (rval x) (rval a))) by (eapply Rle_trans; [|exact L]; apply bpow_le; lia).
  pose proof (perp_core r w _ k s S Ew L' Ex Ey) as E. split; [exact E|].
  pose proof u32_pos. pose proof u32_small. set (W := psub (rval x) (rval a)) in * . set (N := pscale (s * k) (J W)) in * .
  assert (EN : norm N = Rabs k * norm W) by (unfold N; rewrite norm_scale, J_norm, Rabs_mult, (abs_sig s S); ring).
  pose proof (norm_triangle_sub (rval r) N) as T1. pose proof (norm_triangle_sub N (rval r)) as T2. rewrite (norm_swap_sub N) in T2. rewrite EN in * .
  assert (PX : 0 <= Rabs k * norm W) by (apply Rmult_le_pos; [apply Rabs_pos | apply norm_nonneg]). set (X' := Rabs k * norm W) in * .
  assert (3 * u32 * X' <= 1 / 100 * X') by (apply Rmult_le_compat_r; lra). split; [lra|]. pose proof (dl_num dl Hlo Hhi) as DN.
  assert (X' <= bpow radix2 39 * (128 * 4096)). { apply Rmult_le_compat; [apply Rabs_pos | apply norm_nonneg | exact K | lra]. }
  rewrite bp39 in * . apply Rle_trans with (2 * (549755813888 * (128 * 4096))); [lra|]. cbn. lra.
Qed.
(** [x*k] computed with either factor negated *)
Lemma mulneg1 x k : fin x -> fin k -> small (val x) 20 -> small (val k) 39 ->
  (fin (fmul x k) /\ Rabs (val (fmul x k) - val x * val k) <= u32 * (Rabs (val x) * Rabs (val k)) + tiny) /\
  (fin (fmul (fneg x) k) /\ Rabs (val (fmul (fneg x) k) + val x * val k) <= u32 * (Rabs (val x) * Rabs (val k)) + tiny) /\
  (fin (fmul k x) /\ Rabs (val (fmul k x) - val x * val k) <= u32 * (Rabs (val x) * Rabs (val k)) + tiny) /\
  (fin (fmul (fneg k) x) /\ Rabs (val (fmul (fneg k) x) + val x * val k) <= u32 * (Rabs (val x) * Rabs (val k)) + tiny).
Proof.
  intros Fx Fk Sx Sk. assert (Sx' : small (val (fneg x)) 20) by (unfold small; rewrite val_neg, Rabs_Ropp; exact Sx). assert (Sk' : small (val (fneg k)) 39) by (unfold small; rewrite val_neg, Rabs_Ropp; exact Sk).
  pose proof (proj2 (fin_neg x) Fx) as Fx'. pose proof (proj2 (fin_neg k) Fk) as Fk'. repeat split.
  - apply (mul32 x k 20 39); try assumption; lia.
  - apply (mul32 x k 20 39); try assumption; lia.
  - apply (mul32 (fneg x) k 20 39); try assumption; lia.
  - destruct (mul32 (fneg x) k 20 39 ltac:(lia) ltac:(lia) Fx' Fk Sx' Sk) as [_ E]. rewrite val_neg, Rabs_Ropp in E. replace (val (fmul (fneg x) k) + val x * val k) with (val (fmul (fneg x) k) - - val x * val k) by ring. exact E.
  - apply (mul32 k x 39 20); try assumption; lia.
  - destruct (mul32 k x 39 20 ltac:(lia) ltac:(lia) Fk Fx Sk Sx) as [_ E]. rewrite (Rmult_comm (val x)), (Rmult_comm (Rabs (val x))). exact E.
  - apply (mul32 (fneg k) x 39 20); try assumption; lia.
  - destruct (mul32 (fneg k) x 39 20 ltac:(lia) ltac:(lia) Fk' Fx Sk' Sx) as [_ E]. rewrite val_neg, Rabs_Ropp in E. rewrite (Rmult_comm (val x)), (Rmult_comm (Rabs (val x))). replace (val (fmul (fneg k) x) + val k * val x) with (val (fmul (fneg k) x) - - val k * val x) by ring. exact E.
Qed.
Lemma sub_small p q : okp p -> okp q -> fin (vx (v2sub p q)) /\ fin (vy (v2sub p q)) /\ small (val (vx (v2sub p q))) 20 /\ small (val (vy (v2sub p q))) 20.
Proof. intros P Q. destruct (sub32 dl Hlo Hhi p q P Q) as ([F1 F2] & _ & _ & N). destruct (fin_small2 _ _ N) as [S1 S2]. repeat split; assumption. Qed.
Lemma sign_split k sg : sg * sg = 1 -> 0 < sg * k -> Rabs k = sg * k /\ k = sg * Rabs k.
Proof. intros S P. assert (E : Rabs k = sg * k). { replace (Rabs k) with (Rabs (sg * k)) by (rewrite Rabs_mult, (abs_sig sg S); ring). apply Rabs_pos_eq. lra. } split; [exact E|]. rewrite E, <- Rmult_assoc, S. ring. Qed.
Definition len_ok (d : vec2 b32) : Prop := bpow radix2 (-70) <= norm (rval d) <= bpow radix2 59.
Lemma dirn_of (r : vec2 b32) k s sg x a : sg * sg = 1 -> 0 < sg * k -> norm (psub (rval r) (pscale (s * k) (J (psub x a)))) <= 3 * u32 * (Rabs k * norm (psub x a)) -> dirn (3 * u32) (rval r) (s * sg) a x.
Proof. intros S P E. destruct (sign_split k sg S P) as [E1 E2]. exists (Rabs k). split; [lra|]. replace (Rabs k * (s * sg)) with (s * k) by (rewrite E2 at 1; ring). exact E. Qed.
Lemma normal_ab (a b : vec2 b32) k sg : okp a -> okp b -> sg * sg = 1 -> fin k -> small (val k) 39 -> 0 < sg * val k -> bpow radix2 (-69) <= Rabs (val k) * norm (psub (rval b) (rval a)) ->
  fin2 (cross_f32 (v2sub b a) k) /\ len_ok (cross_f32 (v2sub b a) k) /\ dirn (3 * u32) (rval (cross_f32 (v2sub b a) k)) (- sg) (rval a) (rval b) /\
  99 / 100 * (Rabs (val k) * norm (psub (rval b) (rval a))) <= norm (rval (cross_f32 (v2sub b a) k)).
Proof.
  intros A B S Fk Sk Pk L. destruct (sub_small b a B A) as (F1 & F2 & S1 & S2). set (w := v2sub b a) in * .
  destruct (mulneg1 _ k F2 Fk S2 Sk) as ([Fy Ey] & _). destruct (mulneg1 _ k F1 Fk S1 Sk) as (_ & [Fx Ex] & _).
  assert (L70 : bpow radix2 (-70) <= Rabs (val k) * norm (psub (rval b) (rval a))) by (eapply Rle_trans; [apply bpow_le|exact L]; lia).
  destruct (perp32 a b (cross_f32 w k) (val k) (-1) A B ltac:(lra) L70 Sk) as (E & N1 & N2).
  - cbn [cross_f32 vx vy]. fold w. replace (val (fmul (vy w) k) + -1 * (val (vy w) * val k)) with (val (fmul (vy w) k) - val (vy w) * val k) by ring. exact Ey.
  - cbn [cross_f32 vx vy]. fold w. replace (val (fmul (fneg (vx w)) k) - -1 * (val (vx w) * val k)) with (val (fmul (fneg (vx w)) k) + val (vx w) * val k) by ring. exact Ex.
  - split; [split; assumption|]. split; [split; [|exact N2]|split; [|exact N1]].
    + eapply Rle_trans; [|exact N1]. replace (-69)%Z with (1 + -70)%Z in L by reflexivity. rewrite bpow_plus in L. change (bpow radix2 1) with 2 in L. pose proof (bpow_gt_0 radix2 (-70)). lra.
    + replace (- sg) with (-1 * sg) by ring. apply (dirn_of _ (val k)); assumption.
Qed.
Lemma normal_ac (a c : vec2 b32) k sg : okp a -> okp c -> sg * sg = 1 -> fin k -> small (val k) 39 -> 0 < sg * val k -> bpow radix2 (-69) <= Rabs (val k) * norm (psub (rval c) (rval a)) ->
  fin2 (cross_sv k (v2sub c a)) /\ len_ok (cross_sv k (v2sub c a)) /\ dirn (3 * u32) (rval (cross_sv k (v2sub c a))) sg (rval a) (rval c) /\
  99 / 100 * (Rabs (val k) * norm (psub (rval c) (rval a))) <= norm (rval (cross_sv k (v2sub c a))).
Proof.
  intros A B S Fk Sk Pk L. destruct (sub_small c a B A) as (F1 & F2 & S1 & S2). set (w := v2sub c a) in * .
  destruct (mulneg1 _ k F2 Fk S2 Sk) as (_ & _ & _ & [Fy Ey]). destruct (mulneg1 _ k F1 Fk S1 Sk) as (_ & _ & [Fx Ex] & _).
  assert (L70 : bpow radix2 (-70) <= Rabs (val k) * norm (psub (rval c) (rval a))) by (eapply Rle_trans; [apply bpow_le|exact L]; lia).
  destruct (perp32 a c (cross_sv k w) (val k) 1 A B ltac:(lra) L70 Sk) as (E & N1 & N2).
  - cbn [cross_sv vx vy]. fold w. rewrite Rmult_1_l. exact Ey.
  - cbn [cross_sv vx vy]. fold w. rewrite Rmult_1_l. exact Ex.
  - split; [split; assumption|]. split; [split; [|exact N2]|split; [|exact N1]].
    + eapply Rle_trans; [|exact N1]. replace (-69)%Z with (1 + -70)%Z in L by reflexivity. rewrite bpow_plus in L. change (bpow radix2 1) with 2 in L. pose proof (bpow_gt_0 radix2 (-70)). lra.
    + replace sg with (1 * sg) by ring. apply (dirn_of _ (val k)); assumption.
Qed.
(** the second test of the triangle step, and the test of the segment step *)
Lemma toward32 (a b : vec2 b32) : okp a -> okp b -> pdot (rval a) (rval b) <= 0 -> same_direction (v2sub b a) (v2neg a) = true.
Proof.
  intros A B O. destruct (sub32 dl Hlo Hhi b a B A) as (Fw & Ew & Lw & Nw). destruct (neg32 a (proj1 A)) as [Fa Ea]. pose proof (okp_small dl Hlo Hhi a A) as Na.
  assert (Na' : norm (rval (v2neg a)) <= bpow radix2 18) by (rewrite Ea, norm_neg; exact Na).
  destruct (dot32 _ _ 20 18 ltac:(lia) ltac:(lia) Fw Fa Nw Na') as [F E]. unfold same_direction. rewrite (fle0 _ F). apply Rleb_true. apply abs_le2' in E. rewrite Ea, norm_neg in E.
  pose proof (norm_sub_le _ _ Ew) as Nw'. set (w := rval (v2sub b a)) in * . set (W := psub (rval b) (rval a)) in * . destruct A as [_ [A1 A2]].
  assert (G : pdot w (pneg (rval a)) >= pdot W (pneg (rval a)) - u32 * norm W * norm (rval a)).
  { pose proof (cauchy_abs (psub w W) (pneg (rval a))) as C. rewrite norm_neg in C. apply abs_le2' in C. rewrite pdot_sub_l in C. assert (norm (psub w W) * norm (rval a) <= u32 * norm W * norm (rval a)) by (apply Rmult_le_compat_r; [apply norm_nonneg | exact Ew]). lra. }
  assert (GW : pdot W (pneg (rval a)) = norm (rval a) * norm (rval a) - pdot (rval a) (rval b)) by (rewrite norm_sq; unfold W, pdot, psub, pneg; cbn; ring).
  pose proof u32_pos. pose proof u32_small. pose proof (dl_num dl Hlo Hhi). pose proof (norm_nonneg w). pose proof (norm_nonneg W). set (na := norm (rval a)) in * .
  assert (TT : tiny <= u32 / 100 * (dl * dl)).
  { apply tiny_100. replace (-100)%Z with (-50 + -50)%Z by reflexivity. rewrite bpow_plus. assert (bpow radix2 (-50) <= dl) by (apply Rle_trans with (bpow radix2 (-20)); [apply bpow_le; lia | exact Hlo]). apply Rmult_le_compat; try apply bpow_ge_0; assumption. }
  assert (dl * dl <= na * na) by (apply Rmult_le_compat; lra). assert (0 < dl * dl) by (apply Rmult_lt_0_compat; lra).
  assert (Y1 : norm w <= 129 * dl). { assert (u32 * norm W <= 1 / 16777216 * (128 * dl)) by (apply Rmult_le_compat; lra). lra. }
  assert (Z1 : norm w * na <= 129 * dl * (64 * dl)) by (apply Rmult_le_compat; lra). assert (Z2 : norm W * na <= 128 * dl * (64 * dl)) by (apply Rmult_le_compat; lra).
  assert (0 <= norm w * na) by (apply Rmult_le_pos; lra). assert (0 <= norm W * na) by (apply Rmult_le_pos; lra).
  assert (u32 * (norm w * na) <= 1 / 16777216 * (129 * dl * (64 * dl))) by (apply Rmult_le_compat; lra). assert (u32 * (norm W * na) <= 1 / 16777216 * (128 * dl * (64 * dl))) by (apply Rmult_le_compat; lra).
  assert (u32 / 100 * (dl * dl) <= 1 / 16777216 * (dl * dl)) by (apply Rmult_le_compat_r; lra). lra.
Qed.
(** the support value of a search direction is positive *)
Lemma fit32 (a d : vec2 b32) : okp a -> fin2 d -> bpow radix2 (-24) <= norm (rval d) <= bpow radix2 59 -> dl * norm (rval d) <= pdot (rval d) (rval a) -> fle (v2dot a d) f0 = false.
Proof.
  intros A Fd [L U] H. pose proof (okp_small dl Hlo Hhi a A) as Na. destruct (dot32 a d 18 59 ltac:(lia) ltac:(lia) (proj1 A) Fd Na U) as [F E]. rewrite fle_fin; [|exact F | reflexivity]. apply Rleb_false.
  change (val f0) with 0. apply abs_le2' in E. rewrite (pdot_comm (rval a)) in E. destruct A as [_ [A1 A2]]. pose proof u32_pos. pose proof u32_small. pose proof (dl_num dl Hlo Hhi).
  set (na := norm (rval a)) in * . set (nd := norm (rval d)) in * . pose proof (bpow_gt_0 radix2 (-24)). assert (Pd : 0 < nd) by lra.
  assert (TT : tiny <= u32 / 100 * (dl * nd)). { apply tiny_100. replace (-100)%Z with (-50 + -50)%Z by reflexivity. rewrite bpow_plus. apply Rmult_le_compat; try apply bpow_ge_0; [apply Rle_trans with (bpow radix2 (-20)) | apply Rle_trans with (bpow radix2 (-24))]; try assumption; apply bpow_le; lia. }
  assert (Q : 0 < dl * nd) by (apply Rmult_lt_0_compat; lra). assert (na * nd <= 64 * (dl * nd)) by (rewrite <- Rmult_assoc; apply Rmult_le_compat_r; lra).
  assert (0 <= na * nd) by (apply Rmult_le_pos; lra). assert (u32 * (na * nd) <= 1 / 16777216 * (64 * (dl * nd))) by (apply Rmult_le_compat; lra).
  assert (u32 / 100 * (dl * nd) <= 1 / 16777216 * (dl * nd)) by (apply Rmult_le_compat_r; lra). lra.
Qed.
End Step.
