(** * GJK in binary32 on bodies with a clear gap, continued (proofs for C63): the steps and the two loops that only look for a collision *)
From Coq Require Import Reals ZArith Bool Lra Lia List Psatz.
From Flocq Require Import IEEE754.BinarySingleNaN Core Relative.
From Verif Require Import Num NumXR NumB32 Glam Transform2 Shapes2 Gjk Spec SpecLink P_Base P_Transform P_Shapes P_Geo P_Gjk P_B32 Props_F32 Props_F32Gjk P_F32Box P_Drift P_Deep P_Deep32 P_Deep32b P_Deep32c P_Deep32d P_Gap32.
Import ListNotations.
Local Open Scope R_scope.

Section Search.
Variable dl : R.
Hypotheses (Hlo : bpow radix2 (-20) <= dl) (Hhi : dl <= bpow radix2 12) (H64 : / 64 <= dl).
Local Notation okp := (okp dl).
Variable sup : vec2 b32 -> vec2 b32.
Variable M : pset.
Hypotheses (HM : convex M) (Hfar : forall p, M p -> dl <= norm p).
Hypothesis Hsup : forall d, dir_ok d -> fin2 (sup d) /\ norm (rval (sup d)) <= 64 * dl /\ M (rval (sup d)).

Lemma gpos : 0 < dl. Proof. lra. Qed.
Lemma gsup d : dir_ok d -> okp (sup d) /\ M (rval (sup d)).
Proof. intro H. destruct (Hsup d H) as (F & N & I). split; [split; [exact F|]; split; [apply Hfar, I | exact N] | exact I]. Qed.
(** a failed sign test *)
Lemma test32_false (d a x : vec2 b32) s : s * s = 1 -> okp a -> okp x -> fin2 d -> bpow radix2 (-70) <= norm (rval d) <= bpow radix2 59 -> dirn (3 * u32) (rval d) s (rval a) (rval x) ->
  same_direction d (v2neg a) = false -> s * pcross (rval a) (rval x) <= mu dl.
Proof.
  intros S A X Fd [Ld Ud] Hd T. destruct (neg32 a (proj1 A)) as [Fa Ea]. pose proof u32_pos as U0. pose proof u32_small as U1. pose proof (dl_num dl Hlo Hhi) as DN.
  assert (Na : norm (rval (v2neg a)) <= bpow radix2 18) by (rewrite Ea, norm_neg; apply (okp_small dl Hlo Hhi), A).
  destruct (dot32 d (v2neg a) 59 18 ltac:(lia) ltac:(lia) Fd Fa Ud Na) as [F E]. unfold same_direction in T. rewrite (fle0 _ F) in T. destruct (Rleb_spec 0 (val (v2dot d (v2neg a)))) as [|T0]; [discriminate|]. rewrite Ea, norm_neg in E.
  destruct (dirn_bounds _ _ _ _ _ S Hd) as (l & L & P & N1 & N2). specialize (P (pneg (rval a))). rewrite norm_neg in P.
  replace (s * pcross (psub (rval x) (rval a)) (pneg (rval a))) with (s * pcross (rval a) (rval x)) in P by (unfold pcross, psub, pneg; cbn; ring).
  destruct A as [_ [A1 A2]], X as [_ [X1 X2]]. pose proof (norm_psub (rval x) (rval a)) as Ns. set (n := norm (psub (rval x) (rval a))) in * . set (na := norm (rval a)) in * . set (nd := norm (rval d)) in * .
  assert (TT : tiny <= u32 / 100 * (nd * na)).
  { apply tiny_100. replace (-100)%Z with (-70 + -30)%Z by reflexivity. rewrite bpow_plus. apply Rmult_le_compat; try apply bpow_ge_0; [exact Ld|]. apply Rle_trans with (bpow radix2 (-20)); [apply bpow_le; lia | lra]. }
  apply abs_le2' in E. apply abs_le2' in P. set (V := s * pcross (rval a) (rval x)) in * . set (q := l * n) in * . assert (Pn : 0 <= n) by apply norm_nonneg. assert (Pq : 0 <= q) by (apply Rmult_le_pos; lra).
  assert (Q1 : nd * na <= 101 / 100 * (q * na)). { replace (101 / 100 * (q * na)) with (101 / 100 * q * na) by ring. apply Rmult_le_compat_r; [lra|]. assert (3 * u32 * q <= 1 / 100 * q) by (apply Rmult_le_compat_r; lra). lra. }
  assert (Q2 : 0 <= q * na) by (apply Rmult_le_pos; lra). assert (Q3 : u32 * (nd * na) <= u32 * (101 / 100 * (q * na))) by (apply Rmult_le_compat_l; lra).
  assert (Q4 : l * V <= 7 * u32 * (q * na)). { assert (0 <= u32 * (q * na)) by (apply Rmult_le_pos; lra). lra. }
  assert (Q5 : l * V <= l * (7 * u32 * (n * na))) by (unfold q in Q4; lra). apply Rmult_le_reg_l in Q5; [|exact L].
  assert (Q6 : n * na <= (128 * dl) * (64 * dl)) by (apply Rmult_le_compat; lra). assert (0 <= n * na) by (apply Rmult_le_pos; lra).
  assert (Q7 : 7 * u32 * (n * na) <= 7 * (1 / 16777216) * ((128 * dl) * (64 * dl))) by (apply Rmult_le_compat; lra). unfold mu. assert (0 < dl * dl) by nra. lra.
Qed.
Lemma toward_gap (a b : vec2 b32) : okp a -> okp b -> pdot (rval a) (rval b) <= dl * dl / 200 -> same_direction (v2sub b a) (v2neg a) = true.
Proof.
  intros A B O. destruct (sub32 dl Hlo Hhi b a B A) as (Fw & Ew & Lw & Nw). destruct (neg32 a (proj1 A)) as [Fa Ea]. pose proof (okp_small dl Hlo Hhi a A) as Na.
  assert (Na' : norm (rval (v2neg a)) <= bpow radix2 18) by (rewrite Ea, norm_neg; exact Na).
  destruct (dot32 _ _ 20 18 ltac:(lia) ltac:(lia) Fw Fa Nw Na') as [F E]. unfold same_direction. rewrite (fle0 _ F). apply Rleb_true. apply abs_le2' in E. rewrite Ea, norm_neg in E.
  pose proof (norm_sub_le _ _ Ew) as Nw'. set (w := rval (v2sub b a)) in * . set (W := psub (rval b) (rval a)) in * . destruct A as [_ [A1 A2]].
  assert (G : pdot w (pneg (rval a)) >= pdot W (pneg (rval a)) - u32 * norm W * norm (rval a)).
  { pose proof (cauchy_abs (psub w W) (pneg (rval a))) as C. rewrite norm_neg in C. apply abs_le2' in C. rewrite pdot_sub_l in C. assert (norm (psub w W) * norm (rval a) <= u32 * norm W * norm (rval a)) by (apply Rmult_le_compat_r; [apply norm_nonneg | exact Ew]). lra. }
  assert (GW : pdot W (pneg (rval a)) = norm (rval a) * norm (rval a) - pdot (rval a) (rval b)) by (rewrite norm_sq; unfold W, pdot, psub, pneg; cbn; ring).
  pose proof u32_pos. pose proof u32_small. pose proof (dl_num dl Hlo Hhi). pose proof (norm_nonneg w). pose proof (norm_nonneg W). set (na := norm (rval a)) in * .
  assert (TT : tiny <= u32 / 100 * (dl * dl)).
  { apply tiny_100. replace (-100)%Z with (-50 + -50)%Z by reflexivity. rewrite bpow_plus. assert (bpow radix2 (-50) <= dl) by (apply Rle_trans with (bpow radix2 (-20)); [apply bpow_le; lia | exact Hlo]). apply Rmult_le_compat; try apply bpow_ge_0; assumption. }
  assert (dl * dl <= na * na) by (apply Rmult_le_compat; lra). assert (0 < dl * dl) by (apply Rmult_lt_0_compat; lra).
  assert (Y1 : norm w <= 129 * dl). { assert (u32 * norm W <= 1 / 16777216 * (128 * dl)) by (apply Rmult_le_compat; lra). lra. }
  assert (Z1 : norm w * na <= 129 * dl * (64 * dl)) by (apply Rmult_le_compat; lra). assert (Z2 : norm W * na <= 128 * dl * (64 * dl)) by (apply Rmult_le_compat; lra).
  assert (0 <= norm w * na) by (apply Rmult_le_pos; lra). assert (0 <= norm W * na) by (apply Rmult_le_pos; lra).
  assert (u32 * (norm w * na) <= 1 / 16777216 * (129 * dl * (64 * dl))) by (apply Rmult_le_compat; lra). assert (u32 * (norm W * na) <= 1 / 16777216 * (128 * dl * (64 * dl))) by (apply Rmult_le_compat; lra).
  assert (u32 / 100 * (dl * dl) <= 1 / 16777216 * (dl * dl)) by (apply Rmult_le_compat_r; lra). lra.
Qed.
(** a point the fitness test lets through *)
Lemma accepted (a d : vec2 b32) : okp a -> dir_ok d -> fle (v2dot a d) f0 = false -> - (31 / 10) * u32 * (norm (rval a) * norm (rval d)) <= pdot (rval d) (rval a).
Proof.
  intros A (Fd & Ld & Ud) T. pose proof (okp_small dl Hlo Hhi a A) as Na. destruct (dot32 a d 18 59 ltac:(lia) ltac:(lia) (proj1 A) Fd Na Ud) as [F E]. rewrite fle_fin in T; [|exact F | reflexivity]. change (val f0) with 0 in T.
  destruct (Rleb_spec (val (v2dot a d)) 0) as [|T0]; [discriminate|]. apply abs_le2' in E. rewrite (pdot_comm (rval a)) in E. destruct A as [_ [A1 A2]]. pose proof u32_pos.
  assert (TT : tiny <= u32 / 100 * (norm (rval a) * norm (rval d))).
  { apply tiny_100. replace (-100)%Z with (-50 + -50)%Z by reflexivity. rewrite bpow_plus. apply Rmult_le_compat; try apply bpow_ge_0; [apply Rle_trans with (bpow radix2 (-20)) | apply Rle_trans with (bpow radix2 (-24))]; try lra; apply bpow_le; lia. }
  assert (0 <= u32 * (norm (rval a) * norm (rval d))) by (apply Rmult_le_pos; [lra | apply Rmult_le_pos; apply norm_nonneg]). lra.
Qed.
Definition Side (sg : R) (b c d : vec2 b32) : Prop :=
  okp b /\ okp c /\ M (rval b) /\ M (rval c) /\ pdot (rval b) (rval c) <= dl * dl / 200 /\ sg * sg = 1 /\
  dl * norm (psub (rval c) (rval b)) <= sg * pcross (rval b) (rval c) /\ dirn (3 * u32) (rval d) sg (rval b) (rval c) /\ dir_ok d.
Lemma side_swap sg b c d : Side sg b c d -> Side (- sg) c b d.
Proof.
  intros (B & C & Mb & Mc & O & S & H & Hd & Hok). repeat (split; [assumption|]). split; [rewrite pdot_comm; exact O|]. split; [lra|].
  split; [rewrite norm_swap_sub; replace (- sg * pcross (rval c) (rval b)) with (sg * pcross (rval b) (rval c)) by (unfold pcross; ring); exact H|]. split; [apply dirn_swap, Hd | exact Hok].
Qed.
Lemma accepted_height sg b c d : Side sg b c d -> let a := sup d in fle (v2dot a d) f0 = false -> - (3 / 100000) * dl * norm (psub (rval c) (rval b)) <= sg * pcross (psub (rval c) (rval b)) (rval a).
Proof.
  intros (B & C & Mb & Mc & O & S & H & Hd & Hok) a T. destruct (gsup d Hok) as [A _]. fold a in A. pose proof (accepted a d A Hok T) as G. destruct (dirn_bounds _ _ _ _ _ S Hd) as (l & L & P & N1 & N2). specialize (P (rval a)). apply abs_le2' in P.
  set (n := norm (psub (rval c) (rval b))) in * . set (V := sg * pcross (psub (rval c) (rval b)) (rval a)) in * . set (na := norm (rval a)) in * . set (nd := norm (rval d)) in * . set (q := l * n) in * . pose proof (norm_nonneg (psub (rval c) (rval b))) as Pn. fold n in Pn.
  assert (Pq : 0 <= q) by (apply Rmult_le_pos; lra). pose proof u32_pos. pose proof u32_small. destruct A as [_ [A1 A2]]. fold na in A1, A2. pose proof gpos.
  assert (Q1 : na * nd <= 101 / 100 * (q * na)). { replace (101 / 100 * (q * na)) with (na * (101 / 100 * q)) by ring. apply Rmult_le_compat_l; [lra|]. assert (3 * u32 * q <= 1 / 100 * q) by (apply Rmult_le_compat_r; lra). lra. }
  assert (Q2 : 0 <= q * na) by (apply Rmult_le_pos; lra). assert (Q3 : u32 * (na * nd) <= u32 * (101 / 100 * (q * na))) by (apply Rmult_le_compat_l; lra). assert (Q0 : 0 <= u32 * (q * na)) by (apply Rmult_le_pos; lra).
  assert (Q4 : - (7 * u32) * (q * na) <= l * V) by lra. assert (Q5 : l * (- (7 * u32) * (n * na)) <= l * V) by (unfold q in Q4; lra). apply Rmult_le_reg_l in Q5; [|exact L].
  assert (Q6 : n * na <= n * (64 * dl)) by (apply Rmult_le_compat_l; lra). assert (0 <= n * na) by (apply Rmult_le_pos; lra). assert (Q7 : 7 * u32 * (n * na) <= 7 * (1 / 16777216) * (n * (64 * dl))) by (apply Rmult_le_compat; lra). assert (0 <= dl * n) by (apply Rmult_le_pos; lra). lra.
Qed.
Lemma gap_normals sg b c d : Side sg b c d -> let a := sup d in fle (v2dot a d) f0 = false -> let q := cross (v2sub b a) (v2sub c a) in
  (let r := cross_f32 (v2sub b a) q in fin2 r /\ len_ok r /\ dirn (3 * u32) (rval r) (- sg) (rval a) (rval b) /\ 128 / 100 * (dl * dl) * norm (psub (rval b) (rval a)) <= norm (rval r)) /\
  (let r := cross_sv q (v2sub c a) in fin2 r /\ len_ok r /\ dirn (3 * u32) (rval r) sg (rval a) (rval c) /\ 128 / 100 * (dl * dl) * norm (psub (rval c) (rval a)) <= norm (rval r)).
Proof.
  intros E a T q. pose proof (accepted_height sg b c d E T) as H2. fold a in H2. destruct E as (B & C & Mb & Mc & O & S & H & Hd & Hok). destruct (gsup d Hok) as [A _]. fold a in A. pose proof gpos as Pd. assert (P2 : 0 < dl * dl) by (apply Rmult_lt_0_compat; lra).
  pose proof (apart_pair dl Pd _ _ (proj2 B) (proj2 C) O) as LN.
  assert (AR : 138 / 100 * (dl * dl) <= sg * pcross (psub (rval b) (rval a)) (psub (rval c) (rval a))).
  { replace (sg * pcross (psub (rval b) (rval a)) (psub (rval c) (rval a))) with (sg * pcross (rval b) (rval c) + sg * pcross (psub (rval c) (rval b)) (rval a)) by (unfold pcross, psub; cbn; ring). assert (dl * (141 / 100 * dl) <= dl * norm (psub (rval c) (rval b))) by (apply Rmult_le_compat_l; lra). lra. }
  destruct (area32 dl Hlo Hhi a b c sg S A B C AR) as (Fq & Lq & Sq & Lab). fold q in Fq, Lq, Sq.
  assert (Lac : / 100 * dl <= norm (psub (rval c) (rval a))).
  { assert (AR' : 138 / 100 * (dl * dl) <= - sg * pcross (psub (rval c) (rval a)) (psub (rval b) (rval a))) by (replace (- sg * pcross (psub (rval c) (rval a)) (psub (rval b) (rval a))) with (sg * pcross (psub (rval b) (rval a)) (psub (rval c) (rval a))) by (unfold pcross; ring); exact AR).
    destruct (area32 dl Hlo Hhi a c b (- sg) ltac:(lra) A C B AR') as (_ & _ & _ & L). exact L. }
  assert (Pq : 0 < sg * val q) by lra. destruct (sign_split (val q) sg S Pq) as [Eq _].
  assert (LL : forall w, / 100 * dl <= norm w -> bpow radix2 (-69) <= Rabs (val q) * norm w).
  { intros w Hw. rewrite Eq. apply Rle_trans with ((bpow radix2 (-20) * bpow radix2 (-20)) * (bpow radix2 (-7) * bpow radix2 (-20))); [rewrite <- !bpow_plus; apply bpow_le; lia|].
    pose proof (bpow_gt_0 radix2 (-20)). assert (B7 : bpow radix2 (-7) = / 128) by (cbn; lra). rewrite B7. apply Rmult_le_compat; try (apply Rmult_le_pos; lra).
    - apply Rle_trans with (dl * dl); [apply Rmult_le_compat; lra | lra].
    - lra. }
  assert (GG : forall w, 128 / 100 * (dl * dl) * norm w <= 99 / 100 * (Rabs (val q) * norm w)).
  { intro w. rewrite Eq. rewrite <- (Rmult_assoc (99 / 100)). apply Rmult_le_compat_r; [apply norm_nonneg | lra]. }
  split.
  - destruct (normal_ab dl Hlo Hhi a b q sg A B S Fq Sq Pq (LL _ Lab)) as (F1 & L1 & D1 & N1). split; [exact F1|]. split; [exact L1|]. split; [exact D1|]. eapply Rle_trans; [apply GG | exact N1].
  - destruct (normal_ac dl Hlo Hhi a c q sg A C S Fq Sq Pq (LL _ Lac)) as (F1 & L1 & D1 & N1). split; [exact F1|]. split; [exact L1|]. split; [exact D1|]. eapply Rle_trans; [apply GG | exact N1].
Qed.
Lemma gap_dir (r : vec2 b32) : fin2 r -> norm (rval r) <= bpow radix2 59 -> 18 / 10 * (dl * dl * dl) <= norm (rval r) -> direction_is_too_small r = false /\ dir_ok r.
Proof.
  intros F U L. assert (/ 64 * / 64 <= dl * dl) by (apply Rmult_le_compat; lra). assert (/ 64 * / 64 * / 64 <= dl * dl * dl) by (apply Rmult_le_compat; lra). assert (B23 : bpow radix2 (-23) = / 8388608) by (cbn; lra). split.
  - destruct (direction_is_too_small r) eqn:T; [|reflexivity]. exfalso. destruct (too_small32 r F U) as [K _]. specialize (K T). lra.
  - split; [exact F|]. split; [|exact U]. apply Rle_trans with (bpow radix2 (-23)); [apply bpow_le; lia | lra].
Qed.
Definition Pair (s : simplex b32) (d : vec2 b32) : Prop := exists sg b c, s = [b; c] /\ Side sg b c d.
(** the new edge faces the origin *)
Lemma new_side (a x r : vec2 b32) s : okp a -> okp x -> M (rval a) -> M (rval x) -> pdot (rval a) (rval x) <= dl * dl / 200 -> s * s = 1 -> 0 < s * pcross (rval a) (rval x) ->
  dirn (3 * u32) (rval r) s (rval a) (rval x) -> fin2 r -> len_ok r -> 128 / 100 * (dl * dl) * norm (psub (rval x) (rval a)) <= norm (rval r) -> direction_is_too_small r = false /\ Side s a x r.
Proof.
  intros A X Ma Mx O S P Hd F [L U] N. pose proof gpos as Pd. pose proof (apart_pair dl Pd _ _ (proj2 A) (proj2 X) O) as LN. assert (P2 : 0 < dl * dl) by (apply Rmult_lt_0_compat; lra).
  destruct (gap_dir r F U) as [T D]. { eapply Rle_trans; [|exact N]. assert (128 / 100 * (dl * dl) * (141 / 100 * dl) <= 128 / 100 * (dl * dl) * norm (psub (rval x) (rval a))) by (apply Rmult_le_compat_l; lra). assert (0 < dl * dl * dl) by (apply Rmult_lt_0_compat; lra). lra. }
  split; [exact T|]. repeat (split; [assumption|]). split; [|split; assumption].
  pose proof (foot_cross dl M Pd HM Hfar _ _ Ma Mx (proj2 A) (proj2 X) O) as FC. rewrite <- (Rmult_1_l (Rabs _)), <- (abs_sig s S), <- Rabs_mult, Rabs_pos_eq in FC by lra. exact FC.
Qed.
Lemma tri_gap sg b c d : Side sg b c d -> fle (v2dot (sup d) d) f0 = false -> exists s' d', add_point [b; c] (sup d) = Ok (s', (false, d')) /\ direction_is_too_small d' = false /\ Pair s' d'.
Proof.
  intros E T. destruct (gap_normals sg b c d E T) as [(F1 & L1 & D1 & N1) (F2 & L2 & D2 & N2)]. pose proof (accepted_height sg b c d E T) as HH. pose proof (side_swap _ _ _ _ E) as Es. pose proof (accepted_height _ _ _ _ Es T) as HHs.
  destruct Es as (_ & _ & _ & _ & Os & Ss & Hs & _). destruct E as (B & C & Mb & Mc & O & S & H & Hd & Hok). destruct (gsup d Hok) as [A Ma]. pose proof gpos as Pd. assert (P2 : 0 < dl * dl) by (apply Rmult_lt_0_compat; lra).
  cbn [add_point]. set (a := sup d) in * . set (q := cross (v2sub b a) (v2sub c a)) in * . set (r1 := cross_f32 (v2sub b a) q) in * . set (r2 := cross_sv q (v2sub c a)) in * .
  destruct (side dl M Pd HM Hfar sg _ _ _ S Ma Mb (proj2 A) (proj2 B) (proj2 C) O H HH) as [ZB ZD]. destruct (side dl M Pd HM Hfar (- sg) _ _ _ Ss Ma Mc (proj2 A) (proj2 C) (proj2 B) Os Hs HHs) as [YB YD].
  pose proof (apart_pair dl Pd _ _ (proj2 B) (proj2 C) O) as LN. assert (PX : 0 < sg * pcross (rval b) (rval c)) by (eapply Rlt_le_trans; [|exact H]; apply Rmult_lt_0_compat; lra).
  set (Z := sg * pcross (rval a) (rval b)) in * . set (Y := - sg * pcross (rval a) (rval c)) in * . assert (EY : sg * pcross (rval c) (rval a) = Y) by (unfold Y, pcross; ring).
  destruct (same_direction r1 (v2neg a)) eqn:T1.
  - pose proof (test32 dl Hlo Hhi r1 a b (- sg) Ss A B F1 L1 D1 T1) as Q. replace (- sg * pcross (rval a) (rval b)) with (- Z) in Q by (unfold Z; ring).
    assert (ZN : Z < 0). { apply Rnot_le_lt. intro K. rewrite Rabs_pos_eq in ZB by exact K. unfold mu in Q. lra. } specialize (ZD ZN). assert (O' : pdot (rval a) (rval b) <= dl * dl / 200) by lra. rewrite (toward_gap a b A B O').
    exists [a; b], r1. split; [reflexivity|]. destruct (new_side a b r1 (- sg) A B Ma Mb O' Ss) as [K1 K2]; try assumption; [replace (- sg * pcross (rval a) (rval b)) with (- Z) by (unfold Z; ring); lra|]. split; [exact K1|]. exists (- sg), a, b. split; [reflexivity | exact K2].
  - pose proof (test32_false r1 a b (- sg) Ss A B F1 L1 D1 T1) as Q. replace (- sg * pcross (rval a) (rval b)) with (- Z) in Q by (unfold Z; ring).
    assert (ZP : 0 < Z). { apply Rnot_le_lt. intro K. rewrite Rabs_left1 in ZB by exact K. unfold mu in Q. lra. }
    assert (YN : Y < 0). { apply Rnot_le_lt. intro K. apply (not_inside dl M Pd HM Hfar sg (rval b) (rval c) (rval a) Ma Mb Mc PX); [rewrite EY; exact K | fold Z; lra]. } specialize (YD YN). assert (O' : pdot (rval a) (rval c) <= dl * dl / 200) by lra.
    assert (YV : sg * pcross (rval a) (rval c) = - Y) by (unfold Y; ring). rewrite Rabs_left in YB by exact YN.
    destruct (same_direction r2 (v2neg a)) eqn:T2.
    + exists [a; c], r2. split; [reflexivity|]. destruct (new_side a c r2 sg A C Ma Mc O' S) as [K1 K2]; try assumption; [lra|]. split; [exact K1|]. exists sg, a, c. split; [reflexivity | exact K2].
    + exfalso. pose proof (test32_false r2 a c sg S A C F2 L2 D2 T2) as Q2. rewrite YV in Q2. unfold mu in Q2. lra.
Qed.
(** the direction of a segment *)
Lemma seg_fin a b r s : okp a -> okp b -> M (rval a) -> M (rval b) -> pdot (rval a) (rval b) <= dl * dl / 200 -> s * s = 1 -> let w := v2sub b a in let q := cross w (v2neg a) in let n := norm (psub (rval b) (rval a)) in
  r = cross_aba w (v2neg a) -> fin2 r -> norm (rval r) <= bpow radix2 59 -> 141 / 100 * dl <= n -> 0 < s * pcross (rval a) (rval b) -> 98 / 100 * (dl * n) <= s * val q ->
  (bpow radix2 (-70) <= Rabs (val q) * n -> 99 / 100 * (Rabs (val q) * n) <= norm (rval r) /\ forall sg, sg * sg = 1 -> 0 < sg * val q -> dirn (3 * u32) (rval r) sg (rval a) (rval b)) ->
  exists r', add_point [b] a = Ok ([a; b], (false, r')) /\ direction_is_too_small r' = false /\ Pair [a; b] r'.
Proof.
  intros A B Ma Mb O S w q n Er Fr Ur LN X Q Dr. pose proof gpos as Pd. assert (P2 : 0 < dl * dl) by (apply Rmult_lt_0_compat; lra). assert (Pdn : 0 < dl * n) by (apply Rmult_lt_0_compat; lra).
  assert (EQ : Rabs (val q) = s * val q) by (apply sign_split; [exact S | lra]). assert (L1 : 98 / 100 * (dl * n) * n <= Rabs (val q) * n) by (rewrite EQ; apply Rmult_le_compat_r; lra).
  assert (L0 : dl * (141 / 100 * dl) <= dl * n) by (apply Rmult_le_compat_l; lra). assert (L00 : 0 < dl * (141 / 100 * dl)) by (apply Rmult_lt_0_compat; lra).
  assert (L2 : 98 / 100 * (dl * (141 / 100 * dl)) * (141 / 100 * dl) <= 98 / 100 * (dl * n) * n) by (apply Rmult_le_compat; lra).
  assert (P3 : 0 < dl * dl * dl) by (apply Rmult_lt_0_compat; lra). assert (L3 : 19 / 10 * (dl * dl * dl) <= Rabs (val q) * n) by lra.
  assert (B70 : bpow radix2 (-70) <= Rabs (val q) * n). { eapply Rle_trans; [|exact L3]. assert (/ 64 * / 64 <= dl * dl) by (apply Rmult_le_compat; lra). assert (/ 64 * / 64 * / 64 <= dl * dl * dl) by (apply Rmult_le_compat; lra). apply Rle_trans with (bpow radix2 (-20)); [apply bpow_le; lia | cbn; lra]. }
  destruct (Dr B70) as [N1 D1]. specialize (D1 s S ltac:(lra)). destruct (gap_dir r Fr Ur) as [T D]; [lra|].
  exists r. split. { cbn [add_point]. fold w. pose proof (toward_gap a b A B O) as TW. unfold same_direction in TW. fold w in TW. rewrite TW, Er. reflexivity. }
  split; [exact T|]. exists s, a, b. split; [reflexivity|]. repeat (split; [assumption|]). split; [|split; assumption].
  pose proof (foot_cross dl M Pd HM Hfar _ _ Ma Mb (proj2 A) (proj2 B) O) as FC. rewrite <- (Rmult_1_l (Rabs _)), <- (abs_sig s S), <- Rabs_mult, Rabs_pos_eq in FC by lra. exact FC.
Qed.
Lemma seg_gap b : okp b -> M (rval b) -> let a := sup (v2neg b) in fle (v2dot a (v2neg b)) f0 = false -> exists r, add_point [b] a = Ok ([a; b], (false, r)) /\ direction_is_too_small r = false /\ Pair [a; b] r.
Proof.
  intros B Mb a T. pose proof (neg_dir dl Hlo Hhi b B) as Hok. destruct (gsup _ Hok) as [A Ma]. fold a in A, Ma. pose proof gpos as Pd. assert (P2 : 0 < dl * dl) by (apply Rmult_lt_0_compat; lra). pose proof u32_pos as U0. pose proof u32_small as U1.
  assert (O : pdot (rval a) (rval b) <= dl * dl / 200).
  { pose proof (accepted a _ A Hok T) as G. destruct (neg32 b (proj1 B)) as [_ Eb]. rewrite Eb, norm_neg in G. replace (pdot (pneg (rval b)) (rval a)) with (- pdot (rval a) (rval b)) in G by (unfold pdot, pneg; cbn; ring).
    assert (K : norm (rval a) * norm (rval b) <= 64 * dl * (64 * dl)) by (apply Rmult_le_compat; try apply norm_nonneg; [apply A | apply B]). assert (0 <= norm (rval a) * norm (rval b)) by (apply Rmult_le_pos; apply norm_nonneg).
    assert (u32 * (norm (rval a) * norm (rval b)) <= 1 / 16777216 * (64 * dl * (64 * dl))) by (apply Rmult_le_compat; lra). lra. }
  destruct (seg_cross dl Hlo Hhi a b A B) as (Fq & Sq & Eq). pose proof (foot_cross dl M Pd HM Hfar _ _ Ma Mb (proj2 A) (proj2 B) O) as FC. pose proof (apart_pair dl Pd _ _ (proj2 A) (proj2 B) O) as LN.
  assert (TT : tiny <= u32 / 100 * (dl * dl)).
  { apply tiny_100. replace (-100)%Z with (-50 + -50)%Z by reflexivity. rewrite bpow_plus. assert (bpow radix2 (-50) <= dl) by (apply Rle_trans with (bpow radix2 (-20)); [apply bpow_le; lia | exact Hlo]). apply Rmult_le_compat; try apply bpow_ge_0; assumption. }
  destruct (seg_dir dl Hlo Hhi a b A B) as (Fr & Ur & _ & Dr). set (w := v2sub b a) in * . set (q := cross w (v2neg a)) in * . set (r := cross_aba w (v2neg a)) in * . set (n := norm (psub (rval b) (rval a))) in * .
  assert (UN : n <= 128 * dl) by (unfold n; pose proof (norm_psub (rval b) (rval a)); destruct A as [_ [_ A]], B as [_ [_ B]]; lra). assert (Pn : 0 < n) by lra. assert (UA : norm (rval a) <= 64 * dl) by apply A.
  assert (ER : 5 * u32 * (n * norm (rval a)) + 3 * tiny <= 1 / 100 * (dl * n)).
  { assert (K : n * norm (rval a) <= n * (64 * dl)) by (apply Rmult_le_compat_l; lra). assert (0 <= n * norm (rval a)) by (apply Rmult_le_pos; [lra | apply norm_nonneg]). assert (u32 * (n * norm (rval a)) <= 1 / 16777216 * (n * (64 * dl))) by (apply Rmult_le_compat; lra).
    assert (dl * (141 / 100 * dl) <= dl * n) by (apply Rmult_le_compat_l; lra). assert (u32 / 100 * (dl * dl) <= 1 / 16777216 * (dl * dl)) by (apply Rmult_le_compat_r; lra). lra. }
  assert (Pdn : 0 < dl * n) by (apply Rmult_lt_0_compat; lra).
  destruct (Rle_or_lt 0 (pcross (rval a) (rval b))) as [X0|X0].
  + rewrite Rabs_pos_eq in FC by exact X0. apply abs_le2' in Eq. apply (seg_fin a b r 1); try assumption; try reflexivity; try lra. change (98 / 100 * (dl * n) <= 1 * val q). lra.
  + rewrite Rabs_left in FC by exact X0. apply abs_le2' in Eq. apply (seg_fin a b r (-1)); try assumption; try reflexivity; try lra. change (98 / 100 * (dl * n) <= -1 * val q). lra.
Qed.
(** ** The two loops that stop at the first separating direction *)
Definition clear (o : outcome b32) : Prop := (exists s d, o = Separated s d) \/ exists s, o = Exhausted s.
Lemma pair_ff : forall fuel s d, Pair s d -> clear (run_ff sup fuel s d).
Proof.
  induction fuel as [|fuel IH]; intros s d (sg & b & c & -> & E); [right; eexists; reflexivity|]. cbn [run_ff]. destruct (fle (v2dot (sup d) d) f0) eqn:T; [left; eauto|].
  destruct (tri_gap sg b c d E T) as (s' & d' & -> & -> & N). apply IH, N.
Qed.
Lemma pair_tf : forall fuel s d, Pair s d -> clear (run_tf sup fuel s d).
Proof.
  induction fuel as [|fuel IH]; intros s d (sg & b & c & -> & E); [right; eexists; reflexivity|]. cbn [run_tf]. destruct (fle (v2dot (sup d) d) f0) eqn:T; [left; eauto|].
  destruct (tri_gap sg b c d E T) as (s' & d' & -> & -> & N). apply IH, N.
Qed.
Lemma clear_ff d0 : dir_ok d0 -> clear (run_ff sup 20 [] d0).
Proof.
  intro H. pose (m := 18%nat). change 20%nat with (S (S m)). clearbody m. destruct (gsup d0 H) as [B Mb]. cbn [run_ff]. destruct (fle (v2dot (sup d0) d0) f0) eqn:T; [left; eauto|]. set (b := sup d0) in * .
  change (add_point [] b) with (Ok ([b], (false, v2neg b))). cbv iota beta. rewrite (neg_not_small dl Hlo Hhi b B). destruct (fle (v2dot (sup (v2neg b)) (v2neg b)) f0) eqn:T2; [left; eauto|].
  destruct (seg_gap b B Mb T2) as (r & -> & -> & N). apply pair_ff, N.
Qed.
Lemma clear_tf d0 : dir_ok d0 -> clear (run_tf sup 20 [] d0).
Proof.
  intro H. pose (m := 18%nat). change 20%nat with (S (S m)). clearbody m. destruct (gsup d0 H) as [B Mb]. cbn [run_tf]. destruct (fle (v2dot (sup d0) d0) f0) eqn:T; [left; eauto|]. set (b := sup d0) in * .
  change (add_point [] b) with (Ok ([b], (false, v2neg b))). cbv iota beta. rewrite (neg_not_small dl Hlo Hhi b B). destruct (fle (v2dot (sup (v2neg b)) (v2neg b)) f0) eqn:T2; [left; eauto|].
  destruct (seg_gap b B Mb T2) as (r & -> & -> & N). apply pair_tf, N.
Qed.
Theorem gap_gjk P d0 : dir_ok d0 -> gjk sup P false d0 = Ok (false, v2nan).
Proof.
  intro H. destruct P; cbn [gjk].
  - unfold gjk_tf. destruct (clear_tf d0 H) as [(s & d & ->)|(s & ->)]; reflexivity.
  - unfold gjk_ff. destruct (clear_ff d0 H) as [(s & d & ->)|(s & ->)]; reflexivity.
Qed.
End Search.
