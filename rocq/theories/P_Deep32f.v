(** * Deep overlaps in binary32: from the search to the queries (proofs for C62) *)
From Coq Require Import Reals ZArith Bool Lra Lia List Psatz.
From Flocq Require Import IEEE754.BinarySingleNaN Core Relative.
From Verif Require Import Num NumXR NumB32 Glam Transform2 Shapes2 Gjk Detect2 Spec SpecLink P_Base P_Transform P_Shapes P_Geo P_Gjk P_B32 Props_F32 Props_F32Gjk Props_F32Ball P_F32Box P_Drift P_Deep Props_Deep Spec32 P_Closed32 P_Deep32 P_Deep32b P_Deep32c P_Deep32d P_Deep32e.
Import ListNotations.
Local Open Scope R_scope.

Lemma rotate_norm c s p : norm (rotate c s p) = norm (c, s) * norm p.
Proof.
  unfold norm. rewrite <- sqrt_mult_alt by (unfold pdot; cbn; nra). f_equal. unfold pdot, rotate. cbn [fst snd]. ring.
Qed.
Lemma place_sub v c s k p q : psub (place v c s k k p) (place v c s k k q) = pscale k (rotate c s (psub p q)).
Proof. apply pt_eq; unfold place, rotate, psub, pscale; cbn [fst snd]; ring. Qed.
Lemma place_dot v c s k d p : pdot d (place v c s k k p) = pdot d v + k * pdot (rotate c (- s) d) p.
Proof. unfold place, rotate, pdot. cbn [fst snd]. ring. Qed.

Section Pair.
Context {T : Type} {TR : Transformation2d b32 T}.
(** the computed transform follows the similarity p -> k M p + pos: points within rho land within eta, pulled-back normals are off by a factor kappa *)
Definition follows (t : T) (pos : pt) (c s k rho eta kappa : R) : Prop :=
  (forall p, fin2 p -> norm (rval p) <= rho -> fin2 (apply t p) /\ norm (psub (rval (apply t p)) (place pos c s k k (rval p))) <= eta) /\
  (forall d, dir_ok d -> fin2 (unapply_normal t (v2neg d)) /\ norm (psub (rval (unapply_normal t (v2neg d))) (rotate c (- s) (pneg (rval d)))) <= kappa * norm (rval d)).
Variables (a b : shape2d b32) (t : T) (pos : pt) (c s k ra rb eta kappa del D : R).
Hypotheses (Sa : sound32 a) (Sb : sound32 b) (Ia : included (points_of a) (disc ra)) (Ib : included (points_of b) (disc rb)) (Ra : ra <= bpow radix2 24) (Rb : rb <= bpow radix2 24).
Hypotheses (Hk : 0 < k) (Hr1 : 1 / 2 <= norm (c, s)) (Hr2 : norm (c, s) <= 3 / 2) (Hkap : 0 <= kappa <= 1 / 1000).
Hypothesis Hf : follows t pos c s k (rb + slack rb) eta kappa.
Let A := points_of a.
Let B := image (place pos c s k k) (points_of b).
Hypotheses (Hdeep : deep del A B) (Hspan : span D A B) (D63 : D <= 63 * del).
Hypothesis HE : slack ra + eta + k * (3 * kappa * (rb + slack rb) + 2 * slack rb) <= del / 200.
Hypotheses (Dlo : 1 / 7 <= del) (Dhi : del <= bpow radix2 11).

Lemma rb_pos : 0 <= rb.
Proof. destruct Hdeep as [P H]. destruct (H origin ltac:(rewrite norm_origin; lra)) as (x & _ & (q & Hq & _)). eapply Rle_trans; [apply (norm_nonneg q) | apply Ib, Hq]. Qed.
Lemma back_probe d : dir_ok d -> let e := unapply_normal t (v2neg d) in probe e /\ norm (rval e) <= 151 / 100 * norm (rval d).
Proof.
  intros H e. destruct (proj2 Hf d H) as [F N]. fold e in F, N. destruct H as (_ & L & U). set (n := norm (rval d)) in * . set (w := rotate c (- s) (pneg (rval d))) in * .
  assert (Nw : norm w = norm (c, s) * n). { unfold w. rewrite rotate_norm, norm_neg. f_equal. unfold norm, pdot. cbn. f_equal. ring. }
  pose proof (norm_triangle_sub (rval e) w) as T1. pose proof (norm_triangle_sub w (rval e)) as T2. rewrite (norm_swap_sub w) in T2. pose proof (bpow_gt_0 radix2 (-24)).
  assert (kappa * n <= 1 / 1000 * n) by (apply Rmult_le_compat_r; lra). assert (1 / 2 * n <= norm (c, s) * n) by (apply Rmult_le_compat_r; lra). assert (norm (c, s) * n <= 3 / 2 * n) by (apply Rmult_le_compat_r; lra).
  assert (G : norm (rval e) <= 151 / 100 * n) by lra. split; [|exact G]. split; [exact F|]. split.
  - replace (-24)%Z with (2 + -26)%Z in L by reflexivity. rewrite bpow_plus in L. change (bpow radix2 2) with 4 in L. pose proof (bpow_gt_0 radix2 (-26)). lra.
  - replace 60%Z with (1 + 59)%Z by reflexivity. rewrite bpow_plus. change (bpow radix2 1) with 2. lra.
Qed.
Let sup := lmd_extreme_point a b t.
Lemma sup_deep d : dir_ok d -> fin2 (sup d) /\ norm (rval (sup d)) <= D + del / 100 /\ 99 / 100 * del * norm (rval d) <= pdot (rval d) (rval (sup d)) /\
  forall la lb, corner_list a = Some la -> corner_list b = Some lb -> In (rval (sup d)) (map (fun xy => rval (v2sub (fst xy) (apply t (snd xy)))) (list_prod la lb)).
Proof.
  intro H. pose proof rb_pos as Pb. assert (Pa : probe d). { destruct H as (F & L & U). split; [exact F|]. split; [eapply Rle_trans; [|exact L]; apply bpow_le; lia | eapply Rle_trans; [exact U|]; apply bpow_le; lia]. }
  destruct (back_probe d H) as [Pe Ne]. destruct (proj2 Hf d H) as [_ Ke]. unfold sup, lmd_extreme_point. set (e := unapply_normal t (v2neg d)) in * .
  destruct (ext32 a d ra Sa Ia Ra Pa) as (Fx & (p0 & Hp0 & Np0) & Mx & Cx). destruct (ext32 b e rb Sb Ib Rb Pe) as (Fz & (q0 & Hq0 & Nq0) & Mz & Cz).
  set (x := extreme_point a d) in * . set (z := extreme_point b e) in * . pose proof (slack_pos rb Pb) as PS.
  assert (Nz : norm (rval z) <= rb + slack rb). { pose proof (norm_triangle_sub (rval z) q0). pose proof (Ib q0 Hq0) as K. unfold disc in K. lra. }
  destruct (proj1 Hf z Fz Nz) as [Fy Ny]. set (y := apply t z) in * .
  (* position of the difference *)
  pose proof u32_pos as U0. pose proof u32_small as U1. destruct H as (Fd & Ld & Ud). set (n := norm (rval d)) in * . pose proof (bpow_gt_0 radix2 (-24)) as B24. assert (Pn : 0 < n) by lra.
  assert (PA : 0 <= ra) by (eapply Rle_trans; [apply (norm_nonneg p0) | apply Ia, Hp0]). pose proof (slack_pos ra PA) as PSa. assert (Peta : 0 <= eta) by (eapply Rle_trans; [apply norm_nonneg | exact Ny]).
  set (kk := k * (3 * kappa * (rb + slack rb) + 2 * slack rb)) in * . assert (K2 : 2 * (k * slack rb) <= kk). { unfold kk. replace (k * (3 * kappa * (rb + slack rb) + 2 * slack rb)) with (k * (3 * kappa * (rb + slack rb)) + 2 * (k * slack rb)) by ring. assert (0 <= k * (3 * kappa * (rb + slack rb))) by (apply Rmult_le_pos; [lra | apply Rmult_le_pos; lra]). lra. }
  assert (N3 : norm (psub (place pos c s k k (rval z)) (place pos c s k k q0)) <= 3 / 2 * (k * slack rb)).
  { rewrite place_sub, norm_scale, rotate_norm, (Rabs_pos_eq k) by lra. replace (3 / 2 * (k * slack rb)) with (k * (3 / 2 * slack rb)) by ring. apply Rmult_le_compat_l; [lra|]. apply Rmult_le_compat; try apply norm_nonneg; assumption. }
  set (py := place pos c s k k (rval z)) in * . set (pq := place pos c s k k q0) in * .
  assert (KS : 0 <= k * slack rb) by (apply Rmult_le_pos; lra).
  assert (Nxy : norm (psub (rval x) (rval y)) <= D + del / 200).
  { replace (psub (rval x) (rval y)) with (padd (padd (psub (rval x) p0) (psub p0 pq)) (padd (pneg (psub py pq)) (pneg (psub (rval y) py)))) by (apply pt_eq; cbn; ring).
    pose proof (norm_triangle (padd (psub (rval x) p0) (psub p0 pq)) (padd (pneg (psub py pq)) (pneg (psub (rval y) py)))) as T1. pose proof (norm_triangle (psub (rval x) p0) (psub p0 pq)) as T2. pose proof (norm_triangle (pneg (psub py pq)) (pneg (psub (rval y) py))) as T3. rewrite !norm_neg in T3.
    assert (norm (psub p0 pq) <= D) by (apply Hspan; [exact Hp0 | exists q0; split; [exact Hq0 | reflexivity]]). lra. }
  assert (D11 : bpow radix2 11 = 2048) by (cbn; lra). rewrite D11 in Dhi.
  destruct (vsub_ok x y Fx Fy) as [Fs Es]. { eapply Rle_trans; [exact Nxy|]. apply Rle_trans with (bpow radix2 20); [rewrite bp20; lra | apply bpow_le; lia]. }
  set (m := v2sub x y) in * . assert (EU : u32 * norm (psub (rval x) (rval y)) <= del / 200). { assert (u32 * norm (psub (rval x) (rval y)) <= 1 / 16777216 * (64 * del)) by (apply Rmult_le_compat; [lra | apply norm_nonneg | lra | lra]). lra. }
  split; [exact Fs|]. split; [pose proof (norm_triangle_sub (rval m) (psub (rval x) (rval y))); lra|]. split.
  - destruct Hdeep as [Pd HD]. set (w := pscale (- (del / n)) (rval d)). assert (Nw : norm w = del). { unfold w. rewrite norm_scale, Rabs_Ropp, Rabs_pos_eq by (apply Rlt_le, Rdiv_lt_0_compat; lra). fold n. field. lra. }
    destruct (HD w ltac:(lra)) as (X & HX & (q & Hq & EX)). unfold shift in HX. set (p := psub X w) in * . specialize (Mx p HX). specialize (Mz q Hq).
    assert (DW : pdot (rval d) w = - (del * n)) by (unfold w; rewrite pdot_scale_r, <- norm_sq; fold n; field; lra).
    assert (DP : pdot (rval d) p = pdot (rval d) X + del * n) by (unfold p; rewrite pdot_sub_r, DW; ring).
    rewrite EX, place_dot in DP.
    set (r0 := rotate c (- s) (pneg (rval d))) in * . assert (ER : rotate c (- s) (rval d) = pneg r0) by (unfold r0; apply pt_eq; unfold rotate, pneg; cbn [fst snd]; ring). rewrite ER in DP.
    assert (EN : forall v, pdot (pneg r0) v = - pdot r0 v) by (intro v; unfold pdot, pneg; cbn; ring). rewrite EN in DP.
    assert (C1 : pdot r0 q <= pdot (rval e) q + kappa * n * rb). { pose proof (cauchy_abs (psub (rval e) r0) q) as C. apply abs_le2' in C. rewrite pdot_sub_l in C. pose proof (Ib q Hq) as K. unfold disc in K. assert (norm (psub (rval e) r0) * norm q <= kappa * n * rb) by (apply Rmult_le_compat; try apply norm_nonneg; assumption). lra. }
    assert (C2 : pdot (rval e) (rval z) <= pdot r0 (rval z) + kappa * n * (rb + slack rb)). { pose proof (cauchy_abs (psub (rval e) r0) (rval z)) as C. apply abs_le2' in C. rewrite pdot_sub_l in C. assert (norm (psub (rval e) r0) * norm (rval z) <= kappa * n * (rb + slack rb)) by (apply Rmult_le_compat; try apply norm_nonneg; assumption). lra. }
    assert (C3 : slack rb * norm (rval e) <= slack rb * (151 / 100 * n)) by (apply Rmult_le_compat_l; assumption).
    assert (PK : 0 <= kappa * n) by (apply Rmult_le_pos; lra). assert (C4 : kappa * n * rb <= kappa * n * (rb + slack rb)) by (apply Rmult_le_compat_l; lra).
    assert (C5 : pdot r0 q <= pdot r0 (rval z) + n * (3 * kappa * (rb + slack rb) + 2 * slack rb)). { assert (0 <= n * slack rb) by (apply Rmult_le_pos; lra). assert (0 <= kappa * n * (rb + slack rb)) by (apply Rmult_le_pos; lra). lra. }
    assert (C6 : k * pdot r0 q <= k * pdot r0 (rval z) + n * kk). { unfold kk. replace (k * pdot r0 (rval z) + n * (k * (3 * kappa * (rb + slack rb) + 2 * slack rb))) with (k * (pdot r0 (rval z) + n * (3 * kappa * (rb + slack rb) + 2 * slack rb))) by ring. apply Rmult_le_compat_l; lra. }
    assert (C7 : pdot (rval d) (rval y) <= pdot (rval d) py + n * eta). { pose proof (cauchy_abs (rval d) (psub (rval y) py)) as C. apply abs_le2' in C. rewrite pdot_sub_r in C. fold n in C. assert (n * norm (psub (rval y) py) <= n * eta) by (apply Rmult_le_compat_l; lra). lra. }
    unfold py in C7. rewrite place_dot, ER, EN in C7.
    assert (C8 : pdot (rval d) (psub (rval x) (rval y)) - n * (del / 200) <= pdot (rval d) (rval m)). { pose proof (cauchy_abs (rval d) (psub (rval m) (psub (rval x) (rval y)))) as C. apply abs_le2' in C. rewrite pdot_sub_r in C. fold n in C. assert (n * norm (psub (rval m) (psub (rval x) (rval y))) <= n * (del / 200)) by (apply Rmult_le_compat_l; lra). lra. }
    rewrite pdot_sub_r in C8. assert (C9 : n * (slack ra + eta + kk) <= n * (del / 200)) by (apply Rmult_le_compat_l; lra). fold n in Mx. lra.
  - intros la lb Hla Hlb. specialize (Cx la Hla). specialize (Cz lb Hlb). apply (in_map (fun xy => rval (v2sub (fst xy) (apply t (snd xy)))) (list_prod la lb) (x, z)). apply in_prod; assumption.
Qed.
Hypothesis Hfew : D <= 7 * del \/ exists la lb, corner_list a = Some la /\ corner_list b = Some lb /\ (length la * length lb <= 19)%nat.
Theorem pair_deep P E d0 : dir_ok d0 -> exists v, gjk (lmd_extreme_point a b t) P E d0 = Ok (true, v).
Proof.
  intro H. assert (Dl1 : bpow radix2 (-20) <= 99 / 100 * del) by (apply Rle_trans with (bpow radix2 (-3)); [apply bpow_le; lia | cbn; lra]). assert (Dl2 : 99 / 100 * del <= bpow radix2 12) by (apply Rle_trans with (bpow radix2 11); [lra | apply bpow_le; lia]).
  destruct Hfew as [H7|(la & lb & Ha & Hb & HL)].
  - apply (deep_gjk (99 / 100 * del) Dl1 Dl2 sup (D + del / 100) (fun _ => True)); [|lra|left; lra|lra|exact H]. intros d Hd. destruct (sup_deep d Hd) as (F & N & G & _). repeat split; try assumption; apply F.
  - set (l := map (fun xy => rval (v2sub (fst xy) (apply t (snd xy)))) (list_prod la lb)).
    apply (deep_gjk (99 / 100 * del) Dl1 Dl2 sup (D + del / 100) (fun v => In v l)); [|lra| |lra|exact H].
    + intros d Hd. destruct (sup_deep d Hd) as (F & N & G & V). repeat split; try assumption; try apply F. apply V; assumption.
    + right. intros Q ND FA. apply Nat.le_trans with (length l); [apply NoDup_incl_length; [exact ND|]; intros v Hv; rewrite Forall_forall in FA; apply FA, Hv|]. unfold l. rewrite map_length, prod_length. exact HL.
Qed.
End Pair.
