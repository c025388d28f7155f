(** * Clear gaps in binary32: from the search to the queries (proofs for C63) *)
From Coq Require Import Reals ZArith Bool Lra Lia List Psatz.
From Flocq Require Import IEEE754.BinarySingleNaN Core Relative.
From Verif Require Import Num NumXR NumB32 Glam Transform2 Shapes2 Gjk Detect2 Spec SpecLink P_Base P_Transform P_Shapes P_Geo P_Gjk P_B32 Props_F32 Props_F32Gjk Props_F32Ball P_F32Box P_Drift P_Deep P_Scene Props_Deep Spec32 P_Closed32 P_Deep32 P_Deep32b P_Deep32c P_Deep32d P_Deep32e P_Deep32f P_Gap32 P_Gap32b.
Import ListNotations.
Local Open Scope R_scope.

(** any point of one body is at least g away from any point of the other *)
Definition apart_by (g : R) (A B : pset) : Prop := forall p q, A p -> B q -> g <= norm (psub p q).
(** all points within e of M *)
Definition fat (e : R) (M : pset) : pset := fun v => exists m, M m /\ norm (psub v m) <= e.
Lemma fat_convex e M : convex M -> convex (fat e M).
Proof.
  intros C p q t (p' & P & Np) (q' & Q & Nq) T. exists (padd (pscale (1 - t) p') (pscale t q')). split; [apply C; assumption|].
  replace (psub (padd (pscale (1 - t) p) (pscale t q)) (padd (pscale (1 - t) p') (pscale t q'))) with (padd (pscale (1 - t) (psub p p')) (pscale t (psub q q'))) by (apply pt_eq; cbn; ring). apply norm_convex; assumption.
Qed.
Lemma points_convex (a : shape2d b32) : convex (points_of a).
Proof. destruct a as [b|b|p]; cbn [points_of]; [apply convex_disc | apply convex_rect | apply convex_hull]. Qed.

Section Pair.
Context {T : Type} {TR : Transformation2d b32 T}.
Variables (a b : shape2d b32) (t : T) (pos : pt) (c s k ra rb eta kappa g D : R).
Hypotheses (Sa : sound32 a) (Sb : sound32 b) (Ia : included (points_of a) (disc ra)) (Ib : included (points_of b) (disc rb)) (Ra : ra <= bpow radix2 24) (Rb : rb <= bpow radix2 24).
Hypotheses (Ra0 : 0 <= ra) (Rb0 : 0 <= rb).
Hypotheses (Hk : 0 < k) (Hr1 : 1 / 2 <= norm (c, s)) (Hr2 : norm (c, s) <= 3 / 2) (Hkap : 0 <= kappa <= 1 / 1000).
Hypothesis Hf : follows t pos c s k (rb + slack rb) eta kappa.
Let A := points_of a.
Let B := image (place pos c s k k) (points_of b).
Hypotheses (Hgap : apart_by g A B) (Hspan : span D A B) (D63 : D <= 63 * g).
Hypothesis HE : slack ra + eta + k * (2 * slack rb) <= g / 200.
Hypotheses (Dlo : 1 / 60 <= g) (Dhi : g <= bpow radix2 11).
Let sup := lmd_extreme_point a b t.
Let M := fat (g / 100) (minkowski_diff A B).
Lemma sup_gap d : dir_ok d -> fin2 (sup d) /\ norm (rval (sup d)) <= 64 * (99 / 100 * g) /\ M (rval (sup d)).
Proof.
  intro H. assert (Pa : probe d). { destruct H as (F & L & U). split; [exact F|]. split; [eapply Rle_trans; [|exact L]; apply bpow_le; lia | eapply Rle_trans; [exact U|]; apply bpow_le; lia]. }
  destruct (back_probe t pos c s k rb eta kappa Hr1 Hr2 Hkap Hf d H) as [Pe Ne]. unfold sup, lmd_extreme_point. set (e := unapply_normal t (v2neg d)) in * .
  destruct (ext32 a d ra Sa Ia Ra Pa) as (Fx & (p0 & Hp0 & Np0) & _ & _). destruct (ext32 b e rb Sb Ib Rb Pe) as (Fz & (q0 & Hq0 & Nq0) & _ & _).
  set (x := extreme_point a d) in * . set (z := extreme_point b e) in * . pose proof (slack_pos rb Rb0) as PS.
  assert (Nz : norm (rval z) <= rb + slack rb). { pose proof (norm_triangle_sub (rval z) q0). pose proof (Ib q0 Hq0) as K. unfold disc in K. lra. }
  destruct (proj1 Hf z Fz Nz) as [Fy Ny]. set (y := apply t z) in * . pose proof u32_pos as U0. pose proof u32_small as U1.
  pose proof (slack_pos ra Ra0) as PSa. assert (Peta : 0 <= eta) by (eapply Rle_trans; [apply norm_nonneg | exact Ny]).
  assert (N3 : norm (psub (place pos c s k k (rval z)) (place pos c s k k q0)) <= 3 / 2 * (k * slack rb)).
  { rewrite place_sub, norm_scale, rotate_norm, (Rabs_pos_eq k) by lra. replace (3 / 2 * (k * slack rb)) with (k * (3 / 2 * slack rb)) by ring. apply Rmult_le_compat_l; [lra|]. apply Rmult_le_compat; try apply norm_nonneg; assumption. }
  set (py := place pos c s k k (rval z)) in * . set (pq := place pos c s k k q0) in * . assert (KS : 0 <= k * slack rb) by (apply Rmult_le_pos; lra).
  assert (Hpq : B pq) by (exists q0; split; [exact Hq0 | reflexivity]).
  assert (NE : norm (psub (psub (rval x) (rval y)) (psub p0 pq)) <= g / 200).
  { replace (psub (psub (rval x) (rval y)) (psub p0 pq)) with (padd (psub (rval x) p0) (padd (pneg (psub py pq)) (pneg (psub (rval y) py)))) by (apply pt_eq; cbn; ring).
    pose proof (norm_triangle (psub (rval x) p0) (padd (pneg (psub py pq)) (pneg (psub (rval y) py)))) as T1. pose proof (norm_triangle (pneg (psub py pq)) (pneg (psub (rval y) py))) as T3. rewrite !norm_neg in T3. lra. }
  assert (N0 : norm (psub p0 pq) <= D) by (apply Hspan; assumption). assert (Nxy : norm (psub (rval x) (rval y)) <= D + g / 200) by (pose proof (norm_triangle_sub (psub (rval x) (rval y)) (psub p0 pq)); lra).
  assert (D11 : bpow radix2 11 = 2048) by (cbn; lra). rewrite D11 in Dhi.
  destruct (vsub_ok x y Fx Fy) as [Fs Es]. { eapply Rle_trans; [exact Nxy|]. apply Rle_trans with (bpow radix2 20); [rewrite bp20; lra | apply bpow_le; lia]. }
  set (m := v2sub x y) in * . assert (EU : u32 * norm (psub (rval x) (rval y)) <= g / 200). { assert (u32 * norm (psub (rval x) (rval y)) <= 1 / 16777216 * (64 * g)) by (apply Rmult_le_compat; [lra | apply norm_nonneg | lra | lra]). lra. }
  split; [exact Fs|]. split; [pose proof (norm_triangle_sub (rval m) (psub (rval x) (rval y))); lra|].
  exists (psub p0 pq). split; [exists p0, pq; split; [exact Hp0|]; split; [exact Hpq | reflexivity]|].
  replace (psub (rval m) (psub p0 pq)) with (padd (psub (rval m) (psub (rval x) (rval y))) (psub (psub (rval x) (rval y)) (psub p0 pq))) by (apply pt_eq; cbn; ring). eapply Rle_trans; [apply norm_triangle|]. lra.
Qed.
Theorem pair_gap P d0 : dir_ok d0 -> gjk (lmd_extreme_point a b t) P false d0 = Ok (false, v2nan).
Proof.
  intro H. assert (Dl1 : bpow radix2 (-20) <= 99 / 100 * g) by (apply Rle_trans with (bpow radix2 (-7)); [apply bpow_le; lia | cbn; lra]). assert (Dl2 : 99 / 100 * g <= bpow radix2 12) by (apply Rle_trans with (bpow radix2 11); [lra | apply bpow_le; lia]).
  apply (gap_gjk (99 / 100 * g) Dl1 Dl2 ltac:(lra) sup M); [| |exact sup_gap | exact H].
  - apply fat_convex, convex_diff; [apply points_convex | apply convex_place, points_convex].
  - intros v (w & (p & q & Hp & Hq & ->) & N). pose proof (Hgap p q Hp Hq). pose proof (norm_triangle_sub (psub p q) v) as TT. rewrite (norm_swap_sub (psub p q)) in TT. lra.
Qed.
End Pair.
