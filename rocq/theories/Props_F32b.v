(** * C02, C37, C38 in binary32, and C37, C38 in exact arithmetic *)
From Coq Require Import Reals ZArith Bool Lra Lia List Psatz.
From Flocq Require Import IEEE754.BinarySingleNaN Core Relative Sterbenz.
From Verif Require Import Num NumXR NumB32 Glam Transform2 Shapes2 Gjk Detect2 Misc P_B32 Props_F32.
Import ListNotations.
Local Open Scope R_scope.

(** ** C02: the documented inverse law [p == a.inverse().apply(a.apply(p))] in f32 *)
(** [x] is an integer multiple of 2^e with at most 23 bits *)
Definition on_lattice (e : Z) (x : b32) : Prop := fin x /\ exists m : Z, (Z.abs m <= 2 ^ 23)%Z /\ val x = IZR m * bpow radix2 e.
Lemma lattice_sum x y e k m : (-149 <= e)%Z -> (e <= 103)%Z -> fin x -> fin y ->
  val x = IZR k * bpow radix2 e -> val y = IZR m * bpow radix2 e -> (Z.abs (k + m) <= 2 ^ 24)%Z ->
  fin (fadd x y) /\ val (fadd x y) = IZR (k + m) * bpow radix2 e.
Proof.
  intros L U Fx Fy Vx Vy B. assert (E : val x + val y = IZR (k + m) * bpow radix2 e) by (rewrite Vx, Vy, plus_IZR; ring).
  assert (Rn : rnd (val x + val y) = IZR (k + m) * bpow radix2 e) by (rewrite E; apply rnd_dyadic; assumption).
  destruct (add_ok x y Fx Fy) as [A1 A2].
  - rewrite Rn. eapply (small_big _ (24 + e)); [lia|]. unfold small. rewrite Rabs_mult, bpow_plus, (Rabs_pos_eq (bpow _ e)) by apply bpow_ge_0.
    apply Rmult_le_compat_r; [apply bpow_ge_0|]. rewrite <- abs_IZR. change (bpow radix2 24) with (IZR (2 ^ 24)). apply IZR_le, B.
  - split; [exact A1|]. rewrite A2. exact Rn.
Qed.
Theorem C02_inverse_law_f32 : forall (e : Z) (a : @translate2d b32) (p : vec2 b32), (-149 <= e <= 103)%Z ->
  on_lattice e (vx (tr_pos a)) -> on_lattice e (vy (tr_pos a)) -> on_lattice e (vx p) -> on_lattice e (vy p) ->
  v2eq p (apply (inverse a) (apply a p)) = true.
Proof.
  intros e [[ax ay]] [px py] [L U] (Fax & ma & Ba & Ea) (Fay & na & Bb & Eb) (Fpx & mp & Bc & Ec) (Fpy & np & Bd & Ed). cbn in * .
  assert (One : forall x t k m : Z, forall x t : b32, fin x -> fin t -> val x = IZR k * bpow radix2 e -> val t = IZR m * bpow radix2 e ->
     (Z.abs k <= 2 ^ 23)%Z -> (Z.abs m <= 2 ^ 23)%Z -> feq x (fadd (fadd x t) (fneg t)) = true).
  { intros _ _ k m x t Fx Ft Vx Vt B1 B2. destruct (lattice_sum x t e k m L U Fx Ft Vx Vt ltac:(lia)) as [S1 S2].
    destruct (lattice_sum (fadd x t) (fneg t) e (k + m) (- m) L U S1 (proj2 (fin_neg t) Ft) S2) as [T1 T2].
    - rewrite val_neg, Vt, opp_IZR. ring.
    - lia.
    - rewrite feq_fin by assumption. apply Reqb_true. rewrite T2, Vx. f_equal. f_equal. lia. }
  unfold v2eq; cbn [vx vy v2add v2neg]. apply andb_true_iff. split; [eapply (One 0%Z 0%Z) | eapply (One 0%Z 0%Z)]; eassumption.
Qed.
Print Assumptions C02_inverse_law_f32.
Example lattice_met : on_lattice 0 (b32_of (-8388608) 0) /\ on_lattice (-3) (b32_of 5 (-1)).
Proof.
  split; (split; [apply val_of; lia|]).
  - exists (-8388608)%Z. split; [lia|]. apply val_of; lia.
  - exists 20%Z. split; [lia|]. rewrite (proj2 (val_of 5 (-1) ltac:(lia) ltac:(lia))). cbn. lra.
Qed.
(** and it fails for two quite ordinary numbers *)
Theorem C02_inverse_law_refuted : exists (a : @translate2d b32) (p : vec2 b32), fin2 (tr_pos a) /\ fin2 p /\
  val (vx p) = 1 /\ val (vx (tr_pos a)) = IZR (2 ^ 25) /\ v2eq p (apply (inverse a) (apply a p)) = false.
Proof.
  exists (Translate2d (V2 (b32_of 1 25) f0)), (V2 f1 f0). repeat split; try (vm_compute; reflexivity).
  - cbn [vx]. change (@f1 b32 _) with (b32_of 1 0). rewrite (proj2 (val_of 1 0 ltac:(lia) ltac:(lia))). cbn. lra.
  - cbn [vx tr_pos]. rewrite (proj2 (val_of 1 25 ltac:(lia) ltac:(lia))). cbn. lra.
Qed.
Print Assumptions C02_inverse_law_refuted.
(** how far it can be off in general: the rounding of the sum and of the difference *)
Theorem C02_inverse_error : forall (x t : b32), fin x -> fin t -> small (val x) 100 -> small (val t) 100 ->
  let r := fadd (fadd x t) (fneg t) in fin r /\ Rabs (val r - val x) <= u32 * Rabs (val x + val t) + u32 * Rabs (val (fadd x t) - val t).
Proof.
  intros x t Fx Ft Sx St r.
  assert (S1 : small (rnd (val x + val t)) 101) by (apply rnd_small; [lia|]; apply (small_add _ _ 100); assumption).
  destruct (add_ok x t Fx Ft ltac:(eapply small_big; [|exact S1]; lia)) as [A1 A2].
  assert (S2 : small (rnd (val (fadd x t) + val (fneg t))) 102).
  { apply rnd_small; [lia|]. apply (small_add _ _ 101); [rewrite A2; exact S1|]. rewrite val_neg. unfold small in * . rewrite Rabs_Ropp.
    eapply Rle_trans; [exact St|]. apply bpow_le. lia. }
  destruct (add_ok (fadd x t) (fneg t) A1 (proj2 (fin_neg t) Ft) ltac:(eapply small_big; [|exact S2]; lia)) as [B1 B2].
  split; [exact B1|]. unfold r. rewrite B2. destruct (rnd_error_add (fadd x t) (fneg t)) as (e2 & E2 & ->).
  rewrite val_neg. destruct (rnd_error_add x t) as (e1 & E1 & Q1). rewrite <- A2 in Q1.
  replace ((val (fadd x t) + - val t) * (1 + e2) - val x) with ((val x + val t) * e1 + (val (fadd x t) - val t) * e2) by (rewrite Q1 at 2; ring_simplify; rewrite Q1; ring).
  eapply Rle_trans; [apply Rabs_triang|]. rewrite !Rabs_mult. pose proof (Rabs_pos (val x + val t)). pose proof (Rabs_pos (val (fadd x t) - val t)). nra.
Qed.
Print Assumptions C02_inverse_error.
