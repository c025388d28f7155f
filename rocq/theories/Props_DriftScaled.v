(** * C76: chains of uniformly scaled Transform2d in binary32. *)
From Coq Require Import Reals ZArith Bool Lra Lia Psatz.
From Flocq Require Import IEEE754.BinarySingleNaN Core Relative.
From Verif Require Import Num NumXR NumB32 Glam Transform2 Shapes2 Gjk Detect2 Spec SpecLink P_Base P_Geo P_B32 Props_F32 Props_F32Gjk P_Drift Props_Drift.
Local Open Scope R_scope.

(** ** What the chain stands for when nothing is rounded *)
(** the total scale *)
Fixpoint size (m : chain) : R :=
  match m with Given t => val (vx (t_scale t)) | Then a b => size a * size b | Back a => / size a end.
(** the translations added up as they are seen from outside (2^-40 each to cover underflow) *)
Fixpoint spread (m : chain) : R :=
  match m with Given t => norm (rval (t_pos t)) + bpow radix2 (-40) | Then a b => spread a + size a * spread b | Back a => spread a / size a end.
(** every stage of the computation keeps to a range far inside that of binary32 *)
Fixpoint in_range (m : chain) : Prop :=
  (bpow radix2 (-40) <= size m <= bpow radix2 40 /\ bpow radix2 (-59) <= spread m <= bpow radix2 59) /\
  match m with Given _ => True | Then a b => in_range a /\ in_range b | Back a => in_range a end.
(** [scaled_moves d m f]: every given transform scales by one positive factor, its rotor is within [d] of a true rotation, and [f] is the
    similarity of the plane the chain stands for when nothing is rounded *)
Inductive scaled_moves (d : R) : chain -> (pt -> pt) -> Prop :=
  | scaled_given t k angle : fin2 (t_pos t) -> fin2 (ra (t_rot t)) -> fin k -> t_scale t = V2 k k ->
      norm (psub (rval (ra (t_rot t))) (cos angle, sin angle)) <= d ->
      scaled_moves d (Given t) (fun p => padd (rotate (cos angle) (sin angle) (pscale (val k) p)) (rval (t_pos t)))
  | scaled_then a b f g : scaled_moves d a f -> scaled_moves d b g -> scaled_moves d (Then a b) (fun p => f (g p))
  | scaled_back a f g : scaled_moves d a f -> (forall p, f (g p) = p) -> scaled_moves d (Back a) g.
Definition weight2 (m : chain) : nat := 2 * weight m.

(** ** Scale factors near a number *)
Definition snear (s : b32) (S K : R) : Prop := fin s /\ 0 < S /\ S <= K * val s /\ val s <= K * S.
Lemma snear_pos s S K : snear s S K -> 1 <= K -> 0 < val s.
Proof. intros (_ & P & A & _) HK. nra. Qed.
Lemma snear_weaken s S K K' : snear s S K -> 1 <= K -> K <= K' -> snear s S K'.
Proof. intros H HK L. pose proof (snear_pos _ _ _ H HK). destruct H as (F & P & A & B). split; [exact F|]. split; [exact P|]. split; nra. Qed.
Lemma tiny_rel r : bpow radix2 (-100) <= r -> tiny <= / 16777216 / 16 * r.
Proof.
  intro H. unfold tiny. change (-150)%Z with (-28 + -122)%Z. rewrite bpow_plus.
  assert (bpow radix2 (-28) = / 16777216 / 16) by (cbn; lra). assert (bpow radix2 (-122) <= bpow radix2 (-100)) by (apply bpow_le; lia). nra.
Qed.
Lemma u32_val : u32 = / 16777216. Proof. unfold u32. cbn. lra. Qed.
Lemma rnd_rel r : bpow radix2 (-100) <= r -> r <= (1 + 2 * u32) * rnd r /\ rnd r <= (1 + 2 * u32) * r.
Proof.
  intro H. destruct (rnd_error r) as (e & n & E & N & ->). pose proof (tiny_rel r H) as T. rewrite u32_val in * .
  pose proof (bpow_gt_0 radix2 (-100)). apply abs_le2' in E, N.
  assert (r * e <= r * / 16777216) by (apply Rmult_le_compat_l; lra). assert (r * - / 16777216 <= r * e) by (apply Rmult_le_compat_l; lra).
  split; lra.
Qed.
Lemma snear_mul s S K t T L : snear s S K -> snear t T L -> 1 <= K -> 1 <= L -> K * L <= 4 ->
  bpow radix2 (-90) <= S * T <= bpow radix2 90 -> snear (fmul s t) (S * T) (K * L * (1 + 2 * u32)).
Proof.
  intros HS HT K1 L1 KL [B1 B2]. pose proof (snear_pos _ _ _ HS K1) as Ps. pose proof (snear_pos _ _ _ HT L1) as Pt.
  destruct HS as (Fs & PS & A1 & A2), HT as (Ft & PT & C1 & C2).
  assert (X1 : S * T <= K * L * (val s * val t)) by (replace (K * L * (val s * val t)) with ((K * val s) * (L * val t)) by ring; apply Rmult_le_compat; lra).
  assert (X2 : val s * val t <= K * L * (S * T)) by (replace (K * L * (S * T)) with ((K * S) * (L * T)) by ring; apply Rmult_le_compat; lra).
  set (q := val s * val t) in * . set (X := S * T) in * . assert (P : 0 < q) by (unfold q; nra).
  assert (Q1 : bpow radix2 (-100) <= q).
  { assert (bpow radix2 (-90) = 1024 * bpow radix2 (-100)) by (change (-90)%Z with (10 + -100)%Z; rewrite bpow_plus; reflexivity). pose proof (bpow_gt_0 radix2 (-100)). nra. }
  assert (Q2 : q <= bpow radix2 92).
  { change 92%Z with (2 + 90)%Z; rewrite bpow_plus; change (bpow radix2 2) with 4. apply Rle_trans with (K * L * X); [exact X2|].
    apply Rmult_le_compat; [nra | unfold X; nra | exact KL | exact B2]. }
  destruct (mul_ok s t Fs Ft) as [F V].
  { apply (small_big _ 92); [lia|]. apply rnd_small; [lia|]. unfold small. fold q. rewrite Rabs_pos_eq; lra. }
  fold q in V. destruct (rnd_rel q Q1) as [R1 R2]. pose proof u32_pos. assert (KL1 : 1 <= K * L) by nra.
  split; [exact F|]. split; [unfold X; nra|]. rewrite V. split.
  - apply Rle_trans with (K * L * q); [exact X1|]. rewrite (Rmult_assoc (K * L)). apply Rmult_le_compat_l; lra.
  - apply Rle_trans with ((1 + 2 * u32) * q); [exact R2|]. replace (K * L * (1 + 2 * u32) * X) with ((1 + 2 * u32) * (K * L * X)) by ring. apply Rmult_le_compat_l; lra.
Qed.
Lemma snear_inv s S K : snear s S K -> 1 <= K <= 4 -> bpow radix2 (-90) <= S <= bpow radix2 90 -> snear (fdiv f1 s) (/ S) (K * (1 + 2 * u32)).
Proof.
  intros HS [K1 K4] [B1 B2]. pose proof (snear_pos _ _ _ HS K1) as Ps. destruct HS as (Fs & PS & A1 & A2).
  destruct val_1 as [F1 V1]. set (q := / val s). assert (P : 0 < q) by (apply Rinv_0_lt_compat, Ps). assert (PI : 0 < / S) by (apply Rinv_0_lt_compat, PS).
  assert (I1 : q * val s = 1) by (unfold q; apply Rinv_l; lra). assert (I2 : / S * S = 1) by (apply Rinv_l; lra).
  assert (X1 : / S <= K * q).
  { apply Rle_trans with ((/ S * q) * (K * S)); [|replace ((/ S * q) * (K * S)) with (K * q * (/ S * S)) by ring; rewrite I2; lra].
    replace (/ S) with ((/ S * q) * val s) at 1 by (replace (/ S * q * val s) with (/ S * (q * val s)) by ring; rewrite I1; ring).
    apply Rmult_le_compat_l; [nra | exact A2]. }
  assert (X2 : q <= K * / S).
  { apply Rle_trans with ((/ S * q) * (K * val s)); [|replace ((/ S * q) * (K * val s)) with (K * / S * (q * val s)) by ring; rewrite I1; lra].
    replace q with ((/ S * q) * S) at 1 by (replace (/ S * q * S) with (q * (/ S * S)) by ring; rewrite I2; ring).
    apply Rmult_le_compat_l; [nra | exact A1]. }
  assert (S1 : bpow radix2 (-90) <= / S <= bpow radix2 90).
  { split; [change (-90)%Z with (Z.opp 90); rewrite bpow_opp; apply Rinv_le; lra|].
    replace (bpow radix2 90) with (/ bpow radix2 (Z.opp 90)) by (rewrite bpow_opp, Rinv_inv; reflexivity). apply Rinv_le; [apply bpow_gt_0 | exact B1]. }
  assert (Q1 : bpow radix2 (-100) <= q).
  { assert (bpow radix2 (-90) = 1024 * bpow radix2 (-100)) by (change (-90)%Z with (10 + -100)%Z; rewrite bpow_plus; reflexivity). pose proof (bpow_gt_0 radix2 (-100)). nra. }
  assert (Q2 : q <= bpow radix2 92).
  { change 92%Z with (2 + 90)%Z; rewrite bpow_plus; change (bpow radix2 2) with 4. apply Rle_trans with (K * / S); [exact X2|].
    apply Rmult_le_compat; lra. }
  assert (EQ : val f1 / val s = q) by (rewrite V1; unfold q; field; lra).
  destruct (div_ok f1 s F1 ltac:(lra)) as [F V].
  { apply (small_big _ 92); [lia|]. apply rnd_small; [lia|]. unfold small. rewrite EQ, Rabs_pos_eq; lra. }
  rewrite EQ in V. destruct (rnd_rel q Q1) as [R1 R2]. pose proof u32_pos.
  split; [exact F|]. split; [exact PI|]. rewrite V. split.
  - apply Rle_trans with (K * q); [exact X1|]. rewrite (Rmult_assoc K). apply Rmult_le_compat_l; lra.
  - apply Rle_trans with ((1 + 2 * u32) * q); [exact R2|]. replace (K * (1 + 2 * u32) * / S) with ((1 + 2 * u32) * (K * / S)) by ring. apply Rmult_le_compat_l; lra.
Qed.

(** ** Scaling a vector *)
Lemma rnd_pair q : norm (psub (rnd (fst q), rnd (snd q)) q) <= u32 * norm q + 2 * tiny.
Proof.
  destruct (rnd_error (fst q)) as (e & n & E & N & X). destruct (rnd_error (snd q)) as (e' & n' & E' & N' & Y). rewrite X, Y.
  replace (psub (fst q * (1 + e) + n, snd q * (1 + e') + n') q) with (padd (e * fst q, e' * snd q) (n, n')) by (apply pt_eq; unfold padd, psub; cbn [fst snd]; ring).
  eapply Rle_trans; [apply norm_triangle|]. pose proof u32_pos. apply Rplus_le_compat.
  - apply norm_comp; [lra | |]; cbn [fst snd]; rewrite Rabs_mult; apply Rmult_le_compat_r; try apply Rabs_pos; assumption.
  - eapply Rle_trans; [apply (norm_box _ tiny); cbn [fst snd]; assumption|]. pose proof tiny_pos. lra.
Qed.
(** the common part: [c] is the factor used, [C] the exact one *)
Lemma near_factor x v V D L c C K : near v V D L -> 0 < C -> 0 < c -> C <= K * c -> c <= K * C -> 1 <= K -> 1 <= L -> bot <= C * D ->
  fin2 x -> rval x = (rnd (fst (pscale c (rval v))), rnd (snd (pscale c (rval v)))) -> near x (pscale C V) (C * D) (K * L * (1 + 2 * u32)).
Proof.
  intros HV PC Pc B1 B2 K1 L1 BD F E. pose proof (near_nonneg _ _ _ _ HV) as PD. pose proof (near_norm _ _ _ _ HV) as NV. destruct HV as (Fv & Ev & Nv).
  split; [exact F|]. rewrite norm_scale, (Rabs_pos_eq C) by lra. split; [|apply Rmult_le_compat_l; lra].
  set (q := pscale c (rval v)) in * . pose proof (rnd_pair q) as RP. rewrite <- E in RP.
  assert (Q : norm q <= K * L * (C * D)).
  { unfold q. rewrite norm_scale, (Rabs_pos_eq c) by lra. apply Rle_trans with ((K * C) * (L * D)); [|right; ring]. apply Rmult_le_compat; try lra. apply norm_nonneg. }
  replace (psub (rval x) (pscale C V)) with (padd (psub (rval x) q) (padd (pscale c (psub (rval v) V)) (pscale (c - C) V))) by (unfold q; apply pt_eq; unfold padd, psub, pscale; cbn [fst snd]; ring).
  eapply Rle_trans; [apply norm_triangle|]. pose proof (norm_triangle (pscale c (psub (rval v) V)) (pscale (c - C) V)) as T.
  rewrite !norm_scale, (Rabs_pos_eq c) in T by lra.
  assert (A1 : c * norm (psub (rval v) V) <= (K * C) * ((L - 1) * D)) by (apply Rmult_le_compat; try lra; apply norm_nonneg).
  assert (A2 : Rabs (c - C) * norm V <= ((K - 1) * C) * D).
  { apply Rmult_le_compat; [apply Rabs_pos | apply norm_nonneg | | exact Nv]. apply Rabs_le. split; [|lra].
    assert ((2 - K) * C <= c); [|lra]. assert ((2 - K) * K <= 1) by nra. destruct (Rle_or_lt (2 - K) 0); [nra|]. nra. }
  pose proof u32_pos as Hu. assert (A3 : u32 * norm q <= u32 * (K * L * (C * D))) by (apply Rmult_le_compat_l; lra).
  assert (CD : 0 <= C * D) by (apply Rmult_le_pos; lra). pose proof bot_tiny as BT. pose proof tiny_pos. assert (KL : 1 <= K * L) by nra.
  assert (A4 : u32 * bot <= u32 * (C * D)) by (apply Rmult_le_compat_l; lra).
  assert (A5 : u32 * (C * D) <= u32 * (K * L * (C * D))) by (apply Rmult_le_compat_l; [lra|]; nra).
  replace ((K * L * (1 + 2 * u32) - 1) * (C * D)) with ((K * C) * ((L - 1) * D) + ((K - 1) * C) * D + 2 * (u32 * (K * L * (C * D)))) by ring. lra.
Qed.
Lemma near_scale s S K v V D L : snear s S K -> near v V D L -> 1 <= K -> 1 <= L -> K * L * (S * D) <= bpow radix2 110 -> bot <= S * D ->
  near (v2mul (V2 s s) v) (pscale S V) (S * D) (K * L * (1 + 2 * u32)).
Proof.
  intros HS HV K1 L1 B BD. pose proof (snear_pos _ _ _ HS K1) as Ps. destruct HS as (Fs & PS & A1 & A2). pose proof (near_norm _ _ _ _ HV) as NV. pose proof (near_nonneg _ _ _ _ HV) as PD.
  pose proof HV as ([Fx Fy] & _ & _).
  assert (Q : norm (pscale (val s) (rval v)) <= bpow radix2 110).
  { rewrite norm_scale, (Rabs_pos_eq (val s)) by lra. apply Rle_trans with ((K * S) * (L * D)); [apply Rmult_le_compat; try lra; apply norm_nonneg|]. replace ((K * S) * (L * D)) with (K * L * (S * D)) by ring. exact B. }
  destruct (norm_lift _ 110 ltac:(lia) Q) as [S1 S2]. cbn [pscale fst snd rval] in S1, S2.
  destruct (mul_ok s (vx v) Fs Fx ltac:(eapply small_big; [|exact S1]; lia)) as [X1 X2].
  destruct (mul_ok s (vy v) Fs Fy ltac:(eapply small_big; [|exact S2]; lia)) as [Y1 Y2].
  eapply (near_factor _ v V D L (val s) S K); try eassumption.
  - split; assumption.
  - unfold v2mul, rval, pscale. cbn [vx vy fst snd]. rewrite X2, Y2. reflexivity.
Qed.
Lemma near_unscale s S K v V D L : snear s S K -> near v V D L -> 1 <= K -> 1 <= L -> K * L * (D / S) <= bpow radix2 110 -> bot <= D / S ->
  near (v2div v (V2 s s)) (pscale (/ S) V) (D / S) (K * L * (1 + 2 * u32)).
Proof.
  intros HS HV K1 L1 B BD. pose proof (snear_pos _ _ _ HS K1) as Ps. destruct HS as (Fs & PS & A1 & A2). pose proof (near_norm _ _ _ _ HV) as NV. pose proof (near_nonneg _ _ _ _ HV) as PD.
  pose proof HV as ([Fx Fy] & _ & _). set (q := / val s). assert (P : 0 < q) by (apply Rinv_0_lt_compat, Ps). assert (PI : 0 < / S) by (apply Rinv_0_lt_compat, PS).
  assert (I1 : q * val s = 1) by (unfold q; apply Rinv_l; lra). assert (I2 : / S * S = 1) by (apply Rinv_l; lra).
  assert (X1 : / S <= K * q).
  { apply Rle_trans with ((/ S * q) * (K * S)); [|replace ((/ S * q) * (K * S)) with (K * q * (/ S * S)) by ring; rewrite I2; lra].
    replace (/ S) with ((/ S * q) * val s) at 1 by (replace (/ S * q * val s) with (/ S * (q * val s)) by ring; rewrite I1; ring).
    apply Rmult_le_compat_l; [nra | exact A2]. }
  assert (X2 : q <= K * / S).
  { apply Rle_trans with ((/ S * q) * (K * val s)); [|replace ((/ S * q) * (K * val s)) with (K * / S * (q * val s)) by ring; rewrite I1; lra].
    replace q with ((/ S * q) * S) at 1 by (replace (/ S * q * S) with (q * (/ S * S)) by ring; rewrite I2; ring).
    apply Rmult_le_compat_l; [nra | exact A1]. }
  assert (Q : norm (pscale q (rval v)) <= bpow radix2 110).
  { rewrite norm_scale, (Rabs_pos_eq q) by lra. apply Rle_trans with ((K * / S) * (L * D)); [apply Rmult_le_compat; try lra; apply norm_nonneg|]. replace ((K * / S) * (L * D)) with (K * L * (D / S)) by (unfold Rdiv; ring). exact B. }
  destruct (norm_lift _ 110 ltac:(lia) Q) as [S1 S2]. cbn [pscale fst snd rval] in S1, S2.
  assert (E1 : forall x, val x / val s = q * val x) by (intro x; unfold q, Rdiv; ring).
  destruct (div_ok (vx v) s Fx ltac:(lra) ltac:(rewrite E1; eapply small_big; [|exact S1]; lia)) as [Z1 Z2].
  destruct (div_ok (vy v) s Fy ltac:(lra) ltac:(rewrite E1; eapply small_big; [|exact S2]; lia)) as [Y1 Y2].
  replace (D / S) with (/ S * D) in * by (unfold Rdiv; ring).
  eapply (near_factor _ v V D L q (/ S) K); try eassumption.
  - split; assumption.
  - unfold v2div, rval, pscale. cbn [vx vy fst snd]. rewrite Z2, Y2, !E1. reflexivity.
Qed.

(** ** Every chain is tracked *)
Definition tracks2 (d : R) (m : chain) (f : pt -> pt) : Prop := exists R0 P k,
  (forall p, f p = padd (cmul R0 (pscale (size m) p)) P) /\ norm R0 = 1 /\ near (ra (t_rot (build m))) R0 1 (growth d ^ steps m) /\
  near (t_pos (build m)) P (spread m) (growth d ^ weight2 m) /\ t_scale (build m) = V2 k k /\ snear k (size m) (growth d ^ steps m).
Lemma steps_weight2 m : (2 * steps m <= weight2 m)%nat. Proof. pose proof (steps_weight m). unfold weight2. lia. Qed.
Lemma in_range_here m : in_range m -> (bpow radix2 (-40) <= size m <= bpow radix2 40 /\ bpow radix2 (-59) <= spread m <= bpow radix2 59).
Proof. destruct m; intros [H _]; exact H. Qed.
Lemma bot_prod a b : bpow radix2 (-40) <= a -> bpow radix2 (-59) <= b -> bot <= a * b.
Proof.
  intros A B. unfold bot. apply Rle_trans with (bpow radix2 (-40) * bpow radix2 (-59)); [rewrite <- bpow_plus; apply bpow_le; lia|].
  apply Rmult_le_compat; try assumption; apply bpow_ge_0.
Qed.
Lemma top_prod a b : 0 <= a -> 0 <= b -> a <= bpow radix2 40 -> b <= bpow radix2 61 -> 8 * (a * b) <= bpow radix2 110.
Proof.
  intros A B A' B'. apply Rle_trans with (bpow radix2 3 * (bpow radix2 40 * bpow radix2 61)); [|rewrite <- !bpow_plus; apply bpow_le; lia].
  change (bpow radix2 3) with 8. apply Rmult_le_compat_l; [lra|]. apply Rmult_le_compat; assumption.
Qed.
Lemma inv_range a : bpow radix2 (-40) <= a <= bpow radix2 40 -> bpow radix2 (-40) <= / a <= bpow radix2 40.
Proof.
  intros [A B]. pose proof (bpow_gt_0 radix2 (-40)). split.
  - change (-40)%Z with (Z.opp 40). rewrite bpow_opp. apply Rinv_le; lra.
  - replace (bpow radix2 40) with (/ bpow radix2 (Z.opp 40)) by (rewrite bpow_opp, Rinv_inv; reflexivity). apply Rinv_le; [apply bpow_gt_0 | exact A].
Qed.
Lemma growth_three d : 0 <= d -> (1 + 4 * u32) * (1 + 2 * u32) * (1 + u32) <= growth d /\ (1 + 4 * u32) * (1 + 2 * u32) <= growth d /\ 1 + 2 * u32 <= growth d /\ 1 + 4 * u32 <= growth d.
Proof. intro D. destruct (growth_ge d D) as (G & _ & _). pose proof u32_pos. pose proof u32_small. repeat split; nra. Qed.

Lemma tracks2_all d : 0 <= d -> forall m f, scaled_moves d m f -> growth d ^ weight2 m <= 2 -> in_range m -> tracks2 d m f.
Proof.
  intros Hd m f M. set (K := growth d). destruct (growth_ge d Hd) as (G8 & Gd & G1). destruct (growth_three d Hd) as (G3 & G2 & Gs & G4). fold K in G8, Gd, G1, G3, G2, Gs, G4.
  pose proof u32_pos as Hu. pose proof u32_small as Hus. pose proof bot_pos as Pb.
  assert (B59 : bpow radix2 59 <= bpow radix2 61 /\ 8 * bpow radix2 61 <= bpow radix2 110 /\ bpow radix2 110 <= bpow radix2 126).
  { split; [apply bpow_le; lia|]. split; [change 8 with (bpow radix2 3); rewrite <- bpow_plus; apply bpow_le; lia | apply bpow_le; lia]. }
  destruct B59 as (B1 & B2 & B3).
  induction M as [t k angle Fp Fr Fk Sc Er | a b f g Ma IHa Mb IHb | a f g Ma IHa Inv]; intros W Rc.
  - pose proof (in_range_here _ Rc) as [[Z1 Z2] _]. cbn [size] in Z1, Z2. rewrite Sc in Z1, Z2. cbn [vx] in Z1, Z2. pose proof (bpow_gt_0 radix2 (-40)) as P40.
    exists (cos angle, sin angle), (rval (t_pos t)), k. cbn [size]. rewrite Sc. cbn [vx].
    assert (N1 : norm (cos angle, sin angle) = 1) by (unfold norm, pdot; cbn [fst snd]; rewrite <- sqrt_1; f_equal; pose proof (sin2_cos2 angle) as Q; unfold Rsqr in Q; lra).
    split; [intro p; apply pt_eq; unfold padd, cmul, rotate, pscale; cbn [fst snd]; ring|].
    split; [exact N1|]. cbn [build steps spread]. change (weight2 (Given t)) with 2%nat. fold K. rewrite pow_1. split; [|split; [|split; [exact Sc|]]].
    + split; [exact Fr|]. rewrite N1. split; lra.
    + pose proof (norm_nonneg (rval (t_pos t))) as NN. split; [exact Fp|]. split; [|lra].
      replace (psub (rval (t_pos t)) (rval (t_pos t))) with (pscale 0 (0, 0)) by (apply pt_eq; unfold psub, pscale; cbn [fst snd]; ring).
      rewrite norm_scale, Rabs_R0, Rmult_0_l. cbn [pow]. apply Rmult_le_pos; nra.
    + split; [exact Fk|]. split; [lra|]. split; nra.
  - pose proof (in_range_here _ Rc) as [[Z1 Z2] [Y1 Y2]]. destruct Rc as [_ [Ca Cb]]. cbn [size] in Z1, Z2. cbn [spread] in Y1, Y2.
    pose proof (in_range_here _ Ca) as [[Za1 Za2] [Ya1 Ya2]]. pose proof (in_range_here _ Cb) as [[Zb1 Zb2] [Yb1 Yb2]].
    pose proof (bpow_gt_0 radix2 (-40)) as P40. pose proof (bpow_gt_0 radix2 (-59)) as P59.
    set (e := (2 * S (nesting (Then a b)) * (steps a + steps b))%nat).
    assert (We : (S e <= weight2 (Then a b))%nat) by (unfold e, weight2, weight; cbn [steps]; nia).
    assert (Wa : (weight2 a <= e)%nat) by (unfold e, weight2, weight; cbn [nesting]; pose proof (Nat.le_max_l (nesting a) (nesting b)); nia).
    assert (Wb : (steps a + (steps a + weight2 b) <= e)%nat) by (unfold e, weight2, weight; cbn [nesting]; pose proof (Nat.le_max_r (nesting a) (nesting b)); nia).
    assert (Ws : (S (steps a + steps b) <= weight2 (Then a b))%nat) by (unfold weight2, weight; cbn [steps]; nia).
    assert (P2 : forall i, (i <= weight2 (Then a b))%nat -> 1 <= K ^ i <= 2).
    { intros i Hi. split; [apply pow_R1_Rle, G1|]. eapply Rle_trans; [apply (pow_mono K i (weight2 (Then a b))); [exact G1 | exact Hi] | exact W]. }
    destruct IHa as (Ra & Pa & ka & Fa & Na & HRa & HPa & Sa & HSa); [apply P2; lia | exact Ca|].
    destruct IHb as (Rb & Pb' & kb & Fb & Nb & HRb & HPb & Sb & HSb); [apply P2; lia | exact Cb|].
    fold K in HRa, HPa, HSa, HRb, HPb, HSb.
    pose proof (P2 (steps a) ltac:(lia)) as Ksa. pose proof (P2 (steps b) ltac:(lia)) as Ksb. pose proof (P2 (weight2 b) ltac:(lia)) as Kwb.
    pose proof (P2 e ltac:(lia)) as Ke. pose proof (P2 (steps a + steps b)%nat ltac:(lia)) as Ksab. rewrite pow_add in Ksab.
    pose proof (P2 (steps a + weight2 b)%nat ltac:(lia)) as Kab. rewrite pow_add in Kab.
    pose proof (P2 (steps a + (steps a + weight2 b))%nat ltac:(lia)) as Kall. rewrite !pow_add in Kall.
    pose proof (bot_prod _ _ Za1 Yb1) as BD.
    exists (cmul Ra Rb), (padd (cmul Ra (pscale (size a) Pb')) Pa), (fmul ka kb). cbn [size].
    split; [intro p; rewrite Fa, Fb; apply pt_eq; unfold padd, cmul, pscale; cbn [fst snd]; ring|].
    split; [rewrite norm_cmul, Na, Nb; ring|]. cbn [build steps]. split; [|split; [|split]].
    + change (near (rotor_rot (t_rot (build a)) (ra (t_rot (build b)))) (cmul Ra Rb) 1 (K ^ S (steps a + steps b))).
      rewrite <- (rotor_eta (t_rot (build a))). eapply near_weaken.
      * apply near_rot with (K := K ^ steps a) (L := K ^ steps b); try eassumption; try lra.
        -- pose proof (bpow_ge_0 radix2 61). assert (4 <= bpow radix2 110) by (change 4 with (bpow radix2 2); apply bpow_le; lia). lra.
        -- unfold bot. change 1 with (bpow radix2 0). apply bpow_le; lia.
      * cbn [pow]. rewrite pow_add. rewrite (Rmult_comm K). apply Rmult_le_compat_l; lra.
    + cbn [compose Comp_Transform2d t_pos apply Tr_Transform2d]. rewrite Sa. fold K. cbn [spread]. rewrite (Rplus_comm (spread a)).
      assert (TD : 8 * (size a * spread b) <= bpow radix2 110) by (apply top_prod; lra).
      assert (U2 : K ^ steps a * K ^ weight2 b * (1 + 2 * u32) <= 4) by nra.
      assert (SB : 0 <= size a * spread b) by (apply Rmult_le_pos; lra).
      assert (NS : near (v2mul (V2 ka ka) (t_pos (build b))) (pscale (size a) Pb') (size a * spread b) (K ^ steps a * K ^ weight2 b * (1 + 2 * u32))).
      { apply near_scale; [exact HSa | exact HPb | lra | lra | | exact BD].
        apply Rle_trans with (4 * (size a * spread b)); [|lra]. apply Rmult_le_compat_r; [exact SB | lra]. }
      assert (NR : near (rotor_rot (Rotor (ra (t_rot (build a)))) (v2mul (V2 ka ka) (t_pos (build b)))) (cmul Ra (pscale (size a) Pb')) (size a * spread b) (K ^ e * ((1 + 4 * u32) * (1 + 2 * u32)))).
      { eapply near_weaken.
        - apply near_rot with (K := K ^ steps a); [exact HRa | exact NS | lra | nra | lra | | exact BD].
          apply Rle_trans with (4 * (size a * spread b)); [|lra]. apply Rmult_le_compat_r; [exact SB | lra].
        - apply Rle_trans with ((K ^ steps a * (K ^ steps a * K ^ weight2 b)) * ((1 + 4 * u32) * (1 + 2 * u32))); [right; ring|].
          apply Rmult_le_compat_r; [nra|]. rewrite <- !pow_add. apply pow_mono; [exact G1 | lia]. }
      rewrite (rotor_eta (t_rot (build a))) in NR. eapply near_weaken.
      * apply (near_add _ _ _ _ _ _ _ NR).
        -- eapply near_weaken; [exact HPa|]. apply Rle_trans with (K ^ e); [apply pow_mono; [exact G1 | lia]|]. nra.
        -- nra.
        -- assert (U3 : K ^ e * ((1 + 4 * u32) * (1 + 2 * u32)) <= 4) by nra.
           apply Rle_trans with (4 * (size a * spread b + spread a)); [apply Rmult_le_compat_r; lra | lra].
      * apply Rle_trans with (K ^ S e); [|apply pow_mono; [exact G1 | exact We]]. cbn [pow].
        replace (K ^ e * ((1 + 4 * u32) * (1 + 2 * u32)) * (1 + u32)) with ((1 + 4 * u32) * (1 + 2 * u32) * (1 + u32) * K ^ e) by ring. apply Rmult_le_compat_r; lra.
    + cbn [compose Comp_Transform2d t_scale]. rewrite Sa, Sb. reflexivity.
    + fold K. eapply snear_weaken.
      * apply snear_mul; [exact HSa | exact HSb | lra | lra | lra|].
        assert (bpow radix2 (-90) <= bpow radix2 (-40) /\ bpow radix2 40 <= bpow radix2 90) by (split; apply bpow_le; lia). lra.
      * nra.
      * cbn [pow]. rewrite pow_add, (Rmult_comm K). apply Rmult_le_compat_l; lra.
  - pose proof (in_range_here _ Rc) as [[Z1 Z2] [Y1 Y2]]. destruct Rc as [_ Ca]. cbn [size] in Z1, Z2. cbn [spread] in Y1, Y2.
    pose proof (in_range_here _ Ca) as [[Za1 Za2] [Ya1 Ya2]].
    pose proof (bpow_gt_0 radix2 (-40)) as P40. pose proof (bpow_gt_0 radix2 (-59)) as P59.
    assert (Wa : (S (steps a + (steps a + weight2 a)) <= weight2 (Back a))%nat) by (unfold weight2, weight; cbn [nesting steps]; nia).
    assert (P2 : forall i, (i <= weight2 (Back a))%nat -> 1 <= K ^ i <= 2).
    { intros i Hi. split; [apply pow_R1_Rle, G1|]. eapply Rle_trans; [apply (pow_mono K i (weight2 (Back a))); [exact G1 | exact Hi] | exact W]. }
    destruct IHa as (R1 & P & k & F & N & HR & HP & Sa & HS); [apply P2; lia | exact Ca|]. fold K in HR, HP, HS.
    pose proof (P2 (steps a) ltac:(lia)) as Ks. pose proof (P2 (weight2 a) ltac:(lia)) as Kw.
    pose proof (P2 (steps a + weight2 a)%nat ltac:(lia)) as Kab. rewrite pow_add in Kab.
    pose proof (P2 (steps a + (steps a + weight2 a))%nat ltac:(lia)) as Kall. rewrite !pow_add in Kall.
    assert (BD : bot <= spread a) by (unfold bot; eapply Rle_trans; [apply bpow_le|exact Ya1]; lia).
    assert (BQ : bot <= spread a / size a) by (unfold bot; eapply Rle_trans; [apply bpow_le|exact Y1]; lia).
    exists (conj2 R1), (pscale (/ size a) (cmul (conj2 R1) (pneg P))), (fdiv f1 k). cbn [size].
    assert (U : fst R1 * fst R1 + snd R1 * snd R1 = 1).
    { assert (Q : norm R1 * norm R1 = pdot R1 R1) by (unfold norm; apply sqrt_sqrt; unfold pdot; nra). rewrite N in Q. unfold pdot in Q. lra. }
    split; [|split; [|split; [|split; [|split]]]].
    + intro p. pose proof (Inv p) as E. rewrite F in E. set (q := g p) in * . rewrite <- E.
      assert (I : / size a * size a = 1) by (apply Rinv_l; lra).
      assert (Q1 : (fst R1 * fst R1 + snd R1 * snd R1) * (/ size a * size a) * fst q = fst q) by (rewrite U, I; ring).
      assert (Q2 : (fst R1 * fst R1 + snd R1 * snd R1) * (/ size a * size a) * snd q = snd q) by (rewrite U, I; ring).
      apply pt_eq; unfold padd, cmul, conj2, pneg, pscale; cbn [fst snd]; [rewrite <- Q1 at 1 | rewrite <- Q2 at 1]; ring.
    + rewrite norm_conj. exact N.
    + cbn [build steps]. change (t_rot (inverse (build a))) with (rotor_inverse (t_rot (build a))). rewrite <- (rotor_eta (t_rot (build a))). apply near_conj.
      fold K. eapply near_weaken; [exact HR|]. apply pow_mono; [exact G1 | lia].
    + cbn [build spread]. change (t_pos (inverse (build a))) with (v2div (rotor_rot (rotor_inverse (t_rot (build a))) (v2sub v2zero (t_pos (build a)))) (t_scale (build a))).
      rewrite Sa. rewrite <- (rotor_eta (t_rot (build a))).
      assert (NR : near (rotor_rot (rotor_inverse (Rotor (ra (t_rot (build a))))) (v2sub v2zero (t_pos (build a)))) (cmul (conj2 R1) (pneg P)) (spread a) (K ^ steps a * K ^ weight2 a * (1 + 4 * u32))).
      { apply (near_rot _ _ _ _ _ (K ^ steps a) (K ^ weight2 a)); [apply near_conj, HR | apply near_zero_sub, HP | lra | lra | lra | | exact BD].
        assert (K ^ weight2 a * spread a <= 2 * bpow radix2 61) by (apply Rmult_le_compat; lra). pose proof (bpow_ge_0 radix2 61). lra. }
      eapply near_weaken.
      * apply (near_unscale _ _ (K ^ steps a) _ _ _ _ HS NR); [lra | nra | | exact BQ].
        assert (U4 : K ^ steps a * (K ^ steps a * K ^ weight2 a * (1 + 4 * u32)) <= 4) by nra.
        pose proof (bpow_ge_0 radix2 61). apply Rle_trans with (4 * bpow radix2 61); [|lra]. apply Rmult_le_compat; [nra | lra | exact U4 | lra].
      * fold K. apply Rle_trans with (K ^ S (steps a + (steps a + weight2 a))); [|apply pow_mono; [exact G1 | exact Wa]]. cbn [pow]. rewrite !pow_add.
        replace (K ^ steps a * (K ^ steps a * K ^ weight2 a * (1 + 4 * u32)) * (1 + 2 * u32)) with ((1 + 4 * u32) * (1 + 2 * u32) * (K ^ steps a * (K ^ steps a * K ^ weight2 a))) by ring.
        apply Rmult_le_compat_r; lra.
    + cbn [build]. change (t_scale (inverse (build a))) with (v2sdiv f1 (t_scale (build a))). rewrite Sa. reflexivity.
    + cbn [steps]. fold K. eapply snear_weaken.
      * apply snear_inv; [exact HS | lra|].
        assert (bpow radix2 (-90) <= bpow radix2 (-40) /\ bpow radix2 40 <= bpow radix2 90) by (split; apply bpow_le; lia). lra.
      * nra.
      * cbn [pow]. rewrite (Rmult_comm K). apply Rmult_le_compat_l; lra.
Qed.

(** ** The theorems *)
Lemma near_self40 p : fin2 p -> near p (rval p) (norm (rval p) + bpow radix2 (-40)) 1.
Proof. intro F. apply (near_wider _ _ (norm (rval p) + bot)); [apply near_self, F | lra|]. apply Rplus_le_compat_l. unfold bot. apply bpow_le. lia. Qed.
(** Points: apply after any chain is the exact similarity up to the accumulated relative error. *)
Theorem C76_apply : forall d m f, 0 <= d -> scaled_moves d m f -> growth d ^ weight2 m <= 2 -> in_range m ->
  forall p, fin2 p -> norm (rval p) <= bpow radix2 59 ->
  fin2 (apply (build m) p) /\
  norm (psub (rval (apply (build m) p)) (f (rval p))) <= (growth d ^ S (weight2 m) - 1) * (spread m + size m * (norm (rval p) + bpow radix2 (-40))).
Proof.
  intros d m f Hd M W Rc p Fp Np. destruct (tracks2_all d Hd m f M W Rc) as (R0 & P & k & F & N & HR & HP & Sc & HS).
  destruct (growth_ge d Hd) as (G8 & Gd & G1). destruct (growth_three d Hd) as (G3 & _). set (K := growth d) in * . pose proof u32_pos as Hu. pose proof u32_small as Hus. pose proof bot_pos as Pb.
  pose proof (in_range_here _ Rc) as [[Z1 Z2] [Y1 Y2]]. pose proof (norm_nonneg (rval p)) as NN.
  pose proof (bpow_gt_0 radix2 (-40)) as P40. pose proof (bpow_gt_0 radix2 (-59)) as P59. pose proof (bpow_ge_0 radix2 59) as P9.
  assert (B : bpow radix2 61 = 4 * bpow radix2 59 /\ bpow radix2 (-40) <= bpow radix2 59 /\ bpow radix2 (-59) <= bpow radix2 (-40) /\ 8 * bpow radix2 61 <= bpow radix2 110 /\ bpow radix2 110 <= bpow radix2 126).
  { split; [change 61%Z with (2 + 59)%Z; apply bpow_plus|]. split; [apply bpow_le; lia|]. split; [apply bpow_le; lia|]. split; [change 8 with (bpow radix2 3); rewrite <- bpow_plus; apply bpow_le; lia | apply bpow_le; lia]. }
  destruct B as (B61 & B40 & B59 & B110 & B126).
  assert (Kw : 1 <= K ^ weight2 m <= 2) by (split; [apply pow_R1_Rle, G1 | exact W]).
  assert (Ks : 1 <= K ^ steps m <= 2). { split; [apply pow_R1_Rle, G1|]. eapply Rle_trans; [apply (pow_mono K _ (weight2 m)); [exact G1 | pose proof (steps_weight2 m); lia] | exact W]. }
  assert (Kss : K ^ steps m * K ^ steps m <= K ^ weight2 m) by (rewrite <- pow_add; apply pow_mono; [exact G1 | pose proof (steps_weight2 m); lia]).
  set (D := norm (rval p) + bpow radix2 (-40)). assert (D1 : bpow radix2 (-59) <= D <= bpow radix2 61) by (unfold D; lra).
  pose proof (bot_prod _ _ Z1 (proj1 D1)) as BD. pose proof (top_prod (size m) D ltac:(lra) ltac:(lra) Z2 (proj2 D1)) as TD.
  assert (SD : 0 <= size m * D) by (apply Rmult_le_pos; lra).
  assert (NS : near (v2mul (V2 k k) p) (pscale (size m) (rval p)) (size m * D) (K ^ steps m * (1 + 2 * u32))).
  { rewrite <- (Rmult_1_r (K ^ steps m)). apply near_scale; [exact HS | apply near_self40, Fp | lra | lra | | exact BD].
    rewrite Rmult_1_r. apply Rle_trans with (4 * (size m * D)); [|lra]. apply Rmult_le_compat_r; lra. }
  assert (NR : near (rotor_rot (Rotor (ra (t_rot (build m)))) (v2mul (V2 k k) p)) (cmul R0 (pscale (size m) (rval p))) (size m * D) (K ^ weight2 m * ((1 + 4 * u32) * (1 + 2 * u32)))).
  { eapply near_weaken.
    - apply near_rot with (K := K ^ steps m); [exact HR | exact NS | lra | nra | lra | | exact BD].
      apply Rle_trans with (4 * (size m * D)); [|lra]. apply Rmult_le_compat_r; [exact SD | nra].
    - apply Rle_trans with ((K ^ steps m * K ^ steps m) * ((1 + 4 * u32) * (1 + 2 * u32))); [right; ring|]. apply Rmult_le_compat_r; nra. }
  rewrite (rotor_eta (t_rot (build m))) in NR.
  assert (Q : near (apply (build m) p) (f (rval p)) (size m * D + spread m) (K ^ S (weight2 m))).
  { rewrite F. cbn [apply Tr_Transform2d]. rewrite Sc. eapply near_weaken.
    - apply (near_add _ _ _ _ _ _ _ NR).
      + eapply near_weaken; [exact HP|]. nra.
      + nra.
      + assert (U3 : K ^ weight2 m * ((1 + 4 * u32) * (1 + 2 * u32)) <= 4) by nra.
        apply Rle_trans with (4 * (size m * D + spread m)); [apply Rmult_le_compat_r; lra | lra].
    - cbn [pow]. replace (K ^ weight2 m * ((1 + 4 * u32) * (1 + 2 * u32)) * (1 + u32)) with ((1 + 4 * u32) * (1 + 2 * u32) * (1 + u32) * K ^ weight2 m) by ring. apply Rmult_le_compat_r; lra. }
  destruct Q as (Q1 & Q2 & _). split; [exact Q1|]. rewrite (Rplus_comm (spread m)). exact Q2.
Qed.
Print Assumptions C76_apply.
(** unapply after any chain is the exact inverse similarity. *)
Theorem C76_unapply : forall d m f g, 0 <= d -> scaled_moves d m f -> (forall p, f (g p) = p) -> growth d ^ weight2 m <= 2 -> in_range m ->
  forall p, fin2 p -> norm (rval p) <= bpow radix2 59 ->
  fin2 (unapply (build m) p) /\
  norm (psub (rval (unapply (build m) p)) (g (rval p))) <= (growth d ^ S (2 * steps m + weight2 m) - 1) * ((spread m + norm (rval p) + bpow radix2 (-40)) / size m).
Proof.
  intros d m f g Hd M Inv W Rc p Fp Np. destruct (tracks2_all d Hd m f M W Rc) as (R0 & P & k & F & N & HR & HP & Sc & HS).
  destruct (growth_ge d Hd) as (G8 & Gd & G1). destruct (growth_three d Hd) as (G3 & _). set (K := growth d) in * . pose proof u32_pos as Hu. pose proof u32_small as Hus. pose proof bot_pos as Pb.
  pose proof (in_range_here _ Rc) as [[Z1 Z2] [Y1 Y2]]. pose proof (norm_nonneg (rval p)) as NN.
  pose proof (bpow_gt_0 radix2 (-40)) as P40. pose proof (bpow_gt_0 radix2 (-59)) as P59. pose proof (bpow_ge_0 radix2 59) as P9.
  assert (B : bpow radix2 61 = 4 * bpow radix2 59 /\ bpow radix2 (-40) <= bpow radix2 59 /\ bpow radix2 (-59) <= bpow radix2 (-40) /\ 8 * bpow radix2 61 <= bpow radix2 110 /\ bpow radix2 110 <= bpow radix2 126).
  { split; [change 61%Z with (2 + 59)%Z; apply bpow_plus|]. split; [apply bpow_le; lia|]. split; [apply bpow_le; lia|]. split; [change 8 with (bpow radix2 3); rewrite <- bpow_plus; apply bpow_le; lia | apply bpow_le; lia]. }
  destruct B as (B61 & B40 & B59 & B110 & B126).
  assert (Kw : 1 <= K ^ weight2 m <= 2) by (split; [apply pow_R1_Rle, G1 | exact W]).
  assert (Ks : 1 <= K ^ steps m). { apply pow_R1_Rle, G1. }
  assert (Kss : K ^ steps m * K ^ steps m <= 2).
  { eapply Rle_trans; [|exact W]. rewrite <- pow_add. apply pow_mono; [exact G1 | pose proof (steps_weight2 m); lia]. }
  assert (Ks2 : K ^ steps m <= 3 / 2) by nra.
  assert (U : fst R0 * fst R0 + snd R0 * snd R0 = 1).
  { assert (Q : norm R0 * norm R0 = pdot R0 R0) by (unfold norm; apply sqrt_sqrt; unfold pdot; nra). rewrite N in Q. unfold pdot in Q. lra. }
  assert (Eg : g (rval p) = pscale (/ size m) (cmul (conj2 R0) (psub (rval p) P))).
  { pose proof (Inv (rval p)) as E. rewrite F in E. set (q := g (rval p)) in * . rewrite <- E. assert (I : / size m * size m = 1) by (apply Rinv_l; lra).
    assert (Q1 : (fst R0 * fst R0 + snd R0 * snd R0) * (/ size m * size m) * fst q = fst q) by (rewrite U, I; ring).
    assert (Q2 : (fst R0 * fst R0 + snd R0 * snd R0) * (/ size m * size m) * snd q = snd q) by (rewrite U, I; ring).
    apply pt_eq; unfold padd, psub, cmul, conj2, pscale; cbn [fst snd]; [rewrite <- Q1 at 1 | rewrite <- Q2 at 1]; ring. }
  set (D := norm (rval p) + bpow radix2 (-40) + spread m). assert (D1 : bpow radix2 (-59) <= D <= bpow radix2 61) by (unfold D; lra).
  pose proof (inv_range _ (conj Z1 Z2)) as [I1 I2].
  pose proof (bot_prod _ _ I1 (proj1 D1)) as BD. pose proof (top_prod (/ size m) D ltac:(lra) ltac:(lra) I2 (proj2 D1)) as TD.
  rewrite (Rmult_comm (/ size m)) in BD, TD. fold (D / size m) in BD, TD. assert (SD : 0 <= D / size m) by lra.
  assert (BD0 : bot <= D) by (unfold bot; eapply Rle_trans; [apply bpow_le|exact (proj1 D1)]; lia).
  assert (NS : near (v2sub p (t_pos (build m))) (psub (rval p) P) D (K ^ weight2 m * (1 + u32))).
  { apply near_sub; [eapply near_weaken; [apply near_self40, Fp | lra] | exact HP | lra|].
    apply Rle_trans with (2 * bpow radix2 61); [|lra]. apply Rmult_le_compat; try lra. }
  assert (NR : near (rotor_rot (rotor_inverse (t_rot (build m))) (v2sub p (t_pos (build m)))) (cmul (conj2 R0) (psub (rval p) P)) D (K ^ steps m * (K ^ weight2 m * (1 + u32)) * (1 + 4 * u32))).
  { rewrite <- (rotor_eta (t_rot (build m))). apply near_rot; [apply near_conj, HR | exact NS | lra | nra | lra | | exact BD0].
    apply Rle_trans with (4 * bpow radix2 61); [|lra]. apply Rmult_le_compat; try lra; nra. }
  assert (Q : near (unapply (build m) p) (g (rval p)) (D / size m) (K ^ S (2 * steps m + weight2 m))).
  { rewrite Eg. cbn [unapply Tr_Transform2d]. rewrite Sc. eapply near_weaken.
    - assert (L1 : 1 <= K ^ steps m * (K ^ weight2 m * (1 + u32)) * (1 + 4 * u32)).
      { assert (A1 : 1 * 1 <= K ^ weight2 m * (1 + u32)) by (apply Rmult_le_compat; lra).
        assert (A2 : 1 * 1 <= K ^ steps m * (K ^ weight2 m * (1 + u32))) by (apply Rmult_le_compat; lra).
        replace 1 with (1 * 1) at 1 by ring. apply Rmult_le_compat; lra. }
      apply (near_unscale _ _ (K ^ steps m) _ _ _ _ HS NR); [lra | exact L1 | | exact BD].
      apply Rle_trans with (8 * (D / size m)); [|exact TD]. apply Rmult_le_compat_r; [exact SD|].
      replace (K ^ steps m * (K ^ steps m * (K ^ weight2 m * (1 + u32)) * (1 + 4 * u32))) with ((K ^ steps m * K ^ steps m) * K ^ weight2 m * ((1 + u32) * (1 + 4 * u32))) by ring.
      assert (0 <= K ^ steps m * K ^ steps m) by nra. assert ((K ^ steps m * K ^ steps m) * K ^ weight2 m <= 4) by nra. nra.
    - cbn [pow]. replace (2 * steps m + weight2 m)%nat with (steps m + (steps m + weight2 m))%nat by lia. rewrite !pow_add.
      set (x := K ^ steps m * (K ^ steps m * K ^ weight2 m)).
      replace (K ^ steps m * (K ^ steps m * (K ^ weight2 m * (1 + u32)) * (1 + 4 * u32)) * (1 + 2 * u32)) with ((1 + 4 * u32) * (1 + 2 * u32) * (1 + u32) * x) by (unfold x; ring).
      apply Rmult_le_compat_r; [unfold x; nra | lra]. }
  destruct Q as (Q1 & Q2 & _). split; [exact Q1|]. replace (spread m + norm (rval p) + bpow radix2 (-40)) with D by (unfold D; ring). exact Q2.
Qed.
Print Assumptions C76_unapply.
(** The scale stays uniform, it and the reported scaling factor are the product of the given scales up to the accumulated relative error, and
    the rotor stays near the unit circle. *)
Theorem C76_scale : forall d m f, 0 <= d -> scaled_moves d m f -> growth d ^ weight2 m <= 2 -> in_range m ->
  vx (t_scale (build m)) = vy (t_scale (build m)) /\
  (forall s, s = vx (t_scale (build m)) \/ s = scaling_factor (build m) ->
     fin s /\ Rabs (val s - size m) <= (growth d ^ steps m - 1) * size m) /\
  fin2 (ra (t_rot (build m))) /\ Rabs (norm (rval (ra (t_rot (build m)))) - 1) <= growth d ^ steps m - 1.
Proof.
  intros d m f Hd M W Rc. destruct (tracks2_all d Hd m f M W Rc) as (R0 & P & k & F & N & HR & HP & Sc & HS).
  destruct (growth_ge d Hd) as (G8 & Gd & G1). set (K := growth d) in * .
  assert (Ks : 1 <= K ^ steps m) by (apply pow_R1_Rle, G1).
  rewrite Sc. cbn [vx vy]. split; [reflexivity|]. split; [|split; [exact (proj1 HR)|]].
  - assert (A : fin k /\ Rabs (val k - size m) <= (K ^ steps m - 1) * size m).
    { pose proof (snear_pos _ _ _ HS Ks). destruct HS as (Fk & PS & A1 & A2). split; [exact Fk|]. apply Rabs_le. split; [|lra].
      assert ((2 - K ^ steps m) * size m <= val k); [|lra]. assert ((2 - K ^ steps m) * K ^ steps m <= 1) by nra. destruct (Rle_or_lt (2 - K ^ steps m) 0); [nra|]. nra. }
    assert (E : scaling_factor (build m) = k).
    { cbn [scaling_factor Tr_Transform2d]. rewrite Sc. cbn [vx vy]. unfold fmax. destruct (fisnan k); [reflexivity|]. destruct (flt k k); reflexivity. }
    rewrite E. intros s [->| ->]; exact A.
  - destruct HR as (_ & E & _). rewrite Rmult_1_r in E. apply Rabs_le.
    pose proof (norm_sub_add (rval (ra (t_rot (build m)))) R0) as T1. pose proof (norm_triangle_sub R0 (rval (ra (t_rot (build m))))) as T2.
    replace (norm (psub R0 (rval (ra (t_rot (build m)))))) with (norm (psub (rval (ra (t_rot (build m)))) R0)) in T2; [lra|].
    unfold norm, pdot, psub. cbn [fst snd]. f_equal. ring.
Qed.
Print Assumptions C76_scale.

(** [size] and [f] belong together: the exact motion stretches every length by [size m]. *)
Theorem C76_similarity : forall d m f, scaled_moves d m f -> in_range m -> forall p q, norm (psub (f p) (f q)) = size m * norm (psub p q).
Proof.
  intros d m f M. induction M as [t k angle Fp Fr Fk Sc Er | a b f g Ma IHa Mb IHb | a f g Ma IHa Inv]; intros Rc p q; pose proof (in_range_here _ Rc) as [[Z1 Z2] _]; pose proof (bpow_gt_0 radix2 (-40)) as P40.
  - cbn [size] in * . rewrite Sc in * . cbn [vx] in * .
    replace (psub (padd (rotate (cos angle) (sin angle) (pscale (val k) p)) (rval (t_pos t))) (padd (rotate (cos angle) (sin angle) (pscale (val k) q)) (rval (t_pos t))))
      with (cmul (cos angle, sin angle) (pscale (val k) (psub p q))) by (apply pt_eq; unfold cmul, psub, padd, rotate, pscale; cbn [fst snd]; ring).
    rewrite norm_cmul, norm_scale, Rabs_pos_eq by lra.
    assert (N1 : norm (cos angle, sin angle) = 1) by (unfold norm, pdot; cbn [fst snd]; rewrite <- sqrt_1; f_equal; pose proof (sin2_cos2 angle) as Q; unfold Rsqr in Q; lra).
    rewrite N1. ring.
  - destruct Rc as [_ [Ca Cb]]. rewrite (IHa Ca), (IHb Cb). cbn [size]. ring.
  - destruct Rc as [_ Ca]. cbn [size] in * . pose proof (in_range_here _ Ca) as [[Za1 Za2] _].
    rewrite <- (Inv p) at 2. rewrite <- (Inv q) at 2. rewrite (IHa Ca). field. lra.
Qed.
Print Assumptions C76_similarity.
(** Directions: apply_normal turns by the total angle, whatever the scales. *)
Theorem C76_directions : forall d m f, 0 <= d -> scaled_moves d m f -> growth d ^ weight2 m <= 2 -> in_range m ->
  forall n, fin2 n -> norm (rval n) <= bpow radix2 100 ->
  fin2 (apply_normal (build m) n) /\
  norm (psub (rval (apply_normal (build m) n)) (pscale (/ size m) (psub (f (rval n)) (f origin)))) <= (growth d ^ S (steps m) - 1) * (norm (rval n) + bpow radix2 (-100)).
Proof.
  intros d m f Hd M W Rc n Fn Nn. destruct (tracks2_all d Hd m f M W Rc) as (R0 & P & k & F & N & HR & HP & Sc & HS).
  destruct (growth_ge d Hd) as (G8 & Gd & G1). set (K := growth d) in * . pose proof u32_pos as Hu. pose proof u32_small as Hus. pose proof bot_pos as Pb.
  pose proof (in_range_here _ Rc) as [[Z1 Z2] _]. pose proof (bpow_gt_0 radix2 (-40)) as P40.
  assert (Ks : 1 <= K ^ steps m <= 2). { split; [apply pow_R1_Rle, G1|]. eapply Rle_trans; [apply (pow_mono K _ (weight2 m)); [exact G1 | pose proof (steps_weight2 m); lia] | exact W]. }
  assert (B100 : bot <= bpow radix2 100) by (apply bpow_le; lia).
  assert (B110 : 16 * bpow radix2 100 <= bpow radix2 110).
  { change 110%Z with (10 + 100)%Z; rewrite bpow_plus; pose proof (bpow_gt_0 radix2 100); assert (16 <= bpow radix2 10) by (cbn; lra); nra. }
  pose proof (norm_nonneg (rval n)) as NN.
  assert (Q : near (apply_normal (build m) n) (pscale (/ size m) (psub (f (rval n)) (f origin))) (norm (rval n) + bot) (K ^ S (steps m))).
  { replace (pscale (/ size m) (psub (f (rval n)) (f origin))) with (cmul R0 (rval n)) by (rewrite !F; apply pt_eq; unfold padd, psub, cmul, pscale, origin; cbn [fst snd]; field; lra).
    cbn [apply_normal Tr_Transform2d]. rewrite <- (rotor_eta (t_rot (build m))).
    eapply near_weaken; [apply (near_rot _ _ _ _ _ (K ^ steps m) 1); [exact HR | apply near_self, Fn | lra | lra | lra | lra | lra]|]. cbn [pow]. nra. }
  destruct Q as (Q1 & Q2 & _). split; [exact Q1|]. exact Q2.
Qed.
Print Assumptions C76_directions.

(** In plain numbers: rotors good to 2^-22 and up to 2^17 for twice the number of steps plus the weight: an error of one part in 2^20 for
    each. *)
Theorem C76_plain : forall m f g, scaled_moves (/ 2 ^ 22) m f -> (forall p, f (g p) = p) -> (2 * steps m + weight2 m <= 2 ^ 17)%nat -> in_range m ->
  forall p, fin2 p -> norm (rval p) <= bpow radix2 59 ->
  norm (psub (rval (apply (build m) p)) (f (rval p))) <= INR (S (weight2 m)) / 2 ^ 20 * (spread m + size m * (norm (rval p) + bpow radix2 (-40))) /\
  norm (psub (rval (unapply (build m) p)) (g (rval p))) <= INR (S (2 * steps m + weight2 m)) / 2 ^ 20 * ((spread m + norm (rval p) + bpow radix2 (-40)) / size m) /\
  Rabs (val (scaling_factor (build m)) - size m) <= INR (steps m) / 2 ^ 20 * size m.
Proof.
  intros m f g M Inv Hn Rc p Fp Np. assert (D : 0 <= / 2 ^ 22 <= / 2 ^ 22) by (split; [cbn; lra | apply Rle_refl]).
  destruct (growth_linear _ (weight2 m) D ltac:(lia)) as [_ W]. destruct (growth_linear _ (S (weight2 m)) D ltac:(lia)) as [L1 _].
  destruct (growth_linear _ (S (2 * steps m + weight2 m)) D ltac:(lia)) as [L2 _]. destruct (growth_linear _ (steps m) D ltac:(lia)) as [L3 _].
  destruct (C76_apply _ m f (proj1 D) M W Rc p Fp Np) as [_ A]. destruct (C76_unapply _ m f g (proj1 D) M Inv W Rc p Fp Np) as [_ B].
  destruct (C76_scale _ m f (proj1 D) M W Rc) as (_ & C & _). destruct (C _ (or_intror eq_refl)) as [_ C2].
  pose proof (in_range_here _ Rc) as [[Z1 Z2] [Y1 Y2]]. pose proof (norm_nonneg (rval p)) as NN.
  pose proof (bpow_gt_0 radix2 (-40)) as P40. pose proof (bpow_gt_0 radix2 (-59)) as P59.
  split; [eapply Rle_trans; [exact A|]; apply Rmult_le_compat_r; [|exact L1]|].
  - assert (0 <= size m * (norm (rval p) + bpow radix2 (-40))) by (apply Rmult_le_pos; lra). lra.
  - split; [eapply Rle_trans; [exact B|]; apply Rmult_le_compat_r; [|exact L2] | eapply Rle_trans; [exact C2|]; apply Rmult_le_compat_r; [lra | exact L3]].
    apply Rmult_le_pos; [lra|]. apply Rlt_le, Rinv_0_lt_compat. lra.
Qed.
Print Assumptions C76_plain.

(** A case that meets the hypotheses: a placement that turns by the angle with cosine 3/5, triples and moves by (3,4), and the inverse of one
    applied after another. *)
Definition case_s : transform2d b32 := Transform2d (V2 (b32_of 3 0) (b32_of 4 0)) (Rotor (V2 (b32_of 10066330 (-24)) (b32_of 13421773 (-24)))) (V2 (b32_of 3 0) (b32_of 3 0)).
Definition case_c : chain := Then (Given case_s) (Back (Then (Given case_s) (Given case_s))).
Example C76_case : exists f g, scaled_moves (/ 2 ^ 22) case_c f /\ (forall p, f (g p) = p) /\ (2 * steps case_c + weight2 case_c)%nat = 36%nat /\ in_range case_c /\ size case_c = / 3.
Proof.
  set (a := asin (4 / 5)). assert (Sa : sin a = 4 / 5) by (apply sin_asin; lra).
  assert (Ca : cos a = 3 / 5). { unfold a. rewrite cos_asin by lra. replace (1 - (4 / 5)²) with ((3 / 5) * (3 / 5)) by (unfold Rsqr; field). apply sqrt_square; lra. }
  assert (V : forall m e, (Z.abs m <= 2 ^ 24)%Z -> (-149 <= e <= 103)%Z -> fin (b32_of m e) /\ val (b32_of m e) = IZR m * bpow radix2 e) by (intros; apply val_of; assumption).
  destruct (V 3%Z 0%Z ltac:(lia) ltac:(lia)) as [F3 V3]. destruct (V 4%Z 0%Z ltac:(lia) ltac:(lia)) as [F4 V4].
  destruct (V 10066330%Z (-24)%Z ltac:(lia) ltac:(lia)) as [Fc Vc]. destruct (V 13421773%Z (-24)%Z ltac:(lia) ltac:(lia)) as [Fs Vs].
  cbn [bpow radix_val radix2 Z.pow_pos Pos.iter Z.mul Pos.mul] in V3, V4, Vc, Vs. assert (V3' : val (b32_of 3 0) = 3) by lra.
  set (h := fun p => padd (rotate (cos a) (sin a) (pscale (val (b32_of 3 0)) p)) (rval (t_pos case_s))).
  assert (M1 : scaled_moves (/ 2 ^ 22) (Given case_s) h).
  { apply scaled_given; [split; assumption | split; assumption | assumption | reflexivity|]. eapply Rle_trans; [apply (norm_box _ (/ 2 ^ 24))|].
    - cbn [psub fst snd rval ra t_rot case_s vx vy]. rewrite Vc, Ca. cbn. apply Rabs_le. lra.
    - cbn [psub fst snd rval ra t_rot case_s vx vy]. rewrite Vs, Sa. cbn. apply Rabs_le. lra.
    - cbn. lra. }
  set (k := fun p => pscale (/ 3) (rotate (cos a) (- sin a) (psub p (rval (t_pos case_s))))).
  assert (HK : forall p, h (k p) = p /\ k (h p) = p).
  { intros [x y]. unfold h, k. rewrite Ca, Sa, V3'. split; apply pt_eq; unfold padd, psub, rotate, pscale; cbn [fst snd]; field. }
  exists (fun p => h (k (k p))), (fun p => h (h (k p))). split; [|split; [|split; [|split]]].
  - apply (scaled_then _ _ _ h (fun p => k (k p))); [exact M1|]. apply (scaled_back _ _ (fun p => h (h p)) (fun p => k (k p))).
    + apply (scaled_then _ _ _ h h); exact M1.
    + intro p. rewrite (proj1 (HK (k p))). apply HK.
  - intro p. rewrite (proj2 (HK (h (k p)))), (proj2 (HK (k p))). apply HK.
  - reflexivity.
  - assert (N : norm (rval (V2 (b32_of 3 0) (b32_of 4 0))) = 5).
    { unfold norm, pdot, rval. cbn [fst snd vx vy]. rewrite V3, V4. replace (3 * 1 * (3 * 1) + 4 * 1 * (4 * 1)) with (5 * 5) by ring. apply sqrt_square. lra. }
    assert (B1 : bpow radix2 (-40) <= bpow radix2 (-8)) by (apply bpow_le; lia). assert (B2 : bpow radix2 8 <= bpow radix2 40) by (apply bpow_le; lia).
    assert (B3 : bpow radix2 (-59) <= bpow radix2 (-8)) by (apply bpow_le; lia). assert (B4 : bpow radix2 8 <= bpow radix2 59) by (apply bpow_le; lia).
    assert (B5 : bpow radix2 (-8) = / 256) by (cbn; lra). assert (B6 : bpow radix2 8 = 256) by (cbn; lra). pose proof (bpow_gt_0 radix2 (-40)) as B7.
    cbn [in_range case_c size spread t_pos t_scale case_s vx]. rewrite N, V3'. unfold Rdiv. repeat split; lra.
  - cbn [case_c size t_scale case_s vx]. rewrite V3'. field.
Qed.
