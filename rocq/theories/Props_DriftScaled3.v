(** * C77: chains of uniformly scaled 3D placements in binary32. *)
From Coq Require Import Reals ZArith Lra Lia Psatz Bool.
From Flocq Require Import Core BinarySingleNaN.
From Verif Require Import Num NumXR NumB32 Glam Transform2 Shapes2 Gjk Detect2 Col3 Spec SpecLink P_Base P_Geo P_Geo3 P_3d P_B32 Props_F32 Props_F32Gjk Props_Lerp P_F32Box P_Drift Spec32 P_Closed32 Props_Drift Props_Closed32 Props_Approx Spec32s P_Space32 Props_Space32 P_Quat32 Props_Quat32 P_Drift3 Props_Drift3 Props_DriftScaled.
Local Open Scope R_scope.

(** ** What a program does: it is given placements with a uniform scale and composes and inverts them in any order *)
Inductive chain3s : Type :=
  | Given3s (pos : vec3 b32) (rot : quat b32) (scale : b32)
  | Then3s (a b : chain3s)       (** a.compose(b) *)
  | Back3s (a : chain3s).        (** a.inverse() *)
(** the same program written with each of the three kinds of placement *)
Fixpoint sbuild_iso (m : chain3s) : isotropic3d b32 := match m with Given3s p q k => as_iso p q k | Then3s a b => compose (sbuild_iso a) (sbuild_iso b) | Back3s a => inverse (sbuild_iso a) end.
Fixpoint sbuild_t3 (m : chain3s) : transform3d b32 := match m with Given3s p q k => as_t3 p q k | Then3s a b => compose (sbuild_t3 a) (sbuild_t3 b) | Back3s a => inverse (sbuild_t3 a) end.
Fixpoint sbuild_bevy (m : chain3s) : bevy_transform b32 := match m with Given3s p q k => as_bevy p q k | Then3s a b => compose (sbuild_bevy a) (sbuild_bevy b) | Back3s a => inverse (sbuild_bevy a) end.
(** the number of operations and given placements; how many inversions one inside the other *)
Fixpoint steps3s (m : chain3s) : nat := match m with Given3s _ _ _ => 1 | Then3s a b => S (steps3s a + steps3s b) | Back3s a => S (steps3s a) end.
Fixpoint nesting3s (m : chain3s) : nat := match m with Given3s _ _ _ => 0 | Then3s a b => Nat.max (nesting3s a) (nesting3s b) | Back3s a => S (nesting3s a) end.
Definition weight3s (m : chain3s) : nat := 2 * (S (nesting3s m) * steps3s m).
(** the exact total scale *)
Fixpoint size3 (m : chain3s) : R := match m with Given3s _ _ k => val k | Then3s a b => size3 a * size3 b | Back3s a => / size3 a end.
(** the translations added up as they are seen from outside (2^-40 each to cover underflow) *)
Fixpoint spread3 (m : chain3s) : R :=
  match m with Given3s p _ _ => norm3 (rval3 p) + bpow radix2 (-40) | Then3s a b => spread3 a + size3 a * spread3 b | Back3s a => spread3 a / size3 a end.
(** every stage of the computation keeps to a range far inside that of binary32 *)
Fixpoint in_range3 (m : chain3s) : Prop :=
  (bpow radix2 (-20) <= size3 m <= bpow radix2 20 /\ bpow radix2 (-40) <= spread3 m <= bpow radix2 70) /\
  match m with Given3s _ _ _ => True | Then3s a b => in_range3 a /\ in_range3 b | Back3s a => in_range3 a end.
(** [scaled_moves3 d m f]: every given quaternion is within d of an exact rotation, and f is the similarity of space the chain stands for when
    nothing is rounded *)
Inductive scaled_moves3 (d : R) : chain3s -> (pt3 -> pt3) -> Prop :=
  | smoves3_given p q k u t : fin3 p -> finq q -> fin k -> dot3 u u = 1 -> off q u t <= d ->
      scaled_moves3 d (Given3s p q k) (fun x => add3 (rotate3 u t (scale3 (val k) x)) (rval3 p))
  | smoves3_then a b f g : scaled_moves3 d a f -> scaled_moves3 d b g -> scaled_moves3 d (Then3s a b) (fun x => f (g x))
  | smoves3_back a f g : scaled_moves3 d a f -> (forall x, f (g x) = x) -> scaled_moves3 d (Back3s a) g.

(** ** Scaling a vector *)
Lemma rq4_scale a k p : rq4 a (scale3 k p) = scale3 k (rq4 a p). Proof. apply pt3_eq; v4; ring. Qed.
Lemma bot3_tiny : 2 * tiny <= u32 * bot3.
Proof.
  unfold bot3, tiny. replace u32 with (bpow radix2 (-24)) by (unfold u32; cbn; lra). rewrite <- bpow_plus. change (-24 + -60)%Z with (66 + -150)%Z. rewrite bpow_plus.
  assert (2 <= bpow radix2 66) by (change 2 with (bpow radix2 1); apply bpow_le; lia). apply Rmult_le_compat_r; [apply bpow_ge_0 | assumption].
Qed.
Definition rnd3 (q : pt3) : pt3 := (rnd (x3 q), rnd (y3 q), rnd (z3 q)).
Lemma rnd3_near q : norm3 (sub3 (rnd3 q) q) <= u32 * norm3 q + 2 * tiny.
Proof. pose proof u32_pos. pose proof (bpow_gt_0 radix2 (-150)). apply comp_norm; [lra | unfold tiny; lra | apply rnd_near | apply rnd_near | apply rnd_near]. Qed.
(** the common part: [c] is the factor used, [C] the exact one *)
Lemma near3_factor x v V D L c C K : near3 v V D L -> 0 < C -> 0 < c -> C <= K * c -> c <= K * C -> 1 <= K -> 1 <= L -> bot3 <= C * D ->
  fin3 x -> rval3 x = rnd3 (scale3 c (rval3 v)) -> near3 x (scale3 C V) (C * D) (K * L * (1 + 2 * u32)).
Proof.
  intros HV PC Pc B1 B2 K1 L1 BD F E. pose proof (near3_nonneg _ _ _ _ HV) as PD. pose proof (near3_norm _ _ _ _ HV) as NV. destruct HV as (Fv & Ev & Nv).
  split; [exact F|]. rewrite norm3_scale, (Rabs_pos_eq C) by lra. split; [|apply Rmult_le_compat_l; lra].
  set (q := scale3 c (rval3 v)) in * . pose proof (rnd3_near q) as RP. rewrite <- E in RP.
  assert (Q : norm3 q <= K * L * (C * D)).
  { unfold q. rewrite norm3_scale, (Rabs_pos_eq c) by lra. apply Rle_trans with ((K * C) * (L * D)); [|right; ring]. apply Rmult_le_compat; try lra. apply norm3_nonneg. }
  replace (sub3 (rval3 x) (scale3 C V)) with (add3 (sub3 (rval3 x) q) (add3 (scale3 c (sub3 (rval3 v) V)) (scale3 (c - C) V))) by (unfold q; apply pt3_eq; unfold add3, sub3, scale3, x3, y3, z3; cbn [fst snd]; ring).
  eapply Rle_trans; [apply norm3_triangle|]. pose proof (norm3_triangle (scale3 c (sub3 (rval3 v) V)) (scale3 (c - C) V)) as T.
  rewrite !norm3_scale, (Rabs_pos_eq c) in T by lra.
  assert (A1 : c * norm3 (sub3 (rval3 v) V) <= (K * C) * ((L - 1) * D)) by (apply Rmult_le_compat; try lra; apply norm3_nonneg).
  assert (A2 : Rabs (c - C) * norm3 V <= ((K - 1) * C) * D).
  { apply Rmult_le_compat; [apply Rabs_pos | apply norm3_nonneg | | exact Nv]. apply Rabs_le. split; [|lra].
    assert ((2 - K) * C <= c); [|lra]. assert ((2 - K) * K <= 1) by nra. destruct (Rle_or_lt (2 - K) 0); [nra|]. nra. }
  pose proof u32_pos as Hu. assert (A3 : u32 * norm3 q <= u32 * (K * L * (C * D))) by (apply Rmult_le_compat_l; lra).
  assert (CD : 0 <= C * D) by (apply Rmult_le_pos; lra). pose proof bot3_tiny as BT. assert (KL : 1 <= K * L) by nra.
  assert (A4 : u32 * bot3 <= u32 * (C * D)) by (apply Rmult_le_compat_l; lra).
  assert (A5 : u32 * (C * D) <= u32 * (K * L * (C * D))) by (apply Rmult_le_compat_l; [lra|]; nra).
  replace ((K * L * (1 + 2 * u32) - 1) * (C * D)) with ((K * C) * ((L - 1) * D) + ((K - 1) * C) * D + 2 * (u32 * (K * L * (C * D)))) by ring. lra.
Qed.
Lemma big_100 r : Rabs r <= bpow radix2 100 -> Rabs (rnd r) < big.
Proof. intro H. apply below_big. eapply Rle_trans; [exact H | apply bpow_le; lia]. Qed.
Lemma near3_scale s S K v V D L : snear s S K -> near3 v V D L -> 1 <= K -> 1 <= L -> K * L * (S * D) <= bpow radix2 100 -> bot3 <= S * D ->
  near3 (v3smul s v) (scale3 S V) (S * D) (K * L * (1 + 2 * u32)).
Proof.
  intros HS HV K1 L1 B BD. pose proof (snear_pos _ _ _ HS K1) as Ps. destruct HS as (Fs & PS & A1 & A2). pose proof (near3_norm _ _ _ _ HV) as NV. pose proof (near3_nonneg _ _ _ _ HV) as PD.
  pose proof HV as ((Fx & Fy & Fz) & _ & _).
  assert (Q : norm3 (scale3 (val s) (rval3 v)) <= bpow radix2 100).
  { rewrite norm3_scale, (Rabs_pos_eq (val s)) by lra. apply Rle_trans with ((K * S) * (L * D)); [apply Rmult_le_compat; try lra; apply norm3_nonneg|]. replace ((K * S) * (L * D)) with (K * L * (S * D)) by ring. exact B. }
  destruct (coord_le_norm3 (scale3 (val s) (rval3 v))) as (S1 & S2 & S3). pose proof (Rle_trans _ _ _ S1 Q) as T1. pose proof (Rle_trans _ _ _ S2 Q) as T2. pose proof (Rle_trans _ _ _ S3 Q) as T3.
  destruct (mul_ok s (wx v) Fs Fx (big_100 _ T1)) as [X1 X2]. destruct (mul_ok s (wy v) Fs Fy (big_100 _ T2)) as [Y1 Y2]. destruct (mul_ok s (wz v) Fs Fz (big_100 _ T3)) as [Z1 Z2].
  eapply (near3_factor _ v V D L (val s) S K); try eassumption.
  - repeat split; assumption.
  - unfold v3smul, rval3 at 1, rnd3. cbn [wx wy wz]. rewrite X2, Y2, Z2. reflexivity.
Qed.
Lemma near3_unscale s S K v V D L : snear s S K -> near3 v V D L -> 1 <= K -> 1 <= L -> K * L * (D / S) <= bpow radix2 100 -> bot3 <= D / S ->
  near3 (v3divs v s) (scale3 (/ S) V) (D / S) (K * L * (1 + 2 * u32)).
Proof.
  intros HS HV K1 L1 B BD. pose proof (snear_pos _ _ _ HS K1) as Ps. destruct HS as (Fs & PS & A1 & A2). pose proof (near3_norm _ _ _ _ HV) as NV. pose proof (near3_nonneg _ _ _ _ HV) as PD.
  pose proof HV as ((Fx & Fy & Fz) & _ & _). set (q := / val s). assert (P : 0 < q) by (apply Rinv_0_lt_compat, Ps). assert (PI : 0 < / S) by (apply Rinv_0_lt_compat, PS).
  assert (I1 : q * val s = 1) by (unfold q; apply Rinv_l; lra). assert (I2 : / S * S = 1) by (apply Rinv_l; lra).
  assert (X1 : / S <= K * q).
  { apply Rle_trans with ((/ S * q) * (K * S)); [|replace ((/ S * q) * (K * S)) with (K * q * (/ S * S)) by ring; rewrite I2; lra].
    replace (/ S) with ((/ S * q) * val s) at 1 by (replace (/ S * q * val s) with (/ S * (q * val s)) by ring; rewrite I1; ring).
    apply Rmult_le_compat_l; [nra | exact A2]. }
  assert (X2 : q <= K * / S).
  { apply Rle_trans with ((/ S * q) * (K * val s)); [|replace ((/ S * q) * (K * val s)) with (K * / S * (q * val s)) by ring; rewrite I1; lra].
    replace q with ((/ S * q) * S) at 1 by (replace (/ S * q * S) with (q * (/ S * S)) by ring; rewrite I2; ring).
    apply Rmult_le_compat_l; [nra | exact A1]. }
  assert (Q : norm3 (scale3 q (rval3 v)) <= bpow radix2 100).
  { rewrite norm3_scale, (Rabs_pos_eq q) by lra. apply Rle_trans with ((K * / S) * (L * D)); [apply Rmult_le_compat; try lra; apply norm3_nonneg|]. replace ((K * / S) * (L * D)) with (K * L * (D / S)) by (unfold Rdiv; ring). exact B. }
  destruct (coord_le_norm3 (scale3 q (rval3 v))) as (S1 & S2 & S3). pose proof (Rle_trans _ _ _ S1 Q) as T1. pose proof (Rle_trans _ _ _ S2 Q) as T2. pose proof (Rle_trans _ _ _ S3 Q) as T3.
  assert (E1 : forall x, val x / val s = q * val x) by (intro x; unfold q, Rdiv; ring).
  destruct (div_ok (wx v) s Fx ltac:(lra) ltac:(rewrite E1; exact (big_100 _ T1))) as [Z1 Z2].
  destruct (div_ok (wy v) s Fy ltac:(lra) ltac:(rewrite E1; exact (big_100 _ T2))) as [Y1 Y2].
  destruct (div_ok (wz v) s Fz ltac:(lra) ltac:(rewrite E1; exact (big_100 _ T3))) as [W1 W2].
  replace (D / S) with (/ S * D) in * by (unfold Rdiv; ring).
  eapply (near3_factor _ v V D L q (/ S) K); try eassumption.
  - repeat split; assumption.
  - unfold v3divs, rval3 at 1, rnd3. cbn [wx wy wz]. rewrite Z2, Y2, W2, !E1. reflexivity.
Qed.

(** ** Every chain is tracked *)
Definition tracks3s (d : R) (m : chain3s) (f : pt3 -> pt3) : Prop := exists Q P,
  (forall p, f p = add3 (rq4 Q (scale3 (size3 m) p)) P) /\ near4 (iso_rot (sbuild_iso m)) Q (step3 d ^ steps3s m) /\
  near3 (iso_pos (sbuild_iso m)) P (spread3 m) (growth3 d ^ weight3s m) /\ snear (iso_scale (sbuild_iso m)) (size3 m) (step3 d ^ steps3s m).
Lemma steps3s_weight m : (2 * steps3s m <= weight3s m)%nat. Proof. unfold weight3s. nia. Qed.
Lemma in_range3_here m : in_range3 m -> (bpow radix2 (-20) <= size3 m <= bpow radix2 20 /\ bpow radix2 (-40) <= spread3 m <= bpow radix2 70).
Proof. destruct m; intros [H _]; exact H. Qed.
Lemma bot3_prod a b : bpow radix2 (-20) <= a -> bpow radix2 (-40) <= b -> bot3 <= a * b.
Proof.
  intros A B. unfold bot3. change (-60)%Z with (-20 + -40)%Z. rewrite bpow_plus. apply Rmult_le_compat; try assumption; apply bpow_ge_0.
Qed.
Lemma top3_prod a b : 0 <= a -> 0 <= b -> a <= bpow radix2 20 -> b <= bpow radix2 72 -> 8 * (a * b) <= bpow radix2 100.
Proof.
  intros A B A' B'. apply Rle_trans with (bpow radix2 3 * (bpow radix2 20 * bpow radix2 72)); [|rewrite <- !bpow_plus; apply bpow_le; lia].
  change (bpow radix2 3) with 8. apply Rmult_le_compat_l; [lra|]. apply Rmult_le_compat; assumption.
Qed.
Lemma inv_range3 a : bpow radix2 (-20) <= a <= bpow radix2 20 -> bpow radix2 (-20) <= / a <= bpow radix2 20.
Proof.
  intros [A B]. pose proof (bpow_gt_0 radix2 (-20)). split.
  - change (-20)%Z with (Z.opp 20). rewrite bpow_opp. apply Rinv_le; lra.
  - replace (bpow radix2 20) with (/ bpow radix2 (Z.opp 20)) by (rewrite bpow_opp, Rinv_inv; reflexivity). apply Rinv_le; [apply bpow_gt_0 | exact A].
Qed.
Lemma growth3_three d : 0 <= d -> (1 + 72 * u32) * (1 + 2 * u32) * (1 + u32) <= growth3 d /\ (1 + 72 * u32) * (1 + 2 * u32) <= growth3 d /\ 1 + 2 * u32 <= step3 d.
Proof.
  intro D. destruct (step3_ge d D) as (G & _ & _ & K & _). pose proof u32_pos. pose proof u32_small.
  assert (u32 * u32 <= u32 * (1 / 16777216)) by (apply Rmult_le_compat_l; lra). assert (0 <= u32 * u32) by (apply Rmult_le_pos; lra).
  assert (u32 * u32 * u32 <= u32 * u32 * 1) by (apply Rmult_le_compat_l; lra). repeat split; lra.
Qed.
Lemma spread_low m : in_range3 m -> bot3 <= spread3 m.
Proof. intro H. apply in_range3_here in H. unfold bot3. eapply Rle_trans; [apply bpow_le|apply H]; lia. Qed.

Lemma tracks3s_all d : 0 <= d -> forall m f, scaled_moves3 d m f -> growth3 d ^ weight3s m <= 101 / 100 -> in_range3 m -> tracks3s d m f.
Proof.
  intros Hd m f M. destruct (step3_ge d Hd) as (G40 & Gd & G1 & K80 & K1 & GK). destruct (growth3_three d Hd) as (U3 & U2 & U1). pose proof (growth3_pow d) as KP.
  set (K := growth3 d) in * . set (g := step3 d) in * . pose proof u32_pos as Hu. pose proof u32_small as Hus. pose proof bot3_pos as Pb.
  assert (B72 : bpow radix2 70 <= bpow radix2 72 /\ 8 * bpow radix2 72 <= bpow radix2 100).
  { split; [apply bpow_le; lia|]. change 8 with (bpow radix2 3). rewrite <- bpow_plus. apply bpow_le. lia. }
  destruct B72 as (B72 & B100). pose proof (bpow_gt_0 radix2 (-20)) as P20. pose proof (bpow_gt_0 radix2 (-40)) as P40. pose proof (bpow_gt_0 radix2 72) as P72.
  assert (B90 : bpow radix2 (-90) <= bpow radix2 (-20) /\ bpow radix2 20 <= bpow radix2 90) by (split; apply bpow_le; lia). destruct B90 as (B90 & B91).
  assert (gK : forall i, 1 <= g ^ i /\ g ^ i <= K ^ i). { intro i. split; [apply pow_R1_Rle, G1|]. apply pow_incr. lra. }
  induction M as [p q k u t Fp Fq Fk U Er | a b f g' Ma IHa Mb IHb | a f g' Ma IHa Inv]; intros W Rc.
  - pose proof (in_range3_here _ Rc) as [[Z1 Z2] _]. cbn [size3] in Z1, Z2.
    exists (exact4 u t), (rval3 p). split; [intro x; rewrite exact4_rotate by exact U; reflexivity|].
    cbn [sbuild_iso steps3s size3 as_iso iso_rot iso_pos iso_scale]. change (weight3s (Given3s p q k)) with 2%nat. fold g K. rewrite pow_1. split; [|split].
    + split; [exact Fq|]. split; [rewrite off_norm4 in Er; lra | apply exact4_unit, U].
    + cbn [spread3]. split; [exact Fp|]. pose proof (norm3_nonneg (rval3 p)) as NN. split; [|lra].
      replace (sub3 (rval3 p) (rval3 p)) with (scale3 0 (0, 0, 0)) by (apply pt3_eq; v3; ring). rewrite norm3_scale, Rabs_R0, Rmult_0_l.
      assert (1 <= K ^ 2) by (apply pow_R1_Rle, K1). apply Rmult_le_pos; lra.
    + split; [exact Fk|]. split; [lra|]. assert (0 < val k) by lra. assert (1 * val k <= g * val k) by (apply Rmult_le_compat_r; lra). lra.
  - pose proof (in_range3_here _ Rc) as [[Z1 Z2] [Y1 Y2]]. destruct Rc as [_ [Ca Cb]]. cbn [size3] in Z1, Z2. cbn [spread3] in Y1, Y2.
    pose proof (in_range3_here _ Ca) as [[Za1 Za2] [Ya1 Ya2]]. pose proof (in_range3_here _ Cb) as [[Zb1 Zb2] [Yb1 Yb2]].
    set (e := (2 * (S (nesting3s (Then3s a b)) * (steps3s a + steps3s b)))%nat).
    assert (We : (S e <= weight3s (Then3s a b))%nat) by (unfold e, weight3s; cbn [steps3s]; nia).
    assert (Wa : (weight3s a <= e)%nat) by (unfold e, weight3s; cbn [nesting3s]; pose proof (Nat.le_max_l (nesting3s a) (nesting3s b)); nia).
    assert (Wb : (steps3s a + (steps3s a + weight3s b) <= e)%nat) by (unfold e, weight3s; cbn [nesting3s]; pose proof (Nat.le_max_r (nesting3s a) (nesting3s b)); nia).
    assert (Wsb : (2 * steps3s b <= e)%nat) by (pose proof (steps3s_weight b); lia).
    assert (P2 : forall i, (i <= e)%nat -> 1 <= K ^ i <= 101 / 100).
    { intros i Hi. split; [apply pow_R1_Rle, K1|]. eapply Rle_trans; [apply (pow_up K i (weight3s (Then3s a b))); [exact K1 | lia] | exact W]. }
    assert (G2 : forall i, (i <= e)%nat -> 1 <= g ^ i /\ g ^ i * g ^ i <= 101 / 100). { intros i Hi. split; [apply pow_R1_Rle, G1|]. rewrite <- KP. apply P2, Hi. }
    destruct IHa as (Qa & Pa & Fa & HQa & HPa & HSa); [apply P2; lia | exact Ca|]. destruct IHb as (Qb & Pb' & Fb & HQb & HPb & HSb); [apply P2; lia | exact Cb|]. fold g K in HQa, HPa, HQb, HPb, HSa, HSb.
    pose proof (P2 (weight3s b) ltac:(lia)) as Kwb. pose proof (P2 e ltac:(lia)) as Ke. destruct (G2 (steps3s a) ltac:(lia)) as (Ga1 & Ga2). destruct (G2 (steps3s b) ltac:(lia)) as (Gb1 & Gb2).
    assert (Ga3 : g ^ steps3s a <= 101 / 100) by (eapply Rle_trans; [apply gK | apply P2; lia]). assert (Gb3 : g ^ steps3s b <= 101 / 100) by (eapply Rle_trans; [apply gK | apply P2; lia]).
    pose proof (bot3_prod _ _ Za1 Yb1) as BD. pose proof (top3_prod (size3 a) (spread3 b) ltac:(lra) ltac:(lra) Za2 ltac:(lra)) as TD.
    assert (SB : 0 <= size3 a * spread3 b) by (apply Rmult_le_pos; lra).
    exists (qm Qa Qb), (add3 (rq4 Qa (scale3 (size3 a) Pb')) Pa). split; [intro p; rewrite Fa, Fb; repeat rewrite ?rq4_mul, ?rq4_scale, ?rq4_add; cbn [size3]; generalize (rq4 Qa (rq4 Qb p)) (rq4 Qa Pb') Pa (size3 a) (size3 b); intros; apply pt3_eq; v3; ring|].
    cbn [sbuild_iso steps3s size3]. split; [|split].
    + change (near4 (qmul (iso_rot (sbuild_iso a)) (iso_rot (sbuild_iso b))) (qm Qa Qb) (g ^ S (steps3s a + steps3s b))). eapply near4_weaken; [apply near4_mul; eassumption|].
      cbn [pow]. rewrite pow_add. assert (0 <= g ^ steps3s a * g ^ steps3s b) by (apply Rmult_le_pos; lra). rewrite (Rmult_comm g). apply Rmult_le_compat_l; lra.
    + change (near3 (v3add (qrot (iso_rot (sbuild_iso a)) (v3smul (iso_scale (sbuild_iso a)) (iso_pos (sbuild_iso b)))) (iso_pos (sbuild_iso a))) (add3 (rq4 Qa (scale3 (size3 a) Pb')) Pa) (spread3 (Then3s a b)) (K ^ weight3s (Then3s a b))).
      cbn [spread3]. rewrite (Rplus_comm (spread3 a)).
      assert (L1 : 1 * 1 <= g ^ steps3s a * K ^ weight3s b) by (apply Rmult_le_compat; lra). assert (L2 : g ^ steps3s a * K ^ weight3s b <= 101 / 100 * (101 / 100)) by (apply Rmult_le_compat; lra).
      assert (L3 : 1 <= g ^ steps3s a * K ^ weight3s b * (1 + 2 * u32) <= 2). { set (x := g ^ steps3s a * K ^ weight3s b) in * . assert (0 <= x * (2 * u32) <= 2 * (2 * u32)) by (split; [apply Rmult_le_pos | apply Rmult_le_compat_r]; lra). lra. }
      assert (NS : near3 (v3smul (iso_scale (sbuild_iso a)) (iso_pos (sbuild_iso b))) (scale3 (size3 a) Pb') (size3 a * spread3 b) (g ^ steps3s a * K ^ weight3s b * (1 + 2 * u32))).
      { apply near3_scale; [exact HSa | exact HPb | lra | lra | | exact BD]. apply Rle_trans with (2 * (size3 a * spread3 b)); [apply Rmult_le_compat_r; lra | lra]. }
      assert (Ex : g ^ steps3s a * g ^ steps3s a * (g ^ steps3s a * K ^ weight3s b) <= K ^ e).
      { rewrite <- KP. apply Rle_trans with (K ^ steps3s a * (K ^ steps3s a * K ^ weight3s b)); [|rewrite <- !pow_add; apply pow_up; [exact K1 | exact Wb]].
        pose proof (gK (steps3s a)). apply Rmult_le_compat_l; [lra|]. apply Rmult_le_compat_r; lra. }
      assert (KR : K ^ e * (size3 a * spread3 b + spread3 a) <= 2 * bpow radix2 72) by (apply Rmult_le_compat; lra).
      assert (NR : near3 (qrot (iso_rot (sbuild_iso a)) (v3smul (iso_scale (sbuild_iso a)) (iso_pos (sbuild_iso b)))) (rq4 Qa (scale3 (size3 a) Pb')) (size3 a * spread3 b) (K ^ e * ((1 + 72 * u32) * (1 + 2 * u32)))).
      { eapply near3_weaken; [eapply near3_rot; [exact HQa | exact NS | exact Ga1 | exact Ga2 | lra | | exact BD]|].
        - apply Rle_trans with (2 * (size3 a * spread3 b)); [apply Rmult_le_compat_r; lra | lra].
        - apply Rle_trans with (g ^ steps3s a * g ^ steps3s a * (g ^ steps3s a * K ^ weight3s b) * ((1 + 72 * u32) * (1 + 2 * u32))); [right; ring|]. apply Rmult_le_compat_r; [apply Rmult_le_pos; lra | exact Ex]. }
      assert (U22 : 1 <= (1 + 72 * u32) * (1 + 2 * u32) <= 2). { assert (0 <= u32 * u32) by (apply Rmult_le_pos; lra). assert (u32 * u32 <= u32 * (1 / 16777216)) by (apply Rmult_le_compat_l; lra). lra. }
      set (w := (1 + 72 * u32) * (1 + 2 * u32)) in * .
      assert (Kew : K ^ e <= K ^ e * w) by (rewrite <- (Rmult_1_r (K ^ e)) at 1; apply Rmult_le_compat_l; lra).
      eapply near3_weaken; [apply (near3_add _ _ _ _ _ _ _ NR)|].
      * eapply near3_weaken; [exact HPa|]. apply Rle_trans with (K ^ e); [apply pow_up; assumption | exact Kew].
      * lra.
      * replace (K ^ e * w * (size3 a * spread3 b + spread3 a)) with (w * (K ^ e * (size3 a * spread3 b + spread3 a))) by ring.
        apply Rle_trans with (2 * (2 * bpow radix2 72)); [|lra]. apply Rmult_le_compat; try lra. apply Rmult_le_pos; lra.
      * apply Rle_trans with (K ^ S e); [|apply pow_up; [exact K1 | exact We]]. cbn [pow]. rewrite Rmult_assoc, Rmult_comm. apply Rmult_le_compat_r; [lra|]. exact U3.
    + change (snear (fmul (iso_scale (sbuild_iso a)) (iso_scale (sbuild_iso b))) (size3 a * size3 b) (g ^ S (steps3s a + steps3s b))).
      assert (L1 : 1 * 1 <= g ^ steps3s a * g ^ steps3s b) by (apply Rmult_le_compat; lra). assert (L2 : g ^ steps3s a * g ^ steps3s b <= 101 / 100 * (101 / 100)) by (apply Rmult_le_compat; lra).
      eapply snear_weaken.
      * apply snear_mul; [exact HSa | exact HSb | lra | lra | lra | lra].
      * set (x := g ^ steps3s a * g ^ steps3s b) in * . assert (0 <= x * (2 * u32)) by (apply Rmult_le_pos; lra). lra.
      * cbn [pow]. rewrite pow_add, (Rmult_comm g). apply Rmult_le_compat_l; lra.
  - pose proof (in_range3_here _ Rc) as [[Z1 Z2] [Y1 Y2]]. destruct Rc as [_ Ca]. cbn [size3] in Z1, Z2. cbn [spread3] in Y1, Y2.
    pose proof (in_range3_here _ Ca) as [[Za1 Za2] [Ya1 Ya2]]. pose proof (spread_low _ Ca) as Ba.
    assert (Wa : (S (steps3s a + (steps3s a + weight3s a)) <= weight3s (Back3s a))%nat) by (unfold weight3s; cbn [nesting3s steps3s]; nia).
    assert (P2 : forall i, (i <= weight3s (Back3s a))%nat -> 1 <= K ^ i <= 101 / 100).
    { intros i Hi. split; [apply pow_R1_Rle, K1|]. eapply Rle_trans; [apply (pow_up K i (weight3s (Back3s a))); [exact K1 | exact Hi] | exact W]. }
    assert (G2 : 1 <= g ^ steps3s a /\ g ^ steps3s a * g ^ steps3s a <= 101 / 100). { split; [apply pow_R1_Rle, G1|]. rewrite <- KP. apply P2. lia. }
    destruct IHa as (Q & P & F & HQ & HP & HS); [apply P2; lia | exact Ca|]. fold g K in HQ, HP, HS. pose proof (P2 (weight3s a) ltac:(lia)) as Kw. pose proof (P2 (steps3s a) ltac:(lia)) as Ks.
    destruct G2 as (Ga1 & Ga2). pose proof (gK (steps3s a)) as (_ & Ga3).
    assert (N1 : norm4 Q = 1) by apply HQ. assert (I : / size3 a * size3 a = 1) by (apply Rinv_l; lra).
    exists (conj4 Q), (scale3 (/ size3 a) (rq4 (conj4 Q) (neg3 P))). split; [|split; [|split]].
    + intro p. pose proof (Inv p) as E. rewrite F in E. set (y := g' p) in * . rewrite <- E. cbn [size3]. rewrite (rq4_scale (conj4 Q) (/ size3 a)), rq4_add, rq4_conj by exact N1.
      replace (neg3 P) with (scale3 (-1) P) by (apply pt3_eq; v3; ring). rewrite (rq4_scale (conj4 Q) (-1)). clear E. set (z := rq4 (conj4 Q) P). clearbody y z.
      transitivity (scale3 (/ size3 a * size3 a) y); [rewrite I; apply pt3_eq; v3; ring|]. generalize (/ size3 a) (size3 a). intros; apply pt3_eq; v3; ring.
    + cbn [sbuild_iso steps3s]. change (iso_rot (inverse (sbuild_iso a))) with (qinv (iso_rot (sbuild_iso a))). apply near4_conj. fold g. eapply near4_weaken; [exact HQ | apply pow_up; [exact G1 | lia]].
    + cbn [sbuild_iso spread3]. change (iso_pos (inverse (sbuild_iso a))) with (v3divs (qrot (qinv (iso_rot (sbuild_iso a))) (v3sub v3zero (iso_pos (sbuild_iso a)))) (iso_scale (sbuild_iso a))).
      assert (L0 : K ^ weight3s a * spread3 a <= 2 * bpow radix2 72) by (apply Rmult_le_compat; lra).
      assert (NR : near3 (qrot (qinv (iso_rot (sbuild_iso a))) (v3sub v3zero (iso_pos (sbuild_iso a)))) (rq4 (conj4 Q) (neg3 P)) (spread3 a) (g ^ steps3s a * g ^ steps3s a * K ^ weight3s a * (1 + 72 * u32))).
      { eapply near3_rot; [apply near4_conj, HQ | apply near3_zero_sub, HP | exact Ga1 | exact Ga2 | apply Kw | lra | exact Ba]. }
      rewrite <- KP in NR. assert (L1 : 1 * 1 <= K ^ steps3s a * K ^ weight3s a) by (apply Rmult_le_compat; lra). assert (L2 : K ^ steps3s a * K ^ weight3s a <= 101 / 100 * (101 / 100)) by (apply Rmult_le_compat; lra).
      assert (L3 : 1 <= K ^ steps3s a * K ^ weight3s a * (1 + 72 * u32) <= 2). { set (x := K ^ steps3s a * K ^ weight3s a) in * . assert (0 <= x * (72 * u32) <= 2 * (72 * u32)) by (split; [apply Rmult_le_pos | apply Rmult_le_compat_r]; lra). lra. }
      eapply near3_weaken.
      * apply (near3_unscale _ _ (g ^ steps3s a) _ _ _ _ HS NR); [exact Ga1 | apply L3 | | ].
        -- apply Rle_trans with (2 * 2 * bpow radix2 72); [|lra]. apply Rmult_le_compat; [apply Rmult_le_pos; lra | lra | apply Rmult_le_compat; lra | lra].
        -- unfold bot3. eapply Rle_trans; [apply bpow_le|exact Y1]; lia.
      * fold K. apply Rle_trans with (K ^ S (steps3s a + (steps3s a + weight3s a))); [|apply pow_up; [exact K1 | exact Wa]]. cbn [pow]. rewrite !pow_add.
        apply Rle_trans with (K ^ steps3s a * (K ^ steps3s a * K ^ weight3s a * (1 + 72 * u32)) * (1 + 2 * u32)).
        -- apply Rmult_le_compat_r; [lra|]. apply Rmult_le_compat_r; [lra | exact Ga3].
        -- replace (K ^ steps3s a * (K ^ steps3s a * K ^ weight3s a * (1 + 72 * u32)) * (1 + 2 * u32)) with ((1 + 72 * u32) * (1 + 2 * u32) * (K ^ steps3s a * (K ^ steps3s a * K ^ weight3s a))) by ring.
           apply Rmult_le_compat_r; [|lra]. apply Rmult_le_pos; lra.
    + cbn [sbuild_iso steps3s size3]. change (iso_scale (inverse (sbuild_iso a))) with (fdiv f1 (iso_scale (sbuild_iso a))). fold g. eapply snear_weaken.
      * apply snear_inv; [exact HS | lra | lra].
      * assert (0 <= g ^ steps3s a * (2 * u32)) by (apply Rmult_le_pos; lra). lra.
      * cbn [pow]. rewrite (Rmult_comm g). apply Rmult_le_compat_l; lra.
Qed.
