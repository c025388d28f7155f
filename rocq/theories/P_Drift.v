(** * Rotor2d and Transform2d arithmetic in binary32: error of one rotation, one addition. *)
From Coq Require Import Reals ZArith Bool Lra Lia Psatz.
From Flocq Require Import IEEE754.BinarySingleNaN Core Relative.
From Verif Require Import Num NumXR NumB32 Glam Transform2 Shapes2 Gjk Detect2 Spec SpecLink P_Base P_Geo P_B32 Props_F32 Props_F32Gjk.
Local Open Scope R_scope.

Lemma rnd_error_sub x y : exists eps, Rabs eps <= u32 /\ rnd (val x - val y) = (val x - val y) * (1 + eps).
Proof. destruct (rnd_error_add x (fneg y)) as (e & H & E). exists e. split; [exact H|]. rewrite val_neg in E. exact E. Qed.
Lemma abs_le2' a b : Rabs a <= b -> - b <= a <= b.
Proof. intro H. unfold Rabs in H. destruct (Rcase_abs a); lra. Qed.

(** one component of a rotation: fl(fl(ab) - fl(cd)) and fl(fl(ab) + fl(cd)) *)
Lemma comb_error a b c d e0 e1 e2 t1 t2 : Rabs e0 <= u32 -> Rabs e1 <= u32 -> Rabs e2 <= u32 -> Rabs t1 <= tiny -> Rabs t2 <= tiny ->
  Rabs ((a * b * (1 + e1) + t1 + (c * d * (1 + e2) + t2)) * (1 + e0) - (a * b + c * d)) <= 41 / 20 * u32 * (Rabs a * Rabs b + Rabs c * Rabs d) + 41 / 20 * tiny.
Proof.
  intros E0 E1 E2 U1 U2. set (x := a * b). set (y := c * d).
  pose proof u32_pos as Hu. pose proof u32_small as Hs. pose proof tiny_pos as Ht.
  replace ((x * (1 + e1) + t1 + (y * (1 + e2) + t2)) * (1 + e0) - (x + y)) with (x * (e1 + e0 + e1 * e0) + y * (e2 + e0 + e2 * e0) + (t1 + t2) * (1 + e0)) by ring.
  assert (K : forall e, Rabs e <= u32 -> Rabs (e + e0 + e * e0) <= 41 / 20 * u32).
  { intros e He. eapply Rle_trans; [apply Rabs_triang|]. eapply Rle_trans; [apply Rplus_le_compat_r, Rabs_triang|]. rewrite Rabs_mult.
    assert (Rabs e * Rabs e0 <= u32 * u32) by (apply Rmult_le_compat; try apply Rabs_pos; assumption). nra. }
  assert (K1 := K _ E1). assert (K2 := K _ E2).
  rewrite <- !Rabs_mult. fold x y.
  assert (B1 : Rabs (x * (e1 + e0 + e1 * e0)) <= 41 / 20 * u32 * Rabs x) by (rewrite Rabs_mult; pose proof (Rabs_pos x); nra).
  assert (B2 : Rabs (y * (e2 + e0 + e2 * e0)) <= 41 / 20 * u32 * Rabs y) by (rewrite Rabs_mult; pose proof (Rabs_pos y); nra).
  assert (B3 : Rabs ((t1 + t2) * (1 + e0)) <= 41 / 20 * tiny).
  { rewrite Rabs_mult. assert (Rabs (t1 + t2) <= 2 * tiny) by (eapply Rle_trans; [apply Rabs_triang|]; lra).
    assert (Rabs (1 + e0) <= 41 / 40). { apply abs_le2' in E0. apply Rabs_le. lra. }
    pose proof (Rabs_pos (t1 + t2)). pose proof (Rabs_pos (1 + e0)). nra. }
  eapply Rle_trans; [apply Rabs_triang|]. eapply Rle_trans; [apply Rplus_le_compat_r, Rabs_triang|]. lra.
Qed.
Lemma comp_sub a b c d i j : (-149 <= i + j)%Z -> (i + j <= 126)%Z -> fin a -> fin b -> fin c -> fin d ->
  small (val a) i -> small (val c) i -> small (val b) j -> small (val d) j ->
  fin (fsub (fmul a b) (fmul c d)) /\ Rabs (val (fsub (fmul a b) (fmul c d)) - (val a * val b - val c * val d)) <=
    41 / 20 * u32 * (Rabs (val a) * Rabs (val b) + Rabs (val c) * Rabs (val d)) + 41 / 20 * tiny.
Proof.
  intros L U Fa Fb Fc Fd Sa Sc Sb Sd.
  assert (M1 : small (rnd (val a * val b)) (i + j)) by (apply rnd_small; [exact L | apply small_mul; assumption]).
  assert (M2 : small (rnd (val c * val d)) (i + j)) by (apply rnd_small; [exact L | apply small_mul; assumption]).
  destruct (mul_ok a b Fa Fb ltac:(eapply small_big; [|exact M1]; lia)) as [X1 X2].
  destruct (mul_ok c d Fc Fd ltac:(eapply small_big; [|exact M2]; lia)) as [Y1 Y2].
  assert (A : small (rnd (val (fmul a b) - val (fmul c d))) (i + j + 1)).
  { rewrite X2, Y2. apply rnd_small; [lia|]. unfold Rminus. apply small_add; [assumption|]. unfold small. rewrite Rabs_Ropp. exact M2. }
  destruct (sub_ok _ _ X1 Y1 ltac:(eapply small_big; [|exact A]; lia)) as [Z1 Z2].
  split; [exact Z1|]. rewrite Z2.
  destruct (rnd_error_sub (fmul a b) (fmul c d)) as (e0 & E0 & ->). rewrite X2, Y2.
  destruct (rnd_error (val a * val b)) as (e1 & t1 & E1 & U1 & ->). destruct (rnd_error (val c * val d)) as (e2 & t2 & E2 & U2 & ->).
  pose proof (comb_error (val a) (val b) (- val c) (val d) e0 e1 e2 t1 (- t2) E0 E1 E2 U1 ltac:(rewrite Rabs_Ropp; exact U2)) as K.
  rewrite Rabs_Ropp in K. eapply Rle_trans; [|exact K]. right. f_equal. ring.
Qed.
Lemma comp_add a b c d i j : (-149 <= i + j)%Z -> (i + j <= 126)%Z -> fin a -> fin b -> fin c -> fin d ->
  small (val a) i -> small (val c) i -> small (val b) j -> small (val d) j ->
  fin (fadd (fmul a b) (fmul c d)) /\ Rabs (val (fadd (fmul a b) (fmul c d)) - (val a * val b + val c * val d)) <=
    41 / 20 * u32 * (Rabs (val a) * Rabs (val b) + Rabs (val c) * Rabs (val d)) + 41 / 20 * tiny.
Proof.
  intros L U Fa Fb Fc Fd Sa Sc Sb Sd.
  assert (M1 : small (rnd (val a * val b)) (i + j)) by (apply rnd_small; [exact L | apply small_mul; assumption]).
  assert (M2 : small (rnd (val c * val d)) (i + j)) by (apply rnd_small; [exact L | apply small_mul; assumption]).
  destruct (mul_ok a b Fa Fb ltac:(eapply small_big; [|exact M1]; lia)) as [X1 X2].
  destruct (mul_ok c d Fc Fd ltac:(eapply small_big; [|exact M2]; lia)) as [Y1 Y2].
  assert (A : small (rnd (val (fmul a b) + val (fmul c d))) (i + j + 1)).
  { rewrite X2, Y2. apply rnd_small; [lia|]. apply small_add; assumption. }
  destruct (add_ok _ _ X1 Y1 ltac:(eapply small_big; [|exact A]; lia)) as [Z1 Z2].
  split; [exact Z1|]. rewrite Z2.
  destruct (rnd_error_add (fmul a b) (fmul c d)) as (e0 & E0 & ->). rewrite X2, Y2.
  destruct (rnd_error (val a * val b)) as (e1 & t1 & E1 & U1 & ->). destruct (rnd_error (val c * val d)) as (e2 & t2 & E2 & U2 & ->).
  apply comb_error; assumption.
Qed.

(** ** In the plane *)
(** complex product: rotation (and stretch) by r *)
Definition cmul (r v : pt) : pt := (fst r * fst v - snd r * snd v, fst r * snd v + snd r * fst v).
Lemma norm_cmul r v : norm (cmul r v) = norm r * norm v.
Proof. unfold norm, cmul, pdot. cbn [fst snd]. rewrite <- sqrt_mult by nra. f_equal. ring. Qed.
Lemma norm_box p m : Rabs (fst p) <= m -> Rabs (snd p) <= m -> norm p <= 142 / 100 * m.
Proof.
  intros X Y. pose proof (Rabs_pos (fst p)). unfold norm. rewrite <- (sqrt_square (142 / 100 * m)) by lra. apply sqrt_le_1_alt. unfold pdot.
  assert (A : forall a, Rabs a <= m -> a * a <= m * m).
  { intros a Ha. replace (a * a) with (Rabs a * Rabs a) by (rewrite <- Rabs_mult; apply Rabs_pos_eq; nra). apply Rmult_le_compat; try apply Rabs_pos; assumption. }
  pose proof (A _ X). pose proof (A _ Y). nra.
Qed.
Lemma coord_le_norm p : Rabs (fst p) <= norm p /\ Rabs (snd p) <= norm p.
Proof.
  assert (A : forall a, Rabs a = sqrt (a * a)) by (intro a; symmetry; exact (sqrt_Rsqr_abs a)).
  split; rewrite A; unfold norm, pdot; apply sqrt_le_1_alt; nra.
Qed.
Lemma abs_dot p q : Rabs (fst p) * Rabs (fst q) + Rabs (snd p) * Rabs (snd q) <= norm p * norm q.
Proof.
  pose proof (cauchy_abs (Rabs (fst p), Rabs (snd p)) (Rabs (fst q), Rabs (snd q))) as C. unfold pdot at 1 in C; cbn [fst snd] in C.
  assert (N : forall a, norm (Rabs (fst a), Rabs (snd a)) = norm a).
  { intro a. unfold norm, pdot. cbn [fst snd]. f_equal. rewrite <- !Rabs_mult, !Rabs_pos_eq; nra. }
  rewrite !N in C. eapply Rle_trans; [apply Rle_abs | exact C].
Qed.
Lemma norm_swap a b : norm (a, b) = norm (b, a). Proof. unfold norm, pdot. cbn. f_equal. ring. Qed.
Lemma fin_small2 v k : norm (rval v) <= bpow radix2 k -> small (val (vx v)) k /\ small (val (vy v)) k.
Proof. intro H. destruct (coord_le_norm (rval v)) as [X Y]. cbn in X, Y. unfold small. split; eapply Rle_trans; eassumption. Qed.

(** one rotation *)
Lemma rot_ok r v : fin2 r -> fin2 v -> norm (rval r) <= 4 -> norm (rval v) <= bpow radix2 110 ->
  fin2 (rotor_rot (Rotor r) v) /\
  norm (psub (rval (rotor_rot (Rotor r) v)) (cmul (rval r) (rval v))) <= 3 * u32 * (norm (rval r) * norm (rval v)) + 3 * tiny.
Proof.
  intros [R1 R2] [V1 V2] Nr Nv. change 4 with (bpow radix2 2) in Nr.
  destruct (fin_small2 _ _ Nr) as [S1 S2]. destruct (fin_small2 _ _ Nv) as [T1 T2].
  destruct (comp_sub (vx r) (vx v) (vy r) (vy v) 2 110 ltac:(lia) ltac:(lia) R1 V1 R2 V2 S1 S2 T1 T2) as [FX X].
  destruct (comp_add (vx r) (vy v) (vy r) (vx v) 2 110 ltac:(lia) ltac:(lia) R1 V2 R2 V1 S1 S2 T2 T1) as [FY Y].
  split; [split; assumption|]. pose proof u32_pos. pose proof tiny_pos.
  pose proof (abs_dot (rval r) (rval v)) as D1. pose proof (abs_dot (rval r) (val (vy v), val (vx v))) as D2. rewrite (norm_swap (val (vy v))) in D2.
  change (val (vx v), val (vy v)) with (rval v) in D2. cbn [fst snd rval] in D1, D2. set (N := norm (rval r) * norm (rval v)) in * .
  assert (NN : 0 <= N) by (apply Rmult_le_pos; apply norm_nonneg).
  eapply Rle_trans; [apply (norm_box _ (41 / 20 * u32 * N + 41 / 20 * tiny))|].
  - cbn [psub fst snd rval cmul rotor_rot ra vx vy]. eapply Rle_trans; [exact X|]. apply Rplus_le_compat_r. apply Rmult_le_compat_l; lra.
  - cbn [psub fst snd rval cmul rotor_rot ra vx vy]. eapply Rle_trans; [exact Y|]. apply Rplus_le_compat_r. apply Rmult_le_compat_l; lra.
  - assert (0 <= u32 * N) by (apply Rmult_le_pos; lra). lra.
Qed.
(** one addition or subtraction of vectors *)
Lemma norm_comp p q k : 0 <= k -> Rabs (fst p) <= k * Rabs (fst q) -> Rabs (snd p) <= k * Rabs (snd q) -> norm p <= k * norm q.
Proof.
  intros K X Y. apply (proj2 (norm_le_sq p (k * norm q) ltac:(apply Rmult_le_pos; [exact K | apply norm_nonneg]))).
  assert (Q : norm q * norm q = pdot q q) by (unfold norm; apply sqrt_sqrt; unfold pdot; nra).
  replace (k * norm q * (k * norm q)) with (k * k * (norm q * norm q)) by ring. rewrite Q. unfold pdot.
  assert (A : forall a b, Rabs a <= k * Rabs b -> a * a <= k * k * (b * b)).
  { intros a b H. replace (a * a) with (Rabs a * Rabs a) by (rewrite <- Rabs_mult; apply Rabs_pos_eq; nra).
    replace (k * k * (b * b)) with ((k * Rabs b) * (k * Rabs b)).
    - apply Rmult_le_compat; try apply Rabs_pos; assumption.
    - replace (b * b) with (Rabs b * Rabs b) by (rewrite <- Rabs_mult; apply Rabs_pos_eq; nra). ring. }
  pose proof (A _ _ X). pose proof (A _ _ Y). lra.
Qed.
Lemma norm_lift p k : (-149 <= k)%Z -> norm p <= bpow radix2 k -> small (rnd (fst p)) k /\ small (rnd (snd p)) k.
Proof. intros K H. destruct (coord_le_norm p) as [X Y]. split; (apply rnd_small; [exact K|]); unfold small; eapply Rle_trans; eassumption. Qed.
Lemma vadd_ok p q : fin2 p -> fin2 q -> norm (padd (rval p) (rval q)) <= bpow radix2 126 ->
  fin2 (v2add p q) /\ norm (psub (rval (v2add p q)) (padd (rval p) (rval q))) <= u32 * norm (padd (rval p) (rval q)).
Proof.
  intros [P1 P2] [Q1 Q2] N. destruct (norm_lift _ 126 ltac:(lia) N) as [S1 S2]. cbn [padd fst snd rval] in S1, S2.
  destruct (add_ok _ _ P1 Q1 ltac:(eapply small_big; [|exact S1]; lia)) as [X1 X2].
  destruct (add_ok _ _ P2 Q2 ltac:(eapply small_big; [|exact S2]; lia)) as [Y1 Y2].
  split; [split; assumption|]. pose proof u32_pos. apply norm_comp; [lia || lra | |].
  - cbn [psub padd fst snd rval v2add vx vy]. rewrite X2. destruct (rnd_error_add (vx p) (vx q)) as (e & E & ->).
    replace ((val (vx p) + val (vx q)) * (1 + e) - (val (vx p) + val (vx q))) with (e * (val (vx p) + val (vx q))) by ring. rewrite Rabs_mult.
    apply Rmult_le_compat_r; [apply Rabs_pos | exact E].
  - cbn [psub padd fst snd rval v2add vx vy]. rewrite Y2. destruct (rnd_error_add (vy p) (vy q)) as (e & E & ->).
    replace ((val (vy p) + val (vy q)) * (1 + e) - (val (vy p) + val (vy q))) with (e * (val (vy p) + val (vy q))) by ring. rewrite Rabs_mult.
    apply Rmult_le_compat_r; [apply Rabs_pos | exact E].
Qed.
Lemma vsub_ok p q : fin2 p -> fin2 q -> norm (psub (rval p) (rval q)) <= bpow radix2 126 ->
  fin2 (v2sub p q) /\ norm (psub (rval (v2sub p q)) (psub (rval p) (rval q))) <= u32 * norm (psub (rval p) (rval q)).
Proof.
  intros [P1 P2] [Q1 Q2] N. destruct (norm_lift _ 126 ltac:(lia) N) as [S1 S2]. cbn [psub fst snd rval] in S1, S2.
  destruct (sub_ok _ _ P1 Q1 ltac:(eapply small_big; [|exact S1]; lia)) as [X1 X2].
  destruct (sub_ok _ _ P2 Q2 ltac:(eapply small_big; [|exact S2]; lia)) as [Y1 Y2].
  split; [split; assumption|]. pose proof u32_pos. apply norm_comp; [lia || lra | |].
  - cbn [psub fst snd rval v2sub vx vy]. rewrite X2. destruct (rnd_error_sub (vx p) (vx q)) as (e & E & ->).
    replace ((val (vx p) - val (vx q)) * (1 + e) - (val (vx p) - val (vx q))) with (e * (val (vx p) - val (vx q))) by ring. rewrite Rabs_mult.
    apply Rmult_le_compat_r; [apply Rabs_pos | exact E].
  - cbn [psub fst snd rval v2sub vx vy]. rewrite Y2. destruct (rnd_error_sub (vy p) (vy q)) as (e & E & ->).
    replace ((val (vy p) - val (vy q)) * (1 + e) - (val (vy p) - val (vy q))) with (e * (val (vy p) - val (vy q))) by ring. rewrite Rabs_mult.
    apply Rmult_le_compat_r; [apply Rabs_pos | exact E].
Qed.
(** multiplying and dividing by one changes nothing *)
Lemma val_1 : fin (f1 : b32) /\ val (f1 : b32) = 1.
Proof. destruct (val_of 1 0 ltac:(lia) ltac:(lia)) as [A B]. split; [exact A|]. change (val (b32_of 1 0) = 1). rewrite B. cbn. lra. Qed.
Lemma mul_one v : fin2 v -> fin2 (v2mul v2one v) /\ rval (v2mul v2one v) = rval v.
Proof.
  intros [X Y]. destruct val_1 as [F1 E1].
  assert (A : forall x : b32, fin x -> fin (fmul f1 x) /\ val (fmul f1 x) = val x).
  { intros x Fx. assert (E : rnd (val f1 * val x) = val x) by (rewrite E1, Rmult_1_l; apply rnd_exact).
    destruct (mul_ok f1 x F1 Fx) as [G1 G2]; [rewrite E; apply val_big|]. split; [exact G1 | rewrite G2; exact E]. }
  destruct (A _ X) as [A1 A2], (A _ Y) as [B1 B2]. split; [split; assumption|]. unfold rval, v2mul, v2one. cbn [vx vy]. rewrite A2, B2. reflexivity.
Qed.
Lemma div_one v : fin2 v -> fin2 (v2div v v2one) /\ rval (v2div v v2one) = rval v.
Proof.
  intros [X Y]. destruct val_1 as [F1 E1].
  assert (A : forall x : b32, fin x -> fin (fdiv x f1) /\ val (fdiv x f1) = val x).
  { intros x Fx. assert (E : rnd (val x / val f1) = val x) by (rewrite E1; unfold Rdiv; rewrite Rinv_1, Rmult_1_r; apply rnd_exact).
    destruct (div_ok x f1 Fx) as [G1 G2]; [rewrite E1; lra | rewrite E; apply val_big|]. split; [exact G1 | rewrite G2; exact E]. }
  destruct (A _ X) as [A1 A2], (A _ Y) as [B1 B2]. split; [split; assumption|]. unfold rval, v2div, v2one. cbn [vx vy]. rewrite A2, B2. reflexivity.
Qed.
Lemma one_one : @v2mul b32 _ v2one v2one = v2one /\ @v2sdiv b32 _ f1 v2one = v2one.
Proof.
  assert (A : @fmul b32 _ f1 f1 = f1) by (apply B2SF_inj; vm_compute; reflexivity). assert (B : @fdiv b32 _ f1 f1 = f1) by (apply B2SF_inj; vm_compute; reflexivity).
  unfold v2mul, v2sdiv, v2one. cbn [vx vy]. rewrite A, B. split; reflexivity.
Qed.
