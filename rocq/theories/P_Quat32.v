(** * Quaternion rotation of f32 vectors: how far the computed point is from the real one *)
From Coq Require Import Reals ZArith Lra Lia Psatz Bool.
From Flocq Require Import Core BinarySingleNaN.
From Verif Require Import Num NumXR NumB32 Glam Transform2 Shapes2 Gjk Detect2 Col3 Spec SpecLink P_Base P_Geo P_Geo3 P_3d P_B32 Props_F32 Props_F32Gjk Props_Lerp P_Drift P_Closed32 Props_Approx Spec32s P_Space32.
Local Open Scope R_scope.

(** x stands for X up to e roundings at scale S, where |X| does not exceed b S *)
Definition app (e b s : R) (x : b32) (y : R) : Prop := fin x /\ Rabs (val x - y) <= e * u32 * s /\ Rabs y <= b * s.

Lemma app_exact b s x : fin x -> Rabs (val x) <= b * s -> app 0 b s x (val x).
Proof. intros F B. split; [exact F|]. split; [|exact B]. replace (val x - val x) with 0 by ring. rewrite Rabs_R0. lra. Qed.
Lemma app_weak e b s e' b' x y : 0 <= s -> e <= e' -> b <= b' -> app e b s x y -> app e' b' s x y.
Proof.
  intros S E B (F & A & C). split; [exact F|]. pose proof u32_pos. split.
  - apply Rle_trans with (1 := A). apply Rmult_le_compat_r; [exact S|]. apply Rmult_le_compat_r; lra.
  - apply Rle_trans with (1 := C). apply Rmult_le_compat_r; lra.
Qed.
Lemma app_bound e b' s x y b : app e b' s x y -> Rabs y <= b * s -> app e b s x y.
Proof. intros (F & A & _) B. split; [exact F|]. split; assumption. Qed.
Lemma app_neg e b s x y : app e b s x y -> app e b s (fneg x) (- y).
Proof.
  intros (F & A & B). split; [apply fin_neg, F|]. rewrite val_neg. split.
  - replace (- val x - - y) with (- (val x - y)) by ring. rewrite Rabs_Ropp. exact A.
  - rewrite Rabs_Ropp. exact B.
Qed.
Lemma below_big r : Rabs r <= bpow radix2 120 -> Rabs (rnd r) < big.
Proof. intro H. apply (small_big _ 120); [lia|]. apply rnd_small; [lia | exact H]. Qed.
Lemma rnd_near r : Rabs (rnd r - r) <= u32 * Rabs r + tiny.
Proof.
  destruct (rnd_error r) as (e & t & E & T & ->). replace (r * (1 + e) + t - r) with (e * r + t) by ring.
  apply Rle_trans with (1 := Rabs_triang _ _). rewrite Rabs_mult. apply Rplus_le_compat; [|exact T]. apply Rmult_le_compat_r; [apply Rabs_pos | exact E].
Qed.
Lemma room s : s <= bpow radix2 100 -> 4096 * s <= bpow radix2 120.
Proof. intro H. apply Rle_trans with (bpow radix2 12 * bpow radix2 100); [|rewrite <- bpow_plus; apply bpow_le; lia]. replace (bpow radix2 12) with 4096 by (cbn; lra). lra. Qed.

Lemma app_mul e1 b1 s1 x a e2 b2 s2 y b s e c : app e1 b1 s1 x a -> app e2 b2 s2 y b -> s = s1 * s2 -> 0 <= s1 -> 0 <= s2 ->
  0 <= e1 <= 64 -> 0 <= e2 <= 64 -> 0 <= b1 <= 8 -> 0 <= b2 <= 8 -> bpow radix2 (-60) <= s <= bpow radix2 100 ->
  e1 * b2 + e2 * b1 + b1 * b2 + 1 / 50 <= e -> b1 * b2 <= c ->
  app e c s (fmul x y) (a * b).
Proof.
  intros (Fx & Ax & Bx) (Fy & Ay & By) -> S1 S2 E1 E2 B1 B2 S He Hc. set (s := s1 * s2) in * .
  pose proof u32_pos as U. pose proof u32_small as US. assert (SP : 0 <= s) by (apply Rmult_le_pos; assumption).
  assert (AB : Rabs (a * b) <= b1 * b2 * s).
  { rewrite Rabs_mult. apply Rle_trans with (b1 * s1 * (b2 * s2)); [|unfold s; right; ring]. apply Rmult_le_compat; try apply Rabs_pos; assumption. }
  set (k := e1 * b2 + e2 * b1 + e1 * e2 * u32).
  assert (D : Rabs (val x * val y - a * b) <= k * u32 * s).
  { replace (val x * val y - a * b) with ((val x - a) * b + (a * (val y - b) + (val x - a) * (val y - b))) by ring.
    apply Rle_trans with (1 := Rabs_triang _ _). 
    apply Rle_trans with (e1 * u32 * s1 * (b2 * s2) + (b1 * s1 * (e2 * u32 * s2) + e1 * u32 * s1 * (e2 * u32 * s2))); [|unfold k, s; right; ring].
    apply Rplus_le_compat; [rewrite Rabs_mult; apply Rmult_le_compat; try apply Rabs_pos; assumption|].
    apply Rle_trans with (1 := Rabs_triang _ _). rewrite !Rabs_mult. apply Rplus_le_compat; apply Rmult_le_compat; try apply Rabs_pos; assumption. }
  assert (E12 : 0 <= e1 * e2 <= 4096) by (split; [apply Rmult_le_pos; lra | replace 4096 with (64 * 64) by ring; apply Rmult_le_compat; lra]).
  assert (E12u : 0 <= e1 * e2 * u32 <= 4096 / 16777216) by (split; [apply Rmult_le_pos; lra |]; replace (4096 / 16777216) with (4096 * (1 / 16777216)) by field; apply Rmult_le_compat; lra).
  assert (X1 : 0 <= e1 * b2 <= 512) by (split; [apply Rmult_le_pos; lra | replace 512 with (64 * 8) by ring; apply Rmult_le_compat; lra]).
  assert (X2 : 0 <= e2 * b1 <= 512) by (split; [apply Rmult_le_pos; lra | replace 512 with (64 * 8) by ring; apply Rmult_le_compat; lra]).
  assert (X3 : 0 <= b1 * b2 <= 64) by (split; [apply Rmult_le_pos; lra | replace 64 with (8 * 8) by ring; apply Rmult_le_compat; lra]).
  assert (K : 0 <= k <= 1025) by (unfold k; lra).
  assert (KU : 0 <= k * u32 <= 1025 / 16777216) by (split; [apply Rmult_le_pos; lra |]; replace (1025 / 16777216) with (1025 * (1 / 16777216)) by field; apply Rmult_le_compat; lra).
  assert (P : Rabs (val x * val y) <= (b1 * b2 + k * u32) * s).
  { replace (val x * val y) with (a * b + (val x * val y - a * b)) by ring. apply Rle_trans with (1 := Rabs_triang _ _). lra. }
  assert (Q : Rabs (val x * val y) <= bpow radix2 120).
  { apply Rle_trans with (1 := P). apply Rle_trans with (2 := room s (proj2 S)). apply Rmult_le_compat_r; lra. }
  destruct (mul_ok x y Fx Fy (below_big _ Q)) as (FM & VM). split; [exact FM|]. split.
  - rewrite VM. pose proof (rnd_near (val x * val y)) as N. pose proof (bpow_small_u s (proj1 S)) as T.
    replace (rnd (val x * val y) - a * b) with ((rnd (val x * val y) - val x * val y) + (val x * val y - a * b)) by ring.
    apply Rle_trans with (1 := Rabs_triang _ _).
    assert (u32 * Rabs (val x * val y) <= u32 * ((b1 * b2 + k * u32) * s)) by (apply Rmult_le_compat_l; lra).
    apply Rle_trans with ((b1 * b2 + k * u32 + 1 / 100 + k) * u32 * s); [|apply Rmult_le_compat_r; [lra|]; apply Rmult_le_compat_r; [lra|]; unfold k in * ; lra].
    replace ((b1 * b2 + k * u32 + 1 / 100 + k) * u32 * s) with (u32 * ((b1 * b2 + k * u32) * s) + u32 / 100 * s + k * u32 * s) by field. lra.
  - apply Rle_trans with (1 := AB). apply Rmult_le_compat_r; lra.
Qed.
Lemma sum_core r x y a b s e1 e2 e c : Rabs (x - a) <= e1 * u32 * s -> Rabs (y - b) <= e2 * u32 * s -> Rabs (a + b) <= c * s -> 0 <= s ->
  (exists q, Rabs q <= u32 /\ r = (x + y) * (1 + q)) -> 0 <= e1 <= 64 -> 0 <= e2 <= 64 -> 0 <= c <= 8 -> e1 + e2 + c + 1 / 50 <= e ->
  Rabs (r - (a + b)) <= e * u32 * s /\ Rabs (x + y) <= 16 * s.
Proof.
  intros X Y C S (q & Q & ->) E1 E2 Cb He. pose proof u32_pos as U. pose proof u32_small as US.
  assert (D : Rabs (x + y - (a + b)) <= (e1 + e2) * u32 * s).
  { replace (x + y - (a + b)) with ((x - a) + (y - b)) by ring. apply Rle_trans with (1 := Rabs_triang _ _). lra. }
  assert (KU : 0 <= (e1 + e2) * u32 <= 128 / 16777216) by (split; [apply Rmult_le_pos; lra |]; replace (128 / 16777216) with (128 * (1 / 16777216)) by field; apply Rmult_le_compat; lra).
  assert (P : Rabs (x + y) <= (c + (e1 + e2) * u32) * s).
  { replace (x + y) with ((a + b) + (x + y - (a + b))) by ring. apply Rle_trans with (1 := Rabs_triang _ _). lra. }
  split.
  - replace ((x + y) * (1 + q) - (a + b)) with (q * (x + y) + (x + y - (a + b))) by ring. apply Rle_trans with (1 := Rabs_triang _ _).
    assert (Rabs (q * (x + y)) <= u32 * ((c + (e1 + e2) * u32) * s)) by (rewrite Rabs_mult; apply Rmult_le_compat; try apply Rabs_pos; assumption).
    apply Rle_trans with ((c + (e1 + e2) * u32 + (e1 + e2)) * u32 * s).
    + replace ((c + (e1 + e2) * u32 + (e1 + e2)) * u32 * s) with (u32 * ((c + (e1 + e2) * u32) * s) + (e1 + e2) * u32 * s) by ring. lra.
    + apply Rmult_le_compat_r; [lra|]. apply Rmult_le_compat_r; lra.
  - apply Rle_trans with (1 := P). apply Rmult_le_compat_r; lra.
Qed.
Lemma app_add e1 b1 x a e2 b2 y b s e c : app e1 b1 s x a -> app e2 b2 s y b -> 0 <= s <= bpow radix2 100 ->
  Rabs (a + b) <= c * s -> 0 <= e1 <= 64 -> 0 <= e2 <= 64 -> 0 <= c <= 8 -> e1 + e2 + c + 1 / 50 <= e -> app e c s (fadd x y) (a + b).
Proof.
  intros (Fx & Ax & Bx) (Fy & Ay & By) S C E1 E2 Cb He.
  destruct (sum_core _ _ _ _ _ _ _ _ e c Ax Ay C (proj1 S) (rnd_error_add x y) E1 E2 Cb He) as (D & P).
  assert (Q : Rabs (val x + val y) <= bpow radix2 120) by (apply Rle_trans with (1 := P); apply Rle_trans with (2 := room s (proj2 S)); apply Rmult_le_compat_r; lra).
  destruct (add_ok x y Fx Fy (below_big _ Q)) as (FM & VM). split; [exact FM|]. rewrite VM. split; assumption.
Qed.
Lemma app_sub e1 b1 x a e2 b2 y b s e c : app e1 b1 s x a -> app e2 b2 s y b -> 0 <= s <= bpow radix2 100 ->
  Rabs (a - b) <= c * s -> 0 <= e1 <= 64 -> 0 <= e2 <= 64 -> 0 <= c <= 8 -> e1 + e2 + c + 1 / 50 <= e -> app e c s (fsub x y) (a - b).
Proof.
  intros (Fx & Ax & Bx) AY S C E1 E2 Cb He. pose proof (app_neg _ _ _ _ _ AY) as (Fy' & Ay & By). destruct AY as (Fy & _ & _). rewrite val_neg in Ay.
  assert (C' : Rabs (a + - b) <= c * s) by exact C.
  assert (R0 : exists q, Rabs q <= u32 /\ rnd (val x - val y) = (val x + - val y) * (1 + q)) by exact (rnd_error_sub x y).
  destruct (sum_core _ _ _ _ _ _ _ _ e c Ax Ay C' (proj1 S) R0 E1 E2 Cb He) as (D & P).
  assert (Q : Rabs (val x - val y) <= bpow radix2 120) by (apply Rle_trans with (1 := P); apply Rle_trans with (2 := room s (proj2 S)); apply Rmult_le_compat_r; lra).
  destruct (sub_ok x y Fx Fy (below_big _ Q)) as (FM & VM). split; [exact FM|]. rewrite VM. split; assumption.
Qed.

(** ** The rotation *)
Definition rquat (q : quat b32) : R * R * R * R := (val (qx q), val (qy q), val (qz q), val (qw q)).
Definition finq (q : quat b32) : Prop := fin (qx q) /\ fin (qy q) /\ fin (qz q) /\ fin (qw q).
Definition sizeq (q : quat b32) : R := val (qx q) * val (qx q) + val (qy q) * val (qy q) + val (qz q) * val (qz q) + val (qw q) * val (qw q).
Definition rqv (q : quat b32) (p : pt3) : pt3 := rq (val (qx q)) (val (qy q)) (val (qz q)) (val (qw q)) p.

Lemma sq_abs a k : 0 <= k -> a * a <= k * k -> Rabs a <= k.
Proof. intros K H. apply Rsqr_le_abs_0 in H. rewrite (Rabs_pos_eq k K) in H. exact H. Qed.
Lemma two_ok : fin (f2 : b32) /\ val f2 = 2.
Proof. split; [reflexivity|]. unfold f2. cbn. unfold F2R; cbn. lra. Qed.
Section Rot.
Variables (q : quat b32) (v : vec3 b32) (s : R).
Hypotheses (Fq : finq q) (Fv : fin3 v) (N : sizeq q <= 101 / 100) (S : bpow radix2 (-60) <= s <= bpow radix2 100) (L : norm3 (rval3 v) <= s).
Let x := val (qx q). Let y := val (qy q). Let z := val (qz q). Let w := val (qw q).
Let p := val (wx v). Let m := val (wy v). Let n := val (wz v).
Lemma n2 : x * x + y * y + z * z + w * w <= 101 / 100. Proof. exact N. Qed.
Lemma v2b : p * p + m * m + n * n <= s * s.
Proof.
  pose proof (proj1 (norm3_le_sq (rval3 v) s (ltac:(pose proof (bpow_gt_0 radix2 (-60)); lra))) L) as H. exact H.
Qed.
Lemma s_pos : 0 < s. Proof. pose proof (bpow_gt_0 radix2 (-60)). lra. Qed.
Lemma comp1 a : a * a <= 101 / 100 -> Rabs a <= 101 / 100 * 1.
Proof. intro H. apply sq_abs; lra. Qed.
Lemma appq a : fin a -> val a * val a <= 101 / 100 -> app 0 (101 / 100) 1 a (val a).
Proof. intros F H. apply app_exact; [exact F | apply comp1, H]. Qed.
Lemma appv a : fin a -> val a * val a <= s * s -> app 0 1 s a (val a).
Proof. intros F H. apply app_exact; [exact F|]. rewrite Rmult_1_l. apply sq_abs; [pose proof s_pos; lra | exact H]. Qed.
Lemma one_ok : bpow radix2 (-60) <= 1 <= bpow radix2 100.
Proof. split; [apply Rle_trans with (bpow radix2 0); [apply bpow_le; lia | cbn; lra] | apply Rle_trans with (bpow radix2 0); [cbn; lra | apply bpow_le; lia]]. Qed.
Lemma qx_ok : app 0 (101 / 100) 1 (qx q) x. Proof. apply appq; [apply Fq|]. pose proof n2. fold x. nra. Qed.
Lemma qy_ok : app 0 (101 / 100) 1 (qy q) y. Proof. apply appq; [apply Fq|]. pose proof n2. fold y. nra. Qed.
Lemma qz_ok : app 0 (101 / 100) 1 (qz q) z. Proof. apply appq; [apply Fq|]. pose proof n2. fold z. nra. Qed.
Lemma qw_ok : app 0 (101 / 100) 1 (qw q) w. Proof. apply appq; [apply Fq|]. pose proof n2. fold w. nra. Qed.
Lemma vx_ok : app 0 1 s (wx v) p. Proof. apply appv; [apply Fv|]. pose proof v2b. fold p. nra. Qed.
Lemma vy_ok : app 0 1 s (wy v) m. Proof. apply appv; [apply Fv|]. pose proof v2b. fold m. nra. Qed.
Lemma vz_ok : app 0 1 s (wz v) n. Proof. apply appv; [apply Fv|]. pose proof v2b. fold n. nra. Qed.
Lemma sq1 a r : app 0 (101 / 100) 1 a r -> app (105 / 100) (103 / 100) 1 (fmul a a) (r * r).
Proof. intro H. eapply (app_mul _ _ _ _ _ _ _ _ _ _ 1); [exact H | exact H | ring | lra | lra | lra | lra | lra | lra | exact one_ok | lra | lra]. Qed.
Let cw := fsub (fmul (qw q) (qw q)) (fadd (fadd (fmul (qx q) (qx q)) (fmul (qy q) (qy q))) (fmul (qz q) (qz q))).
Lemma one_c : 0 <= 1 <= bpow radix2 100. Proof. pose proof one_ok; lra. Qed.
Lemma abs_bd a c : - c <= a <= c -> Rabs a <= c. Proof. apply Rabs_le. Qed.
Lemma cw_ok : app (729 / 100) (101 / 100) 1 cw (w * w - (x * x + y * y + z * z)).
Proof.
  pose proof n2. pose proof (Rle_0_sqr x). pose proof (Rle_0_sqr y). pose proof (Rle_0_sqr z). pose proof (Rle_0_sqr w). unfold Rsqr in * .
  assert (A1 : app (313 / 100) (101 / 100) 1 (fadd (fmul (qx q) (qx q)) (fmul (qy q) (qy q))) (x * x + y * y)).
  { eapply app_add; [apply sq1, qx_ok | apply sq1, qy_ok | exact one_c | apply abs_bd; lra | lra | lra | lra | lra]. }
  assert (A2 : app (521 / 100) (101 / 100) 1 (fadd (fadd (fmul (qx q) (qx q)) (fmul (qy q) (qy q))) (fmul (qz q) (qz q))) (x * x + y * y + z * z)).
  { eapply app_add; [exact A1 | apply sq1, qz_ok | exact one_c | apply abs_bd; lra | lra | lra | lra | lra]. }
  eapply app_weak; [| | |eapply app_sub; [apply sq1, qw_ok | exact A2 | exact one_c | apply (abs_bd _ (101 / 100 * 1)); lra | lra | lra | lra | apply Rle_refl]]; lra.
Qed.
Lemma cs_bound a b c d e f : a * a + b * b + c * c <= s * s -> d * d + e * e + f * f <= 101 / 100 -> Rabs (a * d + b * e + c * f) <= 101 / 100 * s.
Proof.
  intros H K. pose proof s_pos. apply sq_abs; [lra|].
  assert (C : (a * d + b * e + c * f) * (a * d + b * e + c * f) <= (a * a + b * b + c * c) * (d * d + e * e + f * f)).
  { pose proof (Rle_0_sqr (a * e - b * d)). pose proof (Rle_0_sqr (a * f - c * d)). pose proof (Rle_0_sqr (b * f - c * e)). unfold Rsqr in * . nra. }
  apply Rle_trans with (1 := C). pose proof (Rle_0_sqr a). pose proof (Rle_0_sqr b). pose proof (Rle_0_sqr c). pose proof (Rle_0_sqr d). pose proof (Rle_0_sqr e). pose proof (Rle_0_sqr f). unfold Rsqr in * .
  apply Rle_trans with (s * s * (101 / 100)); [apply Rmult_le_compat; lra|]. pose proof (Rmult_lt_0_compat s s H0 H0). lra.
Qed.
Lemma s_c : 0 <= s <= bpow radix2 100. Proof. pose proof s_pos. lra. Qed.
(** a component of v times a component of the quaternion *)
Lemma vq a r b t : app 0 1 s a r -> app 0 (101 / 100) 1 b t -> app (103 / 100) (101 / 100) s (fmul a b) (r * t).
Proof. intros H K. pose proof s_pos. eapply (app_mul _ _ _ _ _ _ _ _ _ _ s); [exact H | exact K | ring | lra | lra | lra | lra | lra | lra | exact S | lra | lra]. Qed.
Lemma qv a r b t : app 0 1 s a r -> app 0 (101 / 100) 1 b t -> app (103 / 100) (101 / 100) s (fmul b a) (t * r).
Proof. intros H K. pose proof s_pos. eapply (app_mul _ _ _ _ _ _ _ _ _ _ s); [exact K | exact H | ring | lra | lra | lra | lra | lra | lra | exact S | lra | lra]. Qed.
Lemma two_app : app 0 2 1 (f2 : b32) 2.
Proof. destruct two_ok as (F & V). rewrite <- V. apply app_exact; [exact F|]. rewrite V, Rabs_pos_eq; lra. Qed.
Lemma part_q a b c : a * a + b * b + c * c + w * w <= 101 / 100 -> a * a + b * b + c * c <= 101 / 100.
Proof. pose proof (Rle_0_sqr w). unfold Rsqr in * . lra. Qed.
Let dd := fmul (fadd (fadd (fmul (wx v) (qx q)) (fmul (wy v) (qy q))) (fmul (wz v) (qz q))) f2.
Lemma dd_ok : app (1234 / 100) (202 / 100) s dd ((p * x + m * y + n * z) * 2).
Proof.
  pose proof n2. pose proof v2b. pose proof s_pos. pose proof (Rle_0_sqr x). pose proof (Rle_0_sqr y). pose proof (Rle_0_sqr z). pose proof (Rle_0_sqr w). pose proof (Rle_0_sqr n). unfold Rsqr in * .
  assert (A1 : app (309 / 100) (101 / 100) s (fadd (fmul (wx v) (qx q)) (fmul (wy v) (qy q))) (p * x + m * y)).
  { eapply app_add; [apply vq; [exact vx_ok | exact qx_ok] | apply vq; [exact vy_ok | exact qy_ok] | exact s_c | | lra | lra | lra | lra].
    replace (p * x + m * y) with (p * x + m * y + 0 * 0) by ring. apply cs_bound; lra. }
  assert (A2 : app (515 / 100) (101 / 100) s (fadd (fadd (fmul (wx v) (qx q)) (fmul (wy v) (qy q))) (fmul (wz v) (qz q))) (p * x + m * y + n * z)).
  { eapply app_add; [exact A1 | apply vq; [exact vz_ok | exact qz_ok] | exact s_c | apply cs_bound; lra | lra | lra | lra | lra]. }
  eapply (app_mul _ _ _ _ _ _ _ _ _ _ s); [exact A2 | exact two_app | ring | lra | lra | lra | lra | lra | lra | exact S | lra | lra].
Qed.
Lemma ww_ok : app (205 / 100) (203 / 100) 1 (fmul (qw q) f2) (w * 2).
Proof. eapply (app_mul _ _ _ _ _ _ _ _ _ _ 1); [exact qw_ok | exact two_app | ring | lra | lra | lra | lra | lra | lra | exact one_ok | lra | lra]. Qed.
(** one component: b_i, v_i, and a component b_j v_k - b_k v_j of the cross product *)
Lemma comp_ok a r b t c d e f cv dv ev fv X : app 0 1 s a r -> app 0 (101 / 100) 1 b t ->
  app 0 (101 / 100) 1 c cv -> app 0 1 s d dv -> app 0 1 s e ev -> app 0 (101 / 100) 1 f fv ->
  dv * dv + ev * ev <= s * s -> cv * cv + fv * fv <= 101 / 100 ->
  X = r * (w * w - (x * x + y * y + z * z)) + t * ((p * x + m * y + n * z) * 2) + (cv * dv - ev * fv) * (w * 2) -> Rabs X <= 101 / 100 * s ->
  app 40 (101 / 100) s (fadd (fadd (fmul a cw) (fmul b dd)) (fmul (fsub (fmul c d) (fmul e f)) (fmul (qw q) f2))) X.
Proof.
  intros A B C D E F0 V Q -> XB. pose proof s_pos as SP.
  assert (T1 : app (835 / 100) (101 / 100) s (fmul a cw) (r * (w * w - (x * x + y * y + z * z)))).
  { eapply (app_mul _ _ _ _ _ _ _ _ _ _ s); [exact A | exact cw_ok | ring | lra | lra | lra | lra | lra | lra | exact S | lra | lra]. }
  assert (T2 : app (1455 / 100) (205 / 100) s (fmul b dd) (t * ((p * x + m * y + n * z) * 2))).
  { eapply (app_mul _ _ _ _ _ _ _ _ _ _ s); [exact B | exact dd_ok | ring | lra | lra | lra | lra | lra | lra | exact S | lra | lra]. }
  assert (T3 : app (309 / 100) (101 / 100) s (fsub (fmul c d) (fmul e f)) (cv * dv - ev * fv)).
  { eapply app_sub; [apply qv; [exact D | exact C] | apply vq; [exact E | exact F0] | exact s_c | | lra | lra | lra | lra].
    replace (cv * dv - ev * fv) with (dv * cv + ev * (- fv) + 0 * 0) by ring. apply cs_bound; lra. }
  assert (T4 : app (1046 / 100) (206 / 100) s (fmul (fsub (fmul c d) (fmul e f)) (fmul (qw q) f2)) ((cv * dv - ev * fv) * (w * 2))).
  { eapply (app_mul _ _ _ _ _ _ _ _ _ _ s); [exact T3 | exact ww_ok | ring | lra | lra | lra | lra | lra | lra | exact S | lra | lra]. }
  assert (T5 : app (26) (306 / 100) s (fadd (fmul a cw) (fmul b dd)) (r * (w * w - (x * x + y * y + z * z)) + t * ((p * x + m * y + n * z) * 2))).
  { eapply app_add; [exact T1 | exact T2 | exact s_c | | lra | lra | lra | lra]. apply Rle_trans with (1 := Rabs_triang _ _).
    destruct T1 as (_ & _ & T1). destruct T2 as (_ & _ & T2). lra. }
  eapply app_add; [exact T5 | exact T4 | exact s_c | exact XB | lra | lra | lra | lra].
Qed.
Lemma rq_size : norm3 (rqv q (rval3 v)) = sizeq q * norm3 (rval3 v).
Proof.
  apply norm3_eq.
  - apply Rmult_le_pos; [|apply norm3_nonneg]. unfold sizeq. pose proof (Rle_0_sqr x). pose proof (Rle_0_sqr y). pose proof (Rle_0_sqr z). pose proof (Rle_0_sqr w). unfold Rsqr in * . fold x y z w. lra.
  - replace (sizeq q * norm3 (rval3 v) * (sizeq q * norm3 (rval3 v))) with (sizeq q * sizeq q * (norm3 (rval3 v) * norm3 (rval3 v))) by ring. rewrite norm3_sq. unfold rqv, sizeq. v3. ring.
Qed.
Lemma rq_bound : norm3 (rqv q (rval3 v)) <= 101 / 100 * s.
Proof.
  rewrite rq_size. pose proof s_pos. pose proof (norm3_nonneg (rval3 v)). apply Rmult_le_compat; try lra.
  unfold sizeq. pose proof (Rle_0_sqr x). pose proof (Rle_0_sqr y). pose proof (Rle_0_sqr z). pose proof (Rle_0_sqr w). unfold Rsqr in * . fold x y z w. lra.
Qed.
Lemma qrot32 : fin3 (qrot q v) /\ norm3 (sub3 (rval3 (qrot q v)) (rqv q (rval3 v))) <= 72 * u32 * s.
Proof.
  pose proof n2. pose proof v2b. pose proof s_pos as SP. pose proof (Rle_0_sqr x). pose proof (Rle_0_sqr y). pose proof (Rle_0_sqr z). pose proof (Rle_0_sqr w).
  pose proof (Rle_0_sqr p). pose proof (Rle_0_sqr m). pose proof (Rle_0_sqr n). unfold Rsqr in * .
  destruct (coord_le_norm3 (rqv q (rval3 v))) as (Bx & By & Bz). pose proof rq_bound as RB.
  assert (X : app 40 (101 / 100) s (wx (qrot q v)) (x3 (rqv q (rval3 v)))).
  { apply (comp_ok (wx v) p (qx q) x (qy q) (wz v) (wy v) (qz q) y n m z); [exact vx_ok | exact qx_ok | exact qy_ok | exact vz_ok | exact vy_ok | exact qz_ok | lra | lra | | lra].
    unfold rqv, rval3; v3. fold x y z w p m n. ring. }
  assert (Y : app 40 (101 / 100) s (wy (qrot q v)) (y3 (rqv q (rval3 v)))).
  { apply (comp_ok (wy v) m (qy q) y (qz q) (wx v) (wz v) (qx q) z p n x); [exact vy_ok | exact qy_ok | exact qz_ok | exact vx_ok | exact vz_ok | exact qx_ok | lra | lra | | lra].
    unfold rqv, rval3; v3. fold x y z w p m n. ring. }
  assert (Z : app 40 (101 / 100) s (wz (qrot q v)) (z3 (rqv q (rval3 v)))).
  { apply (comp_ok (wz v) n (qz q) z (qx q) (wy v) (wx v) (qy q) x m p y); [exact vz_ok | exact qz_ok | exact qx_ok | exact vy_ok | exact vx_ok | exact qy_ok | lra | lra | | lra].
    unfold rqv, rval3; v3. fold x y z w p m n. ring. }
  destruct X as (X1 & X2 & _). destruct Y as (Y1 & Y2 & _). destruct Z as (Z1 & Z2 & _).
  split; [repeat split; assumption|]. pose proof u32_pos. assert (K : 0 <= u32 * s) by (apply Rmult_le_pos; lra).
  apply norm3_le_sq; [rewrite Rmult_assoc; lra|].
  assert (Q : forall a, Rabs a <= 40 * u32 * s -> a * a <= 1600 * (u32 * s * (u32 * s))).
  { intros a A. replace (a * a) with (Rabs a * Rabs a) by (rewrite <- Rabs_mult; apply Rabs_pos_eq; pose proof (Rle_0_sqr a); unfold Rsqr in * ; lra).
    replace (1600 * (u32 * s * (u32 * s))) with ((40 * u32 * s) * (40 * u32 * s)) by ring. apply Rmult_le_compat; try apply Rabs_pos; assumption. }
  pose proof (Q _ X2). pose proof (Q _ Y2). pose proof (Q _ Z2).
  apply Rle_trans with (4800 * (u32 * s * (u32 * s))).
  - unfold dot3. change (x3 (sub3 (rval3 (qrot q v)) (rqv q (rval3 v)))) with (val (wx (qrot q v)) - x3 (rqv q (rval3 v))).
    change (y3 (sub3 (rval3 (qrot q v)) (rqv q (rval3 v)))) with (val (wy (qrot q v)) - y3 (rqv q (rval3 v))).
    change (z3 (sub3 (rval3 (qrot q v)) (rqv q (rval3 v)))) with (val (wz (qrot q v)) - z3 (rqv q (rval3 v))). lra.
  - pose proof (Rmult_le_pos _ _ K K). replace (72 * u32 * s * (72 * u32 * s)) with (5184 * (u32 * s * (u32 * s))) by ring. lra.
Qed.
End Rot.

(** ** From components to vectors *)
Lemma sum_le_norm q : Rabs (x3 q) + Rabs (y3 q) + Rabs (z3 q) <= 2 * norm3 q.
Proof.
  pose proof (norm3_nonneg q). pose proof (norm3_sq q) as Q. set (a := Rabs (x3 q)) in * . set (b := Rabs (y3 q)) in * . set (c := Rabs (z3 q)) in * .
  assert (E : dot3 q q = a * a + b * b + c * c) by (unfold dot3, a, b, c; rewrite <- !Rabs_mult, !Rabs_pos_eq; [reflexivity | apply Rle_0_sqr | apply Rle_0_sqr | apply Rle_0_sqr]).
  assert (0 <= a) by apply Rabs_pos. assert (0 <= b) by apply Rabs_pos. assert (0 <= c) by apply Rabs_pos. rewrite E in Q. clearbody a b c.
  apply Rsqr_incr_0; [|lra|lra]. unfold Rsqr. replace (2 * norm3 q * (2 * norm3 q)) with (4 * (norm3 q * norm3 q)) by ring. rewrite Q.
  pose proof (Rle_0_sqr (a - b)). pose proof (Rle_0_sqr (a - c)). pose proof (Rle_0_sqr (b - c)). unfold Rsqr in * . nra.
Qed.
Lemma comp_norm (d q : pt3) c t : 0 <= c -> 0 <= t -> Rabs (x3 d) <= c * Rabs (x3 q) + t -> Rabs (y3 d) <= c * Rabs (y3 q) + t -> Rabs (z3 d) <= c * Rabs (z3 q) + t ->
  norm3 d <= c * norm3 q + 2 * t.
Proof.
  intros C T X Y Z. pose proof (norm3_nonneg q) as NP. apply norm3_le_sq; [pose proof (Rmult_le_pos _ _ C NP); lra|].
  pose proof (sum_le_norm q) as SL. pose proof (norm3_sq q) as Q.
  assert (E : dot3 q q = Rabs (x3 q) * Rabs (x3 q) + Rabs (y3 q) * Rabs (y3 q) + Rabs (z3 q) * Rabs (z3 q)) by (unfold dot3; rewrite <- !Rabs_mult, !Rabs_pos_eq; [reflexivity | apply Rle_0_sqr | apply Rle_0_sqr | apply Rle_0_sqr]).
  assert (S : forall a k, Rabs a <= k -> a * a <= k * k).
  { intros a k H. replace (a * a) with (Rabs a * Rabs a) by (rewrite <- Rabs_mult; apply Rabs_pos_eq, Rle_0_sqr). apply Rmult_le_compat; try apply Rabs_pos; assumption. }
  pose proof (S _ _ X) as X2. pose proof (S _ _ Y) as Y2. pose proof (S _ _ Z) as Z2. clear S X Y Z.
  replace ((c * norm3 q + 2 * t) * (c * norm3 q + 2 * t)) with (c * c * (norm3 q * norm3 q) + 4 * (c * t) * norm3 q + 4 * (t * t)) by ring. rewrite Q, E. unfold dot3.
  pose proof (Rmult_le_compat_l (c * t) _ _ (Rmult_le_pos _ _ C T) SL) as M. pose proof (Rmult_le_pos _ _ T T).
  set (a := Rabs (x3 q)) in * . set (b := Rabs (y3 q)) in * . set (e := Rabs (z3 q)) in * . clearbody a b e.
  replace ((c * a + t) * (c * a + t)) with (c * c * (a * a) + 2 * (c * t * a) + t * t) in X2 by ring.
  replace ((c * b + t) * (c * b + t)) with (c * c * (b * b) + 2 * (c * t * b) + t * t) in Y2 by ring.
  replace ((c * e + t) * (c * e + t)) with (c * c * (e * e) + 2 * (c * t * e) + t * t) in Z2 by ring. lra.
Qed.
Lemma norm3_split a b c : norm3 (sub3 a c) <= norm3 (sub3 a b) + norm3 (sub3 b c).
Proof. replace (sub3 a c) with (add3 (sub3 a b) (sub3 b c)) by (apply pt3_eq; v3; ring). apply norm3_triangle. Qed.

(** ** The position of b as seen from a *)
Definition turn (q : quat b32) (p : pt3) : pt3 := scale3 (/ sizeq q) (rqv q p).
Lemma turn_norm q p : 0 < sizeq q -> norm3 (turn q p) = norm3 p.
Proof.
  intro N. apply norm3_eq; [apply norm3_nonneg|]. rewrite norm3_sq. unfold turn. transitivity (/ sizeq q * / sizeq q * (sizeq q * sizeq q) * dot3 p p); [unfold rqv, sizeq; v3; ring | field; lra].
Qed.
Lemma sizeq_inv q : sizeq (qinv q) = sizeq q.
Proof. unfold sizeq, qinv; cbn [qx qy qz qw]. rewrite !val_neg. ring. Qed.
Lemma finq_inv q : finq q -> finq (qinv q).
Proof. intros (A & B & C & D). unfold finq, qinv; cbn [qx qy qz qw]. rewrite !fin_neg. auto. Qed.
Lemma turn_inv q p : 0 < sizeq q -> turn (qinv q) (turn q p) = p.
Proof.
  intro N. unfold turn. rewrite sizeq_inv. unfold rqv, qinv; cbn [qx qy qz qw]. rewrite !val_neg. rewrite rq_scale.
  transitivity (scale3 (/ sizeq q * / sizeq q * (sizeq q * sizeq q)) p).
  - unfold sizeq. apply pt3_eq; v3; ring.
  - replace (/ sizeq q * / sizeq q * (sizeq q * sizeq q)) with 1 by (field; lra). apply pt3_eq; v3; ring.
Qed.
Lemma turn_add q a b : turn q (add3 a b) = add3 (turn q a) (turn q b).
Proof. unfold turn, rqv. rewrite rq_add. apply pt3_eq; v3; ring. Qed.
Lemma turn_scale q k a : turn q (scale3 k a) = scale3 k (turn q a).
Proof. unfold turn, rqv. rewrite rq_scale. apply pt3_eq; v3; ring. Qed.
Lemma rqv_sub q a b : rqv q (sub3 a b) = sub3 (rqv q a) (rqv q b).
Proof. unfold rqv. apply pt3_eq; v3; ring. Qed.
Lemma rqv_norm q p : norm3 (rqv q p) = sizeq q * norm3 p.
Proof.
  apply norm3_eq.
  - apply Rmult_le_pos; [|apply norm3_nonneg]. unfold sizeq. pose proof (Rle_0_sqr (val (qx q))). pose proof (Rle_0_sqr (val (qy q))). pose proof (Rle_0_sqr (val (qz q))). pose proof (Rle_0_sqr (val (qw q))). unfold Rsqr in * . lra.
  - replace (sizeq q * norm3 p * (sizeq q * norm3 p)) with (sizeq q * sizeq q * (norm3 p * norm3 p)) by ring. rewrite norm3_sq. unfold rqv, sizeq. v3. ring.
Qed.
(** a quaternion that is not quite of unit length also stretches *)
Lemma turn_near q p : 0 < sizeq q -> norm3 (sub3 (rqv q p) (turn q p)) <= Rabs (sizeq q - 1) * norm3 p.
Proof.
  intro N. unfold turn. replace (sub3 (rqv q p) (scale3 (/ sizeq q) (rqv q p))) with (scale3 (1 - / sizeq q) (rqv q p)) by (apply pt3_eq; unfold sub3, scale3, x3, y3, z3; cbn [fst snd]; ring).
  rewrite norm3_scale, rqv_norm. right. replace (1 - / sizeq q) with ((sizeq q - 1) * / sizeq q) by (field; lra). rewrite Rabs_mult, (Rabs_pos_eq (/ sizeq q)) by (left; apply Rinv_0_lt_compat, N). field. lra.
Qed.
Definition seen_pos (q : quat b32) (k : b32) (pa pb : vec3 b32) : vec3 b32 := v3add (qrot (qinv q) (v3smul (fdiv f1 k) pb)) (v3divs (qrot (qinv q) (v3sub v3zero pa)) k).
Lemma one_val : fin (f1 : b32) /\ val f1 = 1.
Proof. split; [reflexivity|]. unfold f1. cbn. unfold F2R; cbn. lra. Qed.
Section Rel.
Variables (q : quat b32) (k : b32) (pa pb : vec3 b32).
Hypotheses (Fq : finq q) (N : Rabs (sizeq q - 1) <= 1 / 100) (Fk : fin k) (K : bpow radix2 (-20) <= val k <= bpow radix2 20)
  (Fa : fin3 pa) (Fb : fin3 pb) (La : norm3 (rval3 pa) <= bpow radix2 30) (Lb : norm3 (rval3 pb) <= bpow radix2 30).
Let dl := Rabs (sizeq q - 1).
Let f := bpow radix2 (-31).
Let sa := (norm3 (rval3 pa) + f) / val k.
Let sb := (norm3 (rval3 pb) + f) / val k.
Lemma k_pos : 0 < val k. Proof. pose proof (bpow_gt_0 radix2 (-20)). lra. Qed.
Lemma f_pos : 0 < f. Proof. apply bpow_gt_0. Qed.
Lemma inv_k : bpow radix2 (-20) <= / val k <= bpow radix2 20.
Proof.
  pose proof k_pos. split.
  - change (-20)%Z with (- (20))%Z. rewrite bpow_opp. apply Rinv_le; [exact H | apply K].
  - replace (bpow radix2 20) with (/ bpow radix2 (-20)) by (rewrite <- bpow_opp; reflexivity). apply Rinv_le; [apply bpow_gt_0 | apply K].
Qed.
Lemma scale_ok a : 0 <= a <= bpow radix2 30 -> bpow radix2 (-60) <= (a + f) / val k <= bpow radix2 60.
Proof.
  intro A. pose proof inv_k as I. pose proof f_pos as FP. pose proof (bpow_gt_0 radix2 (-20)). unfold Rdiv. split.
  - apply Rle_trans with (bpow radix2 (-31) * bpow radix2 (-20)); [rewrite <- bpow_plus; apply bpow_le; lia|]. fold f. apply Rmult_le_compat; lra.
  - apply Rle_trans with (bpow radix2 31 * bpow radix2 20); [|rewrite <- bpow_plus; apply bpow_le; lia].
    assert (f <= bpow radix2 30) by (apply bpow_le; lia). assert (bpow radix2 31 = 2 * bpow radix2 30) by (change 31%Z with (1 + 30)%Z; rewrite bpow_plus; reflexivity).
    apply Rmult_le_compat; lra.
Qed.
Lemma sa_ok : bpow radix2 (-60) <= sa <= bpow radix2 60. Proof. apply scale_ok. split; [apply norm3_nonneg | exact La]. Qed.
Lemma sb_ok : bpow radix2 (-60) <= sb <= bpow radix2 60. Proof. apply scale_ok. split; [apply norm3_nonneg | exact Lb]. Qed.
Lemma to100 s : bpow radix2 (-60) <= s <= bpow radix2 60 -> bpow radix2 (-60) <= s <= bpow radix2 100.
Proof. intros (A & B). split; [exact A|]. apply Rle_trans with (1 := B). apply bpow_le; lia. Qed.
Lemma recip_ok : app (102 / 100) 1 (/ val k) (fdiv f1 k) (/ val k).
Proof.
  pose proof k_pos as KP. pose proof inv_k as I. pose proof (bpow_gt_0 radix2 (-20)). destruct one_val as (F1 & V1).
  assert (B : Rabs (rnd (val f1 / val k)) < big).
  { rewrite V1. unfold Rdiv; rewrite Rmult_1_l. apply below_big. rewrite Rabs_pos_eq by lra. apply Rle_trans with (1 := proj2 I). apply bpow_le; lia. }
  destruct (div_ok f1 k F1 ltac:(lra) B) as (FD & VD). split; [exact FD|]. rewrite VD, V1. unfold Rdiv; rewrite Rmult_1_l. split.
  - pose proof (rnd_near (/ val k)) as R0. rewrite (Rabs_pos_eq (/ val k)) in R0 by lra.
    assert (T : tiny <= u32 / 100 * / val k) by (apply bpow_small_u; apply Rle_trans with (2 := proj1 I); apply bpow_le; lia).
    pose proof u32_pos. apply Rle_trans with (1 := R0). replace (102 / 100 * u32 * / val k) with (u32 * / val k + u32 / 100 * / val k + u32 / 100 * / val k) by (field; lra).
    assert (0 <= u32 / 100 * / val k) by (apply Rmult_le_pos; lra). lra.
  - rewrite Rabs_pos_eq; lra.
Qed.
Lemma scaled_comp a : fin a -> Rabs (val a) <= norm3 (rval3 pb) -> fin (fmul (fdiv f1 k) a) /\ Rabs (val (fmul (fdiv f1 k) a) - / val k * val a) <= 206 / 100 * u32 * sb.
Proof.
  intros F A. pose proof k_pos. pose proof (norm3_nonneg (rval3 pb)). pose proof f_pos. pose proof inv_k. pose proof (bpow_gt_0 radix2 (-20)).
  assert (H' : app (206 / 100) 1 sb (fmul (fdiv f1 k) a) (/ val k * val a)).
  { eapply (app_mul _ _ _ _ _ 0 1 (norm3 (rval3 pb) + f)); [exact recip_ok | apply app_exact; [exact F | lra] | unfold sb, Rdiv; ring | lra | lra | lra | lra | lra | lra | apply to100, sb_ok | lra | lra]. }
  destruct H' as (A1 & A2 & _). split; assumption.
Qed.
Let v1 := v3smul (fdiv f1 k) pb.
Let c1 := scale3 (/ val k) (rval3 pb).
Lemma v1_ok : fin3 v1 /\ norm3 (sub3 (rval3 v1) c1) <= 413 / 100 * u32 * sb.
Proof.
  destruct (coord_le_norm3 (rval3 pb)) as (X & Y & Z). destruct Fb as (Fx & Fy & Fz).
  destruct (scaled_comp (wx pb) Fx X) as (X1 & X2). destruct (scaled_comp (wy pb) Fy Y) as (Y1 & Y2). destruct (scaled_comp (wz pb) Fz Z) as (Z1 & Z2).
  split; [repeat split; assumption|]. pose proof sb_ok. pose proof u32_pos. pose proof (bpow_gt_0 radix2 (-60)).
  assert (P : 0 <= 206 / 100 * u32 * sb) by (apply Rmult_le_pos; lra).
  pose proof (comp_norm (sub3 (rval3 v1) c1) (0, 0, 0) 0 (206 / 100 * u32 * sb) ltac:(lra) P) as C.
  apply Rle_trans with (0 * norm3 (0, 0, 0) + 2 * (206 / 100 * u32 * sb)); [|assert (0 <= u32 * sb) by (apply Rmult_le_pos; lra); lra].
  apply C; unfold x3, y3, z3, c1, v1, v3smul, rval3, sub3, scale3; cbn [fst snd wx wy wz]; unfold x3, y3, z3; cbn [fst snd]; rewrite Rmult_0_l, Rplus_0_l; assumption.
Qed.
Lemma size_ok : 99 / 100 <= sizeq q <= 101 / 100. Proof. apply abs_le2' in N. lra. Qed.
Lemma c1_norm : norm3 c1 = norm3 (rval3 pb) / val k.
Proof. unfold c1. rewrite norm3_scale, Rabs_pos_eq by (left; apply Rinv_0_lt_compat, k_pos). unfold Rdiv. ring. Qed.
Lemma dl_pos : 0 <= dl. Proof. apply Rabs_pos. Qed.
Lemma part1 : fin3 (qrot (qinv q) v1) /\ norm3 (sub3 (rval3 (qrot (qinv q) v1)) (turn (qinv q) c1)) <= (77 * u32 + dl) * sb.
Proof.
  destruct v1_ok as (F1 & D1). pose proof sb_ok as SB. pose proof u32_pos as U. pose proof u32_small as US. pose proof (bpow_gt_0 radix2 (-60)). pose proof k_pos. pose proof f_pos. pose proof size_ok as Z.
  assert (C : norm3 c1 <= sb). { rewrite c1_norm. unfold sb, Rdiv. apply Rmult_le_compat_r; [left; apply Rinv_0_lt_compat; lra | lra]. }
  assert (US2 : 0 <= u32 * sb) by (apply Rmult_le_pos; lra).
  assert (US3 : u32 * sb <= 1 / 16777216 * sb) by (apply Rmult_le_compat_r; lra).
  assert (L1 : norm3 (rval3 v1) <= 1001 / 1000 * sb).
  { replace (rval3 v1) with (add3 (sub3 (rval3 v1) c1) c1) by (apply pt3_eq; unfold add3, sub3, x3, y3, z3; cbn [fst snd]; ring).
    apply Rle_trans with (1 := norm3_triangle _ _). lra. }
  assert (SC : bpow radix2 (-60) <= 1001 / 1000 * sb <= bpow radix2 100).
  { split; [lra|]. apply Rle_trans with (bpow radix2 61); [|apply bpow_le; lia]. change 61%Z with (1 + 60)%Z. rewrite bpow_plus. change (bpow radix2 1) with 2. lra. }
  destruct (qrot32 (qinv q) v1 (1001 / 1000 * sb) (finq_inv q Fq) F1 ltac:(rewrite sizeq_inv; lra) SC L1) as (F2 & D2).
  split; [exact F2|].
  apply Rle_trans with (1 := norm3_split _ (rqv (qinv q) (rval3 v1)) _). apply Rle_trans with (72 * u32 * (1001 / 1000 * sb) + norm3 (sub3 (rqv (qinv q) (rval3 v1)) (turn (qinv q) c1))); [lra|].
  pose proof (norm3_split (rqv (qinv q) (rval3 v1)) (rqv (qinv q) c1) (turn (qinv q) c1)) as S2. rewrite <- rqv_sub, rqv_norm, sizeq_inv in S2.
  pose proof (turn_near (qinv q) c1 ltac:(rewrite sizeq_inv; lra)) as S3. rewrite sizeq_inv in S3. fold dl in S3.
  assert (sizeq q * norm3 (sub3 (rval3 v1) c1) <= 101 / 100 * (413 / 100 * u32 * sb)) by (apply Rmult_le_compat; try lra; apply norm3_nonneg).
  assert (dl * norm3 c1 <= dl * sb) by (apply Rmult_le_compat_l; [apply dl_pos | exact C]).
  replace ((77 * u32 + dl) * sb) with (77 * (u32 * sb) + dl * sb) by ring. lra.
Qed.
Let v2 := v3sub v3zero pa.
Lemma zero_sub (a : b32) : fin a -> fin (fsub f0 a) /\ val (fsub f0 a) = - val a.
Proof.
  intro F. assert (E : rnd (val f0 - val a) = - val a). { change (val f0) with 0. replace (0 - val a) with (- val a) by ring. rewrite rnd_opp, rnd_exact. reflexivity. }
  assert (F0 : fin (f0 : b32)) by reflexivity. destruct (sub_ok f0 a F0 F) as (A & B); [rewrite E, Rabs_Ropp; apply val_big|]. rewrite B. split; [exact A | exact E].
Qed.
Lemma v2_ok : fin3 v2 /\ rval3 v2 = neg3 (rval3 pa).
Proof.
  destruct Fa as (Fx & Fy & Fz). destruct (zero_sub _ Fx) as (X1 & X2). destruct (zero_sub _ Fy) as (Y1 & Y2). destruct (zero_sub _ Fz) as (Z1 & Z2).
  split; [repeat split; assumption|]. unfold v2, v3sub, v3zero, rval3; cbn [wx wy wz]. rewrite X2, Y2, Z2. reflexivity.
Qed.
Lemma div_comp a : fin a -> Rabs (val a) <= bpow radix2 60 -> fin (fdiv a k) /\ Rabs (val (fdiv a k) - / val k * val a) <= u32 * Rabs (/ val k * val a) + tiny.
Proof.
  intros F A. pose proof k_pos. pose proof inv_k as I. pose proof (bpow_gt_0 radix2 (-20)). assert (B : Rabs (rnd (val a / val k)) < big).
  { apply below_big. unfold Rdiv. rewrite Rabs_mult, (Rabs_pos_eq (/ val k)) by lra. apply Rle_trans with (bpow radix2 60 * bpow radix2 20); [|rewrite <- bpow_plus; apply bpow_le; lia].
    apply Rmult_le_compat; try lra. apply Rabs_pos. }
  destruct (div_ok a k F ltac:(lra) B) as (F1 & V1). split; [exact F1|]. rewrite V1. replace (/ val k * val a) with (val a / val k) by (unfold Rdiv; ring). apply rnd_near.
Qed.
Let g := qrot (qinv q) v2.
Let c2 := scale3 (/ val k) (neg3 (rval3 pa)).
Lemma part2 : fin3 (v3divs g k) /\ norm3 (sub3 (rval3 (v3divs g k)) (turn (qinv q) c2)) <= (74 * u32 + dl) * sa.
Proof.
  destruct v2_ok as (F1 & E1). pose proof sa_ok as SA. pose proof u32_pos as U. pose proof u32_small as US. pose proof (bpow_gt_0 radix2 (-60)). pose proof k_pos as KP. pose proof f_pos. pose proof size_ok as Z. pose proof inv_k as I.
  pose proof (norm3_nonneg (rval3 pa)) as NP. set (t := norm3 (rval3 pa) + f) in * . assert (TS : sa = / val k * t) by (unfold sa, Rdiv; ring).
  assert (L1 : norm3 (rval3 v2) <= t) by (rewrite E1, norm3_neg; unfold t; lra).
  assert (TB : bpow radix2 (-60) <= t <= bpow radix2 31).
  { unfold t. split; [apply Rle_trans with f; [apply bpow_le; lia | lra]|]. assert (f <= bpow radix2 30) by (apply bpow_le; lia).
    assert (bpow radix2 31 = 2 * bpow radix2 30) by (change 31%Z with (1 + 30)%Z; rewrite bpow_plus; reflexivity). lra. }
  assert (TB' : bpow radix2 (-60) <= t <= bpow radix2 100) by (split; [lra|]; apply Rle_trans with (1 := proj2 TB); apply bpow_le; lia).
  destruct (qrot32 (qinv q) v2 t (finq_inv q Fq) F1 ltac:(rewrite sizeq_inv; lra) TB' L1) as (F2 & D2). fold g in F2, D2.
  assert (UT : u32 * t <= 1 / 16777216 * t) by (apply Rmult_le_compat_r; lra). assert (UT0 : 0 <= u32 * t) by (apply Rmult_le_pos; lra).
  assert (G : norm3 (rval3 g) <= 102 / 100 * t).
  { replace (rval3 g) with (add3 (sub3 (rval3 g) (rqv (qinv q) (rval3 v2))) (rqv (qinv q) (rval3 v2))) by (apply pt3_eq; unfold add3, sub3, x3, y3, z3; cbn [fst snd]; ring).
    apply Rle_trans with (1 := norm3_triangle _ _). rewrite rqv_norm, sizeq_inv.
    assert (sizeq q * norm3 (rval3 v2) <= 101 / 100 * t) by (apply Rmult_le_compat; try lra; apply norm3_nonneg). lra. }
  assert (G2 : norm3 (rval3 g) <= bpow radix2 60).
  { apply Rle_trans with (1 := G). apply Rle_trans with (bpow radix2 32); [|apply bpow_le; lia]. change 32%Z with (1 + 31)%Z. rewrite bpow_plus. change (bpow radix2 1) with 2. lra. }
  destruct (coord_le_norm3 (rval3 g)) as (X & Y & Z0). destruct F2 as (Fx & Fy & Fz).
  destruct (div_comp (wx g) Fx ltac:(apply Rle_trans with (1 := X); exact G2)) as (X1 & X2).
  destruct (div_comp (wy g) Fy ltac:(apply Rle_trans with (1 := Y); exact G2)) as (Y1 & Y2).
  destruct (div_comp (wz g) Fz ltac:(apply Rle_trans with (1 := Z0); exact G2)) as (Z1 & Z2).
  split; [repeat split; assumption|].
  assert (D3 : norm3 (sub3 (rval3 (v3divs g k)) (scale3 (/ val k) (rval3 g))) <= u32 * norm3 (scale3 (/ val k) (rval3 g)) + 2 * tiny).
  { apply comp_norm; [lra | apply Rlt_le, tiny_pos | exact X2 | exact Y2 | exact Z2]. }
  assert (IK : 0 < / val k) by (apply Rinv_0_lt_compat, KP).
  rewrite norm3_scale, Rabs_pos_eq in D3 by lra.
  assert (T2 : tiny <= u32 / 100 * sa) by (apply bpow_small_u; lra).
  assert (US1 : 0 <= u32 * sa) by (apply Rmult_le_pos; lra).
  assert (D3' : u32 * (/ val k * norm3 (rval3 g)) <= u32 * (102 / 100 * sa)).
  { apply Rmult_le_compat_l; [lra|]. rewrite TS. replace (102 / 100 * (/ val k * t)) with (/ val k * (102 / 100 * t)) by ring. apply Rmult_le_compat_l; lra. }
  apply Rle_trans with (1 := norm3_split _ (scale3 (/ val k) (rval3 g)) _).
  assert (D4 : norm3 (sub3 (scale3 (/ val k) (rval3 g)) (turn (qinv q) c2)) <= (72 * u32 + dl) * sa).
  { unfold c2. rewrite turn_scale, <- E1. replace (sub3 (scale3 (/ val k) (rval3 g)) (scale3 (/ val k) (turn (qinv q) (rval3 v2)))) with (scale3 (/ val k) (sub3 (rval3 g) (turn (qinv q) (rval3 v2)))) by (apply pt3_eq; unfold sub3, scale3, x3, y3, z3; cbn [fst snd]; ring).
    rewrite norm3_scale, Rabs_pos_eq by lra. rewrite TS. replace ((72 * u32 + dl) * (/ val k * t)) with (/ val k * ((72 * u32 + dl) * t)) by ring. apply Rmult_le_compat_l; [lra|].
    apply Rle_trans with (1 := norm3_split _ (rqv (qinv q) (rval3 v2)) _). pose proof (turn_near (qinv q) (rval3 v2) ltac:(rewrite sizeq_inv; lra)) as S3. rewrite sizeq_inv in S3. fold dl in S3.
    assert (dl * norm3 (rval3 v2) <= dl * t) by (apply Rmult_le_compat_l; [apply dl_pos | exact L1]). lra. }
  replace ((74 * u32 + dl) * sa) with (u32 * (102 / 100 * sa) + u32 * (98 / 100 * sa) + (72 * u32 + dl) * sa) by field. lra.
Qed.
Lemma sum_comp (a b : b32) : fin a -> fin b -> Rabs (val a) <= bpow radix2 100 -> Rabs (val b) <= bpow radix2 100 -> fin (fadd a b) /\ Rabs (val (fadd a b) - (val a + val b)) <= u32 * Rabs (val a + val b) + 0.
Proof.
  intros Ga Gb A B. destruct (add_ok a b Ga Gb) as (F1 & V1).
  { apply below_big. apply Rle_trans with (1 := Rabs_triang _ _). apply Rle_trans with (bpow radix2 101); [|apply bpow_le; lia]. change 101%Z with (1 + 100)%Z. rewrite bpow_plus. change (bpow radix2 1) with 2. lra. }
  split; [exact F1|]. rewrite V1. destruct (rnd_error_add a b) as (e & E & ->). replace ((val a + val b) * (1 + e) - (val a + val b)) with (e * (val a + val b)) by ring.
  rewrite Rabs_mult, Rplus_0_r. apply Rmult_le_compat_r; [apply Rabs_pos | exact E].
Qed.
Lemma seen_pos_ok c : add3 (turn q (scale3 (val k) c)) (rval3 pa) = rval3 pb ->
  fin3 (seen_pos q k pa pb) /\ norm3 (sub3 (rval3 (seen_pos q k pa pb)) c) <= (80 * u32 + dl) * (sa + sb).
Proof.
  intro E. destruct part1 as (F1 & D1). destruct part2 as (F2 & D2). pose proof size_ok as Z. pose proof k_pos as KP. pose proof sa_ok as SA. pose proof sb_ok as SB. pose proof u32_pos as U. pose proof u32_small as US.
  pose proof (bpow_gt_0 radix2 (-60)) as B60. pose proof f_pos. assert (IK : 0 < / val k) by (apply Rinv_0_lt_compat, KP).
  assert (C : c = add3 (turn (qinv q) c1) (turn (qinv q) c2)).
  { rewrite <- turn_add. unfold c1, c2. replace (add3 (scale3 (/ val k) (rval3 pb)) (scale3 (/ val k) (neg3 (rval3 pa)))) with (turn q c); [symmetry; apply turn_inv; lra|].
    rewrite <- E, turn_scale. set (a := turn q c). apply pt3_eq; unfold add3, scale3, neg3, x3, y3, z3; cbn [fst snd]; field; lra. }
  set (A := qrot (qinv q) v1) in * . set (B := v3divs g k) in * .
  assert (N1 : norm3 (turn (qinv q) c1) <= sb).
  { rewrite turn_norm by (rewrite sizeq_inv; lra). rewrite c1_norm. unfold sb, Rdiv. apply Rmult_le_compat_r; lra. }
  assert (N2 : norm3 (turn (qinv q) c2) <= sa).
  { rewrite turn_norm by (rewrite sizeq_inv; lra). unfold c2. rewrite norm3_scale, norm3_neg, Rabs_pos_eq by lra. unfold sa, Rdiv. rewrite Rmult_comm. apply Rmult_le_compat_r; lra. }
  assert (DL : dl <= 1 / 100) by exact N. pose proof dl_pos as DP.
  assert (M1 : (77 * u32 + dl) * sb <= 2 / 100 * sb) by (apply Rmult_le_compat_r; lra). assert (M2 : (74 * u32 + dl) * sa <= 2 / 100 * sa) by (apply Rmult_le_compat_r; lra).
  assert (L : forall x y : pt3, norm3 x <= norm3 (sub3 x y) + norm3 y).
  { intros x y. replace x with (add3 (sub3 x y) y) at 1 by (apply pt3_eq; unfold add3, sub3, x3, y3, z3; cbn [fst snd]; ring). apply norm3_triangle. }
  assert (G1 : norm3 (rval3 A) <= 102 / 100 * sb) by (pose proof (L (rval3 A) (turn (qinv q) c1)); lra).
  assert (G2 : norm3 (rval3 B) <= 102 / 100 * sa) by (pose proof (L (rval3 B) (turn (qinv q) c2)); lra).
  assert (H61 : bpow radix2 61 = 2 * bpow radix2 60) by (change 61%Z with (1 + 60)%Z; rewrite bpow_plus; reflexivity). assert (H100 : bpow radix2 61 <= bpow radix2 100) by (apply bpow_le; lia).
  assert (G1' : norm3 (rval3 A) <= bpow radix2 100) by lra. assert (G2' : norm3 (rval3 B) <= bpow radix2 100) by lra.
  destruct (coord_le_norm3 (rval3 A)) as (Ax & Ay & Az). destruct (coord_le_norm3 (rval3 B)) as (Bx & By & Bz). destruct F1 as (Fx & Fy & Fz). destruct F2 as (Gx & Gy & Gz).
  destruct (sum_comp (wx A) (wx B) Fx Gx ltac:(apply Rle_trans with (1 := Ax); exact G1') ltac:(apply Rle_trans with (1 := Bx); exact G2')) as (X1 & X2).
  destruct (sum_comp (wy A) (wy B) Fy Gy ltac:(apply Rle_trans with (1 := Ay); exact G1') ltac:(apply Rle_trans with (1 := By); exact G2')) as (Y1 & Y2).
  destruct (sum_comp (wz A) (wz B) Fz Gz ltac:(apply Rle_trans with (1 := Az); exact G1') ltac:(apply Rle_trans with (1 := Bz); exact G2')) as (Z1 & Z2).
  change (seen_pos q k pa pb) with (v3add A B). split; [repeat split; assumption|].
  assert (D3 : norm3 (sub3 (rval3 (v3add A B)) (add3 (rval3 A) (rval3 B))) <= u32 * norm3 (add3 (rval3 A) (rval3 B)) + 2 * 0).
  { apply comp_norm; [lra | lra | exact X2 | exact Y2 | exact Z2]. }
  assert (US1 : u32 * norm3 (add3 (rval3 A) (rval3 B)) <= u32 * (102 / 100 * (sa + sb))).
  { apply Rmult_le_compat_l; [lra|]. apply Rle_trans with (1 := norm3_triangle _ _). lra. }
  apply Rle_trans with (1 := norm3_split _ (add3 (rval3 A) (rval3 B)) _).
  assert (D4 : norm3 (sub3 (add3 (rval3 A) (rval3 B)) c) <= (77 * u32 + dl) * sb + (74 * u32 + dl) * sa).
  { rewrite C. replace (sub3 (add3 (rval3 A) (rval3 B)) (add3 (turn (qinv q) c1) (turn (qinv q) c2))) with (add3 (sub3 (rval3 A) (turn (qinv q) c1)) (sub3 (rval3 B) (turn (qinv q) c2))) by (apply pt3_eq; unfold add3, sub3, x3, y3, z3; cbn [fst snd]; ring).
    apply Rle_trans with (1 := norm3_triangle _ _). lra. }
  assert (P1 : 0 <= u32 * sa) by (apply Rmult_le_pos; lra). assert (P2 : 0 <= u32 * sb) by (apply Rmult_le_pos; lra).
  replace ((80 * u32 + dl) * (sa + sb)) with (80 * (u32 * sa) + 80 * (u32 * sb) + dl * sa + dl * sb) by ring. lra.
Qed.
End Rel.
