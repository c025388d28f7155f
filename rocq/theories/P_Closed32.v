(** * Closed-form pairs in binary32: errors of the vectors (proofs for C61). *)
From Coq Require Import Reals ZArith Bool Lra Lia List Psatz.
From Flocq Require Import IEEE754.BinarySingleNaN Core Relative.
From Verif Require Import Num NumXR NumB32 Glam Transform2 Shapes2 Gjk Detect2 Spec SpecLink P_Base P_Transform P_Shapes P_Geo P_Analytic P_B32 Props_F32 Props_F32Gjk Props_Lerp Props_F32Ball P_F32Box P_Drift Spec32.
Import ListNotations.
Local Open Scope R_scope.

(** ** Geometry: mirror images *)
Section Flip.
Variable m : pt -> pt.
Hypotheses (m_sub : forall p q, m (psub p q) = psub (m p) (m q)) (m_inv : forall p, m (m p) = p) (m_norm : forall p, norm (m p) = norm p).
Variables (A : pset) (c : pt).
Hypotheses (m_A : forall p, A p -> A (m p)) (m_c : m c = c).
Lemma flip_sep v : separates v A (single c) -> separates (m v) A (single c).
Proof.
  intros S O. apply S. apply overlaps_single in O. destruct O as (e & E & H). apply overlaps_single. exists e. split; [exact E|]. intros u U.
  replace (psub (psub c v) u) with (m (psub (psub c (m v)) (m u))) by (rewrite !m_sub, !m_inv, m_c; reflexivity).
  apply m_A, H. rewrite m_norm. exact U.
Qed.
Lemma flip_geo_sep v : geo_sep A c v -> geo_sep A c (m v).
Proof. intros [O [S M]]. split; [exact O|]. split; [apply flip_sep, S|]. intros w W. rewrite m_norm. apply M, W. Qed.
Lemma flip_geo_con v : geo_con A c v -> geo_con A c (m v).
Proof.
  intros [O [S M]]. split; [exact O|]. split.
  - apply meets_single. apply meets_single in S. replace (psub c (m v)) with (m (psub c v)) by (rewrite m_sub, m_c; reflexivity). apply m_A, S.
  - intros w W. rewrite m_norm. apply M, W.
Qed.
End Flip.
Definition mx (p : pt) : pt := (- fst p, snd p).
Definition my (p : pt) : pt := (fst p, - snd p).
Lemma norm_mx p : norm (mx p) = norm p. Proof. unfold norm. f_equal. unfold mx, pdot; cbn. ring. Qed.
Lemma norm_my p : norm (my p) = norm p. Proof. unfold norm. f_equal. unfold my, pdot; cbn. ring. Qed.
Lemma rounded_mx hx hy r p : rounded_rect hx hy r p -> rounded_rect hx hy r (mx p).
Proof.
  intros (q & Q & N). exists (mx q). split; [unfold rect, mx in *; cbn; lra|]. replace (psub (mx p) (mx q)) with (mx (psub p q)) by (apply pt_eq; cbn; ring). rewrite norm_mx. exact N.
Qed.
Lemma rounded_my hx hy r p : rounded_rect hx hy r p -> rounded_rect hx hy r (my p).
Proof.
  intros (q & Q & N). exists (my q). split; [unfold rect, my in *; cbn; lra|]. replace (psub (my p) (my q)) with (my (psub p q)) by (apply pt_eq; cbn; ring). rewrite norm_my. exact N.
Qed.

(** [s] is a sign of x: at 0 both signs will do *)
Definition sgn (s x : R) : Prop := x = s * Rabs x /\ (s = 1 \/ s = -1).
Lemma sgn_rsign s x : sgn s x -> s = rsign x \/ (x = 0 /\ s = - rsign x).
Proof.
  intros [E [-> | ->]]; unfold rsign; destruct (Rltb_spec x 0) as [L|L].
  - exfalso. rewrite Rabs_left in E; lra.
  - left. reflexivity.
  - left. reflexivity.
  - right. rewrite Rabs_pos_eq in E by lra. split; lra.
Qed.
Section Signs.
Variables (hx hy r : R) (c : pt).
Let A := rounded_rect hx hy r.
Lemma sep_sign_x k s : geo_sep A c (k * rsign (fst c), 0) -> sgn s (fst c) -> geo_sep A c (k * s, 0).
Proof.
  intros G H. destruct (sgn_rsign _ _ H) as [-> | [E ->]]; [exact G|].
  replace (k * - rsign (fst c), 0) with (mx (k * rsign (fst c), 0)) by (apply pt_eq; cbn; ring).
  apply flip_geo_sep; [intros; apply pt_eq; cbn; ring | intros; apply pt_eq; cbn; ring | exact norm_mx | apply rounded_mx | apply pt_eq; cbn; [rewrite E; ring | reflexivity] | exact G].
Qed.
Lemma con_sign_x k s : geo_con A c (k * rsign (fst c), 0) -> sgn s (fst c) -> geo_con A c (k * s, 0).
Proof.
  intros G H. destruct (sgn_rsign _ _ H) as [-> | [E ->]]; [exact G|].
  replace (k * - rsign (fst c), 0) with (mx (k * rsign (fst c), 0)) by (apply pt_eq; cbn; ring).
  apply flip_geo_con; [intros; apply pt_eq; cbn; ring | exact norm_mx | apply rounded_mx | apply pt_eq; cbn; [rewrite E; ring | reflexivity] | exact G].
Qed.
Lemma sep_sign_y k s : geo_sep A c (0, k * rsign (snd c)) -> sgn s (snd c) -> geo_sep A c (0, k * s).
Proof.
  intros G H. destruct (sgn_rsign _ _ H) as [-> | [E ->]]; [exact G|].
  replace (0, k * - rsign (snd c)) with (my (0, k * rsign (snd c))) by (apply pt_eq; cbn; ring).
  apply flip_geo_sep; [intros; apply pt_eq; cbn; ring | intros; apply pt_eq; cbn; ring | exact norm_my | apply rounded_my | apply pt_eq; cbn; [reflexivity | rewrite E; ring] | exact G].
Qed.
Lemma con_sign_y k s : geo_con A c (0, k * rsign (snd c)) -> sgn s (snd c) -> geo_con A c (0, k * s).
Proof.
  intros G H. destruct (sgn_rsign _ _ H) as [-> | [E ->]]; [exact G|].
  replace (0, k * - rsign (snd c)) with (my (0, k * rsign (snd c))) by (apply pt_eq; cbn; ring).
  apply flip_geo_con; [intros; apply pt_eq; cbn; ring | exact norm_my | apply rounded_my | apply pt_eq; cbn; [reflexivity | rewrite E; ring] | exact G].
Qed.
(** leaving by the second best side still separates *)
Lemma sep_by_y s : 0 <= hx -> 0 <= hy -> 0 <= r -> sgn s (snd c) -> separates (0, (Rabs (snd c) - hy - r) * s) A (single c).
Proof.
  intros Hx Hy Hr H.
  assert (G : separates (0, (Rabs (snd c) - hy - r) * rsign (snd c)) A (single c)).
  { apply cert_halfplane with (n := (0, rsign (snd c))).
    - intro E. injection E as E. exact (rsign_nz _ E).
    - intros a Ha. rewrite (at_y hy c). pose proof (bound_y hx hy r c a Ha). cbn in * . lra. }
  destruct (sgn_rsign _ _ H) as [-> | [E ->]]; [exact G|].
  replace (0, (Rabs (snd c) - hy - r) * - rsign (snd c)) with (my (0, (Rabs (snd c) - hy - r) * rsign (snd c))) by (apply pt_eq; cbn; ring).
  apply flip_sep; [intros; apply pt_eq; cbn; ring | intros; apply pt_eq; cbn; ring | exact norm_my | apply rounded_my | apply pt_eq; cbn; [reflexivity | rewrite E; ring] | exact G].
Qed.
End Signs.

(** ** The result of a query, compared with the exact one *)
Lemma true_sep A c w : geo_sep A c w -> true_answer A (single c) w.
Proof. intros [O [S M]]. left. split; [exact O|]. split; [exact S|]. intros v V. pose proof (M v V). pose proof (norm_nonneg v). pose proof u32_pos. nra. Qed.
Lemma true_con A c w : geo_con A c w -> true_answer A (single c) w.
Proof. intros [O M]. right. split; assumption. Qed.

(** ** binary32 *)
Lemma sb_sgn x : fin x -> exists s, sb s x /\ sgn (sg s) (val x).
Proof.
  intro F. exists (negb (fnegsign x)). assert (S : sb (negb (fnegsign x)) x) by (split; [exact F | rewrite negb_involutive; reflexivity]).
  split; [exact S|]. destruct (sb_nn _ 128 x S ltac:(apply Rlt_le, val_big)) as [_ [N _]].
  set (s := negb (fnegsign x)) in * . split.
  - destruct s; unfold sg in *; [rewrite Rabs_pos_eq by lra; ring|]. rewrite Rabs_left1 by lra. ring.
  - destruct s; unfold sg; [left | right]; reflexivity.
Qed.
Lemma mul_one_r s h : fin h -> fin (fmul h (one s)) /\ val (fmul h (one s)) = val h * sg s.
Proof.
  intro F. destruct (one_ok s) as [G V].
  assert (E : rnd (val h * val (one s)) = val h * sg s) by (rewrite V, Rmult_comm, rnd_sg, rnd_exact; ring).
  destruct (mul_ok h (one s) F G) as [K W].
  - rewrite E, Rabs_mult. replace (Rabs (sg s)) with 1 by (destruct s; unfold sg; [rewrite Rabs_R1 | replace (-1) with (-(1)) by ring; rewrite Rabs_Ropp, Rabs_R1]; reflexivity).
    rewrite Rmult_1_r. apply val_big.
  - split; [exact K | rewrite W; exact E].
Qed.
Lemma small_abs r k : small (Rabs r) k <-> small r k.
Proof. unfold small. rewrite Rabs_Rabsolu. reflexivity. Qed.
(** |x| - h *)
Lemma edge_ok (x h : b32) : fin x -> fin h -> small (val x) 60 -> small (val h) 60 ->
  fin (fsub (fabs x) h) /\ val (fsub (fabs x) h) = rnd (Rabs (val x) - val h) /\
  exists e, Rabs e <= u32 /\ val (fsub (fabs x) h) = (Rabs (val x) - val h) * (1 + e).
Proof.
  intros Fx Fh Sx Sh.
  assert (Sm : small (rnd (val (fabs x) - val h)) 61).
  { apply rnd_small; [lia|]. apply (small_add _ _ 60); [rewrite val_abs; apply small_abs, Sx | apply small_opp, Sh]. }
  destruct (sub_ok (fabs x) h (proj2 (fin_abs x) Fx) Fh ltac:(eapply small_big; [|exact Sm]; lia)) as [D1 D2].
  rewrite val_abs in D2. split; [exact D1|]. split; [exact D2|]. destruct (rnd_error_sub (fabs x) h) as (e & He & Ee). rewrite val_abs in Ee. exists e. split; [exact He|]. rewrite D2. exact Ee.
Qed.
Lemma fac_pos e : Rabs e <= u32 -> 0 < 1 + e.
Proof. intro H. apply abs_le2' in H. pose proof u32_small. lra. Qed.
Lemma edge_small (x h : b32) k : (-149 <= k)%Z -> val (fsub (fabs x) h) = rnd (Rabs (val x) - val h) -> small (val x) k -> small (val h) k -> small (val (fsub (fabs x) h)) (k + 1).
Proof. intros Hk -> Sx Sh. apply rnd_small; [lia|]. apply (small_add _ _ k); [apply small_abs, Sx | apply small_opp, Sh]. Qed.
(** ((|x| - h) - r) * signum x *)
Lemma face_ok (x h r : b32) s : sb s x -> fin x -> fin h -> fin r -> small (val x) 60 -> small (val h) 60 -> small (val r) 60 ->
  let v := fmul (fsub (fsub (fabs x) h) r) (fsignum x) in
  fin v /\ Rabs (val v - (Rabs (val x) - val h - val r) * sg s) <= 21 / 10 * u32 * (Rabs (Rabs (val x) - val h) + Rabs (val r)).
Proof.
  intros S Fx Fh Fr Sx Sh Sr v. destruct (edge_ok x h Fx Fh Sx Sh) as (D1 & D0 & e & He & Ed). pose proof (edge_small x h 60 ltac:(lia) D0 Sx Sh) as D2.
  set (dx := fsub (fabs x) h) in * . set (X := Rabs (val x) - val h) in * .
  assert (Sm : small (rnd (val dx - val r)) 62).
  { apply rnd_small; [lia|]. apply (small_add _ _ 61); [exact D2 | apply small_opp; eapply small_weak; [|exact Sr]; lia]. }
  destruct (sub_ok dx r D1 Fr ltac:(eapply small_big; [|exact Sm]; lia)) as [M1 M2].
  destruct (rnd_error_sub dx r) as (e' & He' & Ee'). rewrite Ee' in M2.
  unfold v. rewrite (sb_signum s x S). destruct (mul_one_r s _ M1) as [V1 V2]. split; [exact V1|]. rewrite V2, M2, Ed.
  replace ((X * (1 + e) - val r) * (1 + e') * sg s - (X - val r) * sg s) with ((X * (e + e' + e * e') - val r * e') * sg s) by ring.
  rewrite Rabs_mult. replace (Rabs (sg s)) with 1 by (destruct s; unfold sg; [rewrite Rabs_R1 | replace (-1) with (-(1)) by ring; rewrite Rabs_Ropp, Rabs_R1]; reflexivity).
  rewrite Rmult_1_r. eapply Rle_trans; [apply Rabs_triang|]. rewrite Rabs_Ropp, !Rabs_mult.
  pose proof u32_pos. pose proof u32_small. pose proof (Rabs_pos X). pose proof (Rabs_pos (val r)).
  assert (Rabs (e + e' + e * e') <= 21 / 10 * u32).
  { eapply Rle_trans; [apply Rabs_triang|]. eapply Rle_trans; [apply Rplus_le_compat_r, Rabs_triang|]. rewrite Rabs_mult.
    assert (Rabs e * Rabs e' <= u32 * u32) by (apply Rmult_le_compat; try apply Rabs_pos; assumption). nra. }
  assert (Rabs X * Rabs (e + e' + e * e') <= Rabs X * (21 / 10 * u32)) by (apply Rmult_le_compat_l; assumption).
  assert (Rabs (val r) * Rabs e' <= Rabs (val r) * u32) by (apply Rmult_le_compat_l; assumption). nra.
Qed.

(** ** the pure-number part of the corner case *)
Lemma pert a b x y : 0 <= x -> Rabs (a - 1) <= x -> Rabs (b - 1) <= y -> Rabs (a * b - 1) <= x + y + x * y.
Proof.
  intros Hx Ha Hb. replace (a * b - 1) with ((a - 1) + (b - 1) + (a - 1) * (b - 1)) by ring.
  eapply Rle_trans; [apply Rabs_triang|]. eapply Rle_trans; [apply Rplus_le_compat_r, Rabs_triang|]. rewrite Rabs_mult.
  assert (Rabs (a - 1) * Rabs (b - 1) <= x * y) by (apply Rmult_le_compat; try apply Rabs_pos; assumption). lra.
Qed.
Lemma one_pert e : Rabs e <= u32 -> Rabs (1 + e - 1) <= u32.
Proof. intro H. replace (1 + e - 1) with e by ring. exact H. Qed.
(** relative error of 1/L2 *)
Lemma inv_pert L L2 k : 0 < L -> 0 < k <= 1 / 100000 -> Rabs (L2 - L) <= k * L -> 0 < L2 /\ Rabs (L / L2 - 1) <= 101 / 100 * k.
Proof.
  intros HL Hk H. apply abs_le2' in H. assert (P : 0 < L2) by nra. split; [exact P|].
  replace (L / L2 - 1) with ((L - L2) / L2) by (field; lra). unfold Rdiv. rewrite Rabs_mult, (Rabs_pos_eq (/ L2)) by (left; apply Rinv_0_lt_compat, P).
  apply Rmult_le_reg_r with L2; [exact P|]. rewrite Rmult_assoc, Rinv_l by lra. rewrite Rmult_1_r. apply Rabs_le. nra.
Qed.
(** d is L2 - r with one rounding *)
Lemma diff_pert L L2 r k e : 0 < L -> 0 <= r -> 0 < k <= 1 / 100000 -> Rabs (L2 - L) <= k * L -> Rabs e <= u32 ->
  Rabs ((L2 - r) * (1 + e) - (L - r)) <= (101 / 100 * k + u32) * (L + r).
Proof.
  intros HL Hr Hk H He. replace ((L2 - r) * (1 + e) - (L - r)) with ((L2 - L) * (1 + e) + (L - r) * e) by ring.
  eapply Rle_trans; [apply Rabs_triang|]. rewrite !Rabs_mult. pose proof u32_pos. pose proof u32_small.
  assert (Rabs (1 + e) <= 101 / 100) by (apply abs_le2' in He; apply Rabs_le; lra).
  assert (Rabs (L - r) <= L + r) by (apply Rabs_le; lra).
  assert (Rabs (L2 - L) * Rabs (1 + e) <= (k * L) * (101 / 100)) by (apply Rmult_le_compat; try apply Rabs_pos; assumption).
  assert (Rabs (L - r) * Rabs e <= (L + r) * u32) by (apply Rmult_le_compat; try apply Rabs_pos; assumption). nra.
Qed.
(** a component of k (L - r) / L computed with relative perturbations f of the factor and of the difference *)
Lemma comp_pert ki L r d f a b : 0 < L -> 0 <= r -> 0 <= a <= 1 / 1000 -> 0 <= b <= 1 / 1000 ->
  Rabs (d - (L - r)) <= a * (L + r) -> Rabs (f - 1) <= b ->
  Rabs (ki / L * (d * f) - ki * (L - r) / L) <= Rabs ki / L * ((a + b + a * b) * (L + r)).
Proof.
  intros HL Hr Ha Hb Hd Hf. replace (ki / L * (d * f) - ki * (L - r) / L) with (ki / L * ((d - (L - r)) * f + (L - r) * (f - 1))) by (field; lra).
  rewrite Rabs_mult. replace (Rabs (ki / L)) with (Rabs ki / L) by (unfold Rdiv; rewrite Rabs_mult, (Rabs_pos_eq (/ L)) by (left; apply Rinv_0_lt_compat, HL); reflexivity).
  apply Rmult_le_compat_l; [apply Rmult_le_pos; [apply Rabs_pos | left; apply Rinv_0_lt_compat, HL]|].
  eapply Rle_trans; [apply Rabs_triang|]. rewrite !Rabs_mult.
  assert (Rabs f <= 1 + b) by (apply abs_le2' in Hf; apply Rabs_le; lra).
  assert (Rabs (L - r) <= L + r) by (apply Rabs_le; lra).
  assert (Rabs (d - (L - r)) * Rabs f <= (a * (L + r)) * (1 + b)) by (apply Rmult_le_compat; try apply Rabs_pos; assumption).
  assert (Rabs (L - r) * Rabs (f - 1) <= (L + r) * b) by (apply Rmult_le_compat; try apply Rabs_pos; assumption). nra.
Qed.
(** from components to the norm *)
Lemma norm_parts p k L al be : L = norm k -> 0 < L -> 0 <= al -> 0 <= be ->
  Rabs (fst p) <= Rabs (fst k) / L * al + be -> Rabs (snd p) <= Rabs (snd k) / L * al + be -> norm p <= al + 2 * be.
Proof.
  intros EL HL Hal Hbe H1 H2.
  assert (Q : norm (al / L * Rabs (fst k), al / L * Rabs (snd k)) = al).
  { transitivity (norm (pscale (al / L) (Rabs (fst k), Rabs (snd k)))); [reflexivity|]. rewrite norm_scale.
    replace (norm (Rabs (fst k), Rabs (snd k))) with L.
    - unfold Rdiv. rewrite Rabs_pos_eq; [field; lra|]. apply Rmult_le_pos; [exact Hal | left; apply Rinv_0_lt_compat, HL].
    - rewrite EL. unfold norm. f_equal. unfold pdot; cbn. pose proof (Rsqr_abs (fst k)) as R1. pose proof (Rsqr_abs (snd k)) as R2. unfold Rsqr in * . rewrite R1, R2. reflexivity. }
  set (a := al / L * Rabs (fst k)) in * . set (b := al / L * Rabs (snd k)) in * .
  assert (0 <= a) by (apply Rmult_le_pos; [apply Rmult_le_pos; [exact Hal | left; apply Rinv_0_lt_compat, HL] | apply Rabs_pos]).
  assert (0 <= b) by (apply Rmult_le_pos; [apply Rmult_le_pos; [exact Hal | left; apply Rinv_0_lt_compat, HL] | apply Rabs_pos]).
  assert (E1 : Rabs (fst p) <= a + be) by (unfold a; replace (al / L * Rabs (fst k)) with (Rabs (fst k) / L * al) by (field; lra); exact H1).
  assert (E2 : Rabs (snd p) <= b + be) by (unfold b; replace (al / L * Rabs (snd k)) with (Rabs (snd k) / L * al) by (field; lra); exact H2).
  apply Rle_trans with (norm (padd (a, b) (be, be))).
  - apply norm_le_norm. unfold pdot, padd; cbn. pose proof (Rsqr_abs (fst p)) as R1. pose proof (Rsqr_abs (snd p)) as R2. unfold Rsqr in * . rewrite R1, R2.
    apply Rplus_le_compat; apply Rmult_le_compat; try apply Rabs_pos; assumption.
  - eapply Rle_trans; [apply norm_triangle|]. rewrite Q. assert (norm (be, be) <= 142 / 100 * be) by (apply norm_box; cbn; rewrite Rabs_pos_eq; lra). lra.
Qed.

(** ** common tail: length minus radius *)
Lemma bpow_small_u L : bpow radix2 (-60) <= L -> tiny <= u32 / 100 * L.
Proof.
  intro H. pose proof u32_pos. apply Rle_trans with (u32 / 100 * bpow radix2 (-60)); [|apply Rmult_le_compat_l; lra]. unfold tiny, u32.
  replace (-150)%Z with (-90 + -60)%Z by reflexivity. rewrite bpow_plus. apply Rmult_le_compat_r; [apply bpow_ge_0|].
  apply Rle_trans with (bpow radix2 (-40)); [apply bpow_le; lia|]. cbn. lra.
Qed.
Lemma tiny_u : tiny <= u32 / 100.
Proof. pose proof (bpow_small_u 1). rewrite Rmult_1_r in H. apply H. apply Rle_trans with (bpow radix2 0); [apply bpow_le; lia | cbn; lra]. Qed.
Lemma rlen_norm p : rlen p = norm (rval p). Proof. reflexivity. Qed.
Lemma len_bounds p k : small2 p k -> rlen p <= 2 * bpow radix2 k.
Proof.
  intros [_ [Sx Sy]]. rewrite rlen_norm. eapply Rle_trans; [apply (norm_box _ (bpow radix2 k)); [exact Sx | exact Sy]|]. pose proof (bpow_ge_0 radix2 k). lra.
Qed.
(** fl(length p) - R, all roundings included; rho is the true radius *)
Lemma gap_ok p R0 rho L k : mid_range p -> fin R0 -> small (val R0) 61 -> 0 <= rho -> Rabs (val R0 - rho) <= u32 * rho ->
  0 < L -> 0 < k <= 1 / 100000 -> Rabs (val (v2len p) - L) <= k * L ->
  let d := fsub (v2len p) R0 in
  fin d /\ small (val d) 64 /\ Rabs (val d - (L - rho)) <= (101 / 100 * k + 202 / 100 * u32) * (L + rho).
Proof.
  intros M FR SR Hrho HR HL Hk HL2 d. destruct (length_ok p M) as [F1 E1]. pose proof u32_pos as Up. pose proof u32_small as Us.
  assert (Ls : small (val (v2len p)) 62).
  { pose proof (len_bounds p 60 (proj1 M)) as B. pose proof (rlen_pos p) as Lp. apply abs_le2' in E1. unfold small. apply Rabs_le.
    replace (bpow radix2 62) with (4 * bpow radix2 60) by (replace 62%Z with (2 + 60)%Z by reflexivity; rewrite bpow_plus; reflexivity). nra. }
  assert (Sm : small (rnd (val (v2len p) - val R0)) 63).
  { apply rnd_small; [lia|]. apply (small_add _ _ 62); [exact Ls | apply small_opp; eapply small_weak; [|exact SR]; lia]. }
  destruct (sub_ok _ R0 F1 FR ltac:(eapply small_big; [|exact Sm]; lia)) as [D1 D2].
  split; [exact D1|]. split; [unfold d; rewrite D2; eapply small_weak; [|exact Sm]; lia|].
  destruct (rnd_error_sub (v2len p) R0) as (e & He & Ee). unfold d. rewrite D2, Ee.
  set (L2 := val (v2len p)) in * .
  replace ((L2 - val R0) * (1 + e) - (L - rho)) with (((L2 - rho) * (1 + e) - (L - rho)) + (rho - val R0) * (1 + e)) by ring.
  eapply Rle_trans; [apply Rabs_triang|]. pose proof (diff_pert L L2 rho k e HL Hrho Hk HL2 He) as B1.
  assert (B2 : Rabs ((rho - val R0) * (1 + e)) <= 101 / 100 * u32 * rho).
  { rewrite Rabs_mult. rewrite Rabs_minus_sym. assert (Rabs (1 + e) <= 101 / 100) by (apply abs_le2' in He; apply Rabs_le; lra).
    replace (101 / 100 * u32 * rho) with ((u32 * rho) * (101 / 100)) by ring. apply Rmult_le_compat; try apply Rabs_pos; assumption. }
  nra.
Qed.

(** ** Ball: v = p * fl(fl(length p - R) / length p) *)
Lemma ball_core p R0 rho : mid_range p -> fin R0 -> small (val R0) 61 -> 0 <= rho -> Rabs (val R0 - rho) <= u32 * rho ->
  let L := rlen p in
  let v := v2muls p (fdiv (fsub (v2len p) R0) (v2len p)) in
  fin2 v /\ norm (psub (rval v) (pscale ((L - rho) / L) (rval p))) <= 16 * u32 * (L + rho).
Proof.
  intros M FR SR Hrho HR L v. pose proof u32_pos as Up. pose proof u32_small as Us. pose proof tiny_pos as Tp.
  destruct (length_ok p M) as [F1 E1]. fold L in E1.
  assert (L60 : bpow radix2 (-60) <= L) by exact (proj2 M).
  assert (HL : 0 < L) by (eapply Rlt_le_trans; [apply bpow_gt_0 | exact L60]).
  destruct (gap_ok p R0 rho L (4 * u32) M FR SR Hrho HR HL ltac:(lra) E1) as (D1 & D2 & D3).
  destruct (inv_pert L _ (4 * u32) HL ltac:(lra) E1) as [P2 I2].
  set (d := fsub (v2len p) R0) in * . set (L2 := val (v2len p)) in * .
  assert (Pl : bpow radix2 (-61) <= L2).
  { apply abs_le2' in E1. replace (bpow radix2 (-61)) with (bpow radix2 (-60) / 2); [nra|]. replace (-60)%Z with (1 + -61)%Z by reflexivity. rewrite bpow_plus. cbn [bpow]. cbn. field. }
  assert (Sq : small (rnd (val d / L2)) 125).
  { apply rnd_small; [lia|]. unfold small, Rdiv. rewrite Rabs_mult, (Rabs_pos_eq (/ L2)) by (left; apply Rinv_0_lt_compat, P2).
    replace 125%Z with (64 + 61)%Z by reflexivity. rewrite bpow_plus. apply Rmult_le_compat; [apply Rabs_pos | left; apply Rinv_0_lt_compat, P2 | exact D2 |].
    replace (bpow radix2 61) with (/ bpow radix2 (-61)) by (rewrite <- bpow_opp; reflexivity). apply Rinv_le; [apply bpow_gt_0 | exact Pl]. }
  destruct (div_ok d (v2len p) D1 ltac:(fold L2; apply Rgt_not_eq; exact P2) ltac:(fold L2; eapply small_big; [|exact Sq]; lia)) as [Q1 Q2]. fold L2 in Q2.
  set (q := fdiv d (v2len p)) in * . destruct (rnd_error (val d / L2)) as (e2 & t2 & He2 & Ht2 & Eq). rewrite Eq in Q2.
  assert (Dd : Rabs (val d) <= 2 * (L + rho)).
  { apply abs_le2' in D3. apply Rabs_le. nra. }
  (* each component *)
  assert (C : forall x : b32, fin x -> Rabs (val x) <= L ->
    fin (fmul x q) /\ Rabs (val (fmul x q) - val x * (L - rho) / L) <= Rabs (val x) / L * ((124 / 10 * u32) * (L + rho)) + u32 / 40 * L).
  { intros x Fx Bx.
    assert (Bp : Rabs (val x * val q) <= bpow radix2 66).
    { rewrite Q2, Rabs_mult.
      assert (Rabs (val x) * Rabs (val d / L2 * (1 + e2) + t2) <= L * (Rabs (val d) / L2 * 2 + tiny)).
      { apply Rmult_le_compat; try apply Rabs_pos; [exact Bx|]. eapply Rle_trans; [apply Rabs_triang|]. apply Rplus_le_compat; [|exact Ht2].
        rewrite Rabs_mult. unfold Rdiv. rewrite Rabs_mult, (Rabs_pos_eq (/ L2)) by (left; apply Rinv_0_lt_compat, P2). apply Rmult_le_compat_l.
        - apply Rmult_le_pos; [apply Rabs_pos | left; apply Rinv_0_lt_compat, P2].
        - apply abs_le2' in He2. apply Rabs_le. lra. }
      assert (LL : L / L2 <= 102 / 100) by (apply abs_le2' in I2; lra).
      assert (L * (Rabs (val d) / L2 * 2 + tiny) <= 3 * Rabs (val d) + L).
      { replace (L * (Rabs (val d) / L2 * 2 + tiny)) with (2 * Rabs (val d) * (L / L2) + L * tiny) by (field; lra). pose proof (Rabs_pos (val d)). pose proof tiny_u.
        assert (2 * Rabs (val d) * (L / L2) <= 2 * Rabs (val d) * (102 / 100)) by (apply Rmult_le_compat_l; lra). nra. }
      pose proof (len_bounds p 60 (proj1 M)). fold L in H1. unfold small in D2.
      replace (bpow radix2 66) with (4 * bpow radix2 64) by (replace 66%Z with (2 + 64)%Z by reflexivity; rewrite bpow_plus; reflexivity).
      replace (bpow radix2 64) with (16 * bpow radix2 60) in * by (replace 64%Z with (4 + 60)%Z by reflexivity; rewrite bpow_plus; reflexivity). pose proof (bpow_ge_0 radix2 60). lra. }
    assert (Sx : small (rnd (val x * val q)) 66) by (apply rnd_small; [lia | exact Bp]).
    destruct (mul_ok x q Fx Q1 ltac:(eapply small_big; [|exact Sx]; lia)) as [M1 M2]. split; [exact M1|]. rewrite M2.
    destruct (rnd_error (val x * val q)) as (e3 & t3 & He3 & Ht3 & ->). rewrite Q2.
    set (f := L / L2 * ((1 + e2) * (1 + e3))).
    assert (Bf : Rabs (f - 1) <= 62 / 10 * u32).
    { unfold f. pose proof (pert (1 + e2) (1 + e3) u32 u32 (Rlt_le _ _ Up) (one_pert _ He2) (one_pert _ He3)) as P23.
      pose proof (pert (L / L2) _ (101 / 100 * (4 * u32)) _ ltac:(lra) I2 P23) as PF. eapply Rle_trans; [exact PF|]. nra. }
    replace (val x * (val d / L2 * (1 + e2) + t2) * (1 + e3) + t3 - val x * (L - rho) / L)
      with ((val x / L * (val d * f) - val x * (L - rho) / L) + (val x * t2 * (1 + e3) + t3)) by (unfold f; field; split; lra).
    eapply Rle_trans; [apply Rabs_triang|]. apply Rplus_le_compat.
    - eapply Rle_trans; [apply (comp_pert (val x) L rho (val d) f (61 / 10 * u32) (62 / 10 * u32) HL Hrho); [split; lra | split; lra | | exact Bf]|].
      + eapply Rle_trans; [exact D3|]. nra.
      + apply Rmult_le_compat_l; [apply Rmult_le_pos; [apply Rabs_pos | left; apply Rinv_0_lt_compat, HL]|]. apply Rmult_le_compat_r; [lra|]. nra.
    - eapply Rle_trans; [apply Rabs_triang|]. rewrite !Rabs_mult.
      assert (Rabs (1 + e3) <= 101 / 100) by (apply abs_le2' in He3; apply Rabs_le; lra).
      assert (Rabs (val x) * Rabs t2 <= L * tiny) by (apply Rmult_le_compat; try apply Rabs_pos; assumption).
      assert (Rabs (val x) * Rabs t2 * Rabs (1 + e3) <= (L * tiny) * (101 / 100)).
      { apply Rmult_le_compat; try apply Rabs_pos; try assumption. apply Rmult_le_pos; apply Rabs_pos. }
      pose proof (bpow_small_u L L60). pose proof tiny_u. nra. }
  destruct M as [S60 _]. destruct S60 as [[Fx Fy] _].
  destruct (C (vx p) Fx) as [X1 X2]. { pose proof (norm_x (rval p)) as N. exact N. }
  destruct (C (vy p) Fy) as [Y1 Y2]. { pose proof (norm_y (rval p)) as N. exact N. }
  split; [split; assumption|].
  eapply Rle_trans; [apply (norm_parts _ (rval p) L ((124 / 10 * u32) * (L + rho)) (u32 / 40 * L)); [reflexivity | exact HL | | | |]|].
  - apply Rmult_le_pos; lra.
  - apply Rmult_le_pos; lra.
  - unfold rval, psub, pscale; cbn [fst snd]. replace ((L - rho) / L * val (vx p)) with (val (vx p) * (L - rho) / L) by (field; lra). exact X2.
  - unfold rval, psub, pscale; cbn [fst snd]. replace ((L - rho) / L * val (vy p)) with (val (vy p) * (L - rho) / L) by (field; lra). exact Y2.
  - nra.
Qed.

(** ** Corner: v = (c * fl(length c - R)) / length c, with c within one rounding per component of k *)
Lemma corner_len c (k : pt) e1 e2 : Rabs e1 <= u32 -> Rabs e2 <= u32 -> val (vx c) = fst k * (1 + e1) -> val (vy c) = snd k * (1 + e2) ->
  Rabs (rlen c - norm k) <= u32 * norm k.
Proof.
  intros H1 H2 E1 E2. rewrite rlen_norm.
  assert (D : norm (psub (rval c) k) <= u32 * norm k).
  { apply norm_comp; [apply Rlt_le, u32_pos | |]; unfold rval, psub; cbn [fst snd]; [rewrite E1 | rewrite E2].
    - replace (fst k * (1 + e1) - fst k) with (e1 * fst k) by ring. rewrite Rabs_mult. apply Rmult_le_compat_r; [apply Rabs_pos | exact H1].
    - replace (snd k * (1 + e2) - snd k) with (e2 * snd k) by ring. rewrite Rabs_mult. apply Rmult_le_compat_r; [apply Rabs_pos | exact H2]. }
  pose proof (norm_triangle (psub (rval c) k) k) as T1. replace (padd (psub (rval c) k) k) with (rval c) in T1 by (apply pt_eq; cbn; ring).
  pose proof (norm_triangle (psub k (rval c)) (rval c)) as T2. replace (padd (psub k (rval c)) (rval c)) with k in T2 by (apply pt_eq; cbn; ring).
  replace (norm (psub k (rval c))) with (norm (psub (rval c) k)) in T2.
  - apply Rabs_le. lra.
  - rewrite <- norm_neg. f_equal. apply pt_eq; cbn; ring.
Qed.
Lemma corner_core c (k : pt) e1 e2 R0 : Rabs e1 <= u32 -> Rabs e2 <= u32 -> val (vx c) = fst k * (1 + e1) -> val (vy c) = snd k * (1 + e2) ->
  small2 c 60 -> bpow radix2 (-59) <= norm k -> fin R0 -> small (val R0) 60 -> 0 <= val R0 ->
  let L := norm k in
  let v := v2divs (v2muls c (fsub (v2len c) R0)) (v2len c) in
  fin (v2len c) /\ Rabs (val (v2len c) - L) <= 51 / 10 * u32 * L /\
  fin2 v /\ norm (psub (rval v) (pscale ((L - val R0) / L) k)) <= 16 * u32 * (L + val R0).
Proof.
  intros He1 He2 Ec1 Ec2 Sc L59 FR SR HR L v. pose proof u32_pos as Up. pose proof u32_small as Us. pose proof tiny_pos as Tp.
  pose proof (corner_len c k e1 e2 He1 He2 Ec1 Ec2) as CL. fold L in CL, L59.
  assert (B59 : bpow radix2 (-59) = 2 * bpow radix2 (-60)) by (replace (-59)%Z with (1 + -60)%Z by reflexivity; rewrite bpow_plus; reflexivity).
  pose proof (bpow_gt_0 radix2 (-60)) as B60.
  assert (HL : 0 < L) by lra.
  assert (M : mid_range c). { split; [exact Sc|]. apply abs_le2' in CL. nra. }
  destruct (length_ok c M) as [F1 E1].
  assert (E2 : Rabs (val (v2len c) - L) <= 51 / 10 * u32 * L).
  { apply abs_le2' in CL. apply abs_le2' in E1. apply Rabs_le. nra. }
  split; [exact F1|]. split; [exact E2|].
  assert (HR' : Rabs (val R0 - val R0) <= u32 * val R0) by (rewrite Rminus_diag_eq, Rabs_R0 by reflexivity; apply Rmult_le_pos; lra).
  destruct (gap_ok c R0 (val R0) L (51 / 10 * u32) M FR ltac:(eapply small_weak; [|exact SR]; lia) HR HR' HL ltac:(lra) E2) as (D1 & D2 & D3).
  destruct (inv_pert L _ (51 / 10 * u32) HL ltac:(lra) E2) as [P2 I2].
  set (d := fsub (v2len c) R0) in * . set (L2 := val (v2len c)) in * . set (rho := val R0) in * .
  assert (Pl : bpow radix2 (-60) <= L2) by (apply abs_le2' in E2; nra).
  assert (C : forall (x : b32) ki e, fin x -> small (val x) 60 -> Rabs ki <= L -> Rabs e <= u32 -> val x = ki * (1 + e) ->
    fin (fdiv (fmul x d) (v2len c)) /\ Rabs (val (fdiv (fmul x d) (v2len c)) - ki * (L - rho) / L) <= Rabs ki / L * ((157 / 10 * u32) * (L + rho)) + u32 / 40 * L).
  { intros x ki e Fx Sx Kl He Ex.
    assert (Sm : small (rnd (val x * val d)) 124) by (apply rnd_small; [lia|]; apply (small_mul _ _ 60 64); assumption).
    destruct (mul_ok x d Fx D1 ltac:(eapply small_big; [|exact Sm]; lia)) as [M1 M2].
    destruct (rnd_error (val x * val d)) as (e4 & t4 & He4 & Ht4 & Em). rewrite Em in M2.
    assert (Kq : Rabs (val (fmul x d) / L2) <= bpow radix2 126).
    { rewrite M2. replace ((val x * val d * (1 + e4) + t4) / L2) with (ki * (1 + e) * (1 + e4) / L2 * val d + t4 / L2) by (rewrite Ex; field; lra).
      eapply Rle_trans; [apply Rabs_triang|]. unfold Rdiv. rewrite !Rabs_mult, (Rabs_pos_eq (/ L2)) by (left; apply Rinv_0_lt_compat, P2).
      assert (A1 : Rabs (1 + e) <= 101 / 100) by (apply abs_le2' in He; apply Rabs_le; lra).
      assert (A2 : Rabs (1 + e4) <= 101 / 100) by (apply abs_le2' in He4; apply Rabs_le; lra).
      assert (A3 : Rabs ki * Rabs (1 + e) * Rabs (1 + e4) * / L2 <= 2).
      { apply Rmult_le_reg_r with L2; [exact P2|]. rewrite Rmult_assoc, Rinv_l, Rmult_1_r by lra. apply abs_le2' in E2.
        assert (Rabs ki * Rabs (1 + e) <= L * (101 / 100)) by (apply Rmult_le_compat; try apply Rabs_pos; assumption).
        assert (Rabs ki * Rabs (1 + e) * Rabs (1 + e4) <= L * (101 / 100) * (101 / 100)).
        { apply Rmult_le_compat; try apply Rabs_pos; try assumption. apply Rmult_le_pos; apply Rabs_pos. } nra. }
      assert (A4 : Rabs ki * Rabs (1 + e) * Rabs (1 + e4) * / L2 * Rabs (val d) <= 2 * bpow radix2 64).
      { apply Rmult_le_compat; [|apply Rabs_pos | exact A3 | exact D2]. apply Rmult_le_pos; [|left; apply Rinv_0_lt_compat, P2]. apply Rmult_le_pos; [apply Rmult_le_pos|]; apply Rabs_pos. }
      assert (A5 : Rabs t4 * / L2 <= 1).
      { apply Rmult_le_reg_r with L2; [exact P2|]. rewrite Rmult_assoc, Rinv_l, Rmult_1_r, Rmult_1_l by lra. eapply Rle_trans; [exact Ht4|]. eapply Rle_trans; [|exact Pl]. apply bpow_le. lia. }
      assert (bpow radix2 0 <= bpow radix2 64) by (apply bpow_le; lia). change (bpow radix2 0) with 1 in H.
      replace (bpow radix2 126) with (bpow radix2 62 * bpow radix2 64) by (rewrite <- bpow_plus; reflexivity).
      assert (4 <= bpow radix2 62) by (change 4 with (bpow radix2 2); apply bpow_le; lia). nra. }
    assert (Sq : small (rnd (val (fmul x d) / L2)) 126) by (apply rnd_small; [lia | exact Kq]).
    destruct (div_ok (fmul x d) (v2len c) M1 ltac:(fold L2; apply Rgt_not_eq; exact P2) ltac:(fold L2; eapply small_big; [|exact Sq]; lia)) as [Q1 Q2]. fold L2 in Q2.
    split; [exact Q1|]. rewrite Q2. destruct (rnd_error (val (fmul x d) / L2)) as (e5 & t5 & He5 & Ht5 & ->). rewrite M2, Ex.
    set (f := L / L2 * ((1 + e) * ((1 + e4) * (1 + e5)))).
    assert (Bf : Rabs (f - 1) <= 83 / 10 * u32).
    { unfold f. pose proof (pert (1 + e4) (1 + e5) u32 u32 (Rlt_le _ _ Up) (one_pert _ He4) (one_pert _ He5)) as P23.
      pose proof (pert (1 + e) _ _ _ (Rlt_le _ _ Up) (one_pert _ He) P23) as P3.
      pose proof (pert (L / L2) _ (101 / 100 * (51 / 10 * u32)) _ ltac:(lra) I2 P3) as PF. eapply Rle_trans; [exact PF|]. nra. }
    replace ((ki * (1 + e) * val d * (1 + e4) + t4) / L2 * (1 + e5) + t5 - ki * (L - rho) / L)
      with ((ki / L * (val d * f) - ki * (L - rho) / L) + (t4 / L2 * (1 + e5) + t5)) by (unfold f; field; split; lra).
    eapply Rle_trans; [apply Rabs_triang|]. apply Rplus_le_compat.
    - eapply Rle_trans; [apply (comp_pert ki L rho (val d) f (73 / 10 * u32) (83 / 10 * u32) HL HR); [split; lra | split; lra | | exact Bf]|].
      + eapply Rle_trans; [exact D3|]. nra.
      + apply Rmult_le_compat_l; [apply Rmult_le_pos; [apply Rabs_pos | left; apply Rinv_0_lt_compat, HL]|]. apply Rmult_le_compat_r; [lra|]. nra.
    - eapply Rle_trans; [apply Rabs_triang|]. unfold Rdiv. rewrite !Rabs_mult, (Rabs_pos_eq (/ L2)) by (left; apply Rinv_0_lt_compat, P2).
      assert (A1 : Rabs (1 + e5) <= 101 / 100) by (apply abs_le2' in He5; apply Rabs_le; lra).
      assert (T : tiny <= u32 / 128 * (L * L2)).
      { apply Rle_trans with (u32 / 128 * (bpow radix2 (-59) * bpow radix2 (-60))).
        - rewrite <- bpow_plus. unfold tiny, u32. replace (-150)%Z with (-31 + (-59 + -60))%Z by reflexivity. rewrite bpow_plus. apply Rmult_le_compat_r; [apply bpow_ge_0|]. cbn. lra.
        - apply Rmult_le_compat_l; [lra|]. apply Rmult_le_compat; try apply bpow_ge_0; assumption. }
      assert (A2 : Rabs t4 * / L2 <= u32 / 128 * L).
      { apply Rmult_le_reg_r with L2; [exact P2|]. rewrite Rmult_assoc, Rinv_l, Rmult_1_r by lra. eapply Rle_trans; [exact Ht4|]. rewrite Rmult_assoc. exact T. }
      assert (A3 : Rabs t4 * / L2 * Rabs (1 + e5) <= (u32 / 128 * L) * (101 / 100)).
      { apply Rmult_le_compat; try apply Rabs_pos; try assumption. apply Rmult_le_pos; [apply Rabs_pos | left; apply Rinv_0_lt_compat, P2]. }
      assert (bpow radix2 (-60) <= L) as L60 by lra. pose proof (bpow_small_u L L60). change (u32 * / 40) with (u32 / 40). nra. }
  destruct Sc as [[Fx Fy] [Sx Sy]].
  destruct (C (vx c) (fst k) e1 Fx Sx (norm_x k) He1 Ec1) as [X1 X2].
  destruct (C (vy c) (snd k) e2 Fy Sy (norm_y k) He2 Ec2) as [Y1 Y2].
  split; [split; assumption|].
  eapply Rle_trans; [apply (norm_parts _ k L ((157 / 10 * u32) * (L + rho)) (u32 / 40 * L)); [reflexivity | exact HL | | | |]|].
  - apply Rmult_le_pos; lra.
  - apply Rmult_le_pos; lra.
  - unfold rval, psub, pscale; cbn [fst snd]. replace ((L - rho) / L * fst k) with (fst k * (L - rho) / L) by (field; lra). exact X2.
  - unfold rval, psub, pscale; cbn [fst snd]. replace ((L - rho) / L * snd k) with (snd k * (L - rho) / L) by (field; lra). exact Y2.
  - nra.
Qed.

(** ** Assembling *)
Lemma close_same r A B A' B' c v : same_set (minkowski_diff A B) (minkowski_diff A' B') -> close_answer r A B c v -> close_answer r A' B' c v.
Proof.
  intros D (F & w & T & N & V). split; [exact F|]. exists w. split; [|split; [exact N|]].
  - destruct T as [(O & S & M)|(O & M)]; [left | right].
    + split; [apply (same_overlaps _ _ _ _ D), O|]. split; [apply (same_separates _ _ _ _ D), S|]. intros u U. apply M. apply (same_separates _ _ _ _ D), U.
    + split; [rewrite <- (same_overlaps _ _ _ _ D); exact O | apply (same_min_contact _ _ _ _ D), M].
  - intro H. rewrite (V H). apply (same_overlaps _ _ _ _ D).
Qed.
(** a decision d between hit and miss taken on slightly wrong numbers *)
Lemma verdict (g r ghat : R) (b : bool) : 0 <= r -> (b = true <-> ghat < r) -> Rabs (ghat - g) <= 16 * u32 * (Rabs (g - r) + 2 * r) ->
  16 * u32 * (Rabs (g - r) + 2 * r) < Rabs (g - r) -> (b = true <-> g < r).
Proof.
  intros Hr B E H. rewrite B. assert (Q : Rabs (ghat - g) < Rabs (g - r)) by lra.
  unfold Rabs in Q. destruct (Rcase_abs (ghat - g)), (Rcase_abs (g - r)); split; intros; lra.
Qed.
Lemma abs_sg s : Rabs (sg s) = 1.
Proof. destruct s; unfold sg; [rewrite Rabs_R1 | replace (-1) with (-(1)) by ring; rewrite Rabs_Ropp, Rabs_R1]; reflexivity. Qed.
Lemma near_x (v : vec2 b32) a s k : val (vy v) = 0 -> Rabs (val (vx v) - a * sg s) <= k -> norm (psub (rval v) (a * sg s, 0)) <= k.
Proof. intros E H. replace (psub (rval v) (a * sg s, 0)) with (val (vx v) - a * sg s, 0) by (apply pt_eq; cbn; [reflexivity | rewrite E; ring]). rewrite norm_xaxis. exact H. Qed.
Lemma near_y (v : vec2 b32) a s k : val (vx v) = 0 -> Rabs (val (vy v) - a * sg s) <= k -> norm (psub (rval v) (0, a * sg s)) <= k.
Proof. intros E H. replace (psub (rval v) (0, a * sg s)) with (0, val (vy v) - a * sg s) by (apply pt_eq; cbn; [rewrite E; ring | reflexivity]). rewrite norm_yaxis. exact H. Qed.
Lemma norm_ax a s : norm (a * sg s, 0) = Rabs a. Proof. rewrite norm_xaxis, Rabs_mult, abs_sg. ring. Qed.
Lemma norm_ay a s : norm (0, a * sg s) = Rabs a. Proof. rewrite norm_yaxis, Rabs_mult, abs_sg. ring. Qed.
Lemma true_flag_sep A c w : geo_sep A c w -> true_answer A (single c) w /\ overlaps A (single c).
Proof. intro G. split; [apply true_sep, G | exact (proj1 G)]. Qed.

(** an axis-aligned answer *)
Lemma face_answer_x A c (X r a dv : R) s (fl : bool) (v : vec2 b32) : 0 <= r -> fin2 v -> val (vy v) = 0 -> a = X - r ->
  Rabs (val (vx v) - a * sg s) <= 21 / 10 * u32 * (Rabs X + r) -> (fl = true <-> dv < r) -> Rabs (dv - X) <= u32 * Rabs X -> 0 <= X ->
  (X < r -> geo_sep A c (a * sg s, 0)) -> (r <= X -> geo_con A c (a * sg s, 0)) -> close_answer r A (single c) fl v.
Proof.
  intros Hr F Z -> B Hf Hd HX Gs Gc. pose proof u32_pos as Up. rewrite (Rabs_pos_eq X) in B, Hd by exact HX.
  assert (Q : X + r <= Rabs (X - r) + 2 * r) by (unfold Rabs; destruct Rcase_abs; lra).
  split; [exact F|]. exists ((X - r) * sg s, 0). rewrite norm_ax.
  assert (EB : Rabs (dv - X) <= 16 * u32 * (Rabs (X - r) + 2 * r)) by nra.
  split; [|split].
  - destruct (Rlt_or_le X r) as [L|L]; [apply true_sep, Gs, L | apply true_con, Gc, L].
  - apply near_x; [exact Z|]. nra.
  - intro H. rewrite (verdict X r dv fl Hr Hf EB H). destruct (Rlt_or_le X r) as [L|L]; split; intro K; try lra.
    + exact (proj1 (Gs L)).
    + contradiction (proj1 (Gc L)).
Qed.
Lemma face_answer_y A c (X r a dv : R) s (fl : bool) (v : vec2 b32) : 0 <= r -> fin2 v -> val (vx v) = 0 -> a = X - r ->
  Rabs (val (vy v) - a * sg s) <= 21 / 10 * u32 * (Rabs X + r) -> (fl = true <-> dv < r) -> Rabs (dv - X) <= u32 * Rabs X -> 0 <= X ->
  (X < r -> geo_sep A c (0, a * sg s)) -> (r <= X -> geo_con A c (0, a * sg s)) -> close_answer r A (single c) fl v.
Proof.
  intros Hr F Z -> B Hf Hd HX Gs Gc. pose proof u32_pos as Up. rewrite (Rabs_pos_eq X) in B, Hd by exact HX.
  assert (Q : X + r <= Rabs (X - r) + 2 * r) by (unfold Rabs; destruct Rcase_abs; lra).
  split; [exact F|]. exists (0, (X - r) * sg s). rewrite norm_ay.
  assert (EB : Rabs (dv - X) <= 16 * u32 * (Rabs (X - r) + 2 * r)) by nra.
  split; [|split].
  - destruct (Rlt_or_le X r) as [L|L]; [apply true_sep, Gs, L | apply true_con, Gc, L].
  - apply near_y; [exact Z|]. nra.
  - intro H. rewrite (verdict X r dv fl Hr Hf EB H). destruct (Rlt_or_le X r) as [L|L]; split; intro K; try lra.
    + exact (proj1 (Gs L)).
    + contradiction (proj1 (Gc L)).
Qed.

Lemma sgn_nz s x : sgn (sg s) x -> x <> 0 -> sg s = rsign x.
Proof. intros H N. destruct (sgn_rsign _ _ H) as [E | [E _]]; [exact E | contradiction]. Qed.
Lemma err_rel X e : Rabs e <= u32 -> Rabs (X * (1 + e) - X) <= u32 * Rabs X.
Proof. intro H. replace (X * (1 + e) - X) with (e * X) by ring. rewrite Rabs_mult. apply Rmult_le_compat_r; [apply Rabs_pos | exact H]. Qed.

Section Rounded.
Context {T : Type} {TR : Transformation2d b32 T}.
Variables (h : vec2 b32) (r : b32) (rel : T).
Let p := apply_origin rel.
Let hx := val (vx h).
Let hy := val (vy h).
Let C := rval p.
Let X := Rabs (fst C) - hx.
Let Y := Rabs (snd C) - hy.
Hypotheses (Fp : small2 p 59) (Fh : small2 h 59) (Hx : 0 <= hx) (Hy : 0 <= hy) (Fr : fin r) (Sr : small (val r) 59) (Hr : 0 <= val r).

Lemma box_part_flag : fst (box_point_sdfv false false (Box2d h) rel) = Rltb X 0 && Rltb Y 0.
Proof.
  destruct Fp as [[F1 F2] _], Fh as [[F3 F4] _]. unfold box_point_sdfv. cbn [halfsize]. fold p.
  rewrite !sub_sign; try assumption; try (apply fin_abs; assumption); try apply abs_sign. rewrite !val_abs. unfold X, Y, C, rval, hx, hy. cbn [fst snd].
  assert (K : forall a b, Rltb a b = Rltb (a - b) 0) by (intros a b; destruct (Rltb_spec a b); symmetry; [apply Rltb_true | apply Rltb_false]; lra).
  rewrite (K (Rabs (val (vx p)))), (K (Rabs (val (vy p)))). match goal with |- fst (if ?b then _ else _) = _ => destruct b; reflexivity end.
Qed.
Lemma rounded_core : ~ (X = 0 /\ Y < 0) -> (0 < X -> 0 < Y -> bpow radix2 (-59) <= norm (X, Y)) ->
  exists c v, (forall P D, rounded_point_sdfv P D (RoundedBox2d h r) rel = (c, v)) /\ close_answer (val r) (rounded_rect hx hy (val r)) (single C) c v.
Proof.
  intros NL Hc. destruct Fp as [[F1 F2] [S1 S2]]. destruct Fh as [[F3 F4] [S3 S4]]. pose proof u32_pos as Up. pose proof u32_small as Us.
  assert (W : forall a, small a 59 -> small a 60) by (intros a Ha; eapply small_weak; [|exact Ha]; lia).
  destruct (edge_ok (vx p) (vx h) F1 F3 (W _ S1) (W _ S3)) as (Dx1 & Dx2 & ex & Ex1 & Ex2).
  destruct (edge_ok (vy p) (vy h) F2 F4 (W _ S2) (W _ S4)) as (Dy1 & Dy2 & ey & Ey1 & Ey2).
  destruct (sb_sgn (vx p) F1) as (s & Bs & Gs). destruct (sb_sgn (vy p) F2) as (t & Bt & Gt).
  destruct (face_ok (vx p) (vx h) r s Bs F1 F3 Fr (W _ S1) (W _ S3) (W _ Sr)) as [Vx1 Vx2].
  destruct (face_ok (vy p) (vy h) r t Bt F2 F4 Fr (W _ S2) (W _ S4) (W _ Sr)) as [Vy1 Vy2].
  pose proof (edge_small (vx p) (vx h) 59 ltac:(lia) Dx2 S1 S3) as Sdx. pose proof (edge_small (vy p) (vy h) 59 ltac:(lia) Dy2 S2 S4) as Sdy.
  change (Rabs (val (vx p)) - val (vx h)) with X in * . change (Rabs (val (vy p)) - val (vy h)) with Y in * .
  change (val (vx p)) with (fst C) in Gs. change (val (vy p)) with (snd C) in Gt.
  rewrite (Rabs_pos_eq (val r)) in Vx2, Vy2 by exact Hr.
  assert (Z0 : fin (@f0 b32 _) /\ val (@f0 b32 _) = 0) by (split; reflexivity). destruct Z0 as [Zf Zv].
  assert (Px : 0 < 1 + ex) by (apply fac_pos, Ex1). assert (Py : 0 < 1 + ey) by (apply fac_pos, Ey1).
  assert (sx_lt : forall a e, 0 < 1 + e -> (a * (1 + e) <= 0 <-> a <= 0)).
  { intros a e He. split; intro H; [|nra]. apply Rnot_lt_le. intro K. assert (0 < a * (1 + e)) by (apply Rmult_lt_0_compat; lra). lra. }
  set (A := rounded_rect hx hy (val r)).
  unfold rounded_point_sdfv, box_part. cbn [rb_halfsize rb_radius]. rewrite box_part_flag. fold p.
  set (dx := fsub (fabs (vx p)) (vx h)) in * . set (dy := fsub (fabs (vy p)) (vy h)) in * .
  destruct (Rltb_spec X 0) as [X0|X0]; [destruct (Rltb_spec Y 0) as [Y0|Y0]|]; cbn [andb].
  - (* inside the box *)
    rewrite flt_fin by assumption. destruct (Rltb_spec (val dy) (val dx)) as [Q|Q].
    + eexists true, _. split; [intros; reflexivity|].
      assert (YX : Y <= X). { apply Rnot_lt_le. intro K. assert (rnd X <= rnd Y) by (apply rnd_le; lra). lra. }
      assert (G : geo_sep A C ((X - val r) * sg s, 0)) by (apply (sep_sign_x hx hy (val r) C); [apply inside_x; assumption | exact Gs]).
      destruct (true_flag_sep _ _ _ G) as [TA OV].
      split; [split; assumption|]. exists ((X - val r) * sg s, 0). split; [exact TA|]. rewrite norm_ax, (Rabs_left (X - val r)) by lra. split.
      * apply near_x; [exact Zv|]. eapply Rle_trans; [exact Vx2|]. rewrite Rabs_left by lra. nra.
      * intros _. tauto.
    + eexists true, _. split; [intros; reflexivity|].
      assert (SP : separates (0, (Y - val r) * sg t) A (single C)) by (apply (sep_by_y hx hy (val r) C); assumption).
      assert (TA : true_answer A (single C) (0, (Y - val r) * sg t) /\ overlaps A (single C)).
      { destruct (Rle_or_lt X Y) as [XY|YX].
        - apply true_flag_sep, (sep_sign_y hx hy (val r) C); [apply inside_y; assumption | exact Gt].
        - assert (G : geo_sep A C ((X - val r) * rsign (fst C), 0)) by (apply inside_x; try assumption; fold X Y; lra).
          split; [|exact (proj1 G)]. left. split; [exact (proj1 G)|]. split; [exact SP|]. intros w Hw.
          pose proof (proj2 (proj2 G) w Hw) as N. rewrite norm_ay, (Rabs_left (Y - val r)) by lra.
          rewrite norm_xaxis, Rabs_mult, rsign_abs, (Rabs_left (X - val r)) in N by lra.
          assert (XYe : X * (1 + ex) <= Y * (1 + ey)) by lra.
          apply abs_le2' in Ex1. apply abs_le2' in Ey1.
          assert (- Y <= - X * (1 + 3 * u32)) by nra. nra. }
      destruct TA as [TA OV].
      split; [split; assumption|]. exists (0, (Y - val r) * sg t). split; [exact TA|]. rewrite norm_ay, (Rabs_left (Y - val r)) by lra. split.
      * apply near_y; [exact Zv|]. eapply Rle_trans; [exact Vy2|]. rewrite Rabs_left by lra. nra.
      * intros _. tauto.
  - (* X < 0 <= Y *)
    rewrite fle_fin by assumption. rewrite Zv, Ex2. rewrite (Rleb_true (X * (1 + ex)) 0) by (apply sx_lt; lra).
    eexists _, _. split; [intros; reflexivity|].
    apply (face_answer_y A C Y (val r) (Y - val r) (val dy) t); try assumption; try lra.
    + split; assumption.
    + rewrite flt_fin by assumption. destruct (Rltb_spec (val dy) (val r)); split; intro; (reflexivity || discriminate || lra).
    + rewrite Ey2. apply err_rel, Ey1.
    + intro L. apply (sep_sign_y hx hy (val r) C); [apply face_y_in; try assumption; fold X Y; lra | exact Gt].
    + intro L. apply (con_sign_y hx hy (val r) C); [apply face_y_out; try assumption; fold X Y; lra | exact Gt].
  - rewrite fle_fin by assumption. rewrite Zv, Ex2. destruct (Rleb_spec (X * (1 + ex)) 0) as [Q|Q].
    + (* X = 0 *)
      assert (X = 0) as EX by (apply sx_lt in Q; [lra | exact Px]). assert (0 <= Y) as Y0 by (apply Rnot_lt_le; intro K; apply NL; split; assumption).
      eexists _, _. split; [intros; reflexivity|].
      apply (face_answer_y A C Y (val r) (Y - val r) (val dy) t); try assumption; try lra.
      * split; assumption.
      * rewrite flt_fin by assumption. destruct (Rltb_spec (val dy) (val r)); split; intro; (reflexivity || discriminate || lra).
      * rewrite Ey2. apply err_rel, Ey1.
      * intro L. apply (sep_sign_y hx hy (val r) C); [apply face_y_in; try assumption; fold X Y; lra | exact Gt].
      * intro L. apply (con_sign_y hx hy (val r) C); [apply face_y_out; try assumption; fold X Y; lra | exact Gt].
    + assert (0 < X) as XP. { apply Rnot_le_lt. intro K. apply Q. apply sx_lt; lra. }
      rewrite fle_fin by assumption. rewrite Zv, Ey2. destruct (Rleb_spec (Y * (1 + ey)) 0) as [Q'|Q'].
      * apply sx_lt in Q'; [|exact Py]. eexists _, _. split; [intros; reflexivity|].
        apply (face_answer_x A C X (val r) (X - val r) (val dx) s); try assumption; try lra.
        -- split; assumption.
        -- rewrite flt_fin by assumption. destruct (Rltb_spec (val dx) (val r)); split; intro; (reflexivity || discriminate || lra).
        -- rewrite Ex2. apply err_rel, Ex1.
        -- intro L. apply (sep_sign_x hx hy (val r) C); [apply face_x_in; try assumption; fold X Y; lra | exact Gs].
        -- intro L. apply (con_sign_x hx hy (val r) C); [apply face_x_out; try assumption; fold X Y; lra | exact Gs].
      * assert (0 < Y) as YP. { apply Rnot_le_lt. intro K. apply Q'. apply sx_lt; lra. }
        rewrite (sb_signum s _ Bs), (sb_signum t _ Bt). destruct (mul_one_r s dx Dx1) as [Cx1 Cx2]. destruct (mul_one_r t dy Dy1) as [Cy1 Cy2].
        set (c := V2 (fmul dx (one s)) (fmul dy (one t))).
        assert (Nx : fst C <> 0) by (intro E; unfold X in XP; rewrite E, Rabs_R0 in XP; lra).
        assert (Ny : snd C <> 0) by (intro E; unfold Y in YP; rewrite E, Rabs_R0 in YP; lra).
        assert (Nk : norm (X * rsign (fst C), Y * rsign (snd C)) = norm (X, Y)).
        { unfold norm. f_equal. pose proof (rsign_sq (fst C)) as R1. pose proof (rsign_sq (snd C)) as R2.
          generalize dependent (rsign (fst C)). generalize dependent (rsign (snd C)). intros b2 R2 b1 R1. unfold pdot; cbn.
          replace (X * b1 * (X * b1) + Y * b2 * (Y * b2)) with (X * X * (b1 * b1) + Y * Y * (b2 * b2)) by ring. rewrite R1, R2. ring. }
        set (k := (X * rsign (fst C), Y * rsign (snd C)) : pt) in * .
        assert (Sc : small2 c 60).
        { split; [split; assumption|]. unfold c, small; cbn [vx vy]. rewrite Cx2, Cy2, !Rabs_mult, !abs_sg, !Rmult_1_r. split; assumption. }
        destruct (corner_core c k ex ey r Ex1 Ey1) as (L1 & L2 & V1 & V2); try assumption.
        { unfold c, k; cbn [vx vy fst snd]. rewrite Cx2, Ex2, (sgn_nz s _ Gs Nx). ring. }
        { unfold c, k; cbn [vx vy fst snd]. rewrite Cy2, Ey2, (sgn_nz t _ Gt Ny). ring. }
        { rewrite Nk. apply Hc; assumption. }
        { apply W, Sr. }
        eexists _, _. split; [intros; reflexivity|]. fold c.
        assert (LP : 0 < norm k) by (apply (corner_L hx hy C); assumption).
        assert (NW : norm (pscale ((norm k - val r) / norm k) k) = Rabs (norm k - val r)).
        { rewrite norm_scale. unfold Rdiv. rewrite Rabs_mult, (Rabs_pos_eq (/ norm k)) by (left; apply Rinv_0_lt_compat, LP). field. lra. }
        assert (QQ : norm k + val r <= Rabs (norm k - val r) + 2 * val r) by (unfold Rabs; destruct Rcase_abs; lra).
        split; [exact V1|]. exists (pscale ((norm k - val r) / norm k) k). rewrite NW. split; [|split].
        -- destruct (Rlt_or_le (norm k) (val r)) as [L|L]; [apply true_sep | apply true_con].
           ++ apply (corner_in hx hy (val r) C); assumption.
           ++ apply (corner_out hx hy (val r) C); assumption.
        -- eapply Rle_trans; [exact V2|]. nra.
        -- intro H. assert (HF : flt (v2len c) r = true <-> val (v2len c) < val r).
           { rewrite flt_fin by assumption. destruct (Rltb_spec (val (v2len c)) (val r)); split; intro; (reflexivity || discriminate || lra). }
           rewrite (verdict (norm k) (val r) (val (v2len c)) _ Hr HF ltac:(eapply Rle_trans; [exact L2|]; nra) H).
           destruct (Rlt_or_le (norm k) (val r)) as [L|L]; split; intro K; try lra.
           ++ apply (corner_in hx hy (val r) C); assumption.
           ++ exfalso. apply (proj1 (corner_out hx hy (val r) C Hx Hy Hr XP YP L)), K.
Qed.
End Rounded.

(** ** Box v Point *)
Lemma max0 (x : b32) : fin x -> fin (fmax x f0) /\ val (fmax x f0) = Rmax (val x) 0.
Proof.
  intro F. unfold fmax. rewrite (fin_nan x F). change (fisnan (@f0 b32 _)) with false. cbn [negb]. rewrite flt_fin by (assumption || reflexivity).
  change (val (@f0 b32 _)) with 0. destruct (Rltb_spec (val x) 0) as [L|L].
  - split; [reflexivity|]. rewrite Rmax_right by lra. reflexivity.
  - split; [exact F|]. rewrite Rmax_left by lra. reflexivity.
Qed.
Lemma max_fac X e : 0 < 1 + e -> Rmax (X * (1 + e)) 0 = Rmax X 0 * (1 + e).
Proof. intro H. destruct (Rle_or_lt X 0) as [L|L]; [rewrite !Rmax_right by nra; ring | rewrite !Rmax_left by nra; ring]. Qed.
Lemma true_ext A A' B w : same_set A A' -> true_answer A B w -> true_answer A' B w.
Proof.
  intros H Tr. pose proof (diff_ext A A' B B H (fun _ => iff_refl _)) as D. destruct Tr as [(O & S & M)|(O & M)]; [left | right].
  - split; [apply (same_overlaps _ _ _ _ D), O|]. split; [apply (same_separates _ _ _ _ D), S|]. intros u U. apply M. apply (same_separates _ _ _ _ D), U.
  - split; [rewrite <- (same_overlaps _ _ _ _ D); exact O | apply (same_min_contact _ _ _ _ D), M].
Qed.
Section BoxPoint.
Context {T : Type} {TR : Transformation2d b32 T}.
Variables (h : vec2 b32) (rel : T).
Let p := apply_origin rel.
Let hx := val (vx h).
Let hy := val (vy h).
Let C := rval p.
Let X := Rabs (fst C) - hx.
Let Y := Rabs (snd C) - hy.
Hypotheses (Fp : small2 p 59) (Fh : small2 h 59) (Hx : 0 <= hx) (Hy : 0 <= hy).
Lemma box_core : exists (c : bool) v, (forall P D : bool, box_point_sdfv P D (Box2d h) rel = (c, if c then (if P then v else v2nan) else if D then v else v2nan)) /\
  fin2 v /\ (c = true <-> overlaps (rect hx hy) (single C)) /\
  exists w, true_answer (rect hx hy) (single C) w /\ norm (psub (rval v) w) <= u32 * norm w.
Proof.
  pose proof (box_part_flag h rel Fp Fh) as BF. fold p C hx hy X Y in BF.
  destruct Fp as [[F1 F2] [S1 S2]]. destruct Fh as [[F3 F4] [S3 S4]]. pose proof u32_pos as Up. pose proof u32_small as Us.
  assert (W : forall a, small a 59 -> small a 60) by (intros a Ha; eapply small_weak; [|exact Ha]; lia).
  destruct (edge_ok (vx p) (vx h) F1 F3 (W _ S1) (W _ S3)) as (Dx1 & Dx2 & ex & Ex1 & Ex2).
  destruct (edge_ok (vy p) (vy h) F2 F4 (W _ S2) (W _ S4)) as (Dy1 & Dy2 & ey & Ey1 & Ey2).
  destruct (sb_sgn (vx p) F1) as (s & Bs & Gs). destruct (sb_sgn (vy p) F2) as (t & Bt & Gt).
  change (Rabs (val (vx p)) - val (vx h)) with X in * . change (Rabs (val (vy p)) - val (vy h)) with Y in * .
  change (val (vx p)) with (fst C) in Gs. change (val (vy p)) with (snd C) in Gt.
  assert (Px : 0 < 1 + ex) by (apply fac_pos, Ex1). assert (Py : 0 < 1 + ey) by (apply fac_pos, Ey1).
  pose proof (rounded_0 hx hy) as R0. pose proof (Rle_refl 0) as Z.
  unfold box_point_sdfv in BF |- * . cbn [halfsize] in BF |- * . fold p in BF |- * .
  set (dx := fsub (fabs (vx p)) (vx h)) in * . set (dy := fsub (fabs (vy p)) (vy h)) in * .
  rewrite (sb_signum s _ Bs), (sb_signum t _ Bt).
  destruct (mul_one_r s dx Dx1) as [Cx1 Cx2]. destruct (mul_one_r t dy Dy1) as [Cy1 Cy2].
  assert (FL : fnegsign dx && fnegsign dy = Rltb X 0 && Rltb Y 0) by (destruct (fnegsign dx && fnegsign dy); exact BF).
  rewrite FL. destruct (Rltb_spec X 0) as [X0|X0]; [destruct (Rltb_spec Y 0) as [Y0|Y0]|]; cbn [andb].
  - rewrite flt_fin by assumption. destruct (Rltb_spec (val dy) (val dx)) as [Q|Q].
    + exists true, (V2 (fmul dx (one s)) f0). split; [intros; reflexivity|]. split; [split; [exact Cx1 | reflexivity]|].
      assert (YX : Y <= X). { apply Rnot_lt_le. intro K. assert (rnd X <= rnd Y) by (apply rnd_le; lra). lra. }
      assert (G : geo_sep (rect hx hy) C ((X - 0) * sg s, 0)).
      { apply (geo_sep_ext _ _ _ _ R0). apply (sep_sign_x hx hy 0 C); [apply inside_x; assumption | exact Gs]. }
      split; [split; [intros _; exact (proj1 G) | reflexivity]|]. exists ((X - 0) * sg s, 0). split; [apply true_sep, G|].
      rewrite norm_ax. apply near_x; [reflexivity|]. cbn [vx]. rewrite Cx2, Ex2, Rminus_0_r. replace (X * (1 + ex) * sg s - X * sg s) with ((X * (1 + ex) - X) * sg s) by ring.
      rewrite Rabs_mult, abs_sg, Rmult_1_r. apply err_rel, Ex1.
    + exists true, (V2 f0 (fmul dy (one t))). split; [intros; reflexivity|]. split; [split; [reflexivity | exact Cy1]|].
      assert (SP : separates (0, (Y - 0) * sg t) (rect hx hy) (single C)).
      { apply (same_separates _ _ _ _ (diff_ext _ _ _ _ R0 (fun _ => iff_refl _))). apply (sep_by_y hx hy 0 C); assumption. }
      assert (TA : true_answer (rect hx hy) (single C) (0, (Y - 0) * sg t) /\ overlaps (rect hx hy) (single C)).
      { destruct (Rle_or_lt X Y) as [XY|YX].
        - apply true_flag_sep, (geo_sep_ext _ _ _ _ R0), (sep_sign_y hx hy 0 C); [apply inside_y; assumption | exact Gt].
        - assert (G : geo_sep (rect hx hy) C ((X - 0) * rsign (fst C), 0)) by (apply (geo_sep_ext _ _ _ _ R0), inside_x; try assumption; fold X Y; lra).
          split; [|exact (proj1 G)]. left. split; [exact (proj1 G)|]. split; [exact SP|]. intros w Hw.
          pose proof (proj2 (proj2 G) w Hw) as N. rewrite norm_ay, (Rabs_left (Y - 0)) by lra.
          rewrite norm_xaxis, Rabs_mult, rsign_abs, (Rabs_left (X - 0)) in N by lra.
          assert (XYe : X * (1 + ex) <= Y * (1 + ey)) by lra.
          apply abs_le2' in Ex1. apply abs_le2' in Ey1.
          assert (- Y <= - X * (1 + 3 * u32)) by nra. nra. }
      destruct TA as [TA OV]. split; [split; [intros _; exact OV | reflexivity]|]. exists (0, (Y - 0) * sg t). split; [exact TA|].
      rewrite norm_ay. apply near_y; [reflexivity|]. cbn [vy]. rewrite Cy2, Ey2, Rminus_0_r. replace (Y * (1 + ey) * sg t - Y * sg t) with ((Y * (1 + ey) - Y) * sg t) by ring.
      rewrite Rabs_mult, abs_sg, Rmult_1_r. apply err_rel, Ey1.
  - destruct (max0 dx Dx1) as [Mx1 Mx2]. destruct (max0 dy Dy1) as [My1 My2]. destruct (mul_one_r s _ Mx1) as [Vx1 Vx2]. destruct (mul_one_r t _ My1) as [Vy1 Vy2].
    exists false, (V2 (fmul (fmax dx f0) (one s)) (fmul (fmax dy f0) (one t))). split; [intros P D; reflexivity|]. split; [split; assumption|].
    assert (G : geo_con (rect hx hy) C (0, (Y - 0) * sg t)).
    { apply (geo_con_ext _ _ _ _ R0), (con_sign_y hx hy 0 C); [apply face_y_out; try assumption; fold X Y; lra | exact Gt]. }
    split; [split; [discriminate | intro O; contradiction (proj1 G)]|]. exists (0, (Y - 0) * sg t). split; [apply true_con, G|].
    apply norm_comp; [lra| |]; unfold rval, psub; cbn [fst snd vx vy].
    + rewrite Vx2, Mx2, Ex2, max_fac, Rmax_right by lra. rewrite !Rmult_0_l, Rminus_0_r, Rabs_R0. lra.
    + rewrite Vy2, My2, Ey2, max_fac, Rmax_left by lra. replace (Y * (1 + ey) * sg t - (Y - 0) * sg t) with ((Y * (1 + ey) - Y) * sg t) by ring.
      rewrite !Rabs_mult, abs_sg, !Rmult_1_r, Rminus_0_r. apply err_rel, Ey1.
  - destruct (max0 dx Dx1) as [Mx1 Mx2]. destruct (max0 dy Dy1) as [My1 My2]. destruct (mul_one_r s _ Mx1) as [Vx1 Vx2]. destruct (mul_one_r t _ My1) as [Vy1 Vy2].
    exists false, (V2 (fmul (fmax dx f0) (one s)) (fmul (fmax dy f0) (one t))). split; [intros P D; reflexivity|]. split; [split; assumption|].
    set (w := (Rmax X 0 * sg s, Rmax Y 0 * sg t) : pt).
    assert (E : norm (psub (rval (V2 (fmul (fmax dx f0) (one s)) (fmul (fmax dy f0) (one t)))) w) <= u32 * norm w).
    { apply norm_comp; [lra| |]; unfold rval, psub, w; cbn [fst snd vx vy].
      - rewrite Vx2, Mx2, Ex2, max_fac by lra. replace (Rmax X 0 * (1 + ex) * sg s - Rmax X 0 * sg s) with ((Rmax X 0 * (1 + ex) - Rmax X 0) * sg s) by ring.
        rewrite !Rabs_mult, abs_sg, !Rmult_1_r. apply err_rel, Ex1.
      - rewrite Vy2, My2, Ey2, max_fac by lra. replace (Rmax Y 0 * (1 + ey) * sg t - Rmax Y 0 * sg t) with ((Rmax Y 0 * (1 + ey) - Rmax Y 0) * sg t) by ring.
        rewrite !Rabs_mult, abs_sg, !Rmult_1_r. apply err_rel, Ey1. }
    assert (G : geo_con (rect hx hy) C w).
    { apply (geo_con_ext _ _ _ _ R0). unfold w. rewrite (Rmax_left X) by lra. destruct (Rle_or_lt Y 0) as [YN|YP].
      - rewrite Rmax_right, Rmult_0_l by lra. replace X with (X - 0) by ring. apply (con_sign_x hx hy 0 C); [apply face_x_out; try assumption; fold X Y; lra | exact Gs].
      - rewrite (Rmax_left Y) by lra. assert (Ny : snd C <> 0) by (intro Ey; unfold Y in YP; rewrite Ey, Rabs_R0 in YP; lra). rewrite (sgn_nz t _ Gt Ny).
        destruct (Rle_lt_or_eq_dec 0 X) as [XP|XE]; [lra| |].
        + assert (Nx : fst C <> 0) by (intro Ex; unfold X in XP; rewrite Ex, Rabs_R0 in XP; lra). rewrite (sgn_nz s _ Gs Nx).
          pose proof (corner_L hx hy C XP YP) as LP. fold X Y in LP.
          pose proof (corner_out hx hy 0 C Hx Hy Z XP YP) as CO. fold X Y in CO. cbv zeta in CO. specialize (CO (Rlt_le _ _ LP)).
          match type of CO with geo_con _ _ ?q => replace (X * rsign (fst C), Y * rsign (snd C)) with q; [exact CO|] end.
          set (L := norm (X * rsign (fst C), Y * rsign (snd C))) in * . replace ((L - 0) / L) with 1 by (field; lra). unfold pscale. cbn [fst snd]. rewrite !Rmult_1_l. reflexivity.
        + rewrite <- XE, Rmult_0_l. replace Y with (Y - 0) at 1 by ring. apply face_y_out; try assumption; fold X Y; lra. }
    split; [split; [discriminate | intro O; contradiction (proj1 G)]|]. exists w. split; [apply true_con, G | exact E].
Qed.
End BoxPoint.

(** ** Balls *)
Lemma zero_len (p : vec2 b32) : fin2 p -> rval p = origin -> fin (v2len p) /\ val (v2len p) = 0.
Proof.
  intros [F1 F2] E. assert (Ex : val (vx p) = 0) by exact (f_equal fst E). assert (Ey : val (vy p) = 0) by exact (f_equal snd E).
  unfold v2len, v2dot.
  assert (M : forall x : b32, fin x -> val x = 0 -> fin (fmul x x) /\ val (fmul x x) = 0).
  { intros x F V. destruct (mul_ok x x F F) as [A B]; [rewrite V, Rmult_0_l, rnd_0, Rabs_R0; apply bpow_gt_0|]. split; [exact A|]. rewrite B, V, Rmult_0_l. apply rnd_0. }
  destruct (M _ F1 Ex) as [A1 B1]. destruct (M _ F2 Ey) as [A2 B2].
  destruct (add_ok _ _ A1 A2) as [A3 B3]; [rewrite B1, B2, Rplus_0_r, rnd_0, Rabs_R0; apply bpow_gt_0|]. rewrite B1, B2, Rplus_0_r, rnd_0 in B3.
  revert A3 B3. generalize (fadd (fmul (vx p) (vx p)) (fmul (vy p) (vy p))). intros q A3 B3.
  destruct (Bsqrt_correct 24 128 _ _ mode_NE q) as (Q1 & Q2 & _). split.
  - unfold fin. cbn. rewrite Q2. destruct q as [z|z| |z m e b]; try discriminate; [reflexivity|].
    exfalso. unfold val in B3. cbn in B3. apply eq_0_F2R in B3. cbn in B3. destruct z; discriminate.
  - change (B2R (Bsqrt mode_NE q) = 0). rewrite Q1. unfold val in B3. rewrite B3, sqrt_0. apply rnd_0.
Qed.
Lemma disc0_contact : is_min_contact origin (disc 0) (single origin).
Proof.
  split; [apply meets_single; unfold disc; replace (psub origin origin) with origin by (apply pt_eq; cbn; ring); rewrite norm_origin; lra|].
  intros w _. rewrite norm_origin. apply norm_nonneg.
Qed.
(** the common code of Ball v Point and Ball v Ball: R0 is the computed total radius, rho the true one *)
Definition ball_code (R0 : b32) (p : vec2 b32) : bool * vec2 b32 :=
  if flt f0 (v2len p) then (flt (v2len p) R0, v2muls p (fdiv (fsub (v2len p) R0) (v2len p))) else (true, v2smul R0 v2X).
Lemma ball_answer p R0 rho : fin2 p -> (rval p = origin \/ mid_range p) -> fin R0 -> small (val R0) 61 -> 0 <= rho -> Rabs (val R0 - rho) <= u32 * rho ->
  close_answer rho (disc rho) (single (rval p)) (fst (ball_code R0 p)) (snd (ball_code R0 p)).
Proof.
  intros Fp Hp FR SR Hrho HR. pose proof u32_pos as Up. pose proof u32_small as Us. unfold ball_code. destruct Hp as [E|M].
  - destruct (zero_len p Fp E) as [L1 L2]. rewrite flt_fin by (assumption || reflexivity). change (val (@f0 b32 _)) with 0. rewrite L2, Rltb_false by lra. cbn [fst snd].
    assert (V : fin2 (v2smul R0 v2X) /\ rval (v2smul R0 v2X) = (val R0, 0)).
    { unfold v2smul, v2X. destruct (mul_one_r true R0 FR) as [A1 A2]. cbn [one] in A1, A2. unfold sg in A2.
      assert (Fz : fin (@f0 b32 _)) by reflexivity. destruct (mul_ok R0 f0 FR Fz) as [B1 B2]; [change (val (@f0 b32 _)) with 0; rewrite Rmult_0_r, rnd_0, Rabs_R0; apply bpow_gt_0|].
      split; [split; assumption|]. unfold rval. cbn [vx vy]. rewrite A2, B2. change (val (@f0 b32 _)) with 0. rewrite Rmult_0_r, rnd_0. f_equal. ring. }
    destruct V as [V1 V2]. split; [exact V1|]. rewrite V2, E.
    assert (D : forall w : pt, w = (rho, 0) -> norm (psub (val R0, 0) w) <= 16 * u32 * (norm w + 2 * rho)).
    { intros w ->. replace (psub (val R0, 0) (rho, 0)) with (val R0 - rho, 0) by (apply pt_eq; cbn; ring). rewrite !norm_xaxis, (Rabs_pos_eq rho) by exact Hrho. nra. }
    destruct (Rle_lt_or_eq_dec 0 rho Hrho) as [P|P].
    + exists (rho, 0). pose proof (disc_centre rho P) as G. split; [apply true_sep, G|]. split; [apply D; reflexivity|]. intros _. split; [intros _; exact (proj1 G) | reflexivity].
    + exists origin. split; [|split].
      * right. rewrite <- P. split; [exact disc0_not_overlap | exact disc0_contact].
      * apply D. rewrite <- P. reflexivity.
      * rewrite norm_origin, <- P. intro K. lra.
  - destruct (ball_core p R0 rho M FR SR Hrho HR) as [V1 V2]. destruct (length_ok p M) as [F1 E1]. set (L := rlen p) in * .
    assert (HL : 0 < L) by (eapply Rlt_le_trans; [apply bpow_gt_0 | exact (proj2 M)]).
    rewrite flt_fin by (assumption || reflexivity). change (val (@f0 b32 _)) with 0. rewrite Rltb_true by (apply abs_le2' in E1; nra). cbn [fst snd].
    assert (NL : norm (rval p) = L) by reflexivity.
    assert (NZ : rval p <> origin) by (intro K; rewrite K, norm_origin in NL; lra).
    assert (NW : norm (pscale ((L - rho) / L) (rval p)) = Rabs (L - rho)).
    { rewrite norm_scale, NL. unfold Rdiv. rewrite Rabs_mult, (Rabs_pos_eq (/ L)) by (left; apply Rinv_0_lt_compat, HL). field. lra. }
    assert (QQ : L + rho <= Rabs (L - rho) + 2 * rho) by (unfold Rabs; destruct Rcase_abs; lra).
    split; [exact V1|]. exists (pscale ((L - rho) / L) (rval p)). rewrite NW. split; [|split].
    + destruct (Rlt_or_le L rho) as [K|K]; [apply true_sep; rewrite <- NL; apply disc_in; assumption | apply true_con; rewrite <- NL; apply disc_out; assumption].
    + eapply Rle_trans; [exact V2|]. nra.
    + intro H. assert (HF : flt (v2len p) R0 = true <-> val (v2len p) - (val R0 - rho) < rho).
      { rewrite flt_fin by assumption. destruct (Rltb_spec (val (v2len p)) (val R0)); split; intro; (reflexivity || discriminate || lra). }
      assert (EB : Rabs (val (v2len p) - (val R0 - rho) - L) <= 16 * u32 * (Rabs (L - rho) + 2 * rho)).
      { apply abs_le2' in E1. apply abs_le2' in HR. apply Rabs_le. nra. }
      rewrite (verdict L rho _ _ Hrho HF EB H). destruct (Rlt_or_le L rho) as [K|K]; split; intro Q; try lra.
      * apply disc_in; assumption.
      * exfalso. exact (proj1 (disc_out rho (rval p) Hrho K NZ) Q).
Qed.
