(** * Grid polygons: the exact twin of a binary32 pair. *)
From Coq Require Import Reals ZArith Bool Lra Lia List Psatz.
From Flocq Require Import IEEE754.BinarySingleNaN Core Relative.
From Verif Require Import Num NumXR NumB32 Glam Transform2 Shapes2 Gjk Detect2 Spec SpecLink SpecGjk P_Base P_Transform P_Shapes P_Geo P_GjkShape P_Gjk P_Gjk2 P_Gjk3 P_Dist P_Scene
  Props_Gjk Props_Dist P_B32 Props_F32 P_Grid32 P_Grid32b P_Grid32e P_Grid32h.
Import ListNotations.
Local Open Scope R_scope.

Section Poly.
Variable e : Z.
Hypothesis He : (-7 <= e <= 14)%Z.
(** a point at most N grid steps from the axes, in both arithmetics *)
Definition ptn (N : Z) (p : vec2 b32) (p' : vec2 XR) : Prop := exists z, (Z.abs (fst z) <= N /\ Z.abs (snd z) <= N)%Z /\ iv e 1 z p p'.
Lemma ptn_pti N p p' : (N <= 32)%Z -> ptn N p p' -> pti e p p'.
Proof. intros L (z & [X Y] & I). exists z. split; [split; lia | exact I]. Qed.
Lemma ptn_le N N' p p' : (N <= N')%Z -> ptn N p p' -> ptn N' p p'.
Proof. intros L (z & [X Y] & I). exists z. split; [lia | exact I]. Qed.
Lemma max_same : fin (fminval (F:=b32)) /\ (fminval (F:=XR)) = XFin (val (fminval (F:=b32))).
Proof.
  split; [reflexivity|]. change (fminval (F:=XR)) with (XFin (- IZR ((2 ^ 24 - 1) * 2 ^ 104))). f_equal. symmetry.
  unfold fminval. rewrite val_neg. f_equal. unfold val. cbn [fmaxval FloatB32].
  pose proof (binary_normalize_correct 24 128 _ _ mode_NE (2 ^ 24 - 1) 104 false) as C. cbn zeta in C.
  assert (R0 : round radix2 (SpecFloat.fexp 24 128) (round_mode mode_NE) (F2R (Defs.Float radix2 (2 ^ 24 - 1) 104)) = IZR ((2 ^ 24 - 1) * 2 ^ 104)).
  { transitivity (IZR (2 ^ 24 - 1) * bpow radix2 104); [|rewrite mult_IZR; reflexivity]. apply rnd_dyadic; lia. }
  rewrite R0, Rlt_bool_true in C. { exact (proj1 C). }
  rewrite Rabs_pos_eq by (apply IZR_le; lia). change (bpow radix2 128) with (IZR (2 ^ 128)). apply IZR_lt. reflexivity.
Qed.
Definition same_acc (N : Z) (x : b32 * vec2 b32) (y : XR * vec2 XR) : Prop := fin (fst x) /\ fst y = XFin (val (fst x)) /\ ptn N (snd x) (snd y).
Lemma poly_same N d d' l l' : (N <= 32)%Z -> (0 <= N)%Z -> diri e d d' -> Forall2 (ptn N) l l' -> ptn N (extreme_point (Poly2d l) d) (extreme_point (Poly2d l') d').
Proof.
  intros L N0 D FL. unfold extreme_point, Ext_Poly. cbn [points].
  assert (H : forall x y, same_acc N x y -> same_acc N (fold_left (poly_step d) l x) (fold_left (poly_step d') l' y)).
  { induction FL as [|p p' l l' P FL IH]; intros x y A; [exact A|]. cbn [fold_left]. apply IH. clear IH FL.
    destruct A as (F & E & Q). destruct (dot_dp e He p p' d d' (ptn_pti N _ _ L P) D) as (k & n & (F1 & V1 & E1)). unfold poly_step. cbn zeta.
    assert (ES : v2dot d' p' = XFin (val (v2dot d p))) by (rewrite E1, V1; reflexivity).
    assert (T : flt (fst x) (v2dot d p) = flt (fst y) (v2dot d' p')) by (rewrite flt_fin, ES, E by assumption; reflexivity). rewrite <- T.
    destruct (flt (fst x) (v2dot d p)); [|split; [|split]; assumption]. split; [exact F1|]. split; [exact ES | exact P]. }
  apply H. destruct max_same as [F E]. split; [exact F|]. split; [exact E|]. exists (0, 0)%Z. split; [cbn; lia|]. split; apply is_zero.
Qed.
Lemma eps_same : fin (feps (F:=b32)) /\ (feps (F:=XR)) = XFin (val (feps (F:=b32))).
Proof.
  split; [reflexivity|]. destruct (val_of 1 (-23) ltac:(lia) ltac:(lia)) as [F V]. change (feps (F:=b32)) with (b32_of 1 (-23)).
  rewrite V. change (feps (F:=XR)) with (XFin (/ IZR (2 ^ 23))). f_equal. cbn. lra.
Qed.

(** ** a placed pair *)
Context {T32 : Type} {TR32 : Transformation2d b32 T32} {TX : Type} {TRX : Transformation2d XR TX}.
Variables (la lb : list (vec2 b32)) (t32 : T32) (tX : TX) (Na Nb Np : Z) (v : pt) (c s k : R).
Hypothesis Hla : Forall2 (ptn Na) la (map (fun p => inj (rv p)) la).
Hypothesis Hlb : Forall2 (ptn Nb) lb (map (fun p => inj (rv p)) lb).
Hypothesis HN : (0 <= Na /\ 0 <= Nb <= 32 /\ 0 <= Np /\ Na + Np <= 32)%Z.
Hypothesis Hap : forall p p', ptn Nb p p' -> ptn Np (apply t32 p) (apply tX p').
Hypothesis Hun : forall d d', diri e d d' -> diri e (unapply_normal t32 d) (unapply_normal tX d').
Hypothesis Hor : ptn 32 (apply_origin t32) (apply_origin tX).

Definition twin (l : list (vec2 b32)) : shape2d XR := SPoly (ppoly (map rv l)).
Lemma twin_points l d : extreme_point (twin l) d = extreme_point (Poly2d (map (fun p => inj (rv p)) l)) d.
Proof. unfold twin, ppoly. rewrite map_map. reflexivity. Qed.
Lemma lmd_same d d' : diri e d d' -> pti e (lmd_extreme_point (Poly2d la) (Poly2d lb) t32 d) (lmd_extreme_point (twin la) (twin lb) tX d').
Proof.
  intro D. unfold lmd_extreme_point. rewrite !twin_points.
  destruct (poly_same Na d d' _ _ ltac:(lia) ltac:(lia) D Hla) as (za & [A1 A2] & IA).
  pose proof (Hun _ _ (diri_neg e _ _ D)) as D2.
  destruct (Hap _ _ (poly_same Nb _ _ _ _ ltac:(lia) ltac:(lia) D2 Hlb)) as (zb & [B1 B2] & IB).
  exists (fst za - fst zb, snd za - snd zb)%Z. split; [split; cbn [fst snd]; lia|].
  apply (iv_sub e He); try assumption; lia.
Qed.
Lemma initial_same : diri e (lmd_initial_direction t32) (lmd_initial_direction tX).
Proof.
  unfold lmd_initial_direction. destruct Hor as (z & [X Y] & I). pose proof (abs_mul (fst z) (fst z) 32 32 X X). pose proof (abs_mul (snd z) (snd z) 32 32 Y Y).
  assert (D : is e (1 + 1) (fst z * fst z + snd z * snd z) (v2lensq (apply_origin t32)) (v2lensq (apply_origin tX))).
  { apply (iv_dot e He 1 1 z _ _ z); try assumption; lia. }
  destruct D as (F & V & E). destruct eps_same as [FE EE].
  assert (T : flt (v2lensq (apply_origin t32)) feps = flt (v2lensq (apply_origin tX)) feps) by (rewrite flt_fin, V, E, EE by assumption; reflexivity).
  rewrite T. destruct (flt (v2lensq (apply_origin tX)) feps); [apply diri_x|]. exists 1%Z, z. split; [lia|]. split; [lia | exact I].
Qed.

(** ** what the pair means *)
Hypothesis Hne : la <> [] /\ lb <> [].
Hypothesis Hact : acts_as tX v c s k.
Hypothesis Hu : c * c + s * s = 1.
Hypothesis Hk : 0 <= k <= 32.
Hypothesis Hint : exists ci si ki, c = IZR ci /\ s = IZR si /\ k = IZR ki.
Let A := hull (map rv la).
Let B := image (place v c s k k) (hull (map rv lb)).

Lemma ptn_val N p : ptn N p (inj (rv p)) -> exists m n, (Z.abs m <= N /\ Z.abs n <= N)%Z /\ rv p = (IZR m * bpow radix2 e, IZR n * bpow radix2 e).
Proof.
  intros ([m n] & B0 & [(_ & X & _) (_ & Y & _)]). cbn [fst snd] in * . rewrite Z.mul_1_l in X, Y. exists m, n. split; [exact B0|]. unfold rv. rewrite X, Y. reflexivity.
Qed.
Lemma int_norm N m n : (0 <= N <= 32)%Z -> (Z.abs m <= N /\ Z.abs n <= N)%Z -> norm (IZR m * bpow radix2 e, IZR n * bpow radix2 e) <= 1048576.
Proof.
  intros BN [M1 N1]. eapply Rle_trans; [apply norm_sum|]. cbn [fst snd].
  assert (H : forall z, (Z.abs z <= 32)%Z -> Rabs (IZR z * bpow radix2 e) <= 524288).
  { intros z Hz. rewrite Rabs_mult, (Rabs_pos_eq (bpow _ _)) by apply bpow_ge_0. rewrite <- abs_IZR.
    replace 524288 with (IZR 32 * bpow radix2 14) by (cbn; lra). apply Rmult_le_compat; [apply IZR_le; lia | apply bpow_ge_0 | apply IZR_le; lia | apply bpow_le; lia]. }
  pose proof (H m ltac:(lia)). pose proof (H n ltac:(lia)). lra.
Qed.
Lemma int_grid m n : pt_on_grid (IZR m * bpow radix2 e, IZR n * bpow radix2 e).
Proof.
  assert (H : forall z, on_grid (IZR z * bpow radix2 e)).
  { intro z. exists (z * 2 ^ (e + 7))%Z. rewrite mult_IZR. change 2%Z with (radix_val radix2). rewrite IZR_Zpower by lia.
    replace e with (e + 7 + - 7)%Z at 1 by ring. rewrite bpow_plus. change (bpow radix2 (-7)) with (/ 128). unfold Rdiv. ring. }
  split; apply H.
Qed.
Lemma list_val N l : Forall2 (ptn N) l (map (fun p => inj (rv p)) l) -> forall q, In q (map rv l) -> exists m n, (Z.abs m <= N /\ Z.abs n <= N)%Z /\ q = (IZR m * bpow radix2 e, IZR n * bpow radix2 e).
Proof.
  induction l as [|p l IH]; cbn; intros F q I; [contradiction|]. inversion F as [|? ? ? ? P F']; subst. destruct I as [<-|I]; [apply (ptn_val N), P | apply (IH F' q I)].
Qed.
Lemma v_val : exists m n, (Z.abs m <= 32 /\ Z.abs n <= 32)%Z /\ v = (IZR m * bpow radix2 e, IZR n * bpow radix2 e).
Proof.
  destruct Hact as (_ & O & _). rewrite O in Hor. destruct Hor as ([m n] & B0 & [(_ & _ & X) (_ & _ & Y)]). cbn [fst snd vx vy inj] in * .
  rewrite Z.mul_1_l in X, Y. exists m, n. split; [exact B0|]. apply pt_eq; cbn [fst snd]; congruence.
Qed.
Lemma map_ne {X Y} (f : X -> Y) l : l <> [] -> map f l <> []. Proof. destruct l; [contradiction | discriminate]. Qed.
Lemma the_scene : scene (twin la) (twin lb) tX A B.
Proof.
  apply (Scene _ _ _ _ _ 1048576 v c s k (hull (map rv lb))).
  - apply body_poly; [apply map_ne, Hne|]. intros p I. destruct (list_val _ _ Hla p I) as (m & n & Bz & ->).
    pose proof (int_norm Na m n ltac:(lia) Bz). unfold world. lra.
  - apply body_poly; [apply map_ne, Hne|]. intros p I. destruct (list_val _ _ Hlb p I) as (m & n & Bz & ->). apply (int_norm Nb m n ltac:(lia) Bz).
  - unfold world. lra.
  - unfold world. nra.
  - exact Hact.
  - exact Hu.
  - lra.
  - destruct v_val as (m & n & Bz & ->). pose proof (int_norm 32 m n ltac:(lia) Bz). unfold world. lra.
  - reflexivity.
Qed.
Lemma grid_int x z : on_grid x -> on_grid (IZR z * x).
Proof. intros (n & ->). exists (z * n)%Z. rewrite mult_IZR. field. Qed.
Lemma grid_add x y : on_grid x -> on_grid y -> on_grid (x + y).
Proof. intros (n & ->) (m & ->). exists (n + m)%Z. rewrite plus_IZR. field. Qed.
Lemma grid_min x y : on_grid x -> on_grid y -> on_grid (x - y).
Proof. intros (n & ->) (m & ->). exists (n - m)%Z. rewrite minus_IZR. field. Qed.
Lemma grid_place q : pt_on_grid v -> pt_on_grid q -> pt_on_grid (place v c s k k q).
Proof.
  intros [V1 V2] [Q1 Q2]. destruct Hint as (ci & si & ki & -> & -> & ->). unfold place. split; cbn [fst snd].
  - apply grid_add; [|exact V1]. apply grid_min; apply grid_int; apply grid_int; assumption.
  - apply grid_add; [|exact V2]. apply grid_add; apply grid_int; apply grid_int; assumption.
Qed.
Lemma the_resolved : resolved (twin la) (twin lb) tX.
Proof.
  assert (GA : forall q, In q (map rv la) -> pt_on_grid q) by (intros q I; destruct (list_val _ _ Hla q I) as (m & n & _ & ->); apply int_grid).
  assert (GB : forall q, In q (map rv lb) -> pt_on_grid q) by (intros q I; destruct (list_val _ _ Hlb q I) as (m & n & _ & ->); apply int_grid).
  assert (BA : body world (twin la) A).
  { apply body_poly; [apply map_ne, Hne|]. intros p I. destruct (list_val _ _ Hla p I) as (m & n & Bz & ->). pose proof (int_norm Na m n ltac:(lia) Bz). unfold world. lra. }
  assert (BB : body 1048576 (twin lb) (hull (map rv lb))).
  { apply body_poly; [apply map_ne, Hne|]. intros p I. destruct (list_val _ _ Hlb p I) as (m & n & Bz & ->). apply (int_norm Nb m n ltac:(lia) Bz). }
  destruct (corner_values world (twin la) A _ BA (Rle_refl _) eq_refl) as (ps & _ & HP & GP).
  destruct (corner_values 1048576 (twin lb) _ _ BB ltac:(unfold world; lra) eq_refl) as (qs & _ & HQ & GQ).
  assert (SA : shape_on_grid (twin la)). { intros q I. cbn in I. apply in_map_iff in I. destruct I as (h & <- & I). exists h. split; [reflexivity | apply GA, I]. }
  assert (SB : shape_on_grid (twin lb)). { intros q I. cbn in I. apply in_map_iff in I. destruct I as (h & <- & I). exists h. split; [reflexivity | apply GB, I]. }
  assert (GV : pt_on_grid v) by (destruct v_val as (m & n & _ & ->); apply int_grid).
  assert (G : forall x, support_value (twin la) (twin lb) tX x -> pt_on_grid x).
  { intros x Hx. pose proof (lmd_values ps qs (twin la) (twin lb) tX v c s k Hact Hu HP HQ x Hx) as I.
    apply in_map_iff in I. destruct I as ([p q] & <- & I). apply in_prod_iff in I. destruct I as [Ip Iq]. cbn [fst snd].
    apply grid_sub; [apply (GP SA p Ip) | apply grid_place; [exact GV | apply (GQ SB q Iq)]]. }
  intros x y z X Y Z. pose proof (G x X) as Gx. pose proof (G y Y) as Gy. pose proof (G z Z) as Gz.
  pose proof eps_grid as EG. split; [|split].
  - destruct (grid_norm x Gx) as [H|H]; [left; exact H | right; lra].
  - apply grid_prod; [apply grid_norm, grid_sub; assumption | apply grid_cross; assumption].
  - apply grid_prod; [apply grid_norm, grid_sub; assumption | apply grid_cross; apply grid_sub; assumption].
Qed.
Theorem pair_sound P D : exists r w, sdfv_common_rel (F:=b32) P D (Poly2d la) (Poly2d lb) t32 = Ok (r, w) /\ (r = true -> meets A B).
Proof. exact (sound32 e He (twin la) (twin lb) tX A B the_scene _ _ lmd_same initial_same the_resolved P D). Qed.
Theorem pair_hits P D : (length la * length lb <= 20)%nat -> overlaps A B -> exists w, sdfv_common_rel (F:=b32) P D (Poly2d la) (Poly2d lb) t32 = Ok (true, w).
Proof.
  intros L O. apply (hits32 e He (twin la) (twin lb) tX A B the_scene _ _ lmd_same initial_same the_resolved P D); [|exact O].
  apply (few_corners (twin la) (twin lb) tX A B (length la) (length lb) the_scene); [| |exact L]; cbn; rewrite !map_length; reflexivity.
Qed.
Theorem pair_vector D : (length la * length lb <= 20)%nat -> overlaps A B ->
  exists x w, sdfv_common_rel (F:=b32) true D (Poly2d la) (Poly2d lb) t32 = Ok (true, x) /\ near e x w /\ near_min2 A B w.
Proof.
  intros L O. apply (vector32 e He (twin la) (twin lb) tX A B the_scene _ _ lmd_same initial_same the_resolved D); [|exact O].
  apply (few_corners (twin la) (twin lb) tX A B (length la) (length lb) the_scene); [| |exact L]; cbn; rewrite !map_length; reflexivity.
Qed.
Theorem pair_distance P x : sdfv_common_rel (F:=b32) P true (Poly2d la) (Poly2d lb) t32 = Ok (false, x) -> exists w, near e x w /\ meets (shift w A) B.
Proof. exact (distance32 e He (twin la) (twin lb) tX A B the_scene _ _ lmd_same initial_same the_resolved P x). Qed.
End Poly.
