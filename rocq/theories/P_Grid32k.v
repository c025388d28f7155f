(** * Boxes and polygons on a small grid: the f32 support point of a placed pair. *)
From Coq Require Import Reals ZArith Bool Lra Lia List Psatz.
From Flocq Require Import IEEE754.BinarySingleNaN Core Relative.
From Verif Require Import Num NumXR NumB32 Glam Transform2 Shapes2 Gjk Detect2 Spec SpecLink SpecGjk P_Base P_Transform P_Shapes P_Geo P_GjkShape P_Gjk P_Gjk2 P_Gjk3 P_Dist P_Scene
  Props_Gjk Props_Dist P_B32 Props_F32 P_F32Box P_Grid32 P_Grid32b P_Grid32e P_Grid32f P_Grid32g P_Grid32h P_Grid32c P_Grid32i P_Grid32j.
Import ListNotations.
Local Open Scope R_scope.

Lemma body_mono L L' a A : L <= L' -> body L a A -> body L' a A.
Proof.
  intros LL [r Hr|hx hy Hx Hy Hn|ps N Hn]; [apply body_ball; lra | apply body_box; lra | apply body_poly; [exact N|]].
  intros p I. pose proof (Hn p I). lra.
Qed.

Section Pair.
Variable e : Z.
Hypothesis He : (-7 <= e <= 14)%Z.
(** the binary32 shape [a], its exact twin, the set it stands for and that set's corners *)
Record solid (N : Z) (a : shape2d b32) (aX : shape2d XR) (A : pset) (C : list pt) : Prop := {
  so_body : body 1048576 aX A;
  so_twin : forall d, norm d <= reach -> exists p, In p C /\ extreme_point aX (inj d) = inj p;
  so_in : forall p, In p C -> A p;
  so_grid : forall p, In p C -> pt_on_grid p;
  so_sup : forall d, diri e d (inj (rv d)) -> exists w, ptn e N (extreme_point a d) (inj w) /\ is_farthest A (rv d) w /\ In w C }.

Lemma solid_poly N l : (0 <= N <= 32)%Z -> l <> [] -> Forall2 (ptn e N) l (map (fun p => inj (rv p)) l) ->
  solid N (SPoly (Poly2d l)) (twin l) (hull (map rv l)) (map rv l).
Proof.
  intros BN Ne F.
  assert (HB : forall p, In p (map rv l) -> norm p <= 1048576) by (intros p I; destruct (list_val e N l F p I) as (m & n & Bz & ->); apply (int_norm e He N m n BN Bz)).
  assert (HR : forall d, norm d <= reach -> exists q, In q (map rv l) /\ - f32_max < pdot d q).
  { intros d Hd. destruct l as [|q0 l0]; [contradiction|]. exists (rv q0). split; [left; reflexivity|].
    pose proof (cauchy_abs d (rv q0)) as C. pose proof (HB (rv q0) (or_introl eq_refl)) as Hq. pose proof reach_world. pose proof (norm_nonneg (rv q0)). pose proof (norm_nonneg d).
    assert (norm d * norm (rv q0) <= reach * world) by (apply prod_bound; unfold world; lra).
    assert (RB : Rabs (pdot d (rv q0)) < f32_max) by lra. apply Rabs_def2 in RB. lra. }
  split.
  - apply body_poly; [apply map_ne, Ne | exact HB].
  - intros d Hd. destruct (poly_farthest (map rv l) d (HR d Hd)) as (p & E & I & _). exists p. split; [exact I | exact E].
  - intros p I. apply hull_in, I.
  - intros p I. destruct (list_val e N l F p I) as (m & n & _ & ->). apply (int_grid e He).
  - intros d D. destruct (diri_rv e d _ He D) as [_ Nd]. destruct (poly_farthest (map rv l) (rv d) (HR _ Nd)) as (p & E & I & FP).
    exists p. split; [|split; [exact FP | exact I]]. rewrite <- E. change (extreme_point (SPoly (Poly2d l)) d) with (extreme_point (Poly2d l) d).
    unfold ppoly. rewrite map_map. apply (poly_same e He N d _ _ _ (proj2 BN) (proj1 BN) D F).
Qed.
Definition box_corners (hx hy : R) : list pt := [(hx, hy); (hx, - hy); (- hx, hy); (- hx, - hy)].
Lemma sign_ok x : fin x -> exists g : bool, fsignum x = one g /\ 0 <= sg g * val x.
Proof.
  intro F. exists (negb (fnegsign x)). pose proof (sb_dec x F) as S. split; [apply sb_signum, S|].
  destruct S as [_ S]. rewrite negb_involutive in S. change (fnegsign x) with (Bsign x). destruct x as [b|b| |b m ex Bd]; unfold fin in F; try discriminate F; cbn [Bsign].
  - unfold val; cbn. lra.
  - unfold val; cbn [B2R]. destruct b; cbn [negb sg cond_Zopp].
    + assert (H : F2R (Defs.Float radix2 (Z.neg m) ex) <= 0) by (apply F2R_le_0; cbn; lia). change (- Z.pos m)%Z with (Z.neg m). lra.
    + assert (H : 0 <= F2R (Defs.Float radix2 (Z.pos m) ex)) by (apply F2R_ge_0; cbn; lia). lra.
Qed.
Lemma sign_step (g : bool) (h : b32) (m : Z) : is e 1 m h (XFin (val h)) -> is e 1 (if g then m else - m)%Z (fmul (one g) h) (XFin (sg g * val h)).
Proof.
  intros (F & V & W). destruct (one_mul g h F) as [F' V']. split; [exact F'|]. rewrite V'. split; [|f_equal; rewrite V]; destruct g; cbn [sg]; rewrite ?V, ?opp_IZR; ring.
Qed.
Lemma solid_box N h : (0 <= N <= 32)%Z -> ptn e N h (inj (rv h)) -> 0 <= val (vx h) -> 0 <= val (vy h) ->
  solid N (SBox (Box2d h)) (SBox (pbox (val (vx h)) (val (vy h)))) (rect (val (vx h)) (val (vy h))) (box_corners (val (vx h)) (val (vy h))).
Proof.
  intros BN P HX HY. destruct (ptn_val e N h P) as (m0 & n0 & B0 & E0). destruct P as ([m n] & Bz & [IX IY]). cbn [fst snd] in * .
  assert (CS : forall gx gy : bool, In (sg gx * val (vx h), sg gy * val (vy h)) (box_corners (val (vx h)) (val (vy h)))).
  { intros [|] [|]; cbn [sg box_corners In]; rewrite ?Rmult_1_l; replace (-1 * val (vx h)) with (- val (vx h)) by ring; replace (-1 * val (vy h)) with (- val (vy h)) by ring; auto. }
  split.
  - apply body_box; try assumption. change (norm (rv h) <= 1048576). rewrite E0. apply (int_norm e He N m0 n0 BN B0).
  - intros d _. exists (rsign (fst d) * val (vx h), rsign (snd d) * val (vy h)). split; [|exact (ext_box (val (vx h)) (val (vy h)) d)].
    destruct (rsign_pm (fst d)) as [-> | ->]; destruct (rsign_pm (snd d)) as [-> | ->].
    + apply (CS true true). + apply (CS true false). + apply (CS false true). + apply (CS false false).
  - intros p [<-|[<-|[<-|[<-|[]]]]]; split; cbn; lra.
  - assert (GX : on_grid (val (vx h))) by (destruct (int_grid e He m0 n0) as [G _]; cbn [fst] in G; replace (val (vx h)) with (fst (rv h)) by reflexivity; rewrite E0; exact G).
    assert (GY : on_grid (val (vy h))) by (destruct (int_grid e He m0 n0) as [_ G]; cbn [snd] in G; replace (val (vy h)) with (snd (rv h)) by reflexivity; rewrite E0; exact G).
    assert (NG : forall x, on_grid x -> on_grid (- x)) by (intros x (z & ->); exists (- z)%Z; rewrite opp_IZR; field).
    intros p [<-|[<-|[<-|[<-|[]]]]]; split; cbn; auto.
  - intros d D. assert (FD : fin (vx d) /\ fin (vy d)) by (destruct D as (k & z & _ & _ & [(F1 & _) (F2 & _)]); split; assumption). destruct FD as [FX FY].
    destruct (sign_ok _ FX) as (gx & EX & SX). destruct (sign_ok _ FY) as (gy & EY & SY).
    exists (sg gx * val (vx h), sg gy * val (vy h)). split; [|split; [|apply CS]].
    + exists (if gx then m else - m, if gy then n else - n)%Z. split; [cbn [fst snd]; destruct gx, gy; lia|].
      change (extreme_point (SBox (Box2d h)) d) with (V2 (fmul (fsignum (vx d)) (vx h)) (fmul (fsignum (vy d)) (vy h))). rewrite EX, EY.
      split; apply sign_step; assumption.
    + split; [destruct gx, gy; split; cbn; lra|]. intros q [Q1 Q2]. unfold pdot, rv. cbn [fst snd].
      assert (H : forall g x t w, 0 <= sg g * x -> - w <= t <= w -> x * t <= x * (sg g * w)).
      { intros g x t w S T. destruct g; cbn [sg] in * ; nra. }
      pose proof (H gx _ _ _ SX Q1). pose proof (H gy _ _ _ SY Q2). lra.
Qed.

(** ** a placed pair *)
Context {T32 : Type} {TR32 : Transformation2d b32 T32} {TX : Type} {TRX : Transformation2d XR TX}.
Variables (a b : shape2d b32) (aX bX : shape2d XR) (A B0 : pset) (CA CB : list pt) (t32 : T32) (tX : TX) (Na Nb Np : Z) (v : pt) (c s k : R).
Hypothesis Ha : solid Na a aX A CA.
Hypothesis Hb : solid Nb b bX B0 CB.
Hypothesis HN : (0 <= Na /\ 0 <= Nb <= 32 /\ 0 <= Np /\ Na + Np <= 32)%Z.
Hypothesis Hap : forall p p', ptn e Nb p p' -> ptn e Np (apply t32 p) (apply tX p').
Hypothesis Hun : forall d d', diri e d d' -> diri e (unapply_normal t32 d) (unapply_normal tX d').
Hypothesis Hor : ptn e 32 (apply_origin t32) (apply_origin tX).
Hypothesis Hact : acts_as tX v c s k.
Hypothesis Hu : c * c + s * s = 1.
Hypothesis Hk : 0 <= k <= 32.
Hypothesis Hint : exists ci si ki, c = IZR ci /\ s = IZR si /\ k = IZR ki.
Let B := image (place v c s k k) B0.
Let M := minkowski_diff A B.
Let V := map (fun pq => psub (fst pq) (place v c s k k (snd pq))) (list_prod CA CB).

Lemma s_scene : scene aX bX tX A B.
Proof.
  apply (Scene _ _ _ _ _ 1048576 v c s k B0).
  - apply (body_mono 1048576); [unfold world; lra | apply Ha].
  - apply Hb.
  - unfold world. lra.
  - unfold world. nra.
  - exact Hact.
  - exact Hu.
  - lra.
  - destruct (v_val e t32 tX v c s k Hor Hact) as (m & n & Bz & ->). pose proof (int_norm e He 32 m n ltac:(lia) Bz). unfold world. lra.
  - reflexivity.
Qed.
Lemma s_In p q : In p CA -> In q CB -> In (psub p (place v c s k k q)) V.
Proof. intros P Q. apply in_map_iff. exists (p, q). split; [reflexivity | apply in_prod; assumption]. Qed.
Lemma s_VM w : In w V -> M w.
Proof.
  intro I. apply in_map_iff in I. destruct I as ([p q] & <- & I). apply in_prod_iff in I. destruct I as [Ip Iq]. cbn [fst snd].
  exists p, (place v c s k k q). split; [apply (so_in _ _ _ _ _ Ha), Ip|]. split; [|reflexivity]. exists q. split; [apply (so_in _ _ _ _ _ Hb), Iq | reflexivity].
Qed.
Lemma s_far d : norm d <= reach -> is_farthest M d (sreal aX bX tX d) /\ In (sreal aX bX tX d) V.
Proof.
  intro Hd. destruct (scene_facts aX bX tX A B s_scene) as (HS & HF & _). split; [apply HF, Hd|].
  apply (lmd_values CA CB aX bX tX v c s k Hact Hu (so_twin _ _ _ _ _ Ha) (so_twin _ _ _ _ _ Hb)). exists d. split; [exact Hd | apply HS, Hd].
Qed.
Lemma s_resolvable : resolvable (fun w => In w V).
Proof.
  assert (GV : pt_on_grid v) by (destruct (v_val e t32 tX v c s k Hor Hact) as (m & n & _ & ->); apply (int_grid e He)).
  assert (G : forall x, In x V -> pt_on_grid x).
  { intros x I. apply in_map_iff in I. destruct I as ([p q] & <- & I). apply in_prod_iff in I. destruct I as [Ip Iq]. cbn [fst snd].
    apply grid_sub; [apply (so_grid _ _ _ _ _ Ha), Ip|]. apply (grid_place [] tX v c s k Hact Hu Hk Hint); [exact GV | apply (so_grid _ _ _ _ _ Hb), Iq]. }
  intros x y z X Y Z. pose proof (G x X) as Gx. pose proof (G y Y) as Gy. pose proof (G z Z) as Gz.
  pose proof eps_grid as EG. split; [|split].
  - destruct (grid_norm x Gx) as [H|H]; [left; exact H | right; lra].
  - apply grid_prod; [apply grid_norm, grid_sub; assumption | apply grid_cross; assumption].
  - apply grid_prod; [apply grid_norm, grid_sub; assumption | apply grid_cross; apply grid_sub; assumption].
Qed.
Lemma s_sup d : diri e d (inj (rv d)) -> exists w, pti e (lmd_extreme_point a b t32 d) (inj w) /\ is_farthest M (rv d) w /\ In w V.
Proof.
  intro D. destruct (so_sup _ _ _ _ _ Ha d D) as (wa & (za & [A1 A2] & IA) & FA & CAw). pose proof Hact as (AP & _ & _ & AU & _).
  pose proof (Hun _ _ (diri_neg e _ _ D)) as D2. rewrite v2neg_inj, AU in D2.
  destruct (diri_rv e _ _ He D2) as [E2 _]. rewrite E2 in D2. apply inj_inj in E2.
  destruct (so_sup _ _ _ _ _ Hb _ D2) as (wb & PB & FB & CBw).
  destruct (Hap _ _ PB) as (zb & [B1 B2] & IB). rewrite AP in IB.
  exists (psub wa (place v c s k k wb)). split; [|split].
  - exists (fst za - fst zb, snd za - snd zb)%Z. split; [split; cbn [fst snd]; lia|].
    rewrite <- v2sub_inj. unfold lmd_extreme_point. apply (iv_sub e He); try assumption; lia.
  - apply farthest_diff; [exact FA|]. apply farthest_place; try assumption; [lra|]. rewrite E2. exact FB.
  - apply s_In; assumption.
Qed.
Lemma s_dir : exists d0, diri e (lmd_initial_direction t32) (inj d0) /\ d0 <> origin.
Proof.
  destruct (scene_facts aX bX tX A B s_scene) as (_ & _ & _ & _ & d0 & E & N & _). exists d0. split; [|exact N]. rewrite <- E. apply (initial_same e He t32 tX Hor).
Qed.
Lemma K0' : 2 * (2 * 10 ^ 19) <= reach. Proof. unfold reach, world. lra. Qed.
Lemma s_len : length V = (length CA * length CB)%nat. Proof. unfold V. rewrite map_length, prod_length. reflexivity. Qed.

Theorem solid_sound P D : exists r w, sdfv_common_rel (F:=b32) P D a b t32 = Ok (r, w) /\ (r = true -> meets A B).
Proof.
  destruct (scene_facts aX bX tX A B s_scene) as (_ & _ & HM & HC & _). destruct s_dir as (d0 & Hd & Nd).
  destruct (soundW e He M V reach (3 * world) (sreal aX bX tX) HM K0' K1' K3' HC s_far s_VM s_resolvable _ s_sup _ d0 Hd Nd P D) as (r & w & E & R).
  exists r, w. split; [exact E|]. intro T. apply origin_meets, R, T.
Qed.
Theorem solid_hits P D : (length CA * length CB <= 20)%nat -> overlaps A B -> exists w, sdfv_common_rel (F:=b32) P D a b t32 = Ok (true, w).
Proof.
  intros L O. destruct (scene_facts aX bX tX A B s_scene) as (_ & _ & HM & HC & _). destruct s_dir as (d0 & Hd & Nd).
  exact (hitsW e He M V reach (3 * world) (sreal aX bX tX) HM K0' K1' K3' HC s_far s_VM s_resolvable _ s_sup _ d0 Hd Nd P D (overlaps_no_behind A B O) ltac:(rewrite s_len; exact L)).
Qed.
Theorem solid_vector D : (length CA * length CB <= 20)%nat -> overlaps A B ->
  exists x w, sdfv_common_rel (F:=b32) true D a b t32 = Ok (true, x) /\ near e x w /\ near_min2 A B w.
Proof.
  intros L O. destruct (scene_facts aX bX tX A B s_scene) as (_ & _ & HM & HC & _). destruct s_dir as (d0 & Hd & Nd).
  assert (HO : M origin). { pose proof O as (r & R0 & H). replace origin with (pneg origin) by (apply pt_eq; cbn; ring). apply (meets_diff A B origin). apply H. unfold norm, pdot, origin; cbn. rewrite Rmult_0_l, Rplus_0_r, sqrt_0. exact R0. }
  destruct (vectorW e He M V reach (3 * world) (sreal aX bX tX) HM K0' K1' HC s_far _ s_sup HO K3' s_VM s_resolvable _ d0 Hd Nd D (overlaps_no_behind A B O) ltac:(rewrite s_len; exact L)) as (x & w & E & N & G).
  exists x, w. split; [exact E|]. split; [exact N | apply good2_separates, G].
Qed.
Theorem solid_distance P x : sdfv_common_rel (F:=b32) P true a b t32 = Ok (false, x) -> exists w, near e x w /\ meets (shift w A) B.
Proof.
  intro E. destruct (scene_facts aX bX tX A B s_scene) as (_ & _ & HM & HC & _). destruct s_dir as (d0 & Hd & Nd).
  destruct (distanceW e He M V reach (3 * world) (sreal aX bX tX) HM K0' K1' K3' HC s_far s_VM s_resolvable _ s_sup _ d0 Hd Nd P x E) as (w & N & G).
  exists w. split; [exact N | apply meets_diff, G].
Qed.
End Pair.
