(** * Verdicts of the f32 search on small grids. *)
From Coq Require Import Reals ZArith Bool Lra Lia List Psatz.
From Flocq Require Import IEEE754.BinarySingleNaN Core Relative.
From Verif Require Import Num NumXR NumB32 Glam Transform2 Shapes2 Gjk Detect2 Spec SpecLink SpecGjk P_Base P_Transform P_Shapes P_Geo P_GjkShape P_Gjk P_Gjk2 P_Gjk3 P_Dist P_Scene
  Props_Gjk Props_Dist P_B32 Props_F32 P_Grid32.
Import ListNotations.
Local Open Scope R_scope.

(** a direction of the f32 search as a real vector *)
Definition rv (v : vec2 b32) : pt := (val (vx v), val (vy v)).
Lemma iv_rv e k z v w : iv e k z v w -> w = inj (rv v).
Proof. intros [(_ & VX & EX) (_ & VY & EY)]. destruct w as [x y]. cbn [vx vy] in * . subst x y. unfold inj, rv; cbn. rewrite VX, VY. reflexivity. Qed.
Lemma pti_rv e v w : pti e v w -> w = inj (rv v).
Proof. intros (z & _ & I). apply (iv_rv _ _ _ _ _ I). Qed.
Lemma coord_bound e k n i : (-7 <= e <= 14)%Z -> (0 <= k <= 3)%Z -> (Z.abs n <= 2 ^ i)%Z -> (0 <= i)%Z -> Rabs (IZR n * bpow radix2 (k * e)) <= bpow radix2 (i + 42).
Proof.
  intros He K B I. rewrite Rabs_mult, (Rabs_pos_eq (bpow _ _)) by apply bpow_ge_0. rewrite <- abs_IZR, bpow_plus.
  apply Rmult_le_compat; [apply IZR_le; lia | apply bpow_ge_0 | | apply bpow_le; nia].
  rewrite <- IZR_Zpower by exact I. apply IZR_le. exact B.
Qed.
Lemma norm_sum p : norm p <= Rabs (fst p) + Rabs (snd p).
Proof.
  unfold norm, pdot. pose proof (Rabs_pos (fst p)) as A. pose proof (Rabs_pos (snd p)) as B.
  rewrite <- (sqrt_square (Rabs (fst p) + Rabs (snd p))) by lra. apply sqrt_le_1_alt.
  rewrite <- (sq_abs (fst p)), <- (sq_abs (snd p)). nra.
Qed.
Lemma diri_rv e d d' : (-7 <= e <= 14)%Z -> diri e d d' -> d' = inj (rv d) /\ norm (rv d) <= reach.
Proof.
  intros He (k & z & K & [B1 B2] & I). split; [apply (iv_rv _ _ _ _ _ I)|]. eapply Rle_trans; [apply norm_sum|].
  destruct I as [(_ & VX & _) (_ & VY & _)]. unfold rv; cbn [fst snd]. rewrite VX, VY.
  pose proof (coord_bound e k (fst z) 18 He K B1 ltac:(lia)). pose proof (coord_bound e k (snd z) 18 He K B2 ltac:(lia)).
  assert (bpow radix2 (18 + 42) <= 2 * 10 ^ 18) by (cbn; lra). unfold reach, world. lra.
Qed.

(** ** lists *)
Lemma ccw3 {F} {FL : Float F} (l : simplex F) : length l = 3%nat -> exists l', enforce_ccw l = Ok l'.
Proof.
  destruct l as [|x [|y [|z [|? ?]]]]; cbn; intro; try discriminate. match goal with |- context [if ?c then _ else _] => destruct c end; eauto.
Qed.
Lemma dist2 {F} {FL : Float F} (l : simplex F) : (1 <= length l <= 2)%nat -> exists v, distance_to_origin l = Ok v.
Proof.
  destruct l as [|x [|y [|z l]]]; cbn; intro; try lia; [eauto|]. destruct (fle _ f0); [eauto|]. destruct (fle f1 _); eauto.
Qed.
Lemma len2 {X Y} (P : X -> Y -> Prop) l l' : Forall2 P l l' -> length l' = length l.
Proof. induction 1; cbn; congruence. Qed.

(** ** the combined search *)
Lemma val_cent : fin (fsub (F:=b32) f1 fcent) /\ 0 < val (fsub (F:=b32) f1 fcent) < 1.
Proof.
  split; [vm_compute; reflexivity|]. rewrite (val_sf _ false 16609444 (-24)) by (vm_compute; reflexivity).
  cbn [cond_Zopp]. cbn. lra.
Qed.
(** a tolerant improvement over a non-positive value is an improvement *)
Lemma better_strict x y : fin x -> fin y -> val y <= 0 -> Rabs (val y) < big -> sufficiently_better x y fcent = true -> val y < val x.
Proof.
  intros Fx Fy Y B H. destruct val_cent as [Fc [C0 C1]]. unfold sufficiently_better in H.
  assert (F0 : fin (f0 : b32)) by reflexivity. assert (V0 : val f0 = 0) by reflexivity.
  assert (E0 : flt f0 y = false) by (rewrite flt_fin by assumption; rewrite V0; apply Rltb_false; exact Y). rewrite E0 in H.
  assert (E1 : val y <= val y * val (fsub (F:=b32) f1 fcent)) by nra.
  assert (E2 : val y <= rnd (val y * val (fsub (F:=b32) f1 fcent))) by (apply Rle_trans with (rnd (val y)); [rewrite rnd_exact; apply Rle_refl | apply rnd_le; exact E1]).
  assert (E3 : rnd (val y * val (fsub (F:=b32) f1 fcent)) <= 0) by (rewrite <- rnd_0; apply rnd_le; nra).
  destruct (mul_ok y _ Fy Fc) as [M1 M2]; [rewrite Rabs_left1 by exact E3; rewrite Rabs_left1 in B by exact Y; lra|].
  rewrite flt_fin, M2 in H by assumption. destruct (Rltb_spec (rnd (val y * val (fsub (F:=b32) f1 fcent))) (val x)); [lra | discriminate].
Qed.
Section TT32.
Variable e : Z.
Hypothesis He : (-7 <= e <= 14)%Z.
Variables (M : pset) (s : pt -> pt) (supX : vec2 XR -> vec2 XR) (K rho : R).
Hypothesis Hsup : forall d, norm d <= K -> supX (inj d) = inj (s d).
Hypothesis Hfar : forall d, norm d <= K -> is_farthest M d (s d).
Hypothesis HM : forall m, M m -> norm m <= rho.
Hypothesis K1 : 2 * rho <= K.
Hypothesis K3 : 8 * (rho * rho * rho) <= K.
Hypothesis HC : convex M.
Hypothesis Res : resolvable (value s K).
Variable sup32 : vec2 b32 -> vec2 b32.
Hypothesis Hs : forall d d', diri e d d' -> pti e (sup32 d) (supX d').

Definition good32 (o : outcome b32) : Prop :=
  match o with
  | Separated l _ | Exhausted l => exists S n, Forall2 (pti e) l (map inj S) /\ St M s K S n
  | Captured l => length l = 3%nat /\ M origin
  | TooSmall _ _ | Crashed _ => False
  end.
Lemma tt_good32 n : forall S d p l la d32, St M s K S d -> possible_ok M p S d -> Forall2 (pti e) l (map inj S) -> pti e la (inj (newest S)) -> diri e d32 (inj d) ->
  good32 (run_tt sup32 n l la d32 p).
Proof.
  induction n as [|n IH]; intros S d p l la d32 I PO FS PL D; cbn [run_tt]; [exists S, d; auto|].
  pose proof I as (FM & Hd & _). pose proof (St_neg M s K S d I) as Neg.
  pose proof (Hs _ _ D) as P. rewrite (Hsup d Hd) in P. pose proof (fit_zero e He _ _ _ _ P D) as T0.
  change (fle (v2dot (inj (s d)) (inj d)) f0) with (Rleb (pdot (s d) d) 0) in T0. rewrite T0. rewrite pdot_comm.
  destruct (_ && _) eqn:E; [exists S, d; auto|].
  assert (L : pdot d (newest S) < pdot d (s d)).
  { apply andb_false_iff in E. destruct E as [E|E]; [rcase_in E; [discriminate | lra]|]. apply negb_false_iff in E.
    destruct (dot_pd e He _ _ _ _ P D) as (k1 & n1 & (F1 & V1 & W1)). destruct (dot_pd e He _ _ _ _ PL D) as (k2 & n2 & (F2 & V2' & W2)).
    change (v2dot (inj (s d)) (inj d)) with (XFin (pdot (s d) d)) in W1. change (v2dot (inj (newest S)) (inj d)) with (XFin (pdot (newest S) d)) in W2.
    injection W1 as W1. injection W2 as W2. rewrite <- W1 in V1. rewrite <- W2 in V2'. rewrite pdot_comm in V1. rewrite pdot_comm in V2'.
    apply better_strict in E; try assumption; [rewrite <- V1, <- V2'; exact E | rewrite V2'; exact Neg | apply val_big]. }
  assert (Nd : d <> origin) by apply (ne_origin_of_dot _ _ _ L).
  assert (Ll : (length l <= 2)%nat) by (rewrite <- (len2 _ _ _ FS), map_length; destruct (St_len M s K S d I); lia).
  pose proof (add_same e He l (map inj S) _ _ FS Ll P) as A. unfold agree1 in A.
  destruct (add_point l (sup32 d32)) as [[l1 [c1 e1]]|]; [|contradiction].
  destruct (dist_step M s K rho Hfar HM K1 K3 Res S d I L) as [S' d' d'' EA ED I' NW L2 JJ|b c ES B EA F T]; rewrite EA in A; destruct A as (F1 & -> & A).
  - destruct A as [L1 D1]. cbn [andb]. apply (IH S' d''); [exact I' | | exact F1 | rewrite NW; exact P |].
    + destruct (Rleb_spec (pdot d (s d)) 0) as [Q|Q].
      * right. split; [exact L2|]. split; [apply (far_behind M s K Hfar d Hd Nd); rewrite pdot_comm; exact Q|].
        destruct JJ as [JJ|(_ & JJ)]; [exact JJ | lra].
      * destruct PO as [->|(L0 & BH & _)]; [left; reflexivity|]. right. split; [exact L2|]. split; [exact BH|].
        destruct JJ as [JJ|(L00 & _)]; [exact JJ | lia].
    + rewrite <- ED. apply (next_dir e He); assumption.
  - pose proof F as (P0 & _). rewrite (Rleb_false (pdot d (s d)) 0) by exact P0. cbn [andb]. subst S.
    inversion FM as [|? ? Vb FM']; subst. inversion FM' as [|? ? Vc _]; subst.
    destruct p.
    + split; [exact A|]. apply (cap_origin M d (s d) b c HC (proj1 (Hfar d Hd)) (proj1 Vb) (proj1 Vc) F).
    + exfalso. destruct PO as [Q|(_ & BH & JJ)]; [discriminate|].
      apply (cap_late M d (s d) b c B (proj1 (Hfar d Hd)) (proj1 Vb) (proj1 Vc) F BH JJ).
Qed.
Lemma start_tt_good32 d0 d32 : norm d0 <= K -> diri e d32 (inj d0) -> good32 (start_tt sup32 d32).
Proof.
  intros H D. unfold start_tt. pose proof (Hs _ _ D) as P. rewrite (Hsup d0 H) in P. cbn [add_point].
  apply (tt_good32 20 [s d0] (pneg (s d0))).
  - apply (start_St M s K rho Hfar HM K1 d0 H).
  - left; reflexivity.
  - repeat constructor. exact P.
  - exact P.
  - apply (diri_pt e) in P. exact P.
Qed.
(** without a separating direction the two combined searches take the same steps *)
Lemma start_tt_same d0 d32 : norm d0 <= K -> diri e d32 (inj d0) -> ~ behind M -> s d0 <> origin -> (forall d d', diri e d d' -> exists d1, d' = inj d1 /\ norm d1 <= K) ->
  same_end e (start_tt sup32 d32) (start_tt supX (inj d0)).
Proof.
  intros H D NB N0 Hr. unfold start_tt. pose proof (Hs _ _ D) as P. cbn [add_point].
  apply (tt_same e He sup32 supX Hs).
  - intros d d' Q Nd. destruct (Hr _ _ Q) as (d1 & -> & Hd1). rewrite (Hsup d1 Hd1). change (Rleb (pdot (s d1) d1) 0 = false). apply Rleb_false.
    apply Rnot_le_lt. intro C. apply NB. apply (far_behind M s K Hfar d1 Hd1); [|exact C]. intros ->. apply Nd. reflexivity.
  - repeat constructor. exact P.
  - cbn; lia.
  - apply diri_pt, P.
  - rewrite (Hsup d0 H). intro Q. apply N0. injection Q as Q1 Q2. apply pt_eq; cbn; lra.
Qed.
End TT32.

(** ** A placed pair and its binary32 twin *)
Section Scene32.
Variable e : Z.
Hypothesis He : (-7 <= e <= 14)%Z.
Context {T : Type} {TR : Transformation2d XR T}.
Variables (a b : shape2d XR) (t : T) (A B : pset).
Hypothesis SC : scene a b t A B.
Variables (sup32 : vec2 b32 -> vec2 b32) (dir32 : vec2 b32).
Local Notation supX := (lmd_extreme_point (F:=XR) a b t).
Local Notation dirX := (lmd_initial_direction (F:=XR) t).
Hypothesis Hs : forall d d', diri e d d' -> pti e (sup32 d) (supX d').
Hypothesis Hd : diri e dir32 dirX.
(** the exact search *)
Local Notation gX P D := (gjk supX P D dirX).

Lemma ff_v : exists r v v', gjk sup32 false false dir32 = Ok (r, v) /\ gX false false = Ok (r, v').
Proof.
  pose proof (ff_same e He sup32 supX Hs 20 [] [] dir32 dirX (Forall2_nil _) ltac:(cbn; lia) Hd) as H. cbn [gjk]. unfold gjk_ff.
  destruct (run_ff sup32 20 [] dir32) as [s d|s|s d|s|p], (run_ff supX 20 [] dirX) as [s' d'|s'|s' d'|s'|p']; cbn [same_end] in H; try contradiction; eauto.
Qed.
Lemma tf_v : exists r v v', gjk sup32 true false dir32 = Ok (r, v) /\ gX true false = Ok (r, v').
Proof.
  pose proof (tf_same e He sup32 supX Hs 20 [] [] dir32 dirX (Forall2_nil _) ltac:(cbn; lia) Hd) as H. cbn [gjk]. unfold gjk_tf.
  pose proof (P_GjkShape.tf_not_small supX 20 [] dirX) as NS.
  destruct (run_tf sup32 20 [] dir32) as [s d|s|s d|s|p], (run_tf supX 20 [] dirX) as [s' d'|s'|s' d'|s'|p']; cbn [same_end] in H; try contradiction; eauto.
  - destruct H as [F L]. destruct (ccw3 s L) as (l & ->). destruct (ccw3 s' ltac:(rewrite (len2 _ _ _ F); exact L)) as (l' & ->). cbn [rmap]. eauto.
  - exfalso. apply (NS _ _ eq_refl).
Qed.
Lemma initial_real : exists d0, dirX = inj d0 /\ d0 <> origin /\ norm d0 <= reach.
Proof. exact (proj2 (proj2 (proj2 (proj2 (scene_facts a b t A B SC))))). Qed.
Lemma ft_v : exists r v v', gjk sup32 false true dir32 = Ok (r, v) /\ gX false true = Ok (r, v').
Proof.
  pose proof (start_ft_same e He sup32 supX Hs dir32 dirX Hd) as H. cbn [gjk]. unfold gjk_ft.
  destruct initial_real as (d0 & E0 & _ & L0).
  pose proof (start_ft_inside a b t A B SC d0 L0) as IN. rewrite <- E0 in IN.
  assert (NS : forall l d, start_ft supX dirX <> TooSmall l d).
  { intros l d. rewrite E0. unfold start_ft. destruct (add_point [] (supX (inj d0))) as [[s [c d']]|]; [|discriminate].
    apply P_GjkShape.ft_not_small. }
  destruct (start_ft sup32 dir32) as [s d|s|s d|s|p], (start_ft supX dirX) as [s' d'|s'|s' d'|s'|p']; cbn [same_end] in H; try contradiction; eauto.
  - destruct H as [F L]. destruct IN as (S & -> & _ & LS). rewrite <- (map_length inj), (len2 _ _ _ F) in LS.
    destruct (dist2 s LS) as (v & ->). destruct (dist2 (map inj S) ltac:(rewrite (len2 _ _ _ F); exact LS)) as (v' & ->). cbn [rmap]. eauto.
  - destruct H as [F L]. rewrite (len2 _ _ _ F), L. cbn. eauto.
  - exfalso. apply (NS _ _ eq_refl).
  - destruct H as [F L]. destruct IN as (S & -> & _ & LS). rewrite <- (map_length inj), (len2 _ _ _ F) in LS.
    destruct (dist2 s LS) as (v & ->). destruct (dist2 (map inj S) ltac:(rewrite (len2 _ _ _ F); exact LS)) as (v' & ->). cbn [rmap]. eauto.
Qed.

Hypothesis RS : resolved a b t.
Let M := minkowski_diff A B.
Let s := sreal a b t.
Lemma tt_sound : exists r v, gjk sup32 true true dir32 = Ok (r, v) /\ (r = true -> meets A B).
Proof.
  destruct (scene_facts a b t A B SC) as (Hsup & Hfar & HM & HC & _). destruct initial_real as (d0 & E0 & _ & L0).
  pose proof (resolved_values a b t A B SC RS) as Rv. pose proof Hd as Hd'. rewrite E0 in Hd'.
  pose proof (start_tt_good32 e He M s supX reach (3 * world) Hsup Hfar HM K1' K3' HC Rv sup32 Hs d0 dir32 L0 Hd') as H.
  cbn [gjk]. unfold gjk_tt. destruct (start_tt sup32 dir32) as [l d|l|l d|l|p]; cbn [good32] in H; try contradiction.
  - destruct H as (S & n & F & I). assert (LS : (1 <= length l <= 2)%nat) by (rewrite <- (len2 _ _ _ F), map_length; destruct (St_len M s reach S n I); lia).
    destruct (dist2 l LS) as (v & ->). exists false, v. split; [reflexivity | discriminate].
  - destruct H as [L O]. destruct (ccw3 l L) as (l' & ->). eexists true, _. split; [reflexivity|]. intros _. apply origin_meets, O.
  - destruct H as (S & n & F & I). assert (LS : (1 <= length l <= 2)%nat) by (rewrite <- (len2 _ _ _ F), map_length; destruct (St_len M s reach S n I); lia).
    destruct (dist2 l LS) as (v & ->). exists false, v. split; [reflexivity | discriminate].
Qed.
(** every query answers, and "overlapping" is only said of bodies with a common point *)
Theorem sound32 P D : exists r v, gjk sup32 P D dir32 = Ok (r, v) /\ (r = true -> meets A B).
Proof.
  destruct P, D; [exact tt_sound | | |].
  - destruct tf_v as (r & v & v' & E & E'). exists r, v. split; [exact E|]. intros ->.
    refine (proj2 (q_penetrates_some a b t A B SC v' _) RS).
    change (rmap (fun o : bool * vec2 XR => if fst o then Some (snd o) else None) (gX true false) = Ok (Some v')). rewrite E'. reflexivity.
  - destruct ft_v as (r & v & v' & E & E'). exists r, v. split; [exact E|]. intros ->.
    refine (q_distance_none a b t A B SC RS _).
    change (rmap (fun o : bool * vec2 XR => if fst o then None else Some (snd o)) (gX false true) = Ok None). rewrite E'. reflexivity.
  - destruct ff_v as (r & v & v' & E & E'). exists r, v. split; [exact E|]. intros ->.
    refine (proj2 (q_collides_true a b t A B SC _) RS).
    change (rmap (fun o : bool * vec2 XR => fst o) (gX false false) = Ok true). rewrite E'. reflexivity.
Qed.
Theorem hits32 P D : few_values a b t -> overlaps A B -> exists v, gjk sup32 P D dir32 = Ok (true, v).
Proof.
  intros FV O. pose proof (q_overlap_collides a b t A B SC FV O) as Q0. destruct (q_overlap_all a b t A B SC FV RS O) as ((v1 & Q1) & Q2 & Q3).
  destruct P, D.
  - clear Q0 Q1 Q2 v1 Q3. destruct (scene_facts a b t A B SC) as (Hsup & Hfar & HM & HC & _). destruct initial_real as (d0 & E0 & N0 & L0).
    pose proof (resolved_values a b t A B SC RS) as Rv. pose proof Hd as Hd'. rewrite E0 in Hd'.
    pose proof (overlaps_no_behind A B O) as NB. destruct (values_list a b t A B SC FV) as (V & L & HV & HVM).
    assert (S0 : s d0 <> origin).
    { intro Z. apply NB. apply (far_behind _ s reach Hfar d0 L0 N0). rewrite Z. unfold pdot, origin; cbn. lra. }
    pose proof (start_tt_same e He M s supX reach Hsup Hfar sup32 Hs d0 dir32 L0 Hd' NB S0) as H.
    assert (Hr : forall d d', diri e d d' -> exists d1, d' = inj d1 /\ norm d1 <= reach) by (intros d d' Q; exists (rv d); exact (diri_rv e d d' He Q)).
    specialize (H Hr). destruct (tt_found M s supX reach (3 * world) Hsup Hfar HM K1' K3' NB V HV HVM Rv d0 HC L0 N0 ltac:(lia)) as (x3 & y3 & z3 & E3 & _).
    rewrite E3 in H. cbn [gjk]. unfold gjk_tt. destruct (start_tt sup32 dir32) as [l d|l|l d|l|p]; cbn [same_end] in H; try contradiction.
    destruct H as [_ L3]. destruct (ccw3 l L3) as (l' & ->). eexists; reflexivity.
  - destruct tf_v as (r & v & v' & E & E'). change (rmap (fun o : bool * vec2 XR => if fst o then Some (snd o) else None) (gX true false) = Ok (Some v1)) in Q1.
    rewrite E' in Q1. destruct r; [eauto | discriminate].
  - destruct ft_v as (r & v & v' & E & E'). change (rmap (fun o : bool * vec2 XR => if fst o then None else Some (snd o)) (gX false true) = Ok None) in Q2.
    rewrite E' in Q2. destruct r; [eauto | discriminate].
  - destruct ff_v as (r & v & v' & E & E'). change (rmap (fun o : bool * vec2 XR => fst o) (gX false false) = Ok true) in Q0.
    rewrite E' in Q0. destruct r; [eauto | discriminate].
Qed.
End Scene32.
