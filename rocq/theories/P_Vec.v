(** * The vector EPA returns always separates, even when the search was cut short by the tolerance (proofs). *)
From Coq Require Import Reals Lra Psatz Bool List Lia Arith.
From Verif Require Import Num NumXR Glam Transform2 Shapes2 Gjk Spec SpecLink P_Base P_Transform P_Shapes P_Geo P_GjkShape SpecGjk P_Gjk P_Gjk2 P_Gjk3 P_Epa.
Import ListNotations.
Local Open Scope R_scope.

(** a capture is never a degenerate triangle *)
Lemma capture_area a b c l d : add_point (map inj [b; c]) (inj a) = Ok (l, (true, d)) -> abc_ a b c <> 0.
Proof.
  cbn [map]. rewrite addp3. intros E Z.
  assert (E1 : pdot (abp a b c) (pneg a) = 0) by (unfold abp; rewrite Z; unfold pdot; cbn; ring).
  rewrite E1, Rleb_true in E by lra. destruct (Rleb 0 (pdot (psub b a) (pneg a))); discriminate.
Qed.
Lemma area_distinct a b c : abc_ a b c <> 0 -> a <> b /\ b <> c /\ c <> a.
Proof. intro H. repeat split; intros ->; apply H; unfold abc_, pcross, psub; cbn; ring. Qed.
Section Vec.
Variables (M : pset) (s : pt -> pt) (sup : vec2 XR -> vec2 XR) (K rho : R).
Hypothesis Hsup : forall d, norm d <= K -> sup (inj d) = inj (s d).
Hypothesis Hfar : forall d, norm d <= K -> is_farthest M d (s d).
Hypothesis HM : forall m, M m -> norm m <= rho.
Hypothesis K1 : 2 * rho <= K.
Hypothesis K3 : 8 * (rho * rho * rho) <= K.
Definition pushes (v : pt) : Prop := exists n, n <> origin /\ forall m, M m -> pdot n (padd m v) <= 0.

Definition sound_edges (E : list (pt * pt)) : Prop := Forall (fun e => M (fst e) /\ M (snd e) /\ fst e <> snd e) E.
Lemma epa_pushes n : forall p l r, sound_edges (path p l p) -> epa_run sup n (map inj (p :: l)) = Some r -> exists v, r = inj v /\ pushes v.
Proof.
  induction n as [|n IH]; intros p l r SE E; [discriminate|].
  assert (Df : Forall (fun e => fst e <> snd e) (path p l p)) by (eapply Forall_impl; [|exact SE]; intros e (_ & _ & N); exact N).
  destruct (closest_spec p l Df) as (i & a & b & NE & EC & _). cbn [epa_run] in E. rewrite EC in E.
  pose proof SE as SE2. unfold sound_edges in SE2. rewrite Forall_forall in SE2. destruct (SE2 _ (nth_error_In _ _ NE)) as (Ma & Mb & Nab). cbn [fst snd] in Ma, Mb, Nab. clear SE2.
  rewrite nrm_inj in E. pose proof (nrm_ne a b Nab) as Nm. set (m := nrm a b) in * .
  assert (Hn : norm m <= K) by (unfold m; rewrite nrm_norm; eapply Rle_trans; [apply (diff_bound M rho HM a b Ma Mb) | exact K1]).
  pose proof (dot_pos m Nm) as Pm. rewrite (Hsup m Hn), !v2dot_inj in E.
  assert (Sma : pdot m a = pdot m b) by (unfold m; rewrite nrm_a, nrm_b; reflexivity).
  destruct (sufficiently_better _ _ _) eqn:SB in E; cbn [negb] in E.
  - (* one more point, strictly beyond the edge *)
    assert (BY : pdot m a < pdot m (s m)).
    { rewrite (pdot_comm m a), (pdot_comm m (s m)). unfold sufficiently_better in SB. cbn in SB.
      destruct (Rltb_spec 0 (pdot a m)) as [L|L]; [destruct (Rltb_spec (pdot a m * (1 + 1 / 100)) (pdot (s m) m)) | destruct (Rltb_spec (pdot a m * (1 - 1 / 100)) (pdot (s m) m))]; try discriminate; lra. }
    rewrite insert_path in E. apply (IH p (firstn i l ++ s m :: skipn i l) r) with (2 := E).
    destruct (path_insert (s m) i l p p a b NE) as (E1 & E2 & EP & EI). unfold sound_edges in * . rewrite EI. rewrite EP in SE. apply Forall_app in SE. destruct SE as [F1 F2].
    pose proof (Forall_inv_tail F2) as F3. pose proof (proj1 (Hfar m Hn)) as Ms.
    apply Forall_app. split; [exact F1|]. constructor; [cbn; repeat split; try assumption; intros Q; rewrite <- Q in BY; lra|].
    constructor; [cbn; repeat split; try assumption; intros Q; rewrite Q in BY; lra | exact F3].
  - injection E as <-. exists (pscale (- pdot (s m) m / pdot m m) m). split.
    + change (fdiv (fneg (XFin (pdot (s m) m))) (XFin (pdot m m))) with (xdiv (XFin (- pdot (s m) m)) (XFin (pdot m m))). unfold xdiv. rewrite Reqb_false by lra. apply v2muls_inj.
    + exists m. split; [exact Nm|]. intros w Hw. rewrite pdot_add_r, pdot_scale_r. replace (- pdot (s m) m / pdot m m * pdot m m) with (- pdot (s m) m) by (field; lra).
      pose proof (proj2 (Hfar m Hn) w Hw). rewrite (pdot_comm (s m) m). lra.
Qed.
Definition solid (l : list (vec2 XR)) : Prop := exists x y z, l = map inj [x; y; z] /\ M x /\ M y /\ M z /\ abc_ x y z <> 0.
Lemma tf_cap n : forall S d, Forall M S -> (length S <= 2)%nat -> norm d <= K -> d <> origin ->
  forall l, run_tf sup n (map inj S) (inj d) = Captured l -> solid l.
Proof.
  induction n as [|n IH]; intros S d FS L Hd Nd l E; cbn [run_tf] in E; [discriminate|].
  rewrite (Hsup d Hd) in E. pose proof (proj1 (Hfar d Hd)) as A. destruct (fle _ _); [discriminate|].
  destruct (add_any M K rho HM K1 K3 S (s d) FS A L) as [(S1 & d1 & E1 & F1 & L1 & N1)|(b & c & -> & E1)]; rewrite E1 in E.
  - destruct (direction_is_too_small (inj d1)) eqn:SM.
    + rewrite perp_inj in E. apply (IH S1 (perp d) F1 ltac:(lia)) with (3 := E); [rewrite perp_norm; exact Hd | apply perp_ne, Nd].
    + apply (IH S1 d1 F1 ltac:(lia) N1 (small_ne d1 SM) _ E).
  - exists (s d), b, c. split; [congruence|]. inversion FS as [|? ? Mb FS1]; subst. inversion FS1 as [|? ? Mc _]; subst. repeat (split; [assumption|]). exact (capture_area _ _ _ _ _ E1).
Qed.
Lemma tt_cap n : forall S d la ps, Forall M S -> (length S <= 2)%nat -> norm d <= K -> d <> origin ->
  forall l, run_tt sup n (map inj S) la (inj d) ps = Captured l -> solid l.
Proof.
  induction n as [|n IH]; intros S d la ps FS L Hd Nd l E; cbn [run_tt] in E; [discriminate|].
  rewrite (Hsup d Hd) in E. pose proof (proj1 (Hfar d Hd)) as A. destruct (_ && _) in E; [discriminate|].
  destruct (add_any M K rho HM K1 K3 S (s d) FS A L) as [(S1 & d1 & E1 & F1 & L1 & N1)|(b & c & -> & E1)]; rewrite E1 in E; cbn [andb] in E.
  - destruct (direction_is_too_small (inj d1)) eqn:SM.
    + rewrite perp_inj in E. apply (IH S1 (perp d)) with (5 := E); [exact F1 | lia | rewrite perp_norm; exact Hd | apply perp_ne, Nd].
    + apply (IH S1 d1) with (5 := E); [exact F1 | lia | exact N1 | apply small_ne, SM].
  - destruct (negb _) in E; [discriminate|]. exists (s d), b, c. split; [congruence|]. inversion FS as [|? ? Mb FS1]; subst. inversion FS1 as [|? ? Mc _]; subst. repeat (split; [assumption|]). exact (capture_area _ _ _ _ _ E1).
Qed.
Lemma cap_vector l : solid l -> exists pts, enforce_ccw l = Ok pts /\ (epa sup 20 pts = v2zero \/ exists v, epa sup 20 pts = inj v /\ pushes v).
Proof.
  intros (x & y & z & -> & Mx & My & Mz & AR). destruct (area_distinct x y z AR) as (N1 & N2 & N3). cbn [map enforce_ccw].
  destruct (flt _ _); (eexists; split; [reflexivity|]); unfold epa.
  - destruct (epa_run sup 20 [inj x; inj y; inj z]) as [u|] eqn:R; [right | left; reflexivity].
    apply (epa_pushes 20 x [y; z] u); [|exact R]. repeat constructor; assumption.
  - destruct (epa_run sup 20 [inj x; inj z; inj y]) as [u|] eqn:R; [right | left; reflexivity].
    apply (epa_pushes 20 x [z; y] u); [|exact R]. repeat constructor; cbn; auto.
Qed.
Lemma tt_start_cap d0 : norm d0 <= K -> d0 <> origin -> forall l, start_tt sup (inj d0) = Captured l -> solid l.
Proof.
  intros Hd Nd l E. unfold start_tt in E. rewrite (Hsup d0 Hd), addp1 in E. pose proof (proj1 (Hfar d0 Hd)) as A. change ([inj (s d0)]) with (map inj [s d0]) in E.
  destruct (Req_dec (norm (pneg (s d0))) 0) as [Z|Z].
  - exfalso. apply norm_0 in Z. rewrite Z in E. cbn [run_tt] in E.
    assert (H0 : norm origin <= K) by (pose proof (norm_nonneg d0); rewrite norm_origin; lra).
    rewrite (Hsup origin H0), !v2dot_inj in E. assert (D0 : forall p, pdot p origin = 0) by (intro; unfold pdot, origin; cbn; ring). rewrite !D0 in E.
    assert (B1 : fle (XFin 0) f0 = true) by (cbn; apply Rleb_true; lra).
    assert (B2 : sufficiently_better (XFin 0) (XFin 0) fcent = false) by (unfold sufficiently_better; cbn; rewrite (Rltb_false 0 0) by lra; apply Rltb_false; lra).
    rewrite B1, B2 in E. discriminate E.
  - apply (tt_cap 20 [s d0] (pneg (s d0)) (inj (s d0)) true) with (5 := E); [auto | cbn; lia | apply (neg_bound M K rho HM K1), A | intro H; apply Z, norm_0, H].
Qed.
End Vec.
