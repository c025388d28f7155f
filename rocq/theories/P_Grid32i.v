(** * The f32 search on small grids when the support function depends on signs of zeros: choosing a matching exact support function at every step. *)
From Coq Require Import Reals ZArith Bool Lra Lia List Psatz.
From Flocq Require Import IEEE754.BinarySingleNaN Core Relative.
From Verif Require Import Num NumXR NumB32 Glam Transform2 Shapes2 Gjk Detect2 Spec SpecLink SpecGjk P_Base P_Transform P_Shapes P_Geo P_GjkShape P_Gjk P_Gjk2 P_Gjk3 P_Dist P_Scene
  Props_Gjk Props_Dist P_B32 Props_F32 P_Grid32 P_Grid32b.
Import ListNotations.
Local Open Scope R_scope.

Definition set_at (f : pt -> pt) (x w : pt) : pt -> pt := fun y => if Req_EM_T (fst y) (fst x) then if Req_EM_T (snd y) (snd x) then w else f y else f y.
Lemma set_eq f x w : set_at f x w x = w.
Proof. unfold set_at. destruct (Req_EM_T (fst x) (fst x)) as [_|N]; [|contradiction]. destruct (Req_EM_T (snd x) (snd x)) as [_|N]; [reflexivity | contradiction]. Qed.
Lemma set_ne f x w y : y <> x -> set_at f x w y = f y.
Proof. intro N. unfold set_at. destruct (Req_EM_T _ _) as [E|]; [|reflexivity]. destruct (Req_EM_T _ _) as [E'|]; [|reflexivity]. exfalso. apply N, pt_eq; assumption. Qed.
Lemma set_case f x w y : (y = x /\ set_at f x w y = w) \/ (y <> x /\ set_at f x w y = f y).
Proof. unfold set_at. destruct (Req_EM_T (fst y) (fst x)) as [E|E]; [destruct (Req_EM_T (snd y) (snd x)) as [E'|E']|]; [left; split; [apply pt_eq; assumption | reflexivity] | right; split; [congruence | reflexivity] | right; split; [congruence | reflexivity]]. Qed.
Lemma far_scale M x v k : 0 < k -> is_farthest M x v -> is_farthest M (pscale k x) v.
Proof. intros P [A F]. split; [exact A|]. intros q Q. pose proof (F q Q) as H. rewrite !(pdot_comm (pscale _ _)), !pdot_scale_r, !(pdot_comm _ x). apply Rmult_le_compat_l; lra. Qed.

Section Pick.
Variables (M : pset) (W : pset) (K : R) (s0 : pt -> pt).
Hypothesis HK : 0 < K.
Hypothesis Hs0 : forall d, norm d <= K -> is_farthest M d (s0 d) /\ W (s0 d).
Definition WW (v : pt) : Prop := W v /\ exists x, x <> origin /\ is_farthest M x v.
Definition fine (s : pt -> pt) : Prop := forall x, norm x <= K -> is_farthest M x (s x) /\ WW (s x).

Lemma fine_base : exists s, fine s.
Proof.
  set (x0 := pscale (K / 2) (1, 0)). assert (N0 : norm x0 = K / 2).
  { unfold x0. rewrite norm_scale, Rabs_pos_eq by lra. replace (norm (1, 0)) with 1; [lra|]. unfold norm, pdot; cbn. rewrite Rmult_1_l, Rmult_0_l, Rplus_0_r, sqrt_1. reflexivity. }
  assert (X0 : x0 <> origin) by (intro E; apply (f_equal norm) in E; rewrite N0 in E; unfold norm, pdot, origin in E; cbn in E; rewrite Rmult_0_l, Rplus_0_r, sqrt_0 in E; lra).
  exists (set_at s0 origin (s0 x0)). intros x Hx. destruct (Hs0 x0 ltac:(lra)) as [F0 W0].
  destruct (set_case s0 origin (s0 x0) x) as [[-> E]|[N E]]; rewrite E.
  - split; [|split; [exact W0 | exists x0; auto]]. split; [apply F0|]. intros q _. unfold pdot, origin; cbn. lra.
  - destruct (Hs0 x Hx) as [F1 W1]. split; [exact F1|]. split; [exact W1 | exists x; auto].
Qed.
Lemma fine_set s x w : fine s -> is_farthest M x w -> WW w -> fine (set_at s x w).
Proof. intros F FW Ww y Hy. destruct (set_case s x w y) as [[-> E]|[N E]]; rewrite E; [split; assumption | apply F, Hy]. Qed.
Lemma far_key v lo : WW v -> 0 <= lo < K -> exists x, lo < norm x <= K /\ norm x < K /\ is_farthest M x v.
Proof.
  intros (_ & x & N & F) L. pose proof (norm_pos x N) as P. exists (pscale ((lo + K) / 2 / norm x) x).
  assert (E : norm (pscale ((lo + K) / 2 / norm x) x) = (lo + K) / 2).
  { rewrite norm_scale. rewrite Rabs_pos_eq; [field; lra|]. apply Rmult_le_pos; [lra | apply Rlt_le, Rinv_0_lt_compat, P]. }
  rewrite E. split; [lra|]. split; [lra|]. apply far_scale; [|exact F]. apply Rmult_lt_0_compat; [lra | apply Rinv_0_lt_compat, P].
Qed.
Lemma pick_list S : Forall WW S -> forall s lo, fine s -> 0 <= lo < K ->
  exists s', fine s' /\ (forall x, norm x <= lo -> s' x = s x) /\ Forall (fun v => exists x, lo < norm x <= K /\ v = s' x) S.
Proof.
  induction 1 as [|v S Wv FS IH]; intros s lo F L; [exists s; auto|].
  destruct (far_key v lo Wv L) as (x & X1 & X2 & FX).
  destruct (IH (set_at s x v) (norm x) (fine_set s x v F FX Wv) ltac:(lra)) as (s' & F' & A & FA).
  exists s'. split; [exact F'|]. split.
  - intros y Hy. rewrite A by lra. apply set_ne. intros ->. lra.
  - apply Forall_cons.
    + exists x. split; [exact X1|]. rewrite A by lra. rewrite set_eq. reflexivity.
    + eapply Forall_impl; [|exact FA]. cbn beta. intros q (y & Y & E). exists y. split; [lra | exact E].
Qed.
Lemma pick S d w : Forall WW S -> norm d <= K / 2 -> is_farthest M d w -> WW w ->
  exists s', (forall x, norm x <= K -> is_farthest M x (s' x)) /\ s' d = w /\ Forall (value s' K) S /\ (forall v, value s' K v -> WW v).
Proof.
  intros FS Nd Fw Ww. destruct fine_base as (s & F). destruct (pick_list S FS (set_at s d w) (K / 2) (fine_set s d w F Fw Ww) ltac:(lra)) as (s' & F' & A & FA).
  exists s'. split; [intros x Hx; apply (F' x Hx)|]. split; [rewrite A by exact Nd; apply set_eq|]. split.
  - eapply Forall_impl; [|exact FA]. cbn beta. intros v (x & X & E). exists x. split; [lra | exact E].
  - intros v (x & X & ->). apply F', X.
Qed.
End Pick.

Section Run32.
Variable e : Z.
Hypothesis He : (-7 <= e <= 14)%Z.
Variables (M : pset) (V : list pt) (K rho : R) (s0 : pt -> pt).
Local Notation W := (fun v => In v V).
Local Notation WW := (WW M W).
Hypothesis HM : forall m, M m -> norm m <= rho.
Hypothesis K0 : 2 * (2 * 10 ^ 19) <= K.
Hypothesis K1 : 2 * rho <= K.
Hypothesis K3 : 8 * (rho * rho * rho) <= K.
Hypothesis HC : convex M.
Hypothesis Hs0 : forall d, norm d <= K -> is_farthest M d (s0 d) /\ In (s0 d) V.
Hypothesis HVM : forall v, In v V -> M v.
Hypothesis Res : resolvable W.
Variable sup32 : vec2 b32 -> vec2 b32.
(** the f32 support point is a corner, farthest along the direction's real value; which one may depend on signs of zeros *)
Hypothesis Hs : forall d, diri e d (inj (rv d)) -> exists w, pti e (sup32 d) (inj w) /\ is_farthest M (rv d) w /\ In w V.

Lemma diri_half d d' : diri e d d' -> d' = inj (rv d) /\ norm (rv d) <= K / 2.
Proof.
  intro D. split; [apply (diri_rv e d d' He D)|]. destruct D as (k & z & Kk & [B1 B2] & I). eapply Rle_trans; [apply norm_sum|].
  destruct I as [(_ & VX & _) (_ & VY & _)]. unfold rv; cbn [fst snd]. rewrite VX, VY.
  pose proof (coord_bound e k (fst z) 18 He Kk B1 ltac:(lia)). pose proof (coord_bound e k (snd z) 18 He Kk B2 ltac:(lia)).
  assert (bpow radix2 (18 + 42) <= 2 * 10 ^ 18) by (cbn; lra). lra.
Qed.
Lemma diri_inj d32 d : diri e d32 (inj d) -> d = rv d32 /\ norm d <= K / 2 /\ diri e d32 (inj (rv d32)).
Proof. intro D. destruct (diri_half _ _ D) as [E N]. apply inj_inj in E. subst d. auto. Qed.
Lemma new32 d32 d : diri e d32 (inj d) -> exists w, pti e (sup32 d32) (inj w) /\ is_farthest M d w /\ In w V.
Proof. intro D. destruct (diri_inj _ _ D) as (-> & _ & D'). apply Hs, D'. Qed.
Lemma K_pos : 0 < K. Proof. lra. Qed.
Lemma res_value s' : (forall v, value s' K v -> WW v) -> resolvable (value s' K).
Proof. intros H a b c A B C. apply Res; apply H; assumption. Qed.

(** ** collision search *)
Definition vertW (v : pt) : Prop := (exists x, is_farthest M x v /\ 0 < pdot x v) /\ In v V.
Definition shape_ok (S : list pt) (d : pt) : Prop := match S with [] => True | [b] => d = pneg b | [b; c] => pair_ok d b c | _ => False end.
Definition InvW (S : list pt) (d : pt) : Prop := Forall vertW S /\ norm d <= K / 2 /\ d <> origin /\ shape_ok S d.
Definition triW (a b c : pt) : Prop :=
  vertW a /\ vertW b /\ vertW c /\ abc_ a b c <> 0 /\ 0 <= abc_ a b c * pcross b c /\ 0 < abc_ a b c * pcross c a /\ 0 < abc_ a b c * pcross a b.
Lemma vertW_WW v : vertW v -> WW v.
Proof. intros [(x & F & P) I]. split; [exact I|]. exists x. split; [|exact F]. intros ->. unfold pdot, origin in P; cbn in P. lra. Qed.
Lemma verts_WW S : Forall vertW S -> Forall WW S.
Proof. apply Forall_impl, vertW_WW. Qed.
Lemma vert_to s' S : Forall vertW S -> Forall (value s' K) S -> Forall (vert M s' K) S.
Proof. intros F G. rewrite Forall_forall in * . intros v I. split; [apply (F v I) | apply (G v I)]. Qed.
Lemma vert_from s' v : (forall u, value s' K u -> WW u) -> vert M s' K v -> vertW v.
Proof. intros H [A B]. split; [exact A | apply (H v B)]. Qed.
Lemma verts_from s' S : (forall u, value s' K u -> WW u) -> Forall (vert M s' K) S -> Forall vertW S.
Proof. intros H. apply Forall_impl. intro v. apply vert_from, H. Qed.
Lemma tri_from s' a b c : (forall u, value s' K u -> WW u) -> tri M s' K a b c -> triW a b c.
Proof. intros H (A & B & C & T). split; [eapply vert_from; eassumption|]. split; [eapply vert_from; eassumption|]. split; [eapply vert_from; eassumption | exact T]. Qed.
Lemma half_le d : norm d <= K / 2 -> norm d <= K. Proof. pose proof K_pos. lra. Qed.
Lemma Inv_to s' S d : InvW S d -> Forall (value s' K) S -> Inv M s' K S d.
Proof. intros (F & N & O & H) G. split; [apply vert_to; assumption|]. split; [apply half_le, N|]. split; assumption. Qed.
Lemma Inv_from s' S d : (forall u, value s' K u -> WW u) -> norm d <= K / 2 -> Inv M s' K S d -> InvW S d.
Proof. intros H N (F & _ & O & T). split; [apply (verts_from s' S H F)|]. split; [exact N|]. split; assumption. Qed.
Lemma shape_len S d : shape_ok S d -> (length S <= 2)%nat.
Proof. destruct S as [|? [|? [|? ?]]]; cbn; intros; try lia; contradiction. Qed.
Lemma triW_origin a b c : triW a b c -> M origin.
Proof.
  intros ([(x & [A _] & _) _] & [(y & [B _] & _) _] & [(z & [C _] & _) _] & N & P1 & P2 & P3).
  apply (triangle_origin M a b c HC A B C (abc_ a b c * pcross b c) (abc_ a b c * pcross c a) (abc_ a b c * pcross a b)); try lra.
  pose proof (barycentric a b c) as E. apply pt_eq; [apply (f_equal fst) in E | apply (f_equal snd) in E]; cbn in *; nra.
Qed.

(** the test against the origin in f32 is the exact one *)
Lemma test32 d32 d w : pti e (sup32 d32) (inj w) -> diri e d32 (inj d) -> fle (v2dot (sup32 d32) d32) f0 = Rleb (pdot w d) 0.
Proof. intros P D. rewrite (fit_zero e He _ _ _ _ P D). reflexivity. Qed.
Lemma behind_of d w : d <> origin -> is_farthest M d w -> pdot w d <= 0 -> behind M.
Proof. intros N [_ F] L. exists d. split; [exact N|]. intros m Hm. pose proof (F m Hm). rewrite (pdot_comm w d) in L. lra. Qed.
Lemma WW_new d w : d <> origin -> is_farthest M d w -> In w V -> WW w.
Proof. intros N F I. split; [exact I | exists d; auto]. Qed.

Inductive istep (l : simplex b32) (d32 : vec2 b32) (d : pt) : Prop :=
  | is_behind : fle (v2dot (sup32 d32) d32) f0 = true -> behind M -> istep l d32 d
  | is_go l' S' c32 d' : fle (v2dot (sup32 d32) d32) f0 = false -> add_point l (sup32 d32) = Ok (l', (false, c32)) ->
      Forall2 (pti e) l' (map inj S') -> diri e c32 (inj d') -> direction_is_too_small c32 = false -> InvW S' d' -> istep l d32 d
  | is_turn l' S' c32 : fle (v2dot (sup32 d32) d32) f0 = false -> add_point l (sup32 d32) = Ok (l', (false, c32)) ->
      Forall2 (pti e) l' (map inj S') -> direction_is_too_small c32 = true -> InvW S' (perp d) -> M origin -> istep l d32 d
  | is_cap l' c32 x y z : fle (v2dot (sup32 d32) d32) f0 = false -> add_point l (sup32 d32) = Ok (l', (true, c32)) ->
      Forall2 (pti e) l' (map inj [x; y; z]) -> triW x y z -> istep l d32 d.
Lemma inv32 l S d32 d : Forall2 (pti e) l (map inj S) -> diri e d32 (inj d) -> InvW S d -> istep l d32 d.
Proof.
  intros F D I. pose proof I as (FV & N2 & ND & SO). destruct (new32 d32 d D) as (w & P & FW & IW).
  pose proof (test32 d32 d w P D) as T. destruct (Rleb_spec (pdot w d) 0) as [L|L].
  { apply is_behind; [exact T | apply (behind_of d w ND FW L)]. }
  apply Rnot_le_lt in L.
  destruct (pick M W K s0 K_pos Hs0 S d w (verts_WW S FV) N2 FW (WW_new d w ND FW IW)) as (s' & Hf & Ew & VS & VW).
  pose proof (Inv_to s' S d I VS) as I'. pose proof (inv_step M s' K rho Hf HM K1 K3 S d HC I') as ST. rewrite Ew in ST. specialize (ST L).
  assert (Ll : (length l <= 2)%nat) by (rewrite <- (len2 _ _ _ F), map_length; apply (shape_len S d SO)).
  pose proof (add_same e He l (map inj S) _ _ F Ll P) as A. unfold agree1 in A.
  destruct (add_point l (sup32 d32)) as [[l1 [c1 e1]]|] eqn:EA; [|contradiction].
  remember (add_point (map inj S) (inj w)) as r eqn:Er. destruct ST as [S' d' I1 SM|S' d' NR FV' LL ND' SM Z R|b c E1 T1]; destruct A as (F1 & -> & A).
  - destruct A as [_ A]. apply (is_go l d32 d l1 S' e1 d' T EA F1 A); [rewrite (too_small_same e He _ _ A); exact SM|].
    apply (Inv_from s' S' d' VW); [apply (diri_inj _ _ A) | exact I1].
  - destruct A as [_ A]. pose proof (R (res_value s' VW)) as E. destruct (Z E) as [I2 O].
    apply (is_turn l d32 d l1 S' e1 T EA F1); [rewrite (too_small_same e He _ _ A); exact SM | | exact O].
    apply (Inv_from s' S' (perp d) VW); [rewrite perp_norm; exact N2 | exact I2].
  - apply (is_cap l d32 d l1 e1 w b c T EA F1). apply (tri_from s' w b c VW T1).
Qed.
Lemma perp_dir d32 d : diri e d32 (inj d) -> diri e (v2perp d32) (inj (perp d)).
Proof. intro D. exact (diri_perp e _ _ D). Qed.

Definition sound_end (o : outcome b32) : Prop :=
  match o with Separated _ _ => behind M | Captured l => length l = 3%nat /\ M origin | TooSmall _ _ => M origin | Exhausted _ => True | Crashed _ => False end.
Lemma ff32 n : forall l S d32 d, Forall2 (pti e) l (map inj S) -> diri e d32 (inj d) -> InvW S d -> sound_end (run_ff sup32 n l d32).
Proof.
  induction n as [|n IH]; intros l S d32 d F D I; cbn [run_ff]; [exact Logic.I|].
  destruct (inv32 l S d32 d F D I) as [T BH|l' S' c32 d' T EA F' D' SM I'|l' S' c32 T EA F' SM I' O|l' c32 x y z T EA F' T3]; rewrite T; [exact BH | | |]; rewrite EA.
  - rewrite SM. apply (IH l' S' c32 d' F' D' I').
  - rewrite SM. exact O.
  - split; [rewrite <- (len2 _ _ _ F'); reflexivity | apply (triW_origin _ _ _ T3)].
Qed.
Lemma tf32 n : forall l S d32 d, Forall2 (pti e) l (map inj S) -> diri e d32 (inj d) -> InvW S d -> sound_end (run_tf sup32 n l d32) /\ (forall x y, run_tf sup32 n l d32 <> TooSmall x y).
Proof.
  induction n as [|n IH]; intros l S d32 d F D I; cbn [run_tf]; [split; [exact Logic.I | discriminate]|].
  destruct (inv32 l S d32 d F D I) as [T BH|l' S' c32 d' T EA F' D' SM I'|l' S' c32 T EA F' SM I' O|l' c32 x y z T EA F' T3]; rewrite T; [split; [exact BH | discriminate] | | |]; rewrite EA.
  - rewrite SM. apply (IH l' S' c32 d' F' D' I').
  - rewrite SM. apply (IH l' S' (v2perp d32) (perp d) F' (perp_dir _ _ D) I').
  - split; [|discriminate]. split; [rewrite <- (len2 _ _ _ F'); reflexivity | apply (triW_origin _ _ _ T3)].
Qed.

(** ** completeness *)
Section Found.
Hypothesis Hno : ~ behind M.
Lemma ahead32 d32 d : diri e d32 (inj d) -> d <> origin -> fle (v2dot (sup32 d32) d32) f0 = false.
Proof.
  intros D N. destruct (new32 d32 d D) as (w & P & FW & IW). rewrite (test32 d32 d w P D). apply Rleb_false, Rnot_le_lt. intro L. apply Hno, (behind_of d w N FW L).
Qed.
Inductive gstep (l : simplex b32) (d32 : vec2 b32) (m : nat) : Prop :=
  | gs_go l' w x c32 n : add_point l (sup32 d32) = Ok (l', (false, c32)) -> Forall2 (pti e) l' (map inj [w; x]) -> diri e c32 (inj n) -> direction_is_too_small c32 = false ->
      InvW [w; x] n -> clean M w x -> clean M x w -> (P_Gjk3.left V n w < m)%nat -> gstep l d32 m
  | gs_cap l' c32 x y z : add_point l (sup32 d32) = Ok (l', (true, c32)) -> Forall2 (pti e) l' (map inj [x; y; z]) -> triW x y z -> gstep l d32 m.
Lemma good32_step b c l d32 d : Forall2 (pti e) l (map inj [b; c]) -> diri e d32 (inj d) -> InvW [b; c] d -> clean M b c -> clean M c b -> gstep l d32 (P_Gjk3.left V d b).
Proof.
  intros F D I Cb Cc. pose proof I as (FV & N2 & ND & SO). destruct (new32 d32 d D) as (w & P & FW & IW).
  destruct (pick M W K s0 K_pos Hs0 [b; c] d w (verts_WW _ FV) N2 FW (WW_new d w ND FW IW)) as (s' & Hf & Ew & VS & VW).
  assert (HV : forall x, norm x <= K -> In (s' x) V) by (intros x Hx; apply (VW (s' x)); exists x; auto).
  pose proof (good_step M s' K rho Hf HM K3 Hno V HV HVM b c d (Inv_to s' _ d I VS) Cb Cc) as ST. rewrite Ew in ST.
  assert (Ll : (length l <= 2)%nat) by (rewrite <- (len2 _ _ _ F), map_length; apply (shape_len _ d SO)).
  pose proof (add_same e He l (map inj [b; c]) _ _ F Ll P) as A. unfold agree1 in A.
  destruct (add_point l (sup32 d32)) as [[l1 [c1 e1]]|] eqn:EA; [|contradiction].
  destruct ST as [(x & n & E & I1 & C1 & C2 & LL & R)|[E T3]]; rewrite E in A; destruct A as (F1 & -> & A).
  - destruct A as [_ A]. apply (gs_go l d32 _ l1 w x e1 n EA F1 A); try assumption; [rewrite (too_small_same e He _ _ A); apply R, (res_value s' VW)|].
    apply (Inv_from s' _ n VW); [apply (diri_inj _ _ A) | exact I1].
  - apply (gs_cap l d32 _ l1 e1 w b c EA F1). apply (tri_from s' w b c VW T3).
Qed.
Lemma first32_step b c l d32 d : Forall2 (pti e) l (map inj [b; c]) -> diri e d32 (inj d) -> InvW [b; c] d -> gstep l d32 (length V - 2).
Proof.
  intros F D I. pose proof I as (FV & N2 & ND & SO). destruct (new32 d32 d D) as (w & P & FW & IW).
  destruct (pick M W K s0 K_pos Hs0 [b; c] d w (verts_WW _ FV) N2 FW (WW_new d w ND FW IW)) as (s' & Hf & Ew & VS & VW).
  assert (HV : forall x, norm x <= K -> In (s' x) V) by (intros x Hx; apply (VW (s' x)); exists x; auto).
  pose proof (first_step M s' K rho Hf HM K3 Hno V HV b c d (Inv_to s' _ d I VS)) as ST. rewrite Ew in ST.
  assert (Ll : (length l <= 2)%nat) by (rewrite <- (len2 _ _ _ F), map_length; apply (shape_len _ d SO)).
  pose proof (add_same e He l (map inj [b; c]) _ _ F Ll P) as A. unfold agree1 in A.
  destruct (add_point l (sup32 d32)) as [[l1 [c1 e1]]|] eqn:EA; [|contradiction].
  destruct ST as [(x & n & E & I1 & C1 & C2 & LL & R)|[E T3]]; rewrite E in A; destruct A as (F1 & -> & A).
  - destruct A as [_ A]. apply (gs_go l d32 _ l1 w x e1 n EA F1 A); try assumption; [rewrite (too_small_same e He _ _ A); apply R, (res_value s' VW) | |lia].
    apply (Inv_from s' _ n VW); [apply (diri_inj _ _ A) | exact I1].
  - apply (gs_cap l d32 _ l1 e1 w b c EA F1). apply (tri_from s' w b c VW T3).
Qed.

Definition caught (o : outcome b32) : Prop := exists l x y z, o = Captured l /\ Forall2 (pti e) l (map inj [x; y; z]) /\ triW x y z.
Lemma left32 b c d : InvW [b; c] d -> forall d32, diri e d32 (inj d) -> (1 <= P_Gjk3.left V d b)%nat.
Proof.
  intros (_ & N2 & ND & (E & Z & _)) d32 D. destruct (new32 d32 d D) as (w & P & FW & IW).
  apply (left_pos (fun _ => w) K V (fun _ _ => IW) b d (half_le d N2)).
  apply Rle_lt_trans with 0; [lra|]. apply Rnot_le_lt. intro L. apply Hno, (behind_of d w ND FW). rewrite pdot_comm. exact L.
Qed.
Lemma tf32_good n : forall b c l d32 d, Forall2 (pti e) l (map inj [b; c]) -> diri e d32 (inj d) -> InvW [b; c] d -> clean M b c -> clean M c b -> (P_Gjk3.left V d b <= n)%nat ->
  caught (run_tf sup32 n l d32).
Proof.
  induction n as [|n IH]; intros b c l d32 d F D I Cb Cc L; [pose proof (left32 b c d I d32 D); lia|].
  cbn [run_tf]. rewrite (ahead32 d32 d D) by apply I.
  destruct (good32_step b c l d32 d F D I Cb Cc) as [l' w x c32 m EA F' D' SM I' C1 C2 LL|l' c32 x y z EA F' T3]; rewrite EA.
  - rewrite SM. apply (IH w x l' c32 m F' D' I' C1 C2). lia.
  - exists l', x, y, z. auto.
Qed.
Lemma tf32_first n b c l d32 d : Forall2 (pti e) l (map inj [b; c]) -> diri e d32 (inj d) -> InvW [b; c] d -> (length V <= n + 3)%nat -> caught (run_tf sup32 (S n) l d32).
Proof.
  intros F D I L. cbn [run_tf]. rewrite (ahead32 d32 d D) by apply I.
  destruct (first32_step b c l d32 d F D I) as [l' w x c32 m EA F' D' SM I' C1 C2 LL|l' c32 x y z EA F' T3]; rewrite EA.
  - rewrite SM. apply (tf32_good n w x l' c32 m F' D' I' C1 C2). lia.
  - exists l', x, y, z. auto.
Qed.
Lemma add_one (p q : vec2 b32) l c d : add_point [p] q = Ok (l, (c, d)) -> l = [q; p] /\ c = false.
Proof. cbn [add_point]. destruct (fle _ _); intro E; injection E as <- <- _; auto. Qed.
Lemma F2_two (p q : vec2 b32) S : Forall2 (pti e) [p; q] (map inj S) -> exists b c, S = [b; c].
Proof. intro F. pose proof (len2 _ _ _ F) as L. rewrite map_length in L. destruct S as [|b [|c [|? ?]]]; cbn in L; try lia. eauto. Qed.
Lemma F2_one (p : vec2 b32) S : Forall2 (pti e) [p] (map inj S) -> exists b, S = [b].
Proof. intro F. pose proof (len2 _ _ _ F) as L. rewrite map_length in L. destruct S as [|b [|c ?]]; cbn in L; try lia. eauto. Qed.
Lemma tf32_second n p b d32 d : Forall2 (pti e) [p] (map inj [b]) -> diri e d32 (inj d) -> InvW [b] d -> (length V <= n + 3)%nat -> caught (run_tf sup32 (S (S n)) [p] d32).
Proof.
  intros F D I L. change (run_tf sup32 (S (S n)) [p] d32) with
   (if fle (v2dot (sup32 d32) d32) f0 then Separated [p] d32
      else match add_point [p] (sup32 d32) with
           | Panic q => Crashed q
           | Ok (s', (collides, new_dir)) =>
               let new_dir := if direction_is_too_small new_dir then v2perp d32 else new_dir in
               if collides then Captured s' else run_tf sup32 (S n) s' new_dir
           end).
  destruct (inv32 [p] [b] d32 d F D I) as [T BH|l' S' c32 d' T EA F' D' SM I'|l' S' c32 T EA F' SM I' O|l' c32 x y z T EA F' T3].
  - contradiction.
  - rewrite T, EA, SM. destruct (add_one _ _ _ _ _ EA) as [-> _]. destruct (F2_two _ _ _ F') as (b' & c' & ->). apply (tf32_first n b' c' _ c32 d' F' D' I' L).
  - rewrite T, EA, SM. destruct (add_one _ _ _ _ _ EA) as [-> _]. destruct (F2_two _ _ _ F') as (b' & c' & ->). apply (tf32_first n b' c' _ _ (perp d) F' (perp_dir _ _ D) I' L).
  - destruct (add_one _ _ _ _ _ EA) as [_ Q]. discriminate.
Qed.
Lemma InvW_nil d : norm d <= K / 2 -> d <> origin -> InvW [] d.
Proof. intros N O. split; [constructor|]. split; [exact N|]. split; [exact O | exact Logic.I]. Qed.
Lemma start32 d32 d : diri e d32 (inj d) -> d <> origin -> exists b, Forall2 (pti e) [sup32 d32] (map inj [b]) /\ diri e (v2neg (sup32 d32)) (inj (pneg b)) /\ InvW [b] (pneg b) /\
  direction_is_too_small (v2neg (sup32 d32)) = false.
Proof.
  intros D N. destruct (new32 d32 d D) as (w & P & FW & IW). exists w.
  assert (PD : 0 < pdot d w). { apply Rnot_le_lt. intro L. apply Hno, (behind_of d w N FW). rewrite pdot_comm. exact L. }
  assert (NW : pneg w <> origin). { intro E. apply (beyond_ne d w PD). rewrite <- (pneg_pneg w), E. apply pneg_origin. }
  assert (DN : diri e (v2neg (sup32 d32)) (inj (pneg w))) by exact (diri_pt e _ _ P).
  split; [repeat constructor; exact P|]. split; [exact DN|]. split.
  - split; [repeat constructor; [exists d; auto | exact IW]|]. split; [apply (diri_inj _ _ DN)|]. split; [exact NW | reflexivity].
  - rewrite (too_small_same e He _ _ DN), small_inj. apply Rltb_false, Rnot_lt_le. intro L. apply NW, (res_neg W w Res IW L).
Qed.
Lemma tf32_found d32 d : diri e d32 (inj d) -> d <> origin -> (length V <= 20)%nat -> caught (run_tf sup32 20 [] d32).
Proof.
  intros D N L. change (run_tf sup32 20 [] d32) with
   (if fle (v2dot (sup32 d32) d32) f0 then Separated [] d32
      else match add_point [] (sup32 d32) with
           | Panic q => Crashed q
           | Ok (s', (collides, new_dir)) =>
               let new_dir := if direction_is_too_small new_dir then v2perp d32 else new_dir in
               if collides then Captured s' else run_tf sup32 19 s' new_dir
           end).
  rewrite (ahead32 d32 d D N). destruct (start32 d32 d D N) as (b & F & DN & I & SM). cbn [add_point]. cbv zeta. rewrite SM. apply (tf32_second 17 _ b _ _ F DN I L).
Qed.
(** the other variants follow the same path *)
Lemma ff_follows n : forall l d32 x, run_tf sup32 n l d32 = Captured x -> (exists y, run_ff sup32 n l d32 = Captured y) \/ (exists y d', run_ff sup32 n l d32 = TooSmall y d').
Proof.
  induction n as [|n IH]; intros l d32 x E; cbn [run_tf run_ff] in *; [discriminate|]. destruct (fle _ f0); [discriminate|].
  destruct (add_point l (sup32 d32)) as [[l' [c d']]|]; [|discriminate]. cbv zeta in E. destruct c; [left; eauto|].
  destruct (direction_is_too_small d'); [right; eauto|]. apply (IH l' d' x E).
Qed.
Definition ahead (d32 : vec2 b32) : Prop := exists d, diri e d32 (inj d) /\ d <> origin.
Lemma ahead_next l S d32 p c d' : Forall2 (pti e) l S -> (length l <= 2)%nat -> ahead d32 -> (exists w, pti e p (inj w)) -> add_point l p = Ok (c, (false, d')) ->
  Forall2 (pti e) c (map (fun q => inj (rv q)) c) /\ (length c <= 2)%nat /\ ahead (if direction_is_too_small d' then v2perp d32 else d').
Proof.
  intros F L (d & D & N) (w & P) EA. pose proof (add_same e He l S p (inj w) F L P) as A. unfold agree1 in A. rewrite EA in A.
  destruct (add_point S (inj w)) as [[l1 [c1 e1]]|]; [|contradiction]. destruct A as (F1 & <- & L1 & D1). split; [|split; [lia|]].
  - clear - F1. induction F1 as [|q q' c l1 Q F1 IH]; constructor; [|exact IH]. rewrite <- (pti_rv e _ _ Q). exact Q.
  - rewrite (too_small_same e He _ _ D1). destruct (direction_is_too_small e1) eqn:SM.
    + exists (perp d). split; [apply perp_dir, D | apply perp_ne, N].
    + destruct (diri_rv e _ _ He D1) as [-> _]. exists (rv d'). split; [exact D1 | apply small_ne, SM].
Qed.
Lemma ft_follows n : forall l S la d32, Forall2 (pti e) l S -> (length l <= 2)%nat -> ahead d32 -> run_ft sup32 n l la d32 = run_tf sup32 n l d32.
Proof.
  induction n as [|n IH]; intros l S la d32 F L A; cbn [run_tf run_ft]; [reflexivity|]. pose proof A as (d & D & N).
  rewrite (ahead32 d32 d D N). cbn [andb]. destruct (add_point l (sup32 d32)) as [[c [b d']]|] eqn:EA; [|reflexivity]. cbv zeta. destruct b; [reflexivity|].
  destruct (new32 d32 d D) as (w & P & _). destruct (ahead_next l S d32 _ c d' F L A (ex_intro _ w P) EA) as (F1 & L1 & A1). apply (IH c _ _ _ F1 L1 A1).
Qed.
Lemma tt_follows n : forall l S la d32, Forall2 (pti e) l S -> (length l <= 2)%nat -> ahead d32 -> run_tt sup32 n l la d32 true = run_tf sup32 n l d32.
Proof.
  induction n as [|n IH]; intros l S la d32 F L A; cbn [run_tf run_tt]; [reflexivity|]. pose proof A as (d & D & N).
  rewrite (ahead32 d32 d D N). cbn [andb]. destruct (add_point l (sup32 d32)) as [[c [b d']]|] eqn:EA; [|reflexivity]. cbv zeta. destruct b; [reflexivity|]. cbn [andb negb].
  destruct (new32 d32 d D) as (w & P & _). destruct (ahead_next l S d32 _ c d' F L A (ex_intro _ w P) EA) as (F1 & L1 & A1). apply (IH c _ _ _ F1 L1 A1).
Qed.
Lemma ft32_found d32 d : diri e d32 (inj d) -> d <> origin -> (length V <= 21)%nat -> caught (start_ft sup32 d32).
Proof.
  intros D N L. destruct (start32 d32 d D N) as (b & F & DN & I & SM). unfold start_ft. cbn [add_point].
  rewrite (ft_follows 20 _ _ _ _ F ltac:(cbn; lia)); [apply (tf32_second 18 _ b _ _ F DN I L)|]. exists (pneg b). split; [exact DN | apply I].
Qed.
Lemma tt32_found d32 d : diri e d32 (inj d) -> d <> origin -> (length V <= 21)%nat -> caught (start_tt sup32 d32).
Proof.
  intros D N L. destruct (start32 d32 d D N) as (b & F & DN & I & SM). unfold start_tt. cbn [add_point].
  rewrite (tt_follows 20 _ _ _ _ F ltac:(cbn; lia)); [apply (tf32_second 18 _ b _ _ F DN I L)|]. exists (pneg b). split; [exact DN | apply I].
Qed.
End Found.

(** ** distance search *)
Definition closest_ok (S : list pt) (n : pt) : Prop :=
  match S with
  | [b] => n = pneg b
  | [b; c] => (base n b c /\ (TI M n b c \/ TII M n b c)) \/ Wst M n b c
  | _ => False
  end.
Definition StW (S : list pt) (n : pt) : Prop := Forall WW S /\ norm n <= K / 2 /\ closest_ok S n.
Lemma WW_M v : WW v -> M v. Proof. intros [I _]. apply HVM, I. Qed.
Lemma St_to s' S n : StW S n -> Forall (value s' K) S -> St M s' K S n.
Proof.
  intros (F & N & H) G. split; [|split; [apply half_le, N | exact H]]. rewrite Forall_forall in * . intros v I. split; [apply WW_M, F, I | apply G, I].
Qed.
Lemma St_from s' S n : (forall u, value s' K u -> WW u) -> norm n <= K / 2 -> St M s' K S n -> StW S n.
Proof. intros H N (F & _ & T). split; [|split; [exact N | exact T]]. eapply Forall_impl; [|exact F]. intros v [_ Q]. apply H, Q. Qed.
Lemma StW_neg S n : StW S n -> pdot n (newest S) <= 0.
Proof.
  intros (_ & _ & H). destruct S as [|b [|c [|x S]]]; try contradiction; cbn.
  - cbn in H. subst n. rewrite pdot_neg_l. pose proof (pdot_nonneg b). lra.
  - destruct H as [((_ & _ & _ & H) & _)|(-> & _)]; [exact H|]. rewrite pdot_neg_l. pose proof (pdot_nonneg b). lra.
Qed.
Lemma StW_len S n : StW S n -> (1 <= length S <= 2)%nat.
Proof. intros (_ & _ & H). destruct S as [|b [|c [|x S]]]; try contradiction; cbn; lia. Qed.

Inductive d32step (l : simplex b32) (S : list pt) (d32 : vec2 b32) (d w : pt) : Prop :=
  | d32_go l' S' c32 d'' : add_point l (sup32 d32) = Ok (l', (false, c32)) -> Forall2 (pti e) l' (map inj S') ->
      diri e (if direction_is_too_small c32 then v2perp d32 else c32) (inj d'') -> StW S' d'' -> newest S' = w -> length S' = 2%nat ->
      (J M S' d'' \/ (length S = 1%nat /\ 0 < pdot d w)) -> d32step l S d32 d w
  | d32_cap l' c32 b c : S = [b; c] -> base d b c -> add_point l (sup32 d32) = Ok (l', (true, c32)) -> length l' = 3%nat ->
      cap_facts d w b c -> d32step l S d32 d w.
Lemma dist32_step l S d32 d w : Forall2 (pti e) l (map inj S) -> diri e d32 (inj d) -> StW S d -> pti e (sup32 d32) (inj w) -> is_farthest M d w -> In w V ->
  pdot d (newest S) < pdot d w -> d32step l S d32 d w.
Proof.
  intros F D I P FW IW L. pose proof I as (FV & N2 & SO). pose proof (ne_origin_of_dot _ _ _ L) as ND.
  destruct (pick M W K s0 K_pos Hs0 S d w FV N2 FW (WW_new d w ND FW IW)) as (s' & Hf & Ew & VS & VW).
  assert (Ll : (length l <= 2)%nat) by (rewrite <- (len2 _ _ _ F), map_length; destruct (StW_len S d I); lia).
  pose proof (add_same e He l (map inj S) _ _ F Ll P) as A. unfold agree1 in A.
  pose proof (dist_step M s' K rho Hf HM K1 K3 (res_value s' VW) S d (St_to s' S d I VS)) as ST. rewrite Ew in ST. specialize (ST L).
  destruct (add_point l (sup32 d32)) as [[l1 [c1 e1]]|] eqn:EQ; [|contradiction].
  destruct ST as [S' d' d'' EA ED I' NW L2 JJ|b c ES B EA FC T]; rewrite Ew in * ; rewrite EA in A; destruct A as (F1 & -> & A).
  - destruct A as [_ A]. assert (D2 : diri e (if direction_is_too_small e1 then v2perp d32 else e1) (inj d'')) by (rewrite <- ED; apply (next_dir e He); assumption).
    apply (d32_go l S d32 d w l1 S' e1 d'' EQ F1 D2); try assumption. apply (St_from s' S' d'' VW); [apply (diri_inj _ _ D2) | exact I'].
  - apply (d32_cap l S d32 d w l1 e1 b c ES B EQ A FC).
Qed.
Definition goodW (o : outcome b32) : Prop :=
  match o with
  | Separated l _ | Exhausted l => exists S n, Forall2 (pti e) l (map inj S) /\ StW S n
  | Captured l => length l = 3%nat /\ M origin
  | TooSmall _ _ | Crashed _ => False
  end.
Lemma cap_in S d w b c : StW S d -> S = [b; c] -> M w -> cap_facts d w b c -> M origin.
Proof.
  intros (FV & _) -> Mw C. inversion FV as [|? ? Vb F']; subst. inversion F' as [|? ? Vc _]; subst.
  apply (cap_origin M d w b c HC Mw (WW_M _ Vb) (WW_M _ Vc) C).
Qed.
Lemma ft32_good n : forall S d l la d32, StW S d -> Forall2 (pti e) l (map inj S) -> pti e la (inj (newest S)) -> diri e d32 (inj d) -> goodW (run_ft sup32 n l la d32).
Proof.
  induction n as [|n IH]; intros S d l la d32 I FS PL D; cbn [run_ft]; [exists S, d; auto|].
  pose proof (StW_neg S d I) as Neg. destruct (new32 d32 d D) as (w & P & FW & IW).
  rewrite (test32 d32 d w P D), (fit_last e He _ _ _ _ _ _ P PL D).
  change (fle (v2dot (inj w) (inj d)) (v2dot (inj (newest S)) (inj d))) with (Rleb (pdot w d) (pdot (newest S) d)).
  destruct (Rleb (pdot w d) 0 && Rleb (pdot w d) (pdot (newest S) d)) eqn:E; [exists S, d; auto|].
  assert (L : pdot d (newest S) < pdot d w).
  { rewrite (pdot_comm w), (pdot_comm (newest S) d) in E. apply andb_false_iff in E. destruct E as [E|E]; rcase_in E; try discriminate; lra. }
  destruct (dist32_step l S d32 d w FS D I P FW IW L) as [l' S' c32 d'' EA F' D' I' NW L2 _|l' c32 b c ES B EA L3 FC]; rewrite EA.
  - cbv zeta. apply (IH S' d''); try assumption. rewrite NW. exact P.
  - split; [exact L3 | apply (cap_in S d w b c I ES (proj1 FW) FC)].
Qed.
Lemma tt32_good n : forall S d p l la d32, StW S d -> possible_ok M p S d -> Forall2 (pti e) l (map inj S) -> pti e la (inj (newest S)) -> diri e d32 (inj d) ->
  goodW (run_tt sup32 n l la d32 p).
Proof.
  induction n as [|n IH]; intros S d p l la d32 I PO FS PL D; cbn [run_tt]; [exists S, d; auto|].
  pose proof (StW_neg S d I) as Neg. destruct (new32 d32 d D) as (w & P & FW & IW).
  rewrite (test32 d32 d w P D). rewrite pdot_comm. destruct (_ && _) eqn:E; [exists S, d; auto|].
  assert (L : pdot d (newest S) < pdot d w).
  { apply andb_false_iff in E. destruct E as [E|E]; [rcase_in E; [discriminate | lra]|]. apply negb_false_iff in E.
    destruct (dot_pd e He _ _ _ _ P D) as (k1 & n1 & (F1 & V1 & W1)). destruct (dot_pd e He _ _ _ _ PL D) as (k2 & n2 & (F2 & V2' & W2)).
    change (v2dot (inj w) (inj d)) with (XFin (pdot w d)) in W1. change (v2dot (inj (newest S)) (inj d)) with (XFin (pdot (newest S) d)) in W2.
    injection W1 as W1. injection W2 as W2. rewrite <- W1 in V1. rewrite <- W2 in V2'. rewrite pdot_comm in V1. rewrite pdot_comm in V2'.
    apply better_strict in E; try assumption; [rewrite <- V1, <- V2'; exact E | rewrite V2'; exact Neg | apply val_big]. }
  assert (Nd : d <> origin) by apply (ne_origin_of_dot _ _ _ L).
  destruct (dist32_step l S d32 d w FS D I P FW IW L) as [l' S' c32 d'' EA F' D' I' NW L2 JJ|l' c32 b c ES B EA L3 FC]; rewrite EA.
  - cbn [andb]. apply (IH S' d''); try assumption; [|rewrite NW; exact P].
    destruct (Rleb_spec (pdot d w) 0) as [Q|Q].
    + right. split; [exact L2|]. split; [apply (behind_of d w Nd FW); rewrite pdot_comm; exact Q|].
      destruct JJ as [JJ|(_ & JJ)]; [exact JJ | lra].
    + destruct PO as [->|(L0 & BH & _)]; [left; reflexivity|]. right. split; [exact L2|]. split; [exact BH|].
      destruct JJ as [JJ|(L00 & _)]; [exact JJ | lia].
  - pose proof FC as (P0 & _). rewrite (Rleb_false (pdot d w) 0) by exact P0. cbn [andb]. destruct p.
    + split; [exact L3 | apply (cap_in S d w b c I ES (proj1 FW) FC)].
    + exfalso. destruct PO as [Q|(_ & BH & JJ)]; [discriminate|]. pose proof I as (FV & _). rewrite ES in FV. inversion FV as [|? ? Vb FV']; subst. inversion FV' as [|? ? Vc _]; subst.
      apply (cap_late M d w b c B (proj1 FW) (WW_M _ Vb) (WW_M _ Vc) FC BH JJ).
Qed.
Lemma start_StW d32 d : diri e d32 (inj d) -> d <> origin -> exists w, pti e (sup32 d32) (inj w) /\ StW [w] (pneg w) /\ diri e (v2neg (sup32 d32)) (inj (pneg w)).
Proof.
  intros D N. destruct (new32 d32 d D) as (w & P & FW & IW). exists w. assert (DN : diri e (v2neg (sup32 d32)) (inj (pneg w))) by exact (diri_pt e _ _ P).
  split; [exact P|]. split; [|exact DN]. split; [repeat constructor; [exact IW | exists d; auto]|]. split; [apply (diri_inj _ _ DN) | reflexivity].
Qed.
Lemma start_ft32 d32 d : diri e d32 (inj d) -> d <> origin -> goodW (start_ft sup32 d32).
Proof.
  intros D N. destruct (start_StW d32 d D N) as (w & P & I & DN). unfold start_ft. cbn [add_point]. apply (ft32_good 20 [w] (pneg w)); try assumption. repeat constructor; exact P.
Qed.
Lemma start_tt32 d32 d : diri e d32 (inj d) -> d <> origin -> goodW (start_tt sup32 d32).
Proof.
  intros D N. destruct (start_StW d32 d D N) as (w & P & I & DN). unfold start_tt. cbn [add_point]. apply (tt32_good 20 [w] (pneg w) true); try assumption; [left; reflexivity | repeat constructor; exact P].
Qed.

(** ** whole queries: verdicts *)
Variables (dir32 : vec2 b32) (d0 : pt).
Hypothesis Hd : diri e dir32 (inj d0).
Hypothesis Hd0 : d0 <> origin.
Lemma dir_half : norm d0 <= K / 2. Proof. apply (diri_inj _ _ Hd). Qed.
Theorem soundW P D : exists r v, gjk sup32 P D dir32 = Ok (r, v) /\ (r = true -> M origin).
Proof.
  pose proof (InvW_nil d0 dir_half Hd0) as I0. assert (F0 : Forall2 (pti e) [] (map inj [])) by constructor.
  destruct P, D; cbn [gjk].
  - pose proof (start_tt32 dir32 d0 Hd Hd0) as H. unfold gjk_tt. destruct (start_tt sup32 dir32) as [l d|l|l d|l|p]; cbn [goodW] in H; try contradiction.
    + destruct H as (S & n & F & I). destruct (dist2 l) as (v & ->); [rewrite <- (len2 _ _ _ F), map_length; apply (StW_len S n I)|]. exists false, v. split; [reflexivity | discriminate].
    + destruct H as [L O]. destruct (ccw3 l L) as (l' & ->). eexists true, _. split; [reflexivity|]. intros _. exact O.
    + destruct H as (S & n & F & I). destruct (dist2 l) as (v & ->); [rewrite <- (len2 _ _ _ F), map_length; apply (StW_len S n I)|]. exists false, v. split; [reflexivity | discriminate].
  - destruct (tf32 20 [] [] dir32 d0 F0 Hd I0) as [H NS]. unfold gjk_tf. destruct (run_tf sup32 20 [] dir32) as [l d|l|l d|l|p]; cbn [sound_end] in H; try contradiction.
    + eexists false, _. split; [reflexivity | discriminate].
    + destruct H as [L O]. destruct (ccw3 l L) as (l' & ->). eexists true, _. split; [reflexivity|]. intros _. exact O.
    + exfalso. apply (NS l d eq_refl).
    + eexists false, _. split; [reflexivity | discriminate].
  - pose proof (start_ft32 dir32 d0 Hd Hd0) as H. unfold gjk_ft. destruct (start_ft sup32 dir32) as [l d|l|l d|l|p]; cbn [goodW] in H; try contradiction.
    + destruct H as (S & n & F & I). destruct (dist2 l) as (v & ->); [rewrite <- (len2 _ _ _ F), map_length; apply (StW_len S n I)|]. exists false, v. split; [reflexivity | discriminate].
    + destruct H as [L O]. rewrite L. cbn. eexists true, _. split; [reflexivity|]. intros _. exact O.
    + destruct H as (S & n & F & I). destruct (dist2 l) as (v & ->); [rewrite <- (len2 _ _ _ F), map_length; apply (StW_len S n I)|]. exists false, v. split; [reflexivity | discriminate].
  - pose proof (ff32 20 [] [] dir32 d0 F0 Hd I0) as H. unfold gjk_ff. destruct (run_ff sup32 20 [] dir32) as [l d|l|l d|l|p]; cbn [sound_end] in H; try contradiction.
    + eexists false, _. split; [reflexivity | discriminate].
    + eexists true, _. split; [reflexivity|]. intros _. apply H.
    + eexists true, _. split; [reflexivity|]. intros _. exact H.
    + eexists false, _. split; [reflexivity | discriminate].
Qed.
Theorem hitsW P D : ~ behind M -> (length V <= 20)%nat -> exists v, gjk sup32 P D dir32 = Ok (true, v).
Proof.
  intros NB L. destruct P, D; cbn [gjk].
  - destruct (tt32_found NB dir32 d0 Hd Hd0 ltac:(lia)) as (l & x & y & z & E & F & _). unfold gjk_tt. rewrite E.
    destruct (ccw3 l) as (l' & ->); [rewrite <- (len2 _ _ _ F); reflexivity | eexists; reflexivity].
  - destruct (tf32_found NB dir32 d0 Hd Hd0 L) as (l & x & y & z & E & F & _). unfold gjk_tf. rewrite E.
    destruct (ccw3 l) as (l' & ->); [rewrite <- (len2 _ _ _ F); reflexivity | eexists; reflexivity].
  - destruct (ft32_found NB dir32 d0 Hd Hd0 ltac:(lia)) as (l & x & y & z & E & F & _). unfold gjk_ft. rewrite E.
    assert (Q : length l = 3%nat) by (rewrite <- (len2 _ _ _ F); reflexivity). rewrite Q. cbn. eexists; reflexivity.
  - destruct (tf32_found NB dir32 d0 Hd Hd0 L) as (l & x & y & z & E & F & _). unfold gjk_ff.
    destruct (ff_follows 20 _ _ _ E) as [(q & ->)|(q & d' & ->)]; eexists; reflexivity.
Qed.
End Run32.
