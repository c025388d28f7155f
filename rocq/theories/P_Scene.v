(** * GJK theorems instantiated with pairs of model shapes (proofs). *)
From Coq Require Import Reals Lra Psatz Bool List Lia Arith.
From Verif Require Import Num NumXR Glam Transform2 Shapes2 Gjk Detect2 Spec SpecLink P_Base P_Transform P_Shapes P_Geo P_GjkShape SpecGjk P_Gjk P_Gjk2 P_Gjk3.
Import ListNotations.
Local Open Scope R_scope.

(** ** Convexity and size *)
Lemma norm_convex p q t r : 0 <= t <= 1 -> norm p <= r -> norm q <= r -> norm (padd (pscale (1 - t) p) (pscale t q)) <= r.
Proof.
  intros T P Q. eapply Rle_trans; [apply norm_triangle|]. rewrite !norm_scale, !Rabs_right by lra. nra.
Qed.
Lemma convex_disc r : convex (disc r).
Proof. intros p q t P Q T. apply norm_convex; assumption. Qed.
Fixpoint wmix (t : R) (ws us : list R) : list R :=
  match ws, us with w :: ws', u :: us' => ((1 - t) * w + t * u) :: wmix t ws' us' | _, _ => [] end.
Lemma wmix_spec t : 0 <= t <= 1 -> forall ps ws us, length ws = length ps -> length us = length ps ->
  Forall (fun w => 0 <= w) ws -> Forall (fun w => 0 <= w) us ->
  length (wmix t ws us) = length ps /\ Forall (fun w => 0 <= w) (wmix t ws us) /\
  total (wmix t ws us) = (1 - t) * total ws + t * total us /\
  wsum (wmix t ws us) ps = padd (pscale (1 - t) (wsum ws ps)) (pscale t (wsum us ps)).
Proof.
  intro T. induction ps as [|p ps IH]; intros [|w ws] [|u us] L1 L2 F1 F2; cbn in *; try discriminate.
  - repeat split; auto; [lra | apply pt_eq; cbn; lra].
  - inversion F1; subst. inversion F2; subst. destruct (IH ws us) as (A & B & C & D); try assumption; try lia.
    split; [lia|]. split; [constructor; [nra | exact B]|]. split; [rewrite C; ring|]. rewrite D. apply pt_eq; cbn; ring.
Qed.
Lemma convex_hull ps : convex (hull ps).
Proof.
  intros p q t (ws & L1 & F1 & T1 & ->) (us & L2 & F2 & T2 & ->) T.
  destruct (wmix_spec t T ps ws us L1 L2 F1 F2) as (A & B & C & D).
  exists (wmix t ws us). split; [exact A|]. split; [exact B|]. split; [rewrite C, T1, T2; ring | symmetry; exact D].
Qed.
Lemma convex_place v c s k A : convex A -> convex (image (place v c s k k) A).
Proof.
  intros C p q t (p' & P & ->) (q' & Q & ->) T. exists (padd (pscale (1 - t) p') (pscale t q')). split; [apply C; assumption|].
  apply pt_eq; cbn; ring.
Qed.
Lemma convex_diff A B : convex A -> convex B -> convex (minkowski_diff A B).
Proof.
  intros CA CB p q t (a & b & Ha & Hb & ->) (a' & b' & Ha' & Hb' & ->) T.
  exists (padd (pscale (1 - t) a) (pscale t a')), (padd (pscale (1 - t) b) (pscale t b')).
  split; [apply CA; assumption|]. split; [apply CB; assumption|]. apply pt_eq; cbn; ring.
Qed.
Lemma hull_norm ps L p : (forall q, In q ps -> norm q <= L) -> ps <> [] -> hull ps p -> norm p <= L.
Proof.
  intros H N Hp. assert (L0 : 0 <= L). { destruct ps as [|q ps]; [contradiction|]. pose proof (H q (or_introl eq_refl)). pose proof (norm_nonneg q). lra. }
  destruct (Req_dec (norm p) 0) as [Z|Z]; [lra|]. pose proof (norm_nonneg p).
  assert (B : pdot p p <= norm p * L).
  { apply (hull_bound p _ ps p); [|exact Hp]. intros q Hq. eapply Rle_trans; [apply cauchy|]. pose proof (H q Hq). nra. }
  rewrite <- norm_sq in B. nra.
Qed.
Lemma body_norm L a A p : body L a A -> A p -> norm p <= L.
Proof.
  intros [r Hr|hx hy Hx Hy HL|ps N HL] Ap.
  - unfold disc in Ap. lra.
  - apply rect_abs in Ap. destruct Ap as [X Y]. cbn in X, Y. eapply Rle_trans; [|exact HL]. apply norm_le_norm. unfold pdot; cbn.
    pose proof (sq_abs (fst p)). pose proof (sq_abs (snd p)). pose proof (Rabs_pos (fst p)). pose proof (Rabs_pos (snd p)). nra.
  - apply (hull_norm ps L p HL N Ap).
Qed.
Lemma body_convex L a A : body L a A -> convex A.
Proof. intros [r Hr|hx hy Hx Hy HL|ps N HL]; [apply convex_disc | apply convex_rect | apply convex_hull]. Qed.
Lemma body_supports K L a A : 0 <= K -> K * L < f32_max -> body L a A -> supports K a A.
Proof.
  intros HK HL [r Hr|hx hy Hx Hy Hn|ps N Hn].
  - apply supports_shape_ball. lra.
  - apply supports_shape_box; assumption.
  - apply (supports_shape_poly K L ps N Hn HL).
Qed.
Lemma body_L L a A : body L a A -> 0 <= L.
Proof.
  intros [r Hr|hx hy Hx Hy Hn|ps N Hn]; [lra | pose proof (norm_nonneg (hx, hy)); lra |].
  destruct ps as [|q ps]; [contradiction|]. pose proof (Hn q (or_introl eq_refl)). pose proof (norm_nonneg q). lra.
Qed.
Lemma world_pos : 0 < world. Proof. unfold world. lra. Qed.
Lemma reach_world : reach * world < f32_max.
Proof.
  unfold reach, world, f32_max. apply Rle_lt_trans with (IZR (8 * (3000000000 * 3000000000 * 3000000000) * 1000000000)).
  - rewrite !mult_IZR. lra.
  - apply IZR_lt. reflexivity.
Qed.
Lemma reach_pos : 0 <= reach. Proof. unfold reach, world. lra. Qed.
Lemma place_norm v c s k p L : c * c + s * s = 1 -> 0 <= k -> norm v <= world -> k * L <= world -> norm p <= L ->
  norm (place v c s k k p) <= 2 * world.
Proof.
  intros U Hk Hv HL Hp. replace (place v c s k k p) with (padd (pscale k (rotate c s p)) v) by (apply pt_eq; cbn; ring).
  eapply Rle_trans; [apply norm_triangle|]. rewrite norm_scale, Rabs_right by lra. rewrite norm_rotate by exact U.
  pose proof (norm_nonneg p). nra.
Qed.

Section Scene.
Context {T : Type} {TR : Transformation2d XR T}.
Definition xreal (x : XR) : R := match x with XFin r => r | _ => 0 end.
Definition sreal (a b : shape2d XR) (t : T) (d : pt) : pt :=
  let p := lmd_extreme_point a b t (inj d) in (xreal (vx p), xreal (vy p)).
Lemma sreal_eq a b t d p : lmd_extreme_point a b t (inj d) = inj p -> sreal a b t d = p.
Proof. intro H. unfold sreal. rewrite H. destruct p; reflexivity. Qed.

Lemma scene_facts a b (t : T) A B : scene a b t A B ->
  let M := minkowski_diff A B in let s := sreal a b t in
  (forall d, norm d <= reach -> lmd_extreme_point a b t (inj d) = inj (s d)) /\
  (forall d, norm d <= reach -> is_farthest M d (s d)) /\
  (forall m, M m -> norm m <= 3 * world) /\ convex M /\
  (exists d0, lmd_initial_direction t = inj d0 /\ d0 <> origin /\ norm d0 <= reach).
Proof.
  intros [L v c s k B0 HA HB LL KL AC U Hk Hv ->] M s'.
  pose proof world_pos as W. pose proof reach_world as RW. pose proof reach_pos as RP. pose proof (body_L L b B0 HB) as L0.
  assert (SA : supports reach a A) by (apply (body_supports reach world a A RP RW HA)).
  assert (SB : supports reach b B0) by (apply (body_supports reach L b B0 RP); [nra | exact HB]).
  assert (F : forall d, norm d <= reach -> exists p, lmd_extreme_point a b t (inj d) = inj p /\ is_farthest M d p)
    by (intros d Hd; exact (lmd_farthest reach a b A B0 t v c s k SA SB AC U Hk d Hd)).
  split; [|split; [|split; [|split]]].
  - intros d Hd. destruct (F d Hd) as (p & E & _). rewrite (sreal_eq a b t d p E : s' d = p). exact E.
  - intros d Hd. destruct (F d Hd) as (p & E & P). rewrite (sreal_eq a b t d p E : s' d = p). exact P.
  - intros m (x & y & Hx & (y' & Hy & ->) & ->). eapply Rle_trans; [apply norm_psub|].
    pose proof (body_norm _ _ _ x HA Hx). pose proof (place_norm v c s k y' L U Hk Hv KL (body_norm _ _ _ y' HB Hy)). lra.
  - apply convex_diff; [apply (body_convex _ _ _ HA) | apply convex_place, (body_convex _ _ _ HB)].
  - destruct AC as (_ & O & _). unfold lmd_initial_direction. rewrite O. change (v2lensq (inj v)) with (XFin (pdot v v)).
    change (flt (XFin (pdot v v)) feps) with (Rltb (pdot v v) eps).
    destruct (Rltb_spec (pdot v v) eps) as [S|S].
    + exists (1, 0). split; [reflexivity|]. split; [intro E; injection E; lra|]. rewrite norm_xaxis, Rabs_R1. unfold reach, world. lra.
    + exists v. split; [reflexivity|]. split; [|unfold reach; unfold world in *; lra].
      intros ->. pose proof eps_pos. unfold pdot, origin in S; cbn in S. lra.
Qed.
Lemma K1' : 2 * (3 * world) <= reach. Proof. unfold reach, world; lra. Qed.
Lemma K3' : 8 * ((3 * world) * (3 * world) * (3 * world)) <= reach. Proof. apply Rle_refl. Qed.

(** reading M back as the two bodies *)
Lemma behind_not_overlaps A B : behind (minkowski_diff A B) -> ~ overlaps A B.
Proof.
  intros (d & N & H) O. apply overlaps_0 in O. apply overlaps_diff in O. destruct O as (e & He & O).
  pose proof (norm_pos d N) as P. specialize (O (pscale (e / 2 / norm d) d)).
  assert (norm (pscale (e / 2 / norm d) d) < e).
  { rewrite norm_scale, Rabs_right by (apply Rle_ge; apply Rlt_le; repeat apply Rdiv_lt_0_compat; lra). replace (e / 2 / norm d * norm d) with (e / 2) by (field; lra). lra. }
  specialize (O H0). rewrite psub_0 in O. pose proof (H _ O) as Q. rewrite pdot_scale_r in Q.
  pose proof (dot_pos d N). assert (0 < e / 2 / norm d) by (repeat apply Rdiv_lt_0_compat; lra). nra.
Qed.
Lemma near_meets A B : near (minkowski_diff A B) -> exists w, norm w * norm w * norm w < eps /\ meets (shift w A) B.
Proof.
  intros (m & Hm & L). exists (pneg m). split; [|apply meets_diff; rewrite pneg_pneg; exact Hm].
  rewrite norm_neg. pose proof eps_pos. pose proof (norm_nonneg m). rewrite <- !norm_sq in L.
  apply Rnot_le_lt. intro C. set (n := norm m) in * . assert (0 <= n * n * n) by (apply Rmult_le_pos; nra).
  assert (eps * eps <= (n * n * n) * (n * n * n)) by nra. nra.
Qed.
Lemma origin_meets A B : minkowski_diff A B origin -> meets A B.
Proof. intros (a & b & Ha & Hb & E). exists a. split; [exact Ha|]. replace a with b; [exact Hb|]. apply pt_eq; [apply (f_equal fst) in E | apply (f_equal snd) in E]; cbn in E; lra. Qed.


(** ** The queries *)
Variables (a b : shape2d XR) (t : T) (A B : pset).
Hypothesis SC : scene a b t A B.
Let M := minkowski_diff A B.
Let s := sreal a b t.
Let sup := lmd_extreme_point a b t.
Let Hsup : forall d, norm d <= reach -> sup (inj d) = inj (s d) := proj1 (scene_facts a b t A B SC).
Let Hfar : forall d, norm d <= reach -> is_farthest M d (s d) := proj1 (proj2 (scene_facts a b t A B SC)).
Let HM : forall m, M m -> norm m <= 3 * world := proj1 (proj2 (proj2 (scene_facts a b t A B SC))).
Let HC : convex M := proj1 (proj2 (proj2 (proj2 (scene_facts a b t A B SC)))).
Let H0 := proj2 (proj2 (proj2 (proj2 (scene_facts a b t A B SC)))).

Lemma resolved_values : resolved a b t -> resolvable (value s reach).
Proof.
  intro R. assert (W : forall p, value s reach p -> support_value a b t p) by (intros p (d & Hd & ->); exists d; split; [exact Hd | apply Hsup, Hd]).
  intros x y z X Y Z. apply R; apply W; assumption.
Qed.
Lemma empty_inv d0 : norm d0 <= reach -> d0 <> origin -> Inv M s reach [] d0.
Proof. intros. split; [constructor|]. auto. Qed.

Definition ran_out (o : outcome XR) : Prop := exists l, o = Exhausted l.

Lemma q_collides_false : collides_rel (F:=XR) a b t = Ok false ->
  ~ overlaps A B \/ ran_out (run_ff sup 20 [] (lmd_initial_direction t)).
Proof.
  unfold collides_rel, sdfv_common_rel, Sdfv_ShapeShape, minkowski_sdfv, gjk, gjk_ff. fold sup.
  destruct H0 as (d0 & -> & N0 & L0). intro E.
  destruct (run_ff sup 20 [] (inj d0)) as [l d|l|l d|l|p] eqn:R; cbn in E; try discriminate.
  - left. apply behind_not_overlaps. apply (ff_separated M s sup reach (3 * world) Hsup Hfar HM K1' K3' 20 [] d0) with (5 := R); auto; cbn; lia.
  - right. exists l. reflexivity.
Qed.
Lemma q_penetrates_none : penetrates_rel (F:=XR) a b t = Ok None ->
  ~ overlaps A B \/ ran_out (run_tf sup 20 [] (lmd_initial_direction t)).
Proof.
  unfold penetrates_rel, sdfv_common_rel, Sdfv_ShapeShape, minkowski_sdfv, gjk, gjk_tf. fold sup.
  destruct H0 as (d0 & -> & N0 & L0). intro E.
  destruct (run_tf sup 20 [] (inj d0)) as [l d|l|l d|l|p] eqn:R; cbn in E; try discriminate.
  - left. apply behind_not_overlaps. apply (tf_separated M s sup reach (3 * world) Hsup Hfar HM K1' K3' 20 [] d0) with (5 := R); auto; cbn; lia.
  - destruct (enforce_ccw l); discriminate.
  - destruct (enforce_ccw l); discriminate.
  - right. exists l. reflexivity.
Qed.
Lemma q_distance_some v : distance_to_rel (F:=XR) a b t = Ok (Some v) ->
  ~ overlaps A B \/ ran_out (start_ft sup (lmd_initial_direction t)).
Proof.
  unfold distance_to_rel, sdfv_common_rel, Sdfv_ShapeShape, minkowski_sdfv, gjk, gjk_ft. fold sup.
  destruct H0 as (d0 & -> & N0 & L0). intro E.
  destruct (start_ft sup (inj d0)) as [l d|l|l d|l|p] eqn:R; cbn in E; try discriminate.
  - left. apply behind_not_overlaps. apply (start_ft_separated M s sup reach (3 * world) Hsup Hfar HM K1' K3' d0 L0 N0 _ _ R).
  - destruct (Nat.eqb _ _); discriminate.
  - destruct (Nat.eqb _ _); discriminate.
  - right. exists l. reflexivity.
Qed.
Lemma q_sdfv_false v : sdfv_rel (F:=XR) a b t = Ok (false, v) ->
  ~ overlaps A B \/ ran_out (start_tt sup (lmd_initial_direction t)).
Proof.
  unfold sdfv_rel, sdfv_common_rel, Sdfv_ShapeShape, minkowski_sdfv, gjk, gjk_tt. fold sup.
  destruct H0 as (d0 & -> & N0 & L0). intro E.
  destruct (start_tt sup (inj d0)) as [l d|l|l d|l|p] eqn:R; cbn in E; try discriminate.
  - left. apply behind_not_overlaps. apply (start_tt_separated M s sup reach (3 * world) Hsup Hfar HM K1' K3' d0 L0 N0 _ _ R).
  - destruct (enforce_ccw l); discriminate.
  - destruct (enforce_ccw l); discriminate.
  - right. exists l. reflexivity.
Qed.

Lemma q_collides_true : collides_rel (F:=XR) a b t = Ok true ->
  (exists w, norm w * norm w * norm w < eps /\ meets (shift w A) B) /\ (resolved a b t -> meets A B).
Proof.
  unfold collides_rel, sdfv_common_rel, Sdfv_ShapeShape, minkowski_sdfv, gjk, gjk_ff. fold sup.
  destruct H0 as (d0 & -> & N0 & L0). intro E.
  pose proof (ff_true M s sup reach (3 * world) Hsup Hfar HM K1' K3' 20 HC [] d0 (empty_inv d0 L0 N0)) as Q. cbn [map] in Q.
  destruct (run_ff sup 20 [] (inj d0)) as [l d|l|l d|l|p]; cbn in E; try discriminate.
  - split; [apply near_meets, near_origin, Q | intros _; apply origin_meets, Q].
  - destruct Q as [Q1 Q2]. split; [apply near_meets, Q1 | intro R; apply origin_meets, Q2, resolved_values, R].
Qed.
Lemma q_penetrates_some v : penetrates_rel (F:=XR) a b t = Ok (Some v) ->
  (exists w, norm w * norm w * norm w < eps /\ meets (shift w A) B) /\ (resolved a b t -> meets A B).
Proof.
  unfold penetrates_rel, sdfv_common_rel, Sdfv_ShapeShape, minkowski_sdfv, gjk, gjk_tf. fold sup.
  destruct H0 as (d0 & -> & N0 & L0). intro E.
  pose proof (tf_true M s sup reach (3 * world) Hsup Hfar HM K1' K3' 20 HC [] d0 (empty_inv d0 L0 N0)) as Q. cbn [map] in Q.
  pose proof (tf_not_small sup 20 [] (inj d0)) as NS.
  destruct (run_tf sup 20 [] (inj d0)) as [l d|l|l d|l|p]; cbn in E; try discriminate.
  - destruct (Q l eq_refl) as [Q1 Q2]. split; [apply near_meets, Q1|]. intro R. apply origin_meets.
    destruct (Q2 (resolved_values R)) as (x & y & z & _ & T3). apply (tri_origin M s reach x y z HC T3).
  - exfalso. apply (NS l d eq_refl).
Qed.

Lemma overlaps_no_behind : overlaps A B -> ~ behind M.
Proof. intros O H. apply (behind_not_overlaps A B H O). Qed.

Lemma keep_points (P : pset) V : exists V', (length V' <= length V)%nat /\ (forall v, In v V' -> P v) /\ (forall v, In v V -> P v -> In v V').
Proof.
  induction V as [|v V (V' & L & H1 & H2)]; [exists []; cbn; repeat split; auto; contradiction|].
  destruct (Classical_Prop.classic (P v)) as [Pv|Nv].
  - exists (v :: V'). cbn. split; [lia|]. split; [intros w [<-|W]; auto | intros w [<-|W] Pw; auto].
  - exists V'. cbn. split; [lia|]. split; [exact H1|]. intros w [<-|W] Pw; [contradiction | auto].
Qed.
Lemma values_list : few_values a b t -> exists V, (length V <= 20)%nat /\ (forall d, norm d <= reach -> In (s d) V) /\ (forall v, In v V -> M v).
Proof.
  intros (V & L & HV). destruct (keep_points M V) as (V' & L' & H1 & H2). exists V'. split; [lia|]. split; [|exact H1].
  intros d Hd. apply H2; [apply HV; exists d; split; [exact Hd | apply Hsup, Hd] | apply (Hfar d Hd)].
Qed.

Lemma q_overlap_collides : few_values a b t -> overlaps A B -> collides_rel (F:=XR) a b t = Ok true.
Proof.
  intros FV O. destruct (values_list FV) as (V & L & HV & HVM). pose proof (overlaps_no_behind O) as NB.
  unfold collides_rel, sdfv_common_rel, Sdfv_ShapeShape, minkowski_sdfv, gjk, gjk_ff. fold sup.
  destruct H0 as (d0 & -> & N0 & L0).
  destruct (ff_found M s sup reach (3 * world) Hsup Hfar HM K1' K3' NB V HV HVM d0 L0 N0 L) as [(l & ->)|(l & d & ->)]; reflexivity.
Qed.
Lemma ccw_tri x y z : exists l, enforce_ccw (map inj [x; y; z]) = Ok l.
Proof. cbn [map enforce_ccw]. match goal with |- context [if ?c then _ else _] => destruct c end; eexists; reflexivity. Qed.
Lemma q_overlap_all : few_values a b t -> resolved a b t -> overlaps A B ->
  (exists v, penetrates_rel (F:=XR) a b t = Ok (Some v)) /\ distance_to_rel (F:=XR) a b t = Ok None /\
  (exists v, sdfv_rel (F:=XR) a b t = Ok (true, v)).
Proof.
  intros FV R O. destruct (values_list FV) as (V & L & HV & HVM). pose proof (overlaps_no_behind O) as NB.
  pose proof (resolved_values R) as Rv.
  unfold penetrates_rel, distance_to_rel, sdfv_rel, sdfv_common_rel, Sdfv_ShapeShape, minkowski_sdfv, gjk, gjk_tf, gjk_ft, gjk_tt. fold sup.
  destruct H0 as (d0 & -> & N0 & L0).
  destruct (tf_found M s sup reach (3 * world) Hsup Hfar HM K1' K3' NB V HV HVM Rv d0 L0 N0 L) as (x1 & y1 & z1 & -> & _).
  destruct (ft_found M s sup reach (3 * world) Hsup Hfar HM K1' K3' NB V HV HVM Rv d0 HC L0 N0 ltac:(lia)) as (x2 & y2 & z2 & -> & _).
  destruct (tt_found M s sup reach (3 * world) Hsup Hfar HM K1' K3' NB V HV HVM Rv d0 HC L0 N0 ltac:(lia)) as (x3 & y3 & z3 & -> & _).
  destruct (ccw_tri x1 y1 z1) as (l1 & ->). destruct (ccw_tri x3 y3 z3) as (l3 & ->). cbn.
  split; [eexists; reflexivity|]. split; [reflexivity | eexists; reflexivity].
Qed.
End Scene.

(** ** When a pair has few support values, and when the tolerance cannot interfere *)
Lemma rsign_pm x : rsign x = 1 \/ rsign x = -1.
Proof. destruct (rsign_cases x) as [[-> _]|[-> _]]; auto. Qed.
Lemma corner_values L a A n : body L a A -> L <= world -> corners a = Some n ->
  exists ps, length ps = n /\ (forall d, norm d <= reach -> exists p, In p ps /\ extreme_point a (inj d) = inj p) /\
             (shape_on_grid a -> forall p, In p ps -> pt_on_grid p).
Proof.
  intros HB HL HC. destruct HB as [r Hr|hx hy Hx Hy Hn|ps N Hn]; cbn in HC; [discriminate| |]; injection HC as <-.
  - exists [(hx, hy); (hx, - hy); (- hx, hy); (- hx, - hy)]. split; [reflexivity|]. split.
    + intros d _. exists (rsign (fst d) * hx, rsign (snd d) * hy). split; [|exact (ext_box hx hy d)].
      destruct (rsign_pm (fst d)) as [-> | ->]; destruct (rsign_pm (snd d)) as [-> | ->]; cbn;
        rewrite ?Rmult_1_l; replace (-1 * hx) with (- hx) by ring; replace (-1 * hy) with (- hy) by ring; auto.
    + intros (h & E & [(zx & Gx) (zy & Gy)]). cbn in E. apply inj_inj in E. subst h. cbn in Gx, Gy.
      intros p [<-|[<-|[<-|[<-|[]]]]]; split; cbn; first [exists zx; assumption | exists zy; assumption | exists (- zx)%Z; rewrite opp_IZR; lra | exists (- zy)%Z; rewrite opp_IZR; lra].
  - exists ps. split; [symmetry; apply map_length|]. split.
    + intros d Hd. destruct (poly_farthest ps d) as (p & E & I & _); [|exists p; auto].
      destruct ps as [|q ps]; [contradiction|]. exists q. split; [left; reflexivity|].
      pose proof (cauchy_abs d q) as C. pose proof (Hn q (or_introl eq_refl)) as Hq. pose proof reach_world. pose proof (norm_nonneg q). pose proof (norm_nonneg d).
      assert (norm d * norm q <= reach * world) by (apply prod_bound; lra).
      assert (RB : Rabs (pdot d q) < f32_max) by lra. apply Rabs_def2 in RB. lra.
    + intros G p I. destruct (G (inj p)) as (h & E & Gh); [cbn; apply in_map, I|]. apply inj_inj in E. subst h. exact Gh.
Qed.

Section Values.
Context {T : Type} {TR : Transformation2d XR T}.
Lemma lmd_values ps qs a b (t : T) v c s k : acts_as t v c s k -> c * c + s * s = 1 ->
  (forall d, norm d <= reach -> exists p, In p ps /\ extreme_point a (inj d) = inj p) ->
  (forall d, norm d <= reach -> exists p, In p qs /\ extreme_point b (inj d) = inj p) ->
  forall x, support_value a b t x -> In x (map (fun pq => psub (fst pq) (place v c s k k (snd pq))) (list_prod ps qs)).
Proof.
  intros (A1 & _ & _ & A4 & _) U HP HQ x (d & Hd & E). unfold lmd_extreme_point in E.
  rewrite v2neg_inj, A4 in E. destruct (HP d Hd) as (p & Ip & Ep). rewrite Ep in E.
  destruct (HQ (rotate c (- s) (pneg d))) as (q & Iq & Eq); [rewrite norm_rotate by (apply unit_neg, U); rewrite norm_neg; exact Hd|].
  rewrite Eq, A1, v2sub_inj in E. apply inj_inj in E. subst x.
  apply in_map_iff. exists (p, q). split; [reflexivity | apply in_prod; assumption].
Qed.
Lemma few_corners a b (t : T) A B n m : scene a b t A B -> corners a = Some n -> corners b = Some m -> (n * m <= 20)%nat -> few_values a b t.
Proof.
  intros [L v c s k B0 HA HB LL KL AC U Hk Hv E] Ca Cb NM.
  destruct (corner_values world a A n HA (Rle_refl _) Ca) as (ps & Lp & HP & _).
  destruct (corner_values L b B0 m HB LL Cb) as (qs & Lq & HQ & _).
  exists (map (fun pq => psub (fst pq) (place v c s k k (snd pq))) (list_prod ps qs)). split.
  - rewrite map_length, prod_length, Lp, Lq. exact NM.
  - apply (lmd_values ps qs a b t v c s k AC U HP HQ).
Qed.
Lemma grid_sub p q : pt_on_grid p -> pt_on_grid q -> pt_on_grid (psub p q).
Proof.
  intros [(x & X) (y & Y)] [(x' & X') (y' & Y')]. split; cbn.
  - exists (x - x')%Z. rewrite minus_IZR, X, X'. field.
  - exists (y - y')%Z. rewrite minus_IZR, Y, Y'. field.
Qed.
Lemma IZR_abs_ge1 z : z <> 0%Z -> 1 <= Rabs (IZR z).
Proof. intro H. rewrite <- abs_IZR. apply (IZR_le 1). lia. Qed.
Lemma grid_norm p : pt_on_grid p -> norm p = 0 \/ / 128 <= norm p.
Proof.
  intros [(x & X) (y & Y)]. destruct (Z.eq_dec x 0) as [->|Nx].
  - destruct (Z.eq_dec y 0) as [->|Ny].
    + left. apply norm_0. apply pt_eq; cbn; lra.
    + right. pose proof (norm_y p) as H. pose proof (IZR_abs_ge1 y Ny) as G. rewrite Y in H. unfold Rdiv in H.
      rewrite Rabs_mult, (Rabs_right (/128)) in H by lra. nra.
  - right. pose proof (norm_x p) as H. pose proof (IZR_abs_ge1 x Nx) as G. rewrite X in H. unfold Rdiv in H.
      rewrite Rabs_mult, (Rabs_right (/128)) in H by lra. nra.
Qed.
Lemma grid_cross p q : pt_on_grid p -> pt_on_grid q -> Rabs (pcross p q) = 0 \/ / 128 * / 128 <= Rabs (pcross p q).
Proof.
  intros [(x & X) (y & Y)] [(x' & X') (y' & Y')]. unfold pcross. rewrite X, Y, X', Y'.
  replace (IZR x / 128 * (IZR y' / 128) - IZR y / 128 * (IZR x' / 128)) with (IZR (x * y' - y * x') * (/128 * /128))
    by (rewrite minus_IZR, !mult_IZR; field).
  rewrite Rabs_mult, (Rabs_right (/128 * /128)) by lra.
  destruct (Z.eq_dec (x * y' - y * x') 0) as [->|N]; [left; rewrite Rabs_R0; ring | right].
  pose proof (IZR_abs_ge1 _ N). nra.
Qed.
Lemma eps_grid : eps <= / 128 * (/ 128 * / 128).
Proof. unfold eps. replace (/ 128 * (/ 128 * / 128)) with (/ (128 * (128 * 128))) by field. apply Rinv_le_contravar; [lra|]. replace (128 * (128 * 128)) with (IZR 2097152) by lra. apply IZR_le. cbv. discriminate. Qed.
Lemma grid_prod x y : (x = 0 \/ / 128 <= x) -> (y = 0 \/ / 128 * / 128 <= y) -> x * y = 0 \/ eps <= x * y.
Proof.
  intros [-> | X] [-> | Y]; try (left; ring). right. eapply Rle_trans; [apply eps_grid|]. apply Rmult_le_compat; lra.
Qed.
Lemma resolved_grid a b (t : T) A B v n m : scene a b t A B -> corners a = Some n -> corners b = Some m ->
  shape_on_grid a -> shape_on_grid b -> acts_as t v 1 0 1 -> pt_on_grid v -> resolved a b t.
Proof.
  intros [L v' c s k B0 HA HB LL KL _ _ _ _ _] Ca Cb Ga Gb AC Gv.
  destruct (corner_values world a A n HA (Rle_refl _) Ca) as (ps & Lp & HP & GP).
  destruct (corner_values L b B0 m HB LL Cb) as (qs & Lq & HQ & GQ).
  assert (G : forall x, support_value a b t x -> pt_on_grid x).
  { intros x Hx. pose proof (lmd_values ps qs a b t v 1 0 1 AC ltac:(ring) HP HQ x Hx) as I.
    apply in_map_iff in I. destruct I as ([p q] & <- & I). apply in_prod_iff in I. destruct I as [Ip Iq]. cbn [fst snd].
    replace (psub p (place v 1 0 1 1 q)) with (psub (psub p q) v) by (apply pt_eq; cbn; ring).
    apply grid_sub; [apply grid_sub; [apply (GP Ga p Ip) | apply (GQ Gb q Iq)] | exact Gv]. }
  intros x y z X Y Z. pose proof (G x X) as Gx. pose proof (G y Y) as Gy. pose proof (G z Z) as Gz.
  pose proof eps_grid as EG. split; [|split].
  - destruct (grid_norm x Gx) as [H|H]; [left; exact H | right; lra].
  - apply grid_prod; [apply grid_norm, grid_sub; assumption | apply grid_cross; assumption].
  - apply grid_prod; [apply grid_norm, grid_sub; assumption | apply grid_cross; apply grid_sub; assumption].
Qed.
End Values.
