(** * C72: MinkowskiDiff2d, the Minkowski difference of two colliders in world space. (Its module is commented out at this commit, see Extra2.v;
    the text is modelled as if it were compiled. Its unit tests all put the first collider at the origin.) *)
From Coq Require Import Reals ZArith Lra Lia Psatz Bool List.
From Verif Require Import Num NumXR Glam Transform2 Shapes2 Gjk Detect2 Misc Col3 Extra2 Spec SpecLink P_Base P_Transform P_Shapes P_Geo SpecGjk P_Scene Props_Shapes Props_Gjk Props_Dist Props_Epa.
Import ListNotations.
Local Open Scope R_scope.

(** first collider placed at v, turned by (c, s), scaled by k; second at v', (c', s'), k' *)
Definition coll {S} (a : S) (v : pt) (c s k : R) : collider2d S (transform2d XR) := Collider2d a (t2 v c s k k).

Section Diff.
Variables (v : pt) (c s k : R) (v' : pt) (c' s' k' : R).
Hypotheses (U : c * c + s * s = 1) (U' : c' * c' + s' * s' = 1) (K : 0 < k) (K' : 0 < k').
Let g := place v c s k k.
Let g' := place v' c' s' k' k'.
Let h p := pscale k (rotate c s p).
Let rv : pt := place (unplace v c s k k origin) c (- s) (1 / k) (1 / k) v'.
Let rc := c * c' - - s * s'.
Let rs := c * s' + - s * c'.
Let rk := 1 / k * k'.
Let rel := place rv rc rs rk rk.
Lemma delta_eq : delta_transform (t2 v c s k k) (t2 v' c' s' k' k') = t2 rv rc rs rk rk.
Proof. unfold rv, rc, rs, rk. apply delta_t2; lra. Qed.
Lemma rel_unit : rc * rc + rs * rs = 1.
Proof. unfold rc, rs. replace (_ + _) with ((c * c + s * s) * (c' * c' + s' * s')) by ring. rewrite U, U'. ring. Qed.
Lemma rk_pos : 0 < rk.
Proof. unfold rk. apply Rmult_lt_0_compat; [|exact K']. unfold Rdiv. rewrite Rmult_1_l. apply Rinv_0_lt_compat, K. Qed.
Lemma rel_world B : same_set (image g (image rel B)) (image g' B).
Proof.
  assert (E : forall p, g (rel p) = g' p).
  { intro p. pose proof (t2_delta v c s k k v' c' s' k' k' U ltac:(lra) ltac:(lra) (or_introl eq_refl) p) as H.
    rewrite delta_eq in H. rewrite !apply_t2 in H. apply inj_inj in H. exact H. }
  intro q. split.
  - intros (x & (y & Y & ->) & ->). exists y. split; [exact Y | apply E].
  - intros (y & Y & ->). exists (rel y). split; [exists y; split; [exact Y | reflexivity] | symmetry; apply E].
Qed.
Lemma local_world A B d p : is_farthest (minkowski_diff A (image rel B)) (rotate c (- s) d) p -> is_farthest (minkowski_diff (image g A) (image g' B)) d (h p).
Proof.
  intros (P1 & P2). pose proof (diff_ext (image g A) (image g A) _ _ (fun q => iff_refl _) (rel_world B)) as X. split.
  - apply X. apply (sim_diff v c s k U K A (image rel B) p). exact P1.
  - intros q Q. apply X in Q. set (q' := rotate c (- s) (pscale (1 / k) q)). assert (E : h q' = q) by apply (sim_hh c s k U K q).
    assert (Q' : minkowski_diff A (image rel B) q') by (apply (sim_diff v c s k U K A (image rel B) q'); change (minkowski_diff (image g A) (image g (image rel B)) (h q')); rewrite E; exact Q). apply P2 in Q'.
    assert (D : forall x, pdot d (h x) = k * pdot (rotate c (- s) d) x) by (intro x; unfold h, pdot, pscale, rotate; cbn [fst snd]; ring).
    rewrite <- E, !D. apply Rmult_le_compat_l; lra.
Qed.
Lemma apply_local p : apply (t2 v c s k k) (inj p) = inj (padd (h p) v).
Proof. rewrite apply_t2. f_equal. apply pt_eq; unfold place, h, padd, pscale, rotate; cbn [fst snd]; ring. Qed.
Lemma ext_md {SA SB} {EA : ExtremePoint2d XR SA} {EB : ExtremePoint2d XR SB} M (a : SA) (b : SB) A B d : supports M a A -> supports M b B -> norm d <= M ->
  exists p, extreme_point (md_from_colliders (coll a v c s k) (coll b v' c' s' k')) (inj d) = inj (padd p v) /\ is_farthest (minkowski_diff (image g A) (image g' B)) d p.
Proof.
  intros HA HB D. pose proof (acts_t2 v c s k) as (_ & _ & _ & Un & _).
  destruct (lmd_farthest M a b A B (t2 rv rc rs rk rk) rv rc rs rk HA HB (acts_t2 rv rc rs rk) rel_unit (Rlt_le _ _ rk_pos) (rotate c (- s) d)) as (p & E & F).
  { rewrite norm_rotate by (apply unit_neg, U). exact D. }
  exists (h p). split; [|apply local_world; exact F].
  unfold extreme_point, Ext_MinkowskiDiff, md_from_colliders, coll. cbn [md_a_t md_a md_b md_ab_t c_shape c_transform]. rewrite delta_eq, Un, E. apply apply_local.
Qed.
Lemma md_query {SA SB} {EA : ExtremePoint2d XR SA} {EB : ExtremePoint2d XR SB} P D (a : SA) (b : SB) :
  md_sdfv_minkowski P D (md_from_colliders (coll a v c s k) (coll b v' c' s' k')) =
  rmap (fun r : bool * vec2 XR => (fst r, if P || D then apply (t2 v c s k k) (snd r) else v2nan)) (minkowski_sdfv P D a b (t2 rv rc rs rk rk)).
Proof. unfold md_sdfv_minkowski, md_from_colliders, coll. cbn [md_a_t md_a md_b md_ab_t c_shape c_transform]. rewrite delta_eq. reflexivity. Qed.
Lemma shift_world A B w : meets (shift w A) (image rel B) <-> meets (shift (h w) (image g A)) (image g' B).
Proof.
  rewrite <- (sim_meets v c s k U K). apply meets_ext; [intro; apply iff_refl | apply rel_world].
Qed.
Lemma separates_world A B w : separates w A (image rel B) <-> separates (h w) (image g A) (image g' B).
Proof.
  unfold separates. rewrite <- (sim_overlaps_shift v c s k U K). fold (h w). fold g.
  assert (E : overlaps (shift (h w) (image g A)) (image g (image rel B)) <-> overlaps (shift (h w) (image g A)) (image g' B)).
  { unfold overlaps; split; intros (e & He & O); exists e; (split; [exact He|]); intros x X; specialize (O x X).
    - apply (meets_ext _ _ _ _ (fun q => iff_refl _) (rel_world B)) in O. exact O.
    - apply (meets_ext _ _ _ _ (fun q => iff_refl _) (rel_world B)). exact O. }
  rewrite E. apply iff_refl.
Qed.
End Diff.

(** extreme_point: the farthest point of the world Minkowski difference, but translated by the first collider's position (the difference of two
    positions does not move with the bodies, yet the code applies a_t including its translation). *)
Theorem C72_extreme_point : forall (SA SB : Type) (EA : ExtremePoint2d XR SA) (EB : ExtremePoint2d XR SB) M (a : SA) (b : SB) A B v c s k v' c' s' k' d,
  supports M a A -> supports M b B -> c * c + s * s = 1 -> c' * c' + s' * s' = 1 -> 0 < k -> 0 < k' -> norm d <= M -> exists p,
  extreme_point (F:=XR) (md_from_colliders (coll a v c s k) (coll b v' c' s' k')) (inj d) = inj (padd p v) /\
  is_farthest (minkowski_diff (image (place v c s k k) A) (image (place v' c' s' k' k') B)) d p.
Proof. intros. eapply ext_md; eassumption. Qed.
Print Assumptions C72_extreme_point.
(** so it is right when the first collider sits at the origin, and wrong for every direction not orthogonal to its position *)
Theorem C72_right_at_origin : forall (SA SB : Type) (EA : ExtremePoint2d XR SA) (EB : ExtremePoint2d XR SB) M (a : SA) (b : SB) A B v c s k v' c' s' k' d,
  supports M a A -> supports M b B -> c * c + s * s = 1 -> c' * c' + s' * s' = 1 -> 0 < k -> 0 < k' -> norm d <= M -> exists q,
  extreme_point (F:=XR) (md_from_colliders (coll a v c s k) (coll b v' c' s' k')) (inj d) = inj q /\
  (v = origin -> is_farthest (minkowski_diff (image (place v c s k k) A) (image (place v' c' s' k' k') B)) d q) /\
  (pdot d v <> 0 -> ~ is_farthest (minkowski_diff (image (place v c s k k) A) (image (place v' c' s' k' k') B)) d q).
Proof.
  intros SA SB EA EB M a b A B v c s k v' c' s' k' d HA HB U U' K K' D.
  destruct (C72_extreme_point SA SB EA EB M a b A B v c s k v' c' s' k' d HA HB U U' K K' D) as (p & E & (P1 & P2)). exists (padd p v). split; [exact E|]. split.
  - intros ->. replace (padd p origin) with p by (apply pt_eq; unfold padd, origin; cbn [fst snd]; ring). split; assumption.
  - intros N (Q1 & Q2). apply N. pose proof (P2 _ Q1) as L1. pose proof (Q2 _ P1) as L2. rewrite pdot_add_r in L1, L2. lra.
Qed.
Print Assumptions C72_right_at_origin.
(** The queries of the structure: the flag is the flag of the local difference; the vector is the local one turned and scaled into the world
    (as a translation should be) plus the first collider's position. *)
Theorem C72_queries : forall (SA SB : Type) (EA : ExtremePoint2d XR SA) (EB : ExtremePoint2d XR SB) P D (a : SA) (b : SB) v c s k v' c' s' k',
  0 < k -> 0 < k' -> let md := md_sdfv_minkowski P D (md_from_colliders (coll a v c s k) (coll b v' c' s' k')) in
  let local := minkowski_sdfv P D a b (delta_transform (t2 v c s k k) (t2 v' c' s' k' k')) in
  (forall f u, P || D = true -> local = Ok (f, inj u) -> md = Ok (f, inj (padd (pscale k (rotate c s u)) v))) /\
  (forall f u, P || D = false -> local = Ok (f, u) -> md = Ok (f, v2nan)) /\ (forall q, local = Panic q -> md = Panic q).
Proof.
  intros SA SB EA EB P D a b v c s k v' c' s' k' K K' md local. unfold md, local. rewrite md_query, delta_eq by assumption. split; [|split].
  - intros f u H ->. rewrite H. cbn [rmap fst snd]. rewrite (apply_local v c s k). reflexivity.
  - intros f u H ->. rewrite H. reflexivity.
  - intros q ->. reflexivity.
Qed.
Print Assumptions C72_queries.
(** What that means for two shapes whose local search gives a translation that brings them into contact, or one that separates them: subtracting the
    first collider's position from the returned vector gives one that does so in the world. *)
Section Meaning.
Variables (a b : shape2d XR) (A B : pset) (v : pt) (c s k : R) (v' : pt) (c' s' k' : R) (L : R).
Hypotheses (U : c * c + s * s = 1) (U' : c' * c' + s' * s' = 1) (K : 0 < k) (K' : 0 < k').
Hypotheses (HA : body world a A) (HB : body L b B) (LW : L <= world) (KL : k' / k * L <= world) (Near : norm (unplace v c s k k v') <= world).
Lemma md_scene : scene a b (delta_transform (t2 v c s k k) (t2 v' c' s' k' k')) A
  (image (place (place (unplace v c s k k origin) c (- s) (1 / k) (1 / k) v') (c * c' - - s * s') (c * s' + - s * c') (1 / k * k') (1 / k * k')) B).
Proof.
  rewrite delta_eq by assumption. refine (Scene _ _ _ _ _ L (place (unplace v c s k k origin) c (- s) (1 / k) (1 / k) v') (c * c' - - s * s') (c * s' + - s * c') (1 / k * k') B HA HB LW _ _ _ _ _ eq_refl).
  - replace (1 / k * k' * L) with (k' / k * L) by (field; lra). exact KL.
  - apply acts_t2.
  - apply rel_unit; assumption.
  - apply Rlt_le, rk_pos; assumption.
  - replace (place (unplace v c s k k origin) c (- s) (1 / k) (1 / k) v') with (unplace v c s k k v') by (apply pt_eq; unfold place, unplace, origin; cbn [fst snd]; field; lra). exact Near.
Qed.
End Meaning.
Lemma apply_finite v c s k x z : c * c + s * s = 1 -> 0 < k -> apply (t2 v c s k k) x = inj z -> exists u, x = inj u.
Proof.
  intros U K H. destruct x as [x y]. unfold apply, t2, Tr_Transform2d in H. cbn [t_rot t_scale t_pos] in H. unfold rotor_rot, v2mul, v2add, inj in H. cbn [ra vx vy fst snd] in H.
  change fmul with xmul in H. change fadd with xadd in H. change fsub with xsub in H. injection H as X _.
  destruct x as [x|sx|], y as [y|sy|]; try (exists (x, y); reflexivity); exfalso; revert X; unfold xmul, xsub, xadd, xneg; rewrite ?(Reqb_false k 0) by lra; rewrite ?(Rltb_false k 0) by lra;
    repeat (match goal with |- context [Reqb ?p ?q] => destruct (Reqb p q) end); try discriminate;
    repeat (match goal with |- context [Rltb ?p ?q] => destruct (Rltb p q) end); try discriminate; try (destruct sx); try (destruct sy); cbn; discriminate.
Qed.
Lemma ok_pair {A B} (a a' : A) (b b' : B) : Ok (a, b) = Ok (a', b') -> a = a' /\ b = b'.
Proof. intro H. inversion H. split; reflexivity. Qed.
Theorem C72_contact : forall (a b : shape2d XR) A B v c s k v' c' s' k' L z,
  c * c + s * s = 1 -> c' * c' + s' * s' = 1 -> 0 < k -> 0 < k' -> body world a A -> body L b B -> L <= world -> k' / k * L <= world ->
  norm (unplace v c s k k v') <= world ->
  md_sdfv_minkowski false true (md_from_colliders (coll a v c s k) (coll b v' c' s' k')) = Ok (false, inj z) ->
  meets (shift (psub z v) (image (place v c s k k) A)) (image (place v' c' s' k' k') B).
Proof.
  intros a b A B v c s k v' c' s' k' L z U U' K K' HA HB LW KL Near H.
  pose proof (md_scene a b A B v c s k v' c' s' k' L U U' K K' HA HB LW KL Near) as Sc.
  unfold md_sdfv_minkowski, md_from_colliders, coll in H. cbn [md_a_t md_a md_b md_ab_t c_shape c_transform orb] in H.
  destruct (minkowski_sdfv false true a b (delta_transform (t2 v c s k k) (t2 v' c' s' k' k'))) as [[f u]|q] eqn:Q; [|discriminate]. cbn [rmap fst snd] in H. apply ok_pair in H. destruct H as (-> & Hz).
  destruct (apply_finite v c s k u z U K Hz) as (w & ->). rewrite apply_local in Hz. apply inj_inj in Hz.
  assert (M : distance_to_rel (F:=XR) a b (delta_transform (t2 v c s k k) (t2 v' c' s' k' k')) = Ok (Some (inj w))) by (unfold distance_to_rel, sdfv_common_rel, Sdfv_ShapeShape; rewrite Q; reflexivity).
  pose proof (C30_distance_contact _ _ _ _ _ _ _ _ Sc M) as C. apply (shift_world v c s k v' c' s' k' U K) in C.
  replace (psub z v) with (pscale k (rotate c s w)) by (subst z; apply pt_eq; unfold psub, padd; cbn [fst snd]; ring). exact C.
Qed.
Print Assumptions C72_contact.
Theorem C72_penetration : forall (a b : shape2d XR) A B v c s k v' c' s' k' L z,
  c * c + s * s = 1 -> c' * c' + s' * s' = 1 -> 0 < k -> 0 < k' -> body world a A -> body L b B -> L <= world -> k' / k * L <= world ->
  norm (unplace v c s k k v') <= world ->
  md_sdfv_minkowski true false (md_from_colliders (coll a v c s k) (coll b v' c' s' k')) = Ok (true, inj z) ->
  z = v \/ separates (psub z v) (image (place v c s k k) A) (image (place v' c' s' k' k') B).
Proof.
  intros a b A B v c s k v' c' s' k' L z U U' K K' HA HB LW KL Near H.
  pose proof (md_scene a b A B v c s k v' c' s' k' L U U' K K' HA HB LW KL Near) as Sc.
  unfold md_sdfv_minkowski, md_from_colliders, coll in H. cbn [md_a_t md_a md_b md_ab_t c_shape c_transform orb] in H.
  destruct (minkowski_sdfv true false a b (delta_transform (t2 v c s k k) (t2 v' c' s' k' k'))) as [[f u]|q] eqn:Q; [|discriminate]. cbn [rmap fst snd] in H. apply ok_pair in H. destruct H as (-> & Hz).
  destruct (apply_finite v c s k u z U K Hz) as (w & ->). rewrite apply_local in Hz. apply inj_inj in Hz.
  assert (M : penetrates_rel (F:=XR) a b (delta_transform (t2 v c s k k) (t2 v' c' s' k' k')) = Ok (Some (inj w))) by (unfold penetrates_rel, sdfv_common_rel, Sdfv_ShapeShape; rewrite Q; reflexivity).
  destruct (C31_vector_separates _ _ _ _ _ _ _ _ Sc (or_introl M)) as (w' & E & C). apply inj_inj in E. subst w'.
  destruct C as [C|C].
  - left. subst w z. apply pt_eq; unfold padd, pscale, rotate, origin; cbn [fst snd]; ring.
  - right. apply (separates_world v c s k v' c' s' k' U K) in C.
    replace (psub z v) with (pscale k (rotate c s w)) by (subst z; apply pt_eq; unfold psub, padd; cbn [fst snd]; ring). exact C.
Qed.
Print Assumptions C72_penetration.

(** ** The hypotheses are met; the first collider away from the origin *)
Lemma case_delta : delta_transform (t2 (10, 0) 1 0 1 1) (t2 (14, 0) 1 0 1 1) = t2 (4, 0) 1 0 1 1.
Proof.
  rewrite delta_eq by lra. unfold t2, rotor. f_equal; [|f_equal; f_equal; f_equal|f_equal; f_equal]; try (field; lra); try ring.
  f_equal. apply pt_eq; unfold place, unplace, origin; cbn [fst snd]; field.
Qed.
Lemma case_scene : scene (SBox (pbox 1 1)) (SPoly (ppoly ex_tri')) (t2 (4, 0) 1 0 1 1) (rect 1 1) (image (place (4, 0) 1 0 1 1) (hull ex_tri')).
Proof.
  destruct far_scene as [L v c s k B0 HA HB LL KL AC U Hk Hv E]. clear - HA.
  apply (Scene _ _ _ _ _ 2 (4, 0) 1 0 1 (hull ex_tri')); try reflexivity; try lra; try (unfold world; lra).
  - exact HA.
  - apply body_poly; [discriminate|]. intros p [<-|[<-|[<-|[]]]]; apply norm_le_sq; unfold pdot; cbn; lra.
  - apply acts_t2.
  - apply norm_le_sq; unfold pdot, world; cbn; lra.
Qed.
Lemma case_resolved : resolved (SBox (pbox 1 1)) (SPoly (ppoly ex_tri')) (t2 (4, 0) 1 0 1 1).
Proof.
  assert (G : forall z, on_grid (IZR z)) by (intro z; exists (z * 128)%Z; rewrite mult_IZR; field).
  apply (C29_grid_resolved _ _ _ _ _ _ _ (4, 0) 4 3 case_scene eq_refl eq_refl).
  - exists (1, 1). split; [reflexivity | split; apply G].
  - intros q [<-|[<-|[<-|[]]]]; eexists; (split; [reflexivity | split; apply G]).
  - apply acts_t2.
  - split; apply G.
Qed.
Example C72_contact_case : exists z, md_sdfv_minkowski false true (md_from_colliders (coll (SBox (pbox 1 1)) (10, 0) 1 0 1) (coll (SPoly (ppoly ex_tri')) (14, 0) 1 0 1)) = Ok (false, inj z) /\
  meets (shift (psub z (10, 0)) (image (place (10, 0) 1 0 1 1) (rect 1 1))) (image (place (14, 0) 1 0 1 1) (hull ex_tri')).
Proof.
  assert (M : exists w, distance_to_rel (F:=XR) (SBox (pbox 1 1)) (SPoly (ppoly ex_tri')) (t2 (4, 0) 1 0 1 1) = Ok (Some (inj w))).
  { destruct (C30_distance_finite _ _ _ _ _ _ _ case_scene case_resolved) as [E|E]; [|exact E]. exfalso. exact (far_apart (C28_distance_none_sound _ _ _ _ _ _ _ case_scene case_resolved E)). }
  destruct M as (w & M). assert (Q : minkowski_sdfv false true (SBox (pbox 1 1)) (SPoly (ppoly ex_tri')) (delta_transform (t2 (10, 0) 1 0 1 1) (t2 (14, 0) 1 0 1 1)) = Ok (false, inj w)).
  { rewrite case_delta. unfold distance_to_rel, sdfv_common_rel, Sdfv_ShapeShape in M. destruct (minkowski_sdfv false true _ _ _) as [[[] u]|]; try discriminate. cbn [rmap fst snd] in M. injection M as M. rewrite M. reflexivity. }
  destruct (C72_queries _ _ _ _ false true (SBox (pbox 1 1)) (SPoly (ppoly ex_tri')) (10, 0) 1 0 1 (14, 0) 1 0 1 ltac:(lra) ltac:(lra)) as (H & _). specialize (H false w eq_refl Q). eexists. split; [exact H|].
  apply (C72_contact (SBox (pbox 1 1)) (SPoly (ppoly ex_tri')) (rect 1 1) (hull ex_tri') (10, 0) 1 0 1 (14, 0) 1 0 1 2); try lra; try (unfold world; lra).
  - apply body_box; try lra. apply norm_le_sq; unfold pdot, world; cbn; lra.
  - apply body_poly; [discriminate|]. intros p [<-|[<-|[<-|[]]]]; apply norm_le_sq; unfold pdot; cbn; lra.
  - apply norm_le_sq; unfold pdot, world, unplace; cbn [fst snd]; lra.
  - exact H.
Qed.
(** unit balls at (2, 0) and (5, 0): the difference of the two discs is the disc around (-3, 0) of radius 2, the code's farthest point along x is (1, 0) *)
Example C72_moved_refuted : extreme_point (F:=XR) (md_from_colliders (coll (pball 1) (2, 0) 1 0 1) (coll (pball 1) (5, 0) 1 0 1)) (inj (1, 0)) = inj (1, 0) /\
  ~ minkowski_diff (image (place (2, 0) 1 0 1 1) (disc 1)) (image (place (5, 0) 1 0 1 1) (disc 1)) (1, 0).
Proof.
  assert (S1 : supports 1 (pball 1) (disc 1)) by (apply C11_extreme_point_ball; lra).
  destruct (C72_extreme_point _ _ _ _ 1 (pball 1) (pball 1) (disc 1) (disc 1) (2, 0) 1 0 1 (5, 0) 1 0 1 (1, 0) S1 S1 ltac:(lra) ltac:(lra) ltac:(lra) ltac:(lra)) as (p & E & (P1 & P2)).
  { apply norm_le_sq; unfold pdot; cbn [fst snd]; lra. }
  assert (X : forall x, disc 1 x -> -1 <= fst x <= 1 /\ fst x * fst x + snd x * snd x <= 1).
  { intros x H. unfold disc in H. pose proof (norm_x x) as N. apply (proj1 (norm_le_sq x 1 ltac:(lra))) in H. unfold pdot in H. split; [|lra]. pose proof (Rle_0_sqr (snd x)). unfold Rsqr in * . split; nra. }
  assert (Px : p = (-1, 0)).
  { assert (Far : minkowski_diff (image (place (2, 0) 1 0 1 1) (disc 1)) (image (place (5, 0) 1 0 1 1) (disc 1)) (-1, 0)).
    { exists (3, 0), (4, 0). split; [exists (1, 0); split; [|apply pt_eq; unfold place; cbn [fst snd]; lra] | split; [exists (-1, 0); split; [|apply pt_eq; unfold place; cbn [fst snd]; lra] | apply pt_eq; unfold psub; cbn [fst snd]; lra]];
      unfold disc; apply norm_le_sq; unfold pdot; cbn [fst snd]; lra. }
    apply P2 in Far. destruct P1 as (q1 & q2 & (y1 & Y1 & ->) & (y2 & Y2 & ->) & Ep). apply X in Y1. apply X in Y2. subst p. unfold pdot, psub, place in * . cbn [fst snd] in * .
    assert (fst y1 = 1) by lra. assert (fst y2 = -1) by lra. rewrite H in Y1. rewrite H0 in Y2. assert (snd y1 * snd y1 <= 0) by lra. assert (snd y2 * snd y2 <= 0) by lra.
    assert (snd y1 = 0) by nra. assert (snd y2 = 0) by nra. apply pt_eq; cbn [fst snd]; lra. }
  subst p. split; [rewrite E; f_equal; apply pt_eq; unfold padd; cbn [fst snd]; lra|].
  intro Q. apply P2 in Q. unfold pdot in Q. cbn [fst snd] in Q. lra.
Qed.
