(** * C76, colliders: closed-form queries against a point between two bodies placed by uniformly scaled chains, in binary32. *)
From Coq Require Import Reals ZArith Bool Lra Lia Psatz.
From Flocq Require Import IEEE754.BinarySingleNaN Core Relative.
From Verif Require Import Num NumXR NumB32 Glam Transform2 Shapes2 Gjk Detect2 Spec SpecLink P_Base P_Geo P_B32 Props_F32 Props_F32Gjk P_F32Box Props_Lerp Props_F32Ball P_Drift Spec32 P_Closed32 Props_Drift Props_Closed32 Props_Sdf32 Props_DriftScaled.
Local Open Scope R_scope.

Lemma psub_origin p : psub p origin = p. Proof. apply pt_eq; unfold psub, origin; cbn [fst snd]; ring. Qed.
(** what the accumulated rounding can displace the other body's origin by, in self's frame *)
Definition scaled_drift (d : R) (m : chain) : R := (growth d ^ weight2 m - 1) * spread m.
Lemma scaled_rel_centre d ma mb fa ga fb : 0 <= d -> scaled_moves d ma fa -> scaled_moves d mb fb -> (forall p, fa (ga p) = p) ->
  growth d ^ weight2 (Then (Back ma) mb) <= 2 -> in_range (Then (Back ma) mb) -> spread (Then (Back ma) mb) <= bpow radix2 58 ->
  let rel := delta_transform (build ma) (build mb) in
  small2 (apply_origin rel) 59 /\ exists e, norm e <= scaled_drift d (Then (Back ma) mb) /\ rval (apply_origin rel) = padd (ga (fb origin)) e.
Proof.
  intros Hd Ma Mb Inv W Rc Sm rel. set (m := Then (Back ma) mb) in * .
  assert (M : scaled_moves d m (fun p => ga (fb p))) by (apply scaled_then; [apply scaled_back with (f := fa); assumption | exact Mb]).
  destruct (tracks2_all d Hd m _ M W Rc) as (R0 & P & k & F & N & HR & HP & Sc & HS). pose proof (near_norm _ _ _ _ HP) as NP.
  pose proof (in_range_here _ Rc) as [_ [Y1 Y2]]. pose proof (bpow_gt_0 radix2 (-59)).
  change (t_pos (build m)) with (apply_origin rel) in * . destruct HP as (Ff & E & _). split.
  - split; [exact Ff|]. apply fin_small2. replace (bpow radix2 59) with (2 * bpow radix2 58) by (replace 59%Z with (1 + 58)%Z by reflexivity; rewrite bpow_plus; reflexivity).
    eapply Rle_trans; [exact NP|]. apply Rmult_le_compat; try lra. apply pow_le. pose proof (growth_ge d Hd). lra.
  - exists (psub (rval (apply_origin rel)) (ga (fb origin))). split; [|apply pt_eq; cbn; ring].
    rewrite F. replace (padd (cmul R0 (pscale (size m) origin)) P) with P by (apply pt_eq; unfold padd, cmul, pscale, origin; cbn [fst snd]; ring). exact E.
Qed.
(** A point of the scaled world as seen from a box, rounded box or ball of the scaled world: all queries are nearly right for a point displaced
    by the drift. The vectors and distances are in self's frame, as everywhere; sdfv turns its vector into the world without scaling it. *)
Theorem C76_point_colliders : forall d ma mb fa ga fb, 0 <= d -> scaled_moves d ma fa -> scaled_moves d mb fb -> (forall p, fa (ga p) = p) ->
  growth d ^ weight2 (Then (Back ma) mb) <= 2 -> in_range (Then (Back ma) mb) -> spread (Then (Back ma) mb) <= bpow radix2 58 ->
  exists e, norm e <= scaled_drift d (Then (Back ma) mb) /\ let q := padd (ga (fb origin)) e in
  (forall h, half_ok h -> let A := rect (val (vx h)) (val (vy h)) in exists c v,
     collider_reports (Box2d h) PointS (build ma) (build mb) c v /\ fin2 v /\ (c = true <-> overlaps A (single q)) /\
     exists w, true_answer A (single q) w /\ norm (psub (rval v) w) <= u32 * norm w) /\
  (forall r, radius_ok r -> bpow radix2 (-60) <= norm q -> exists c v,
     collider_reports (Ball r) PointS (build ma) (build mb) c v /\ close_answer (val r) (disc (val r)) (single q) c v) /\
  (forall h, half_ok h -> close_distance 0 (rect (val (vx h)) (val (vy h))) (single q) (sdf (F:=b32) (Collider2d (Box2d h) (build ma)) (Collider2d PointS (build mb)))) /\
  (forall h r, half_ok h -> radius_ok r -> close_distance (val r) (rounded_rect (val (vx h)) (val (vy h)) (val r)) (single q) (sdf (F:=b32) (Collider2d (RoundedBox2d h r) (build ma)) (Collider2d PointS (build mb)))) /\
  (forall r, radius_ok r -> close_distance (val r) (disc (val r)) (single q) (sdf (F:=b32) (Collider2d (Ball r) (build ma)) (Collider2d PointS (build mb)))).
Proof.
  intros d ma mb fa ga fb Hd Ma Mb Inv W Rc Sm. destruct (scaled_rel_centre d ma mb fa ga fb Hd Ma Mb Inv W Rc Sm) as (Sp & e & He & Ee).
  exists e. split; [exact He|]. intro q. unfold q. rewrite <- Ee. split; [|split; [|split; [|split]]].
  - intros h Hh. cbv zeta. destruct (C61_box_point _ _ h _ Hh Sp) as (c & v & Rp & K). exists c, v. split; [apply reports_colliders, Rp | exact K].
  - intros r Hr Far. set (rel := delta_transform (build ma) (build mb)) in * .
    assert (Cp : centre_ok (apply_origin rel)).
    { split; [exact (proj1 Sp)|]. right. split.
      - destruct Sp as [F [A B]]. split; [exact F|]. split; (eapply small_weak; [|eassumption]; lia).
      - rewrite rlen_norm. exact Far. }
    destruct (C61_ball_point _ _ r _ Hr Cp) as (c & v & Rp & K). exists c, v. split; [apply reports_colliders, Rp | exact K].
  - intros h Hh. unfold sdf. cbn [c_shape c_transform]. apply C64_box_point; assumption.
  - intros h r Hh Hr. unfold sdf. cbn [c_shape c_transform]. apply C64_rounded_point; assumption.
  - intros r Hr. unfold sdf. cbn [c_shape c_transform]. apply C64_ball_point; assumption.
Qed.
Print Assumptions C76_point_colliders.

(** Directions the other way: unapply_normal turns by minus the total angle, whatever the scales. *)
Theorem C76_directions_back : forall d m f g, 0 <= d -> scaled_moves d m f -> (forall p, f (g p) = p) -> growth d ^ weight2 m <= 2 -> in_range m ->
  forall n, fin2 n -> norm (rval n) <= bpow radix2 100 ->
  fin2 (unapply_normal (build m) n) /\
  norm (psub (rval (unapply_normal (build m) n)) (pscale (size m) (psub (g (rval n)) (g origin)))) <= (growth d ^ S (steps m) - 1) * (norm (rval n) + bpow radix2 (-100)).
Proof.
  intros d m f g Hd M Inv W Rc n Fn Nn. destruct (tracks2_all d Hd m f M W Rc) as (R0 & P & k & F & N & HR & HP & Sc & HS).
  destruct (growth_ge d Hd) as (G8 & Gd & G1). set (K := growth d) in * . pose proof u32_pos as Hu. pose proof u32_small as Hus. pose proof bot_pos as Pb.
  pose proof (in_range_here _ Rc) as [[Z1 Z2] _]. pose proof (bpow_gt_0 radix2 (-40)) as P40.
  assert (Ks : 1 <= K ^ steps m <= 2). { split; [apply pow_R1_Rle, G1|]. eapply Rle_trans; [apply (pow_mono K _ (weight2 m)); [exact G1 | pose proof (steps_weight2 m); lia] | exact W]. }
  assert (B100 : bot <= bpow radix2 100) by (apply bpow_le; lia).
  assert (B110 : 16 * bpow radix2 100 <= bpow radix2 110).
  { change 110%Z with (10 + 100)%Z; rewrite bpow_plus; pose proof (bpow_gt_0 radix2 100); assert (16 <= bpow radix2 10) by (cbn; lra); nra. }
  pose proof (norm_nonneg (rval n)) as NN.
  assert (U : fst R0 * fst R0 + snd R0 * snd R0 = 1).
  { assert (Q : norm R0 * norm R0 = pdot R0 R0) by (unfold norm; apply sqrt_sqrt; unfold pdot; nra). rewrite N in Q. unfold pdot in Q. lra. }
  assert (Q : near (unapply_normal (build m) n) (pscale (size m) (psub (g (rval n)) (g origin))) (norm (rval n) + bot) (K ^ S (steps m))).
  { replace (pscale (size m) (psub (g (rval n)) (g origin))) with (cmul (conj2 R0) (rval n)).
    2: { pose proof (Inv (rval n)) as E1. pose proof (Inv origin) as E2. rewrite F in E1, E2. set (x := g (rval n)) in * . set (y := g origin) in * . rewrite <- (psub_origin (rval n)). rewrite <- E1. rewrite <- E2 at 1.
         assert (Q1 : (fst R0 * fst R0 + snd R0 * snd R0) * (size m * (fst x - fst y)) = size m * (fst x - fst y)) by (rewrite U; ring).
         assert (Q2 : (fst R0 * fst R0 + snd R0 * snd R0) * (size m * (snd x - snd y)) = size m * (snd x - snd y)) by (rewrite U; ring).
         apply pt_eq; unfold padd, psub, cmul, conj2, pscale; cbn [fst snd]; [rewrite <- Q1 | rewrite <- Q2]; ring. }
    cbn [unapply_normal Tr_Transform2d]. rewrite <- (rotor_eta (t_rot (build m))).
    eapply near_weaken; [apply (near_rot _ _ _ _ _ (K ^ steps m) 1); [apply near_conj, HR | apply near_self, Fn | lra | lra | lra | lra | lra]|]. cbn [pow]. nra. }
  destruct Q as (Q1 & Q2 & _). split; [exact Q1|]. exact Q2.
Qed.
Print Assumptions C76_directions_back.

(** A case that meets the hypotheses: self placed by a turn, a shift and a scale of three; other by the same done twice. *)
Example C76_collider_case : exists fa ga fb, let ma := Given case_s in let mb := Then (Given case_s) (Given case_s) in
  scaled_moves (/ 2 ^ 22) ma fa /\ scaled_moves (/ 2 ^ 22) mb fb /\ (forall p, fa (ga p) = p) /\ growth (/ 2 ^ 22) ^ weight2 (Then (Back ma) mb) <= 2 /\
  (in_range (Then (Back ma) mb) /\ spread (Then (Back ma) mb) <= bpow radix2 58) /\ ga (fb origin) = (3, 4).
Proof.
  set (a := asin (4 / 5)). assert (Sa : sin a = 4 / 5) by (apply sin_asin; lra).
  assert (Ca : cos a = 3 / 5). { unfold a. rewrite cos_asin by lra. replace (1 - (4 / 5)²) with ((3 / 5) * (3 / 5)) by (unfold Rsqr; field). apply sqrt_square; lra. }
  assert (V : forall m e, (Z.abs m <= 2 ^ 24)%Z -> (-149 <= e <= 103)%Z -> fin (b32_of m e) /\ val (b32_of m e) = IZR m * bpow radix2 e) by (intros; apply val_of; assumption).
  destruct (V 3%Z 0%Z ltac:(lia) ltac:(lia)) as [F3 V3]. destruct (V 4%Z 0%Z ltac:(lia) ltac:(lia)) as [F4 V4].
  destruct (V 10066330%Z (-24)%Z ltac:(lia) ltac:(lia)) as [Fc Vc]. destruct (V 13421773%Z (-24)%Z ltac:(lia) ltac:(lia)) as [Fs Vs].
  cbn [bpow radix_val radix2 Z.pow_pos Pos.iter Z.mul Pos.mul] in V3, V4, Vc, Vs. assert (V3' : val (b32_of 3 0) = 3) by lra.
  set (h := fun p => padd (rotate (cos a) (sin a) (pscale (val (b32_of 3 0)) p)) (rval (t_pos case_s))).
  assert (M1 : scaled_moves (/ 2 ^ 22) (Given case_s) h).
  { apply scaled_given; [split; assumption | split; assumption | assumption | reflexivity|]. eapply Rle_trans; [apply (norm_box _ (/ 2 ^ 24))|].
    - cbn [psub fst snd rval ra t_rot case_s vx vy]. rewrite Vc, Ca. cbn. apply Rabs_le. lra.
    - cbn [psub fst snd rval ra t_rot case_s vx vy]. rewrite Vs, Sa. cbn. apply Rabs_le. lra.
    - cbn. lra. }
  set (k := fun p => pscale (/ 3) (rotate (cos a) (- sin a) (psub p (rval (t_pos case_s))))).
  assert (HK : forall p, h (k p) = p /\ k (h p) = p).
  { intros [x y]. unfold h, k. rewrite Ca, Sa, V3'. split; apply pt_eq; unfold padd, psub, rotate, pscale; cbn [fst snd]; field. }
  exists h, k, (fun p => h (h p)). cbv zeta. split; [exact M1|]. split; [apply (scaled_then _ _ _ h h); exact M1|]. split; [intro p; apply HK|]. split; [|split].
  - assert (X : (weight2 (Then (Back (Given case_s)) (Then (Given case_s) (Given case_s))) <= 100)%nat) by (cbn; lia).
    refine (proj2 (growth_linear (/ 2 ^ 22) _ _ _)); [split; [cbn; lra | apply Rle_refl] | eapply Nat.le_trans; [exact X|]].
    change 17%nat with (7 + 10)%nat. rewrite Nat.pow_add_r. change (2 ^ 7)%nat with 128%nat. assert (1 <= 2 ^ 10)%nat by (cbn; lia). set (y := (2 ^ 10)%nat) in * . clearbody y. lia.
  - assert (N : norm (rval (V2 (b32_of 3 0) (b32_of 4 0))) = 5).
    { unfold norm, pdot, rval. cbn [fst snd vx vy]. rewrite V3, V4. replace (3 * 1 * (3 * 1) + 4 * 1 * (4 * 1)) with (5 * 5) by ring. apply sqrt_square. lra. }
    assert (B1 : bpow radix2 (-40) <= bpow radix2 (-8)) by (apply bpow_le; lia). assert (B2 : bpow radix2 8 <= bpow radix2 40) by (apply bpow_le; lia).
    assert (B3 : bpow radix2 (-59) <= bpow radix2 (-8)) by (apply bpow_le; lia). assert (B4 : bpow radix2 8 <= bpow radix2 59) by (apply bpow_le; lia).
    assert (B5 : bpow radix2 (-8) = / 256) by (cbn; lra). assert (B6 : bpow radix2 8 = 256) by (cbn; lra). pose proof (bpow_gt_0 radix2 (-40)) as B7.
    assert (B8 : bpow radix2 8 <= bpow radix2 58) by (apply bpow_le; lia). cbn [in_range size spread t_pos t_scale case_s vx]. rewrite N, V3'. unfold Rdiv. repeat split; lra.
  - rewrite (proj2 (HK (h origin))). unfold h, origin. change (rval (t_pos case_s)) with (val (b32_of 3 0), val (b32_of 4 0)). rewrite Ca, Sa, V3', V4. apply pt_eq; unfold padd, rotate, pscale; cbn [fst snd]; ring.
Qed.
