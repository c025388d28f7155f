(** * C77: the theorems about chains of uniformly scaled 3D placements in binary32. *)
From Coq Require Import Reals ZArith Lra Lia Psatz Bool.
From Flocq Require Import Core BinarySingleNaN.
From Verif Require Import Num NumXR NumB32 Glam Transform2 Shapes2 Gjk Detect2 Col3 Spec SpecLink P_Base P_Geo P_Geo3 P_3d P_B32 Props_F32 Props_F32Gjk Props_Lerp P_F32Box P_Drift Spec32 P_Closed32 Props_Drift Props_Closed32 Props_Approx Spec32s P_Space32 Props_Space32 P_Quat32 Props_Quat32 P_Drift3 Props_Drift3 Props_DriftScaled Props_DriftScaled3.
Local Open Scope R_scope.

(** ** The three kinds of placement compute the same *)
Lemma sames_all m : sbuild_t3 m = as_t3 (iso_pos (sbuild_iso m)) (iso_rot (sbuild_iso m)) (iso_scale (sbuild_iso m)) /\
  sbuild_bevy m = as_bevy (iso_pos (sbuild_iso m)) (iso_rot (sbuild_iso m)) (iso_scale (sbuild_iso m)).
Proof.
  induction m as [p q k | a (Ta & Ba) b (Tb & Bb) | a (Ta & Ba)]; cbn [sbuild_iso sbuild_t3 sbuild_bevy]; [split; reflexivity | rewrite Ta, Tb, Ba, Bb; split; reflexivity | rewrite Ta, Ba; split; reflexivity].
Qed.
Lemma sames_apply m p : apply3 (sbuild_t3 m) p = apply3 (sbuild_iso m) p /\ apply3 (sbuild_bevy m) p = apply3 (sbuild_iso m) p /\ unapply3 (sbuild_t3 m) p = unapply3 (sbuild_iso m) p /\ unapply3 (sbuild_bevy m) p = unapply3 (sbuild_iso m) p.
Proof. destruct (sames_all m) as (T & B). rewrite T, B. repeat split. Qed.

Lemma near3_self40 p : fin3 p -> near3 p (rval3 p) (norm3 (rval3 p) + bpow radix2 (-40)) 1.
Proof.
  intro F. pose proof (bpow_gt_0 radix2 (-40)). split; [exact F|]. split; [|lra]. replace (sub3 (rval3 p) (rval3 p)) with (scale3 0 (0, 0, 0)) by (apply pt3_eq; v3; ring). rewrite norm3_scale, Rabs_R0. lra.
Qed.
Lemma range_numbers : bpow radix2 72 = 4 * bpow radix2 70 /\ bpow radix2 (-40) <= bpow radix2 70 /\ 8 * bpow radix2 72 <= bpow radix2 100.
Proof.
  split; [change 72%Z with (2 + 70)%Z; apply bpow_plus|]. split; [apply bpow_le; lia|]. change 8 with (bpow radix2 3). rewrite <- bpow_plus. apply bpow_le. lia.
Qed.
(** Points: apply after any chain is the exact similarity up to the accumulated relative error. *)
Theorem C77_apply : forall d m f, 0 <= d -> scaled_moves3 d m f -> growth3 d ^ weight3s m <= 101 / 100 -> in_range3 m ->
  forall p, fin3 p -> norm3 (rval3 p) <= bpow radix2 70 ->
  let e := (growth3 d ^ S (weight3s m) - 1) * (spread3 m + size3 m * (norm3 (rval3 p) + bpow radix2 (-40))) in
  about (apply3 (sbuild_iso m) p) (f (rval3 p)) e /\ about (apply3 (sbuild_t3 m) p) (f (rval3 p)) e /\ about (apply3 (sbuild_bevy m) p) (f (rval3 p)) e.
Proof.
  intros d m f Hd M W Rc p Fp Np. destruct (sames_apply m p) as (-> & -> & _). cbv zeta.
  enough (H : about (apply3 (sbuild_iso m) p) (f (rval3 p)) ((growth3 d ^ S (weight3s m) - 1) * (spread3 m + size3 m * (norm3 (rval3 p) + bpow radix2 (-40))))) by (split; [|split]; exact H).
  destruct (tracks3s_all d Hd m f M W Rc) as (Q & P & F & HQ & HP & HS). destruct (step3_ge d Hd) as (G40 & Gd & G1 & K80 & K1 & GK). destruct (growth3_three d Hd) as (U3 & U2 & U1). pose proof (growth3_pow d) as KP.
  set (K := growth3 d) in * . set (g := step3 d) in * . pose proof u32_pos as Hu. pose proof u32_small as Hus. destruct range_numbers as (B72 & B40 & B100).
  pose proof (in_range3_here _ Rc) as [[Z1 Z2] [Y1 Y2]]. pose proof (norm3_nonneg (rval3 p)) as NN. pose proof (bpow_gt_0 radix2 (-20)) as P20. pose proof (bpow_gt_0 radix2 (-40)) as P40.
  assert (Kw : 1 <= K ^ weight3s m) by (apply pow_R1_Rle, K1). pose proof (steps3s_weight m) as SW.
  assert (Kss : K ^ steps3s m * K ^ steps3s m <= K ^ weight3s m) by (rewrite <- pow_add; apply pow_up; [exact K1 | lia]).
  assert (Ks : 1 <= K ^ steps3s m <= 101 / 100). { split; [apply pow_R1_Rle, K1|]. eapply Rle_trans; [apply (pow_up K _ (weight3s m)); [exact K1 | lia] | exact W]. }
  assert (Gs : 1 <= g ^ steps3s m) by (apply pow_R1_Rle, G1). assert (Gk : g ^ steps3s m <= K ^ steps3s m) by (apply pow_incr; lra).
  assert (Gg : g ^ steps3s m * g ^ steps3s m <= 101 / 100) by (rewrite <- KP; apply Ks).
  set (D := norm3 (rval3 p) + bpow radix2 (-40)). assert (D1 : bpow radix2 (-40) <= D <= bpow radix2 72) by (unfold D; lra).
  pose proof (bot3_prod _ _ Z1 (proj1 D1)) as BD. pose proof (top3_prod (size3 m) D ltac:(lra) ltac:(lra) Z2 (proj2 D1)) as TD.
  assert (SD : 0 <= size3 m * D) by (apply Rmult_le_pos; lra).
  assert (L3 : 1 <= g ^ steps3s m * 1 * (1 + 2 * u32) <= 2). { assert (0 <= g ^ steps3s m * (2 * u32) <= 101 / 100 * (2 * u32)) by (split; [apply Rmult_le_pos | apply Rmult_le_compat_r]; lra). lra. }
  assert (NS : near3 (v3smul (iso_scale (sbuild_iso m)) p) (scale3 (size3 m) (rval3 p)) (size3 m * D) (g ^ steps3s m * 1 * (1 + 2 * u32))).
  { apply near3_scale; [exact HS | apply near3_self40, Fp | lra | lra | | exact BD]. apply Rle_trans with (2 * (size3 m * D)); [apply Rmult_le_compat_r; lra | lra]. }
  assert (U22 : 1 <= (1 + 72 * u32) * (1 + 2 * u32) <= 2). { assert (0 <= u32 * u32) by (apply Rmult_le_pos; lra). assert (u32 * u32 <= u32 * (1 / 16777216)) by (apply Rmult_le_compat_l; lra). lra. }
  assert (NR : near3 (qrot (iso_rot (sbuild_iso m)) (v3smul (iso_scale (sbuild_iso m)) p)) (rq4 Q (scale3 (size3 m) (rval3 p))) (size3 m * D) (K ^ weight3s m * ((1 + 72 * u32) * (1 + 2 * u32)))).
  { eapply near3_weaken; [eapply near3_rot; [exact HQ | exact NS | exact Gs | exact Gg | lra | | exact BD]|].
    - apply Rle_trans with (2 * (size3 m * D)); [apply Rmult_le_compat_r; lra | lra].
    - rewrite <- KP. replace (K ^ steps3s m * (g ^ steps3s m * 1 * (1 + 2 * u32)) * (1 + 72 * u32)) with (K ^ steps3s m * g ^ steps3s m * ((1 + 72 * u32) * (1 + 2 * u32))) by ring.
      apply Rmult_le_compat_r; [lra|]. apply Rle_trans with (2 := Kss). apply Rmult_le_compat_l; lra. }
  set (w := (1 + 72 * u32) * (1 + 2 * u32)) in * . assert (Kew : K ^ weight3s m <= K ^ weight3s m * w) by (rewrite <- (Rmult_1_r (K ^ weight3s m)) at 1; apply Rmult_le_compat_l; lra).
  assert (H : near3 (apply3 (sbuild_iso m) p) (f (rval3 p)) (size3 m * D + spread3 m) (K ^ S (weight3s m))).
  { rewrite F. cbn [apply3 Tr3_Isotropic3d]. eapply near3_weaken; [apply (near3_add _ _ _ _ _ _ _ NR)|].
    - eapply near3_weaken; [exact HP | exact Kew].
    - lra.
    - apply Rle_trans with (101 / 100 * 2 * (size3 m * D + spread3 m)); [apply Rmult_le_compat_r; [lra|]; apply Rmult_le_compat; lra | lra].
    - cbn [pow]. rewrite Rmult_assoc, Rmult_comm. apply Rmult_le_compat_r; [lra | exact U3]. }
  destruct H as (Q1 & Q2 & _). split; [exact Q1|]. rewrite (Rplus_comm (spread3 m)). exact Q2.
Qed.
Print Assumptions C77_apply.
(** unapply after any chain is the exact inverse similarity. *)
Theorem C77_unapply : forall d m f g, 0 <= d -> scaled_moves3 d m f -> (forall x, f (g x) = x) -> growth3 d ^ weight3s m <= 101 / 100 -> in_range3 m ->
  forall p, fin3 p -> norm3 (rval3 p) <= bpow radix2 70 ->
  let e := (growth3 d ^ S (2 * steps3s m + weight3s m) - 1) * ((spread3 m + norm3 (rval3 p) + bpow radix2 (-40)) / size3 m) in
  about (unapply3 (sbuild_iso m) p) (g (rval3 p)) e /\ about (unapply3 (sbuild_t3 m) p) (g (rval3 p)) e /\ about (unapply3 (sbuild_bevy m) p) (g (rval3 p)) e.
Proof.
  intros d m f g' Hd M Inv W Rc p Fp Np. destruct (sames_apply m p) as (_ & _ & -> & ->). cbv zeta.
  enough (H : about (unapply3 (sbuild_iso m) p) (g' (rval3 p)) ((growth3 d ^ S (2 * steps3s m + weight3s m) - 1) * ((spread3 m + norm3 (rval3 p) + bpow radix2 (-40)) / size3 m))) by (split; [|split]; exact H).
  destruct (tracks3s_all d Hd m f M W Rc) as (Q & P & F & HQ & HP & HS). destruct (step3_ge d Hd) as (G40 & Gd & G1 & K80 & K1 & GK). destruct (growth3_three d Hd) as (U3 & U2 & U1). pose proof (growth3_pow d) as KP.
  set (K := growth3 d) in * . set (g := step3 d) in * . pose proof u32_pos as Hu. pose proof u32_small as Hus. destruct range_numbers as (B72 & B40 & B100).
  pose proof (in_range3_here _ Rc) as [[Z1 Z2] [Y1 Y2]]. pose proof (norm3_nonneg (rval3 p)) as NN. pose proof (bpow_gt_0 radix2 (-20)) as P20. pose proof (bpow_gt_0 radix2 (-40)) as P40.
  assert (Kw : 1 <= K ^ weight3s m) by (apply pow_R1_Rle, K1). pose proof (steps3s_weight m) as SW.
  assert (Ks : 1 <= K ^ steps3s m <= 101 / 100). { split; [apply pow_R1_Rle, K1|]. eapply Rle_trans; [apply (pow_up K _ (weight3s m)); [exact K1 | lia] | exact W]. }
  assert (Gs : 1 <= g ^ steps3s m) by (apply pow_R1_Rle, G1). assert (Gk : g ^ steps3s m <= K ^ steps3s m) by (apply pow_incr; lra).
  assert (Gg : g ^ steps3s m * g ^ steps3s m <= 101 / 100) by (rewrite <- KP; apply Ks).
  assert (N1 : norm4 Q = 1) by apply HQ. assert (I : / size3 m * size3 m = 1) by (apply Rinv_l; lra).
  assert (Eg : g' (rval3 p) = scale3 (/ size3 m) (rq4 (conj4 Q) (sub3 (rval3 p) P))).
  { pose proof (Inv (rval3 p)) as E. rewrite F in E. set (y := g' (rval3 p)) in * . rewrite <- E.
    replace (sub3 (add3 (rq4 Q (scale3 (size3 m) y)) P) P) with (rq4 Q (scale3 (size3 m) y)) by (apply pt3_eq; unfold add3, sub3, x3, y3, z3; cbn [fst snd]; ring). rewrite rq4_conj by exact N1.
    clear E. clearbody y. transitivity (scale3 (/ size3 m * size3 m) y); [rewrite I; apply pt3_eq; v3; ring|]. generalize (/ size3 m) (size3 m). intros; apply pt3_eq; v3; ring. }
  set (D := norm3 (rval3 p) + bpow radix2 (-40) + spread3 m). assert (D1 : bpow radix2 (-40) <= D <= bpow radix2 72) by (unfold D; lra).
  pose proof (inv_range3 _ (conj Z1 Z2)) as [I1 I2].
  pose proof (bot3_prod _ _ I1 (proj1 D1)) as BD. pose proof (top3_prod (/ size3 m) D ltac:(lra) ltac:(lra) I2 (proj2 D1)) as TD.
  rewrite (Rmult_comm (/ size3 m)) in BD, TD. fold (D / size3 m) in BD, TD. pose proof bot3_pos as Pb. assert (SD : 0 <= D / size3 m) by lra.
  assert (BD0 : bot3 <= D) by (unfold bot3; eapply Rle_trans; [apply bpow_le|exact (proj1 D1)]; lia).
  set (W0 := K ^ weight3s m) in * . assert (LW : 1 <= W0 * (1 + u32) <= 2). { assert (0 <= W0 * u32 <= 2 * u32) by (split; [apply Rmult_le_pos | apply Rmult_le_compat_r]; lra). lra. }
  assert (NS : near3 (v3sub p (iso_pos (sbuild_iso m))) (sub3 (rval3 p) P) D (W0 * (1 + u32))).
  { apply near3_sub; [eapply near3_weaken; [apply near3_self40, Fp | lra] | exact HP | lra|].
    apply Rle_trans with (2 * bpow radix2 72); [apply Rmult_le_compat; lra | lra]. }
  assert (NR : near3 (qrot (qinv (iso_rot (sbuild_iso m))) (v3sub p (iso_pos (sbuild_iso m)))) (rq4 (conj4 Q) (sub3 (rval3 p) P)) D (K ^ steps3s m * (W0 * (1 + u32)) * (1 + 72 * u32))).
  { rewrite KP. apply near3_rot; [apply near4_conj, HQ | exact NS | exact Gs | exact Gg | lra | | exact BD0].
    apply Rle_trans with (2 * bpow radix2 72); [apply Rmult_le_compat; lra | lra]. }
  assert (L1 : 1 * 1 <= K ^ steps3s m * (W0 * (1 + u32))) by (apply Rmult_le_compat; lra). assert (L2 : K ^ steps3s m * (W0 * (1 + u32)) <= 101 / 100 * 2) by (apply Rmult_le_compat; lra).
  assert (L3 : 1 <= K ^ steps3s m * (W0 * (1 + u32)) * (1 + 72 * u32) <= 3). { set (x := K ^ steps3s m * (W0 * (1 + u32))) in * . assert (0 <= x * (72 * u32) <= 3 * (72 * u32)) by (split; [apply Rmult_le_pos | apply Rmult_le_compat_r]; lra). lra. }
  assert (H : near3 (unapply3 (sbuild_iso m) p) (g' (rval3 p)) (D / size3 m) (K ^ S (2 * steps3s m + weight3s m))).
  { rewrite Eg. cbn [unapply3 Tr3_Isotropic3d]. eapply near3_weaken.
    - apply (near3_unscale _ _ (g ^ steps3s m) _ _ _ _ HS NR); [exact Gs | lra | | exact BD].
      apply Rle_trans with (2 * 3 * (D / size3 m)); [|lra]. apply Rmult_le_compat_r; [exact SD|]. apply Rmult_le_compat; lra.
    - cbn [pow]. replace (2 * steps3s m + weight3s m)%nat with (steps3s m + (steps3s m + weight3s m))%nat by lia. rewrite !pow_add. fold W0.
      apply Rle_trans with (K ^ steps3s m * (K ^ steps3s m * (W0 * (1 + u32)) * (1 + 72 * u32)) * (1 + 2 * u32)); [apply Rmult_le_compat_r; [lra|]; apply Rmult_le_compat_r; lra|].
      replace (K ^ steps3s m * (K ^ steps3s m * (W0 * (1 + u32)) * (1 + 72 * u32)) * (1 + 2 * u32)) with ((1 + 72 * u32) * (1 + 2 * u32) * (1 + u32) * (K ^ steps3s m * (K ^ steps3s m * W0))) by ring.
      apply Rmult_le_compat_r; [|exact U3]. apply Rmult_le_pos; [lra|]. apply Rmult_le_pos; lra. }
  destruct H as (Q1 & Q2 & _). split; [exact Q1|]. replace (spread3 m + norm3 (rval3 p) + bpow radix2 (-40)) with D by (unfold D; ring). exact Q2.
Qed.
Print Assumptions C77_unapply.
(** The quaternion stays nearly a unit one and the scale is the product of the given scales up to the accumulated relative error. *)
Theorem C77_scale : forall d m f, 0 <= d -> scaled_moves3 d m f -> growth3 d ^ weight3s m <= 101 / 100 -> in_range3 m ->
  let q := iso_rot (sbuild_iso m) in let k := iso_scale (sbuild_iso m) in
  finq q /\ length_error q <= growth3 d ^ steps3s m - 1 /\
  fin k /\ Rabs (val k - size3 m) <= (step3 d ^ steps3s m - 1) * size3 m /\
  t3_rot (sbuild_t3 m) = q /\ t3_scale (sbuild_t3 m) = V3 k k k /\ bt_rot (sbuild_bevy m) = q /\ bt_scale (sbuild_bevy m) = V3 k k k.
Proof.
  intros d m f Hd M W Rc q kk. destruct (tracks3s_all d Hd m f M W Rc) as (Q & P & F & HQ & HP & HS). destruct (step3_ge d Hd) as (_ & _ & G1 & _). destruct (sames_all m) as (T & B).
  split; [apply HQ|]. fold q in HQ. fold kk in HS. set (k := step3 d ^ steps3s m) in * . assert (K1 : 1 <= k) by (apply pow_R1_Rle, G1). split; [|split; [|split; [|rewrite T, B; repeat split]]].
  - rewrite length_size, sizeq_norm4. rewrite growth3_pow. fold k.
    pose proof (near4_norm _ _ _ HQ) as N1. destruct HQ as (_ & N2 & N3). pose proof (norm4_split Q (r4 q)) as N4. rewrite norm4_sub_sym, N3 in N4. pose proof (norm4_nonneg (r4 q)) as N0. set (n := norm4 (r4 q)) in * .
    assert (2 - k <= n) by lra. assert (A : n * n <= k * k) by (apply Rmult_le_compat; lra). apply Rabs_le. split; [|lra].
    destruct (Rle_or_lt k 2) as [L|L].
    + assert ((2 - k) * (2 - k) <= n * n) by (apply Rmult_le_compat; lra). assert (0 <= (k - 1) * (k - 1)) by (apply Rmult_le_pos; lra). lra.
    + assert (0 <= n * n) by (apply Rmult_le_pos; lra). assert (k * 2 <= k * k) by (apply Rmult_le_compat_l; lra). lra.
  - apply HS.
  - pose proof (snear_pos _ _ _ HS K1). destruct HS as (Fk & PS & A1 & A2). apply Rabs_le. split; [|lra].
    assert ((2 - k) * size3 m <= val kk); [|lra]. assert ((2 - k) * k <= 1) by nra. destruct (Rle_or_lt (2 - k) 0); [nra|]. nra.
Qed.
Print Assumptions C77_scale.
(** [size3] and [f] belong together: the exact motion stretches every length by [size3 m]. *)
Theorem C77_similarity : forall d m f, scaled_moves3 d m f -> in_range3 m -> forall p q, norm3 (sub3 (f p) (f q)) = size3 m * norm3 (sub3 p q).
Proof.
  intros d m f M. induction M as [p0 q0 k u t Fp Fq Fk U Er | a b f g Ma IHa Mb IHb | a f g Ma IHa Inv]; intros Rc p q; pose proof (in_range3_here _ Rc) as [[Z1 Z2] _]; pose proof (bpow_gt_0 radix2 (-20)) as P20.
  - cbn [size3] in * .
    replace (sub3 (add3 (rotate3 u t (scale3 (val k) p)) (rval3 p0)) (add3 (rotate3 u t (scale3 (val k) q)) (rval3 p0))) with (rq4 (exact4 u t) (scale3 (val k) (sub3 p q))).
    2: { rewrite <- !exact4_rotate by exact U. replace (scale3 (val k) (sub3 p q)) with (sub3 (scale3 (val k) p) (scale3 (val k) q)) by (apply pt3_eq; v3; ring). rewrite rq4_sub.
         generalize (rq4 (exact4 u t) (scale3 (val k) p)) (rq4 (exact4 u t) (scale3 (val k) q)). intros; apply pt3_eq; v3; ring. }
    rewrite rq4_norm, norm3_scale, exact4_unit, Rabs_pos_eq by (exact U || lra). ring.
  - destruct Rc as [_ [Ca Cb]]. rewrite (IHa Ca), (IHb Cb). cbn [size3]. ring.
  - destruct Rc as [_ Ca]. cbn [size3] in * . pose proof (in_range3_here _ Ca) as [[Za1 Za2] _].
    rewrite <- (Inv p) at 2. rewrite <- (Inv q) at 2. rewrite (IHa Ca). field. lra.
Qed.
Print Assumptions C77_similarity.
(** Queries between bodies placed by such chains: c is where the exact similarities put b's origin seen from a (in a's frame) *)
Theorem C77_queries : forall d a b f f' g, 0 <= d -> scaled_moves3 d a f -> (forall x, f (f' x) = x) -> scaled_moves3 d b g ->
  let m := Then3s (Back3s a) b in growth3 d ^ weight3s m <= 101 / 100 -> in_range3 m -> spread3 m <= bpow radix2 50 ->
  let c := f' (g (0, 0, 0)) in let e := (growth3 d ^ weight3s m - 1) * spread3 m in
  (forall h, half3_ok h -> box_right h (sbuild_iso a) (sbuild_iso b) c e /\ box_right h (sbuild_t3 a) (sbuild_t3 b) c e /\ box_right h (sbuild_bevy a) (sbuild_bevy b) c e) /\
  (forall r, fat_radius r -> ball_right r (sbuild_iso a) (sbuild_iso b) c e /\ ball_right r (sbuild_t3 a) (sbuild_t3 b) c e /\ ball_right r (sbuild_bevy a) (sbuild_bevy b) c e).
Proof.
  intros d a b f f' g Hd Ma Inv Mb m W Rc Sp c e.
  assert (M : scaled_moves3 d m (fun x => f' (g x))) by (apply (smoves3_then d (Back3s a) b f' g); [apply (smoves3_back d a f f'); assumption | exact Mb]).
  destruct (tracks3s_all d Hd m _ M W Rc) as (Q & P & F & HQ & (F3 & N3 & L3) & Sc).
  assert (Ec : c = P). { unfold c. pose proof (F (0, 0, 0)) as E0; cbv beta in E0; rewrite E0. replace (scale3 (size3 m) (0, 0, 0)) with (0, 0, 0) by (apply pt3_eq; v3; ring). apply pt3_eq; v4; ring. }
  rewrite <- Ec in N3, L3. fold e in N3.
  pose proof (bpow_gt_0 radix2 50) as B50. pose proof (bpow_gt_0 radix2 (-40)) as B40. pose proof (in_range3_here _ Rc) as [_ [Y1 Y2]]. assert (S : small3 (iso_pos (sbuild_iso m)) 59).
  { apply small_of_norm; [exact F3|]. destruct (near_norm _ _ _ N3) as (N & _). assert (E : e <= 1 / 100 * bpow radix2 50) by (unfold e; apply Rle_trans with (1 / 100 * spread3 m); [apply Rmult_le_compat_r; lra | lra]).
    apply Rle_trans with (bpow radix2 1 * bpow radix2 50); [change (bpow radix2 1) with 2; lra|]. rewrite <- bpow_plus. apply bpow_le. lia. }
  destruct (sames_all m) as (T & B).
  assert (Di : apply_origin3 (delta_transform (sbuild_iso a) (sbuild_iso b)) = iso_pos (sbuild_iso m)) by reflexivity.
  assert (Dt : apply_origin3 (delta_transform (sbuild_t3 a) (sbuild_t3 b)) = iso_pos (sbuild_iso m)). { change (delta_transform (sbuild_t3 a) (sbuild_t3 b)) with (sbuild_t3 m). rewrite T. reflexivity. }
  assert (Db : apply_origin3 (delta_transform (sbuild_bevy a) (sbuild_bevy b)) = iso_pos (sbuild_iso m)). { change (delta_transform (sbuild_bevy a) (sbuild_bevy b)) with (sbuild_bevy m). rewrite B. reflexivity. }
  split; [intros h H | intros r H]; (split; [|split]); (apply box_right_of || apply ball_right_of); try exact H; rewrite ?Di, ?Dt, ?Db; (exact S || exact N3).
Qed.
Print Assumptions C77_queries.

(** In plain numbers: quaternions good to 2^-22 and up to 1024 for twice the number of steps plus the weight. *)
Theorem C77_plain : forall m f g, scaled_moves3 (/ 2 ^ 22) m f -> (forall x, f (g x) = x) -> (2 * steps3s m + weight3s m <= 1024)%nat -> in_range3 m ->
  forall p, fin3 p -> norm3 (rval3 p) <= bpow radix2 70 ->
  about (apply3 (sbuild_iso m) p) (f (rval3 p)) (INR (S (weight3s m)) / 2 ^ 17 * (spread3 m + size3 m * (norm3 (rval3 p) + bpow radix2 (-40)))) /\
  about (unapply3 (sbuild_iso m) p) (g (rval3 p)) (INR (S (2 * steps3s m + weight3s m)) / 2 ^ 17 * ((spread3 m + norm3 (rval3 p) + bpow radix2 (-40)) / size3 m)) /\
  length_error (iso_rot (sbuild_iso m)) <= INR (steps3s m) / 2 ^ 17 /\
  Rabs (val (iso_scale (sbuild_iso m)) - size3 m) <= INR (steps3s m) / 2 ^ 17 * size3 m.
Proof.
  intros m f g M Inv Hn Rc p Fp Np. assert (D : 0 <= / 2 ^ 22 <= / 2 ^ 22) by (split; [cbn; lra | apply Rle_refl]).
  destruct (growth3_linear _ (weight3s m) D ltac:(lia)) as [_ W]. destruct (growth3_linear _ (S (weight3s m)) D ltac:(lia)) as [L1 _].
  destruct (growth3_linear _ (S (2 * steps3s m + weight3s m)) D ltac:(lia)) as [L2 _]. destruct (growth3_linear _ (steps3s m) D ltac:(lia)) as [L3 _].
  pose proof (C77_apply _ m f (proj1 D) M W Rc p Fp Np) as ((A1 & A2) & _). pose proof (C77_unapply _ m f g (proj1 D) M Inv W Rc p Fp Np) as ((B1 & B2) & _).
  pose proof (C77_scale _ m f (proj1 D) M W Rc) as (_ & C & _ & E & _).
  pose proof (in_range3_here _ Rc) as [[Z1 Z2] [Y1 Y2]]. pose proof (norm3_nonneg (rval3 p)) as NN. pose proof (bpow_gt_0 radix2 (-20)) as P20. pose proof (bpow_gt_0 radix2 (-40)) as P40.
  assert (X1 : 0 <= spread3 m + size3 m * (norm3 (rval3 p) + bpow radix2 (-40))). { assert (0 <= size3 m * (norm3 (rval3 p) + bpow radix2 (-40))) by (apply Rmult_le_pos; lra). lra. }
  assert (X2 : 0 <= (spread3 m + norm3 (rval3 p) + bpow radix2 (-40)) / size3 m). { apply Rmult_le_pos; [lra|]. apply Rlt_le, Rinv_0_lt_compat. lra. }
  destruct (step3_ge _ (proj1 D)) as (_ & _ & G1 & _ & K1 & GK).
  split; [split; [exact A1|]; eapply Rle_trans; [exact A2|]; apply Rmult_le_compat_r; assumption|].
  split; [split; [exact B1|]; eapply Rle_trans; [exact B2|]; apply Rmult_le_compat_r; assumption|].
  split; [eapply Rle_trans; [exact C | exact L3]|]. eapply Rle_trans; [exact E|]. apply Rmult_le_compat_r; [lra|].
  assert (step3 (/ 2 ^ 22) ^ steps3s m <= growth3 (/ 2 ^ 22) ^ steps3s m) by (apply pow_incr; lra). lra.
Qed.
Print Assumptions C77_plain.

(** A case that meets the hypotheses: turn about z by the rotation with cosine 0.8 of the half angle, triple and move by (3,4,0); then the
    inverse of its square *)
Definition case6_g : chain3s := Given3s case5_p case4_q (b32_of 3 0).
Definition case6_m : chain3s := Then3s case6_g (Back3s (Then3s case6_g case6_g)).
Lemma case6_moves : exists h k, scaled_moves3 (/ 2 ^ 22) case6_g h /\ (forall p, h (k p) = p) /\ (forall p, k (h p) = p).
Proof.
  destruct (val_of 0 0 ltac:(lia) ltac:(lia)) as (F0 & V0). destruct (val_of 3 0 ltac:(lia) ltac:(lia)) as (F3 & V3). destruct (val_of 10066330 (-24) ltac:(lia) ltac:(lia)) as (F1 & V1). destruct (val_of 13421773 (-24) ltac:(lia) ltac:(lia)) as (F2 & V2).
  change (bpow radix2 0) with 1 in V3. assert (V3' : val (b32_of 3 0) = 3) by lra.
  destruct case4_quat as ((Fq & L) & _). destruct (C70_given _ Fq L) as (u & t & _ & U & O).
  assert (LE : length_error case4_q <= / 2 ^ 22). { unfold length_error, case4_q; cbn [qx qy qz qw]. rewrite V0, V1, V2. cbn [bpow radix2 radix_val Z.pow_pos]. apply Rabs_le. cbn. lra. }
  assert (P : fin3 case5_p) by (apply (case4_spot 3 4 0); lia).
  exists (fun x => add3 (rotate3 u t (scale3 (val (b32_of 3 0)) x)) (rval3 case5_p)), (fun x => scale3 (/ 3) (rotate3 u (- t) (sub3 x (rval3 case5_p)))). rewrite V3'. split; [|split].
  - rewrite <- V3'. apply smoves3_given; [exact P | exact Fq | exact F3 | exact U | lra].
  - intro p. replace (scale3 3 (scale3 (/ 3) (rotate3 u (- t) (sub3 p (rval3 case5_p))))) with (rotate3 u (- t) (sub3 p (rval3 case5_p))).
    2: { generalize (rotate3 u (- t) (sub3 p (rval3 case5_p))). intro. apply pt3_eq; v3; field. }
    rewrite turn_back by exact U. apply pt3_eq; v3; ring.
  - intro p. replace (sub3 (add3 (rotate3 u t (scale3 3 p)) (rval3 case5_p)) (rval3 case5_p)) with (rotate3 u t (scale3 3 p)) by (generalize (rotate3 u t (scale3 3 p)); intro; apply pt3_eq; unfold add3, sub3, x3, y3, z3; cbn [fst snd]; ring).
    pose proof (turn_back u (- t) (scale3 3 p) U) as E. rewrite Ropp_involutive in E. rewrite E. apply pt3_eq; v3; field.
Qed.
Lemma case6_numbers : size3 case6_g = 3 /\ spread3 case6_g = 5 + bpow radix2 (-40).
Proof.
  destruct (val_of 0 0 ltac:(lia) ltac:(lia)) as (F0 & V0). destruct (val_of 3 0 ltac:(lia) ltac:(lia)) as (F1 & V1). destruct (val_of 4 0 ltac:(lia) ltac:(lia)) as (F2 & V2). change (bpow radix2 0) with 1 in V0, V1, V2.
  cbn [size3 spread3 case6_g]. split; [lra|]. f_equal.
  unfold norm3, dot3, rval3, case5_p, x3, y3, z3. cbn [fst snd wx wy wz]. rewrite V0, V1, V2. replace (3 * 1 * (3 * 1) + 4 * 1 * (4 * 1) + 0 * 1 * (0 * 1)) with (5 * 5) by ring. apply sqrt_square. lra.
Qed.
Example C77_case : exists h k f g, scaled_moves3 (/ 2 ^ 22) case6_g h /\ (forall x, h (k x) = x) /\ scaled_moves3 (/ 2 ^ 22) case6_m f /\ (forall x, f (g x) = x) /\
  (2 * steps3s case6_m + weight3s case6_m = 36)%nat /\ weight3s (Then3s (Back3s case6_g) case6_m) = 36%nat /\ growth3 (/ 2 ^ 22) ^ 36 <= 101 / 100 /\
  in_range3 (Then3s (Back3s case6_g) case6_m) /\ spread3 (Then3s (Back3s case6_g) case6_m) <= 18 /\ size3 case6_m = / 3 /\
  collides3 (Ball (b32_of 1 0)) (sbuild_iso case6_g) PointS (sbuild_iso case6_m) = false /\ collides3 (Ball (b32_of 9 0)) (sbuild_t3 case6_g) PointS (sbuild_t3 case6_m) = true.
Proof.
  destruct case6_moves as (h & k & M & HK & KH). exists h, k, (fun x => h (k (k x))), (fun x => h (h (k x))).
  split; [exact M|]. split; [exact HK|]. split.
  { apply (smoves3_then _ _ _ h (fun p => k (k p))); [exact M|]. apply (smoves3_back _ _ (fun p => h (h p)) (fun p => k (k p))); [apply (smoves3_then _ _ _ h h); exact M|]. intro p. rewrite (HK (k p)). apply HK. }
  split; [intro p; rewrite KH, KH; apply HK|]. split; [reflexivity|]. split; [reflexivity|].
  split; [apply growth3_linear; [split; [cbn; lra | apply Rle_refl] | lia]|].
  destruct case6_numbers as (S3 & S5).
  assert (B1 : bpow radix2 (-40) <= bpow radix2 (-8)) by (apply bpow_le; lia). assert (B2 : bpow radix2 8 <= bpow radix2 20) by (apply bpow_le; lia).
  assert (B3 : bpow radix2 (-20) <= bpow radix2 (-8)) by (apply bpow_le; lia). assert (B4 : bpow radix2 8 <= bpow radix2 70) by (apply bpow_le; lia).
  assert (B5 : bpow radix2 (-8) = / 256) by (cbn; lra). assert (B6 : bpow radix2 8 = 256) by (cbn; lra). pose proof (bpow_gt_0 radix2 (-40)) as B7.
  assert (RG : in_range3 case6_g) by (unfold case6_g; cbn [in_range3]; fold case6_g; rewrite S3, S5; repeat split; lra).
  split; [|split; [|split]].
  - unfold case6_m. cbn [in_range3 size3 spread3]. rewrite S3, S5. unfold Rdiv. repeat match goal with |- _ /\ _ => split end; try exact RG; lra.
  - unfold case6_m. cbn [size3 spread3]. rewrite S3, S5. unfold Rdiv. lra.
  - unfold case6_m. cbn [size3]. rewrite S3. field.
  - split; vm_compute; reflexivity.
Qed.
