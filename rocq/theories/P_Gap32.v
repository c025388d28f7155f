(** * GJK in binary32 on bodies with a clear gap (proofs for C63): the geometry of one step, with room for rounding *)
From Coq Require Import Reals ZArith Bool Lra Lia List Psatz.
From Flocq Require Import IEEE754.BinarySingleNaN Core Relative.
From Verif Require Import Num NumXR NumB32 Glam Transform2 Shapes2 Gjk Spec SpecLink P_Base P_Transform P_Shapes P_Geo P_Gjk P_B32 Props_F32 Props_F32Gjk P_F32Box P_Drift P_Deep P_Deep32 P_Deep32b P_Deep32c P_Deep32d.
Import ListNotations.
Local Open Scope R_scope.

Section Plane.
Variables (dl : R) (M : pset).
Hypotheses (Hdl : 0 < dl) (HM : convex M) (Hfar : forall p, M p -> dl <= norm p).
Local Notation inr := (inr dl).

Lemma apart_pair b c : inr b -> inr c -> pdot b c <= dl * dl / 200 -> 141 / 100 * dl <= norm (psub c b).
Proof.
  intros Hb Hc H. apply norm_ge; [lra|]. replace (pdot (psub c b) (psub c b)) with (pdot c c - 2 * pdot b c + pdot b b) by (unfold pdot, psub; cbn; ring).
  rewrite <- (norm_sq b), <- (norm_sq c). destruct Hb as [Hb _], Hc as [Hc _]. assert (dl * dl <= norm b * norm b) by (apply Rmult_le_compat; lra). assert (dl * dl <= norm c * norm c) by (apply Rmult_le_compat; lra). nra.
Qed.
(** the foot of the origin on an edge seen at a right angle or more is in M *)
Lemma foot_cross b c : M b -> M c -> inr b -> inr c -> pdot b c <= dl * dl / 200 -> dl * norm (psub c b) <= Rabs (pcross b c).
Proof.
  intros Mb Mc Ib Ic O. pose proof (apart_pair b c Ib Ic O) as LN. set (e := psub c b) in * . set (n := norm e) in * . assert (Pn : 0 < n) by lra. set (L := n * n) in * . assert (PL : 0 < L) by (apply Rmult_lt_0_compat; lra).
  assert (EL : L = pdot e e) by (unfold L, n; apply norm_sq). set (t := - pdot b e / L). assert (Ht : t * L = - pdot b e) by (unfold t; field; lra).
  assert (Q : dl * dl <= pdot b b). { rewrite <- norm_sq. destruct Ib. apply Rmult_le_compat; lra. } assert (Q' : dl * dl <= pdot c c). { rewrite <- norm_sq. destruct Ic. apply Rmult_le_compat; lra. } assert (P2 : 0 < dl * dl) by (apply Rmult_lt_0_compat; lra).
  assert (BE : pdot b e = pdot b c - pdot b b) by (unfold e; apply pdot_sub_r). assert (LE : L = pdot c c - 2 * pdot b c + pdot b b) by (rewrite EL; unfold e, pdot, psub; cbn; ring).
  assert (T : 0 <= t <= 1). { split; apply Rmult_le_reg_r with L; try exact PL; rewrite ?Ht, ?Rmult_0_l, ?Rmult_1_l; lra. }
  pose proof (Hfar _ (HM b c t Mb Mc T)) as F. set (f := padd (pscale (1 - t) b) (pscale t c)) in * . assert (FF : pdot f f = pdot b b + 2 * t * pdot b e + t * t * L) by (rewrite EL; unfold f, e, pdot, padd, pscale, psub; cbn; ring).
  assert (FL : L * pdot f f = pcross b c * pcross b c).
  { rewrite FF. replace (L * (pdot b b + 2 * t * pdot b e + t * t * L)) with (L * pdot b b + 2 * (t * L) * pdot b e + (t * L) * (t * L)) by ring. rewrite Ht, EL. pose proof (lagrange_id b e) as G. replace (pcross b e) with (pcross b c) in G by (unfold e, pcross, psub; cbn; ring). lra. }
  assert (F2 : dl * dl <= pdot f f) by (rewrite <- norm_sq; apply Rmult_le_compat; lra).
  assert (X : (dl * n) * (dl * n) <= Rabs (pcross b c) * Rabs (pcross b c)).
  { rewrite <- Rabs_mult, (Rabs_pos_eq (_ * _)) by nra. rewrite <- FL. replace (dl * n * (dl * n)) with (L * (dl * dl)) by (unfold L; ring). apply Rmult_le_compat_l; lra. }
  apply Rnot_lt_le. intro K. pose proof (Rabs_pos (pcross b c)). assert (Rabs (pcross b c) * Rabs (pcross b c) < dl * n * (dl * n)) by (apply Rmult_le_0_lt_compat; lra). lra.
Qed.
(** a new point beyond the line through the origin parallel to b-c (or within rounding of it): the origin is clearly on one side of a-b *)
Lemma side sg b c a : sg * sg = 1 -> M a -> M b -> inr a -> inr b -> inr c -> pdot b c <= dl * dl / 200 ->
  dl * norm (psub c b) <= sg * pcross b c -> - (3 / 100000) * dl * norm (psub c b) <= sg * pcross (psub c b) a ->
  9 / 10 * (dl * dl) <= Rabs (sg * pcross a b) /\ (sg * pcross a b < 0 -> pdot a b <= 0).
Proof.
  intros S Ma Mb Ia Ib Ic O Hh Ha. pose proof (apart_pair b c Ib Ic O) as LN. pose proof (norm_psub c b) as UN. set (e := psub c b) in * . set (n := norm e) in * . assert (Pn : 0 < n) by lra.
  assert (UN' : n <= 128 * dl) by (destruct Ib, Ic; lra). set (L := n * n) in * . assert (PL : 0 < L) by (apply Rmult_lt_0_compat; lra). assert (EL : L = pdot e e) by (unfold L, n; apply norm_sq).
  set (h := sg * pcross b c) in * . set (H := sg * pcross e a) in * . set (ua := pdot e a). set (ub := pdot e b). set (Z := sg * pcross a b). assert (P2 : 0 < dl * dl) by (apply Rmult_lt_0_compat; lra).
  assert (Eh : sg * pcross e b = - h) by (unfold h, e, pcross, psub; cbn; ring).
  assert (EZ : L * Z = - ua * h - H * ub) by (rewrite EL; unfold Z, ua, h, H, ub, e, pdot, pcross, psub; cbn; ring).
  assert (ED : L * pdot a b = ua * ub - H * h). { replace (H * h) with ((sg * sg) * (- pcross e a * pcross e b)) by (rewrite <- Rmult_1_l; unfold H; replace h with (- (sg * pcross e b)) by lra; ring). rewrite S, EL. unfold ua, ub, e, pdot, pcross, psub; cbn; ring. }
  assert (EA : ua * ua + H * H = L * (norm a * norm a)). { rewrite norm_sq, EL. replace (H * H) with ((sg * sg) * (pcross e a * pcross e a)) by (unfold H; ring). rewrite S. pose proof (lagrange_id e a). unfold ua. lra. }
  assert (Hub : ub <= - (99 / 100) * (dl * dl)). { assert (dl * dl <= norm b * norm b) by (destruct Ib; apply Rmult_le_compat; lra). rewrite norm_sq in H0. unfold ub, e. rewrite pdot_sub_l, (pdot_comm c b). lra. }
  assert (UB : Rabs ub <= n * (64 * dl)). { eapply Rle_trans; [apply cauchy_abs|]. fold n. apply Rmult_le_compat_l; [lra | apply Ib]. } apply abs_le2' in UB.
  assert (Uh : h <= n * (64 * dl)). { replace h with (- (sg * pcross e b)) by lra. eapply Rle_trans; [apply Rle_abs|]. rewrite Rabs_Ropp, Rabs_mult, (abs_sig sg S), Rmult_1_l. eapply Rle_trans; [apply cross_bound|]. fold n. apply Rmult_le_compat_l; [lra | apply Ib]. }
  assert (Pdn : 0 < dl * n) by (apply Rmult_lt_0_compat; lra). assert (Ph : 0 < h) by lra. assert (LQ : L * (dl * dl) = (dl * n) * (dl * n)) by (unfold L; ring). assert (PLQ : 0 < L * (dl * dl)) by (apply Rmult_lt_0_compat; lra).
  destruct (Rle_or_lt 0 H) as [H0|H0].
  - split.
    + set (s := h + H). assert (Ps : 0 < s) by (unfold s; lra). set (t := H / s). assert (Ht : t * s = H) by (unfold t; field; lra).
      assert (T : 0 <= t <= 1). { split; apply Rmult_le_reg_r with s; try exact Ps; rewrite ?Ht, ?Rmult_0_l, ?Rmult_1_l; unfold s; lra. }
      pose proof (Hfar _ (HM a b t Ma Mb T)) as F. set (x := padd (pscale (1 - t) a) (pscale t b)) in * .
      assert (X1 : s * (sg * pcross e x) = 0). { replace (sg * pcross e x) with ((1 - t) * H + t * (sg * pcross e b)) by (unfold H, x, pcross, padd, pscale; cbn; ring). rewrite Eh. replace (s * ((1 - t) * H + t * - h)) with (s * H - (t * s) * (H + h)) by ring. rewrite Ht. unfold s. ring. }
      assert (X2 : sg * pcross e x = 0) by (apply Rmult_integral in X1; lra). assert (X3 : pcross e x = 0) by (apply Rmult_integral in X2; destruct X2; [nra | assumption]).
      assert (X4 : s * pdot e x = - (L * Z)). { replace (pdot e x) with ((1 - t) * ua + t * ub) by (unfold ua, ub, x, pdot, padd, pscale; cbn; ring). replace (s * ((1 - t) * ua + t * ub)) with (s * ua - (t * s) * ua + (t * s) * ub) by ring. rewrite Ht, EZ. unfold s. ring. }
      assert (X5 : pdot e x * pdot e x = L * (norm x * norm x)). { pose proof (lagrange_id e x) as G. rewrite X3, <- norm_sq in G. rewrite (norm_sq x), EL. rewrite norm_sq in G. lra. }
      assert (X6 : n * dl <= Rabs (pdot e x)).
      { apply Rnot_lt_le. intro K. pose proof (Rabs_pos (pdot e x)). assert (Rabs (pdot e x) * Rabs (pdot e x) < n * dl * (n * dl)) by (apply Rmult_le_0_lt_compat; lra).
        rewrite <- Rabs_mult, (Rabs_pos_eq (_ * _)), X5 in H2 by nra. assert (dl * dl <= norm x * norm x) by (apply Rmult_le_compat; lra). assert (L * (dl * dl) <= L * (norm x * norm x)) by (apply Rmult_le_compat_l; lra). lra. }
      assert (X7 : L * Rabs Z = s * Rabs (pdot e x)). { rewrite <- (Rabs_pos_eq L) at 1 by lra. rewrite <- (Rabs_pos_eq s) at 1 by lra. rewrite <- !Rabs_mult, X4, Rabs_Ropp. reflexivity. }
      assert (X8 : (dl * n) * (n * dl) <= s * Rabs (pdot e x)) by (apply Rmult_le_compat; unfold s; lra).
      assert (dl * dl <= Rabs Z) by (apply Rmult_le_reg_l with L; lra). lra.
    + intro ZN. assert (Pu : 0 < ua). { apply Rnot_le_lt. intro K. assert (0 <= - ua * h) by (apply Rmult_le_pos; lra). assert (0 <= H * - ub) by (apply Rmult_le_pos; lra). assert (L * Z < 0) by nra. lra. }
      assert (0 <= ua * - ub) by (apply Rmult_le_pos; lra). assert (0 <= H * h) by (apply Rmult_le_pos; lra). apply Rmult_le_reg_l with L; [exact PL|]. lra.
  - assert (HB : - H <= 3 / 100000 * (dl * n)) by lra. assert (P1 : - H * - ub <= 3 / 100000 * (dl * n) * (n * (64 * dl))) by (apply Rmult_le_compat; lra).
    assert (P3 : H * H <= 1 / 1000 * (L * (dl * dl))). { rewrite LQ. assert (- H * - H <= (3 / 100000 * (dl * n)) * (3 / 100000 * (dl * n))) by (apply Rmult_le_compat; lra). lra. }
    assert (NA : dl * dl <= norm a * norm a) by (destruct Ia; apply Rmult_le_compat; lra). assert (P4 : L * (dl * dl) <= L * (norm a * norm a)) by (apply Rmult_le_compat_l; lra).
    assert (P5 : 99 / 100 * (dl * n) <= Rabs ua).
    { apply Rnot_lt_le. intro K. pose proof (Rabs_pos ua). assert (Rabs ua * Rabs ua < 99 / 100 * (dl * n) * (99 / 100 * (dl * n))) by (apply Rmult_le_0_lt_compat; lra). rewrite <- Rabs_mult, (Rabs_pos_eq (_ * _)) in H2 by nra. lra. }
    assert (P6 : 99 / 100 * (dl * n) * (dl * n) <= Rabs ua * h) by (apply Rmult_le_compat; lra).
    assert (P7 : 0 <= - H * - ub) by (apply Rmult_le_pos; lra).
    destruct (Rle_or_lt 0 ua) as [U0|U0].
    + rewrite Rabs_pos_eq in P5, P6 by exact U0. assert (ZB : L * Z <= - (9 / 10) * (L * (dl * dl))). { rewrite EZ. lra. } assert (ZB' : Z <= - (9 / 10) * (dl * dl)) by (apply Rmult_le_reg_l with L; lra). split.
      * rewrite Rabs_left by lra. lra.
      * intros _. apply Rmult_le_reg_l with L; [exact PL|]. rewrite ED, Rmult_0_r. assert (Q1 : 99 / 100 * (dl * n) * (99 / 100 * (dl * dl)) <= ua * - ub) by (apply Rmult_le_compat; lra). assert (Q2 : - H * h <= 3 / 100000 * (dl * n) * (n * (64 * dl))) by (apply Rmult_le_compat; lra).
        assert (Q3 : (dl * n) * (n * dl) <= (dl * n) * (128 * dl * dl)) by (apply Rmult_le_compat_l; [lra|]; apply Rmult_le_compat_r; lra). lra.
    + rewrite Rabs_left in P5, P6 by exact U0. assert (ZB : 9 / 10 * (L * (dl * dl)) <= L * Z). { rewrite EZ. lra. } assert (ZB' : 9 / 10 * (dl * dl) <= Z) by (apply Rmult_le_reg_l with L; lra). split; [rewrite Rabs_pos_eq by lra; lra | lra].
Qed.
(** the origin is not inside the triangle *)
Lemma not_inside sg b c a : M a -> M b -> M c -> 0 < sg * pcross b c -> 0 <= sg * pcross c a -> 0 <= sg * pcross a b -> False.
Proof.
  intros Ma Mb Mc X Y Z. assert (O : M origin). { apply (triangle_origin M a b c HM Ma Mb Mc (sg * pcross b c) (sg * pcross c a) (sg * pcross a b)); try lra. apply pt_eq; unfold pcross, padd, pscale, origin; cbn [fst snd]; ring. }
  apply Hfar in O. rewrite norm_origin in O. lra.
Qed.
End Plane.
