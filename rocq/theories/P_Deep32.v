(** * GJK in binary32 on bodies that overlap deeply (proofs for C62): the geometry of one step, with room for rounding *)
From Coq Require Import Reals ZArith Bool Lra Lia List Psatz.
From Flocq Require Import IEEE754.BinarySingleNaN Core Relative.
From Verif Require Import Num NumXR NumB32 Glam Transform2 Shapes2 Gjk Spec SpecLink P_Base P_Transform P_Shapes P_Geo P_Gjk P_B32 Props_F32 Props_F32Gjk P_Drift P_Deep.
Import ListNotations.
Local Open Scope R_scope.

Definition J (u : pt) : pt := (- snd u, fst u).
Lemma J_dot u v : pdot (J u) v = pcross u v. Proof. unfold pdot, J, pcross. cbn [fst snd]. ring. Qed.
Lemma J_norm u : norm (J u) = norm u. Proof. unfold norm, pdot, J. cbn [fst snd]. f_equal. ring. Qed.
Lemma abs1 s : s * s = 1 -> s = 1 \/ s = -1.
Proof. intro H. assert ((s - 1) * (s + 1) = 0) by lra. apply Rmult_integral in H0. lra. Qed.
Lemma abs_sig s : s * s = 1 -> Rabs s = 1.
Proof. intro H. destruct (abs1 s H) as [->| ->]; unfold Rabs; destruct (Rcase_abs _); lra. Qed.

(** d is, up to the relative error k, a positive multiple of the normal of b-c on side sg *)
Definition dirn (k : R) (d : pt) (sg : R) (b c : pt) : Prop :=
  exists l, 0 < l /\ norm (psub d (pscale (l * sg) (J (psub c b)))) <= k * (l * norm (psub c b)).
Lemma dirn_bounds k d sg b c : sg * sg = 1 -> dirn k d sg b c -> exists l, 0 < l /\
  (forall p, Rabs (pdot d p - l * (sg * pcross (psub c b) p)) <= k * (l * norm (psub c b)) * norm p) /\
  (1 - k) * (l * norm (psub c b)) <= norm d <= (1 + k) * (l * norm (psub c b)).
Proof.
  intros S (l & L & H). exists l. split; [exact L|]. set (N := pscale (l * sg) (J (psub c b))) in * .
  assert (EN : norm N = l * norm (psub c b)). { unfold N. rewrite norm_scale, J_norm, Rabs_mult, (abs_sig sg S), (Rabs_pos_eq l) by lra. ring. }
  split.
  - intro p. assert (E : pdot d p - l * (sg * pcross (psub c b) p) = pdot (psub d N) p).
    { rewrite pdot_sub_l. unfold N. rewrite (pdot_comm (pscale _ _)), pdot_scale_r, (pdot_comm p), J_dot. ring. }
    rewrite E. eapply Rle_trans; [apply cauchy_abs|]. apply Rmult_le_compat_r; [apply norm_nonneg | exact H].
  - pose proof (norm_triangle_sub d N) as T1. pose proof (norm_triangle_sub N d) as T2. replace (norm (psub N d)) with (norm (psub d N)) in T2 by (rewrite <- norm_neg; f_equal; apply pt_eq; cbn; ring).
    rewrite EN in * . lra.
Qed.

Section Real.
Variable dl : R.
Hypothesis Hdl : 0 < dl.
Definition mu : R := dl * dl / 256.
Definition kap : R := / 8192.
(** a point that occurs in the search *)
Definition inr (p : pt) : Prop := dl <= norm p <= 64 * dl.

Lemma pair_apart b c : inr b -> inr c -> pdot b c <= 0 -> 141 / 100 * dl <= norm (psub c b).
Proof.
  intros Hb Hc H. apply norm_ge; [lra|]. replace (pdot (psub c b) (psub c b)) with (pdot c c - 2 * pdot b c + pdot b b) by (unfold pdot, psub; cbn; ring).
  rewrite <- (norm_sq b), <- (norm_sq c). destruct Hb as [Hb _], Hc as [Hc _]. assert (dl * dl <= norm b * norm b) by (apply Rmult_le_compat; lra). assert (dl * dl <= norm c * norm c) by (apply Rmult_le_compat; lra). nra.
Qed.
(** the new point is high over the edge *)
Lemma height k d sg b c a : sg * sg = 1 -> 0 <= k <= kap -> dirn k d sg b c -> inr a -> dl * norm d <= pdot d a ->
  99 / 100 * dl * norm (psub c b) <= sg * pcross c a - sg * pcross b a.
Proof.
  intros S Hk Hd [A1 A2] F. destruct (dirn_bounds k d sg b c S Hd) as (l & L & P & N1 & _). specialize (P a). apply abs_le2' in P.
  replace (sg * pcross c a - sg * pcross b a) with (sg * pcross (psub c b) a) by (unfold pcross, psub; cbn; ring).
  set (n := norm (psub c b)) in * . pose proof (norm_nonneg (psub c b)) as Nn. fold n in Nn. unfold kap in Hk.
  apply Rmult_le_reg_l with l; [exact L|]. set (X := l * n) in * . assert (PX : 0 <= X) by (apply Rmult_le_pos; lra).
  assert (Q1 : k * X * norm a <= / 8192 * X * (64 * dl)). { apply Rmult_le_compat; [apply Rmult_le_pos; lra | apply norm_nonneg | apply Rmult_le_compat_r; lra | lra]. }
  assert (Q2 : dl * ((1 - k) * X) <= dl * norm d) by (apply Rmult_le_compat_l; lra).
  assert (Q3 : (1 - / 8192) * X <= (1 - k) * X) by (apply Rmult_le_compat_r; lra). assert (Q4 : dl * ((1 - / 8192) * X) <= dl * ((1 - k) * X)) by (apply Rmult_le_compat_l; lra).
  assert (0 <= dl * X) by (apply Rmult_le_pos; lra). replace (l * (99 / 100 * dl * n)) with (99 / 100 * (dl * X)) by (unfold X; ring). lra.
Qed.
Lemma height' k d sg b c a : sg * sg = 1 -> 0 <= k <= kap -> dirn k d sg b c -> inr a -> dl * norm d <= pdot d a -> inr b -> inr c -> pdot b c <= 0 ->
  139 / 100 * (dl * dl) <= sg * pcross c a - sg * pcross b a.
Proof.
  intros S Hk Hd A F B C O. pose proof (height k d sg b c a S Hk Hd A F) as H. pose proof (pair_apart b c B C O) as N.
  assert (99 / 100 * dl * (141 / 100 * dl) <= 99 / 100 * dl * norm (psub c b)) by (apply Rmult_le_compat_l; lra). assert (0 < dl * dl) by nra. lra.
Qed.
(** near state: b and c are about opposite each other; any high point captures the origin *)
Lemma near_side sg b c a : sg * sg = 1 -> inr a -> inr b -> inr c -> pdot b c <= 0 -> Rabs (pcross b c) <= mu ->
  139 / 100 * (dl * dl) <= sg * pcross c a - sg * pcross b a -> dl * dl / 100 <= sg * pcross a b.
Proof.
  intros S [_ A] [B1 B2] [C1 C2] O M H. destruct (Rle_or_lt (dl * dl / 100) (sg * pcross a b)) as [|L]; [assumption|]. exfalso.
  set (X := sg * pcross c a) in * . set (Y := sg * pcross a b) in * . assert (EY : - (sg * pcross b a) = Y) by (unfold Y, pcross; ring).
  assert (HX : 138 / 100 * (dl * dl) <= X) by lra. clear H.
  assert (E : X * pdot b b + Y * pdot b c = - (sg * pcross b c) * pdot b a). { unfold X, Y, pcross, pdot. ring. }
  assert (U : - (sg * pcross b c) * pdot b a <= mu * (norm b * norm a)).
  { eapply Rle_trans; [apply Rle_abs|]. rewrite Rabs_mult, Rabs_Ropp, Rabs_mult, (abs_sig sg S), Rmult_1_l. apply Rmult_le_compat; try apply Rabs_pos; [exact M | apply cauchy_abs]. }
  rewrite <- (norm_sq b) in E. pose proof (cauchy_abs b c) as CB. apply abs_le2' in CB. set (nb := norm b) in * . set (nc := norm c) in * . set (na := norm a) in * .
  assert (W : - (dl * dl / 100) * (nb * nc) <= Y * pdot b c).
  { destruct (Rle_or_lt Y 0) as [Y0|Y0]. { assert (0 <= Y * pdot b c) by nra. assert (0 <= dl * dl / 100 * (nb * nc)) by (apply Rmult_le_pos; [nra | apply Rmult_le_pos; lra]). lra. }
    assert (Y * (- pdot b c) <= dl * dl / 100 * (nb * nc)) by (apply Rmult_le_compat; lra). lra. }
  assert (Q : 138 / 100 * (dl * dl) * (nb * nb) - dl * dl / 100 * (nb * nc) <= mu * (nb * na)). { assert (138 / 100 * (dl * dl) * (nb * nb) <= X * (nb * nb)) by (apply Rmult_le_compat_r; [nra | lra]). lra. }
  assert (Q2 : nb * (138 / 100 * (dl * dl) * nb - dl * dl / 100 * nc - mu * na) <= 0) by lra.
  assert (Pn : 0 < nb) by lra. assert (Q3 : 138 / 100 * (dl * dl) * nb - dl * dl / 100 * nc - mu * na <= 0) by (apply Rnot_lt_le; intro; assert (0 < nb * (138 / 100 * (dl * dl) * nb - dl * dl / 100 * nc - mu * na)) by (apply Rmult_lt_0_compat; lra); lra).
  unfold mu in Q3. set (q := dl * dl) in * . assert (Pq : 0 < q) by (unfold q; nra).
  assert (138 / 100 * q * dl <= 138 / 100 * q * nb) by (apply Rmult_le_compat_l; lra). assert (q / 100 * nc <= q / 100 * (64 * dl)) by (apply Rmult_le_compat_l; lra).
  assert (q / 256 * na <= q / 256 * (64 * dl)) by (apply Rmult_le_compat_l; lra). assert (0 < q * dl) by (apply Rmult_lt_0_compat; lra). lra.
Qed.
(** exact state: the origin is beyond the edge a-b (or within rounding of it) *)
Lemma exact_side sg b c a : sg * sg = 1 -> inr a -> inr b -> inr c -> pdot b c <= 0 -> 0 <= sg * pcross b c ->
  139 / 100 * (dl * dl) <= sg * pcross c a - sg * pcross b a -> - mu <= sg * pcross b a -> 0 < sg * pcross b c /\ pdot a b <= 0 /\ 0 < sg * pcross c a.
Proof.
  intros S [_ A] [B1 B2] [C1 C2] O M H T. set (Y := sg * pcross b a) in * . set (X := sg * pcross c a) in * . set (Z := sg * pcross b c) in * .
  assert (Pq : 0 < dl * dl) by nra. assert (HX : 138 / 100 * (dl * dl) <= X) by (unfold mu in T; lra).
  assert (E : Z * pdot a b = - X * pdot b b + Y * pdot b c) by (unfold X, Y, Z, pcross, pdot; ring).
  rewrite <- (norm_sq b) in E. pose proof (cauchy_abs b c) as CB. apply abs_le2' in CB. set (nb := norm b) in * . set (nc := norm c) in * .
  assert (W : Y * pdot b c <= mu * (nb * nc)).
  { unfold mu in * . destruct (Rle_or_lt 0 Y) as [Y0|Y0]. { assert (0 <= Y * - pdot b c) by (apply Rmult_le_pos; lra). assert (0 <= dl * dl / 256 * (nb * nc)) by (apply Rmult_le_pos; [lra | apply Rmult_le_pos; lra]). lra. }
    assert (- Y * (- pdot b c) <= dl * dl / 256 * (nb * nc)) by (apply Rmult_le_compat; lra). lra. }
  assert (V : Z * pdot a b < 0).
  { rewrite E. assert (138 / 100 * (dl * dl) * (nb * nb) <= X * (nb * nb)) by (apply Rmult_le_compat_r; [nra | lra]).
    assert (0 < nb * (138 / 100 * (dl * dl) * nb - mu * nc)).
    { apply Rmult_lt_0_compat; [lra|]. unfold mu. assert (138 / 100 * (dl * dl) * dl <= 138 / 100 * (dl * dl) * nb) by (apply Rmult_le_compat_l; lra).
      assert (dl * dl / 256 * nc <= dl * dl / 256 * (64 * dl)) by (apply Rmult_le_compat_l; lra). assert (0 < dl * dl * dl) by (apply Rmult_lt_0_compat; lra). lra. }
    lra. }
  assert (0 < Z). { destruct (Rle_or_lt Z 0) as [Z0|]; [|assumption]. assert (Z = 0) by lra. rewrite H0 in V. lra. }
  split; [assumption|]. split; [|lra]. apply Rnot_lt_le. intro K. assert (0 < Z * pdot a b) by (apply Rmult_lt_0_compat; lra). lra.
Qed.
(** the visited points lie in the cone spanned by the current pair *)
Definition cone (sg : R) (b c p : pt) : Prop := 0 <= sg * pcross b p /\ 0 <= sg * pcross p c.
Lemma cone_back k d sg b c p : sg * sg = 1 -> 0 <= k -> dirn k d sg b c -> cone sg b c p -> k < 1 -> pdot d p * (1 - k) <= k * norm d * norm p.
Proof.
  intros S Hk Hd [P1 P2] K1. destruct (dirn_bounds k d sg b c S Hd) as (l & L & P & N1 & _). specialize (P p). apply abs_le2' in P.
  assert (sg * pcross (psub c b) p <= 0) by (replace (sg * pcross (psub c b) p) with (- (sg * pcross p c) - sg * pcross b p) by (unfold pcross, psub; cbn; ring); lra).
  set (X := l * norm (psub c b)) in * . assert (l * (sg * pcross (psub c b) p) <= 0) by nra. pose proof (norm_nonneg p). pose proof (norm_nonneg d).
  assert (PX : 0 <= X) by (apply Rmult_le_pos; [lra | apply norm_nonneg]).
  assert (pdot d p <= k * X * norm p) by lra. assert (pdot d p * (1 - k) <= k * X * norm p * (1 - k)) by (apply Rmult_le_compat_r; lra).
  assert (k * norm p * ((1 - k) * X) <= k * norm p * norm d) by (apply Rmult_le_compat_l; [apply Rmult_le_pos; lra | lra]). lra.
Qed.
Lemma cone_step sg b c a p : sg * sg = 1 -> 0 < sg * pcross b c -> 0 <= sg * pcross b a -> 0 < sg * pcross c a -> cone sg b c p -> cone (- sg) a b p.
Proof.
  intros S Z Y X [P1 P2]. split.
  - replace (- sg * pcross a p) with (sg * pcross p a) by (unfold pcross; ring).
    assert (E : (sg * pcross b c) * (sg * pcross p a) = (sg * pcross p c) * (sg * pcross b a) + (sg * pcross b p) * (sg * pcross c a)) by (unfold pcross; ring).
    assert (0 <= (sg * pcross p c) * (sg * pcross b a)) by (apply Rmult_le_pos; lra). assert (0 <= (sg * pcross b p) * (sg * pcross c a)) by (apply Rmult_le_pos; lra).
    apply Rnot_lt_le. intro K. assert (0 < (sg * pcross b c) * - (sg * pcross p a)) by (apply Rmult_lt_0_compat; lra). lra.
  - replace (- sg * pcross p b) with (sg * pcross b p) by (unfold pcross; ring). exact P1.
Qed.
Lemma cone_swap sg b c p : cone sg b c p <-> cone (- sg) c b p.
Proof. unfold cone. replace (- sg * pcross c p) with (sg * pcross p c) by (unfold pcross; ring). replace (- sg * pcross p b) with (sg * pcross b p) by (unfold pcross; ring). tauto. Qed.
Lemma dirn_swap k d sg b c : dirn k d sg b c -> dirn k d (- sg) c b.
Proof.
  intros (l & L & H). exists l. split; [exact L|]. replace (norm (psub b c)) with (norm (psub c b)) by (rewrite <- norm_neg; f_equal; apply pt_eq; cbn; ring).
  replace (pscale (l * - sg) (J (psub b c))) with (pscale (l * sg) (J (psub c b))) by (apply pt_eq; cbn; ring). exact H.
Qed.
End Real.

(** ** The same in binary32 *)
Lemma dot32 p q i j : (-149 <= i + j)%Z -> (i + j <= 126)%Z -> fin2 p -> fin2 q -> norm (rval p) <= bpow radix2 i -> norm (rval q) <= bpow radix2 j ->
  fin (v2dot p q) /\ Rabs (val (v2dot p q) - pdot (rval p) (rval q)) <= 3 * u32 * (norm (rval p) * norm (rval q)) + 3 * tiny.
Proof.
  intros L U Fp Fq Np Nq. destruct (dot_ok p q i j L U (conj Fp (fin_small2 _ _ Np)) (conj Fq (fin_small2 _ _ Nq))) as [F E]. split; [exact F|].
  eapply Rle_trans; [exact E|]. apply Rplus_le_compat_r. pose proof u32_pos. apply Rmult_le_compat_l; [lra|]. unfold rdot_abs. rewrite !Rabs_mult. apply (abs_dot (rval p) (rval q)).
Qed.
Lemma cross32 p q i j : (-149 <= i + j)%Z -> (i + j <= 126)%Z -> fin2 p -> fin2 q -> norm (rval p) <= bpow radix2 i -> norm (rval q) <= bpow radix2 j ->
  fin (cross p q) /\ Rabs (val (cross p q) - pcross (rval p) (rval q)) <= 3 * u32 * (norm (rval p) * norm (rval q)) + 3 * tiny.
Proof.
  intros L U [P1 P2] [Q1 Q2] Np Nq. destruct (fin_small2 _ _ Np) as [S1 S2]. destruct (fin_small2 _ _ Nq) as [T1 T2].
  destruct (comp_sub (vx p) (vy q) (vy p) (vx q) i j L U P1 Q2 P2 Q1 S1 S2 T2 T1) as [F E]. split; [exact F|]. eapply Rle_trans; [exact E|]. pose proof u32_pos. pose proof tiny_pos.
  pose proof (abs_dot (rval p) (val (vy q), val (vx q))) as K. rewrite (norm_swap (val (vy q))) in K. cbn [fst snd rval] in K. fold (rval q) in K.
  set (X := norm (rval p) * norm (rval q)) in * . change (val (vx p), val (vy p)) with (rval p) in K. fold X in K.
  assert (0 <= X) by (apply Rmult_le_pos; apply norm_nonneg). set (Z := Rabs (val (vx p)) * Rabs (val (vy q)) + Rabs (val (vy p)) * Rabs (val (vx q))) in * .
  assert (41 / 20 * u32 * Z <= 41 / 20 * u32 * X) by (apply Rmult_le_compat_l; lra). assert (0 <= u32 * X) by (apply Rmult_le_pos; lra). lra.
Qed.
Lemma mul32 x k i j : (-149 <= i + j)%Z -> (i + j < 128)%Z -> fin x -> fin k -> small (val x) i -> small (val k) j ->
  fin (fmul x k) /\ Rabs (val (fmul x k) - val x * val k) <= u32 * (Rabs (val x) * Rabs (val k)) + tiny.
Proof.
  intros L U Fx Fk Sx Sk. destruct (mul_ok x k Fx Fk) as [F E]. { eapply small_big; [|apply rnd_small; [|apply small_mul; eassumption]]; lia. }
  split; [exact F|]. rewrite E. destruct (rnd_error (val x * val k)) as (e & t & He & Ht & ->).
  replace (val x * val k * (1 + e) + t - val x * val k) with (e * (val x * val k) + t) by ring. eapply Rle_trans; [apply Rabs_triang|].
  rewrite Rabs_mult, Rabs_mult. apply Rplus_le_compat; [|exact Ht]. apply Rmult_le_compat_r; [apply Rmult_le_pos; apply Rabs_pos | exact He].
Qed.
Lemma tiny_100 L : bpow radix2 (-100) <= L -> tiny <= u32 / 100 * L.
Proof.
  intro H. pose proof u32_pos. apply Rle_trans with (u32 / 100 * bpow radix2 (-100)); [|apply Rmult_le_compat_l; lra]. unfold tiny, u32.
  replace (-150)%Z with (-50 + -100)%Z by reflexivity. rewrite bpow_plus. apply Rmult_le_compat_r; [apply bpow_ge_0|].
  apply Rle_trans with (bpow radix2 (-40)); [apply bpow_le; lia|]. cbn. lra.
Qed.
Lemma norm_sub_le (w : vec2 b32) W : norm (psub (rval w) W) <= u32 * norm W -> norm (rval w) <= (1 + u32) * norm W.
Proof. intro H. pose proof (norm_triangle_sub (rval w) W). lra. Qed.
(** a perpendicular of w, scaled by k, when w is nearly W *)
Lemma perp_core (r w : vec2 b32) (W : pt) (k s : R) : s * s = 1 -> norm (psub (rval w) W) <= u32 * norm W -> bpow radix2 (-100) <= Rabs k * norm W ->
  Rabs (val (vx r) + s * (val (vy w) * k)) <= u32 * (Rabs (val (vy w)) * Rabs k) + tiny ->
  Rabs (val (vy r) - s * (val (vx w) * k)) <= u32 * (Rabs (val (vx w)) * Rabs k) + tiny ->
  norm (psub (rval r) (pscale (s * k) (J W))) <= 3 * u32 * (Rabs k * norm W).
Proof.
  intros S Hw HB Ex Ey. pose proof u32_pos. pose proof u32_small. pose proof tiny_pos. pose proof (tiny_100 _ HB) as TT.
  pose proof (norm_sub_le w W Hw) as Nw.
  assert (R1 : norm (psub (rval r) (pscale (s * k) (J (rval w)))) <= 142 / 100 * (u32 * (norm (rval w) * Rabs k) + tiny)).
  { destruct (coord_le_norm (rval w)) as [Cx Cy]. cbn [rval fst snd] in Cx, Cy. fold (rval w) in Cx, Cy. apply norm_box; cbn [psub pscale J rval fst snd].
    - replace (val (vx r) - s * k * - val (vy w)) with (val (vx r) + s * (val (vy w) * k)) by ring. eapply Rle_trans; [exact Ex|]. apply Rplus_le_compat_r, Rmult_le_compat_l; [lra|]. apply Rmult_le_compat_r; [apply Rabs_pos | exact Cy].
    - replace (val (vy r) - s * k * val (vx w)) with (val (vy r) - s * (val (vx w) * k)) by ring. eapply Rle_trans; [exact Ey|]. apply Rplus_le_compat_r, Rmult_le_compat_l; [lra|]. apply Rmult_le_compat_r; [apply Rabs_pos | exact Cx]. }
  assert (R2 : norm (psub (pscale (s * k) (J (rval w))) (pscale (s * k) (J W))) <= u32 * (Rabs k * norm W)).
  { replace (psub (pscale (s * k) (J (rval w))) (pscale (s * k) (J W))) with (pscale (s * k) (J (psub (rval w) W))) by (apply pt_eq; cbn; ring).
    rewrite norm_scale, J_norm, Rabs_mult, (abs_sig s S), Rmult_1_l. replace (u32 * (Rabs k * norm W)) with (Rabs k * (u32 * norm W)) by ring. apply Rmult_le_compat_l; [apply Rabs_pos | exact Hw]. }
  replace (psub (rval r) (pscale (s * k) (J W))) with (padd (psub (rval r) (pscale (s * k) (J (rval w)))) (psub (pscale (s * k) (J (rval w))) (pscale (s * k) (J W)))) by (apply pt_eq; cbn; ring).
  eapply Rle_trans; [apply norm_triangle|]. pose proof (Rabs_pos k) as Pk. pose proof (norm_nonneg W) as PW. set (Z := Rabs k * norm W) in * .
  assert (norm (rval w) * Rabs k <= (1 + u32) * Z) by (unfold Z; replace ((1 + u32) * (Rabs k * norm W)) with ((1 + u32) * norm W * Rabs k) by ring; apply Rmult_le_compat_r; lra).
  assert (u32 * (norm (rval w) * Rabs k) <= u32 * ((1 + u32) * Z)) by (apply Rmult_le_compat_l; lra). assert (0 <= Z) by (apply Rmult_le_pos; assumption).
  assert (0 <= u32 * Z) by (apply Rmult_le_pos; lra). assert (u32 * (u32 * Z) <= 1 / 16777216 * (u32 * Z)) by (apply Rmult_le_compat_r; lra). lra.
Qed.

Section Step.
Variable dl : R.
Hypotheses (Hlo : bpow radix2 (-20) <= dl) (Hhi : dl <= bpow radix2 12).
Definition okp (p : vec2 b32) : Prop := fin2 p /\ inr dl (rval p).
Lemma dl_pos : 0 < dl. Proof. pose proof (bpow_gt_0 radix2 (-20)). lra. Qed.
Lemma dl_num : / 1048576 <= dl <= 4096. Proof. assert (bpow radix2 (-20) = / 1048576) by (cbn; lra). assert (bpow radix2 12 = 4096) by (cbn; lra). lra. Qed.
Lemma okp_small p : okp p -> norm (rval p) <= bpow radix2 18.
Proof. intros [_ [_ H]]. pose proof dl_num. assert (bpow radix2 18 = 262144) by (cbn; lra). lra. Qed.
Lemma sub32 p q : okp p -> okp q -> fin2 (v2sub p q) /\ norm (psub (rval (v2sub p q)) (psub (rval p) (rval q))) <= u32 * norm (psub (rval p) (rval q)) /\
  norm (psub (rval p) (rval q)) <= 128 * dl /\ norm (rval (v2sub p q)) <= bpow radix2 20.
Proof.
  intros P Q. pose proof (okp_small p P) as Np. pose proof (okp_small q Q) as Nq. pose proof (norm_psub (rval p) (rval q)) as Ns. assert (E : bpow radix2 18 = 262144) by (cbn; lra). pose proof dl_num.
  assert (L : norm (psub (rval p) (rval q)) <= 128 * dl) by (destruct P as [_ [_ P]], Q as [_ [_ Q]]; lra).
  destruct (vsub_ok p q (proj1 P) (proj1 Q)) as [F K]. { apply Rle_trans with (bpow radix2 20); [assert (bpow radix2 20 = 1048576) by (cbn; lra); lra | apply bpow_le; lia]. }
  split; [exact F|]. split; [exact K|]. split; [exact L|]. pose proof (norm_sub_le _ _ K). pose proof u32_small. assert (bpow radix2 20 = 1048576) by (cbn; lra). pose proof (norm_nonneg (psub (rval p) (rval q))).
  assert (u32 * norm (psub (rval p) (rval q)) <= 1 / 16777216 * (128 * dl)) by (apply Rmult_le_compat; try lra; apply Rlt_le, u32_pos). lra.
Qed.
Lemma fle0 (x : b32) : fin x -> fle f0 x = Rleb 0 (val x).
Proof. intro F. rewrite fle_fin; [reflexivity | reflexivity | exact F]. Qed.
Lemma neg32 (a : vec2 b32) : fin2 a -> fin2 (v2neg a) /\ rval (v2neg a) = pneg (rval a).
Proof. intros [A B]. split; [split; cbn [v2neg vx vy]; apply fin_neg; assumption|]. unfold rval, v2neg, pneg. cbn [vx vy fst snd]. rewrite !val_neg. reflexivity. Qed.
(** the sign test against the origin *)
Lemma test32 (d a x : vec2 b32) s : s * s = 1 -> okp a -> okp x -> fin2 d -> bpow radix2 (-70) <= norm (rval d) <= bpow radix2 59 -> dirn (3 * u32) (rval d) s (rval a) (rval x) ->
  same_direction d (v2neg a) = true -> - mu dl <= s * pcross (rval a) (rval x).
Proof.
  intros S A X Fd [Ld Ud] Hd T. destruct (neg32 a (proj1 A)) as [Fa Ea]. pose proof u32_pos as U0. pose proof u32_small as U1. pose proof dl_num as DN.
  assert (Na : norm (rval (v2neg a)) <= bpow radix2 18) by (rewrite Ea, norm_neg; apply okp_small, A).
  destruct (dot32 d (v2neg a) 59 18 ltac:(lia) ltac:(lia) Fd Fa Ud Na) as [F E]. unfold same_direction in T. rewrite (fle0 _ F) in T. destruct (Rleb_spec 0 (val (v2dot d (v2neg a)))) as [T0|]; [|discriminate]. rewrite Ea, norm_neg in E.
  destruct (dirn_bounds _ _ _ _ _ S Hd) as (l & L & P & N1 & N2). specialize (P (pneg (rval a))). rewrite norm_neg in P.
  replace (s * pcross (psub (rval x) (rval a)) (pneg (rval a))) with (s * pcross (rval a) (rval x)) in P by (unfold pcross, psub, pneg; cbn; ring).
  destruct A as [_ [A1 A2]], X as [_ [X1 X2]]. pose proof (norm_psub (rval x) (rval a)) as Ns. set (n := norm (psub (rval x) (rval a))) in * . set (na := norm (rval a)) in * . set (nd := norm (rval d)) in * .
  assert (TT : tiny <= u32 / 100 * (nd * na)).
  { apply tiny_100. replace (-100)%Z with (-70 + -30)%Z by reflexivity. rewrite bpow_plus. apply Rmult_le_compat; try apply bpow_ge_0; [exact Ld|]. apply Rle_trans with (bpow radix2 (-20)); [apply bpow_le; lia | lra]. }
  apply abs_le2' in E. apply abs_le2' in P. set (V := s * pcross (rval a) (rval x)) in * . set (q := l * n) in * . assert (Pn : 0 <= n) by apply norm_nonneg. assert (Pq : 0 <= q) by (apply Rmult_le_pos; lra).
  assert (Q1 : nd * na <= 101 / 100 * (q * na)). { replace (101 / 100 * (q * na)) with (101 / 100 * q * na) by ring. apply Rmult_le_compat_r; [lra|]. assert (3 * u32 * q <= 1 / 100 * q) by (apply Rmult_le_compat_r; lra). lra. }
  assert (Q2 : 0 <= q * na) by (apply Rmult_le_pos; lra). assert (Q3 : u32 * (nd * na) <= u32 * (101 / 100 * (q * na))) by (apply Rmult_le_compat_l; lra).
  assert (Q4 : - (7 * u32) * (q * na) <= l * V). { assert (0 <= u32 * (q * na)) by (apply Rmult_le_pos; lra). lra. }
  assert (Q5 : l * (- (7 * u32) * (n * na)) <= l * V) by (unfold q in Q4; lra). apply Rmult_le_reg_l in Q5; [|exact L].
  assert (Q6 : n * na <= (128 * dl) * (64 * dl)) by (apply Rmult_le_compat; lra). assert (0 <= n * na) by (apply Rmult_le_pos; lra).
  assert (Q7 : 7 * u32 * (n * na) <= 7 * (1 / 16777216) * ((128 * dl) * (64 * dl))) by (apply Rmult_le_compat; lra). unfold mu. assert (0 < dl * dl) by nra. lra.
Qed.
(** the triangle's doubled area *)
Lemma area32 (a b c : vec2 b32) sg : sg * sg = 1 -> okp a -> okp b -> okp c -> let k := cross (v2sub b a) (v2sub c a) in
  138 / 100 * (dl * dl) <= sg * pcross (psub (rval b) (rval a)) (psub (rval c) (rval a)) ->
  fin k /\ 13 / 10 * (dl * dl) <= sg * val k /\ small (val k) 39 /\ / 100 * dl <= norm (psub (rval b) (rval a)).
Proof.
  intros S A B C k H. destruct (sub32 b a B A) as (Fb & Eb & Lb & Nb). destruct (sub32 c a C A) as (Fc & Ec & Lc & Nc).
  destruct (cross32 _ _ 20 20 ltac:(lia) ltac:(lia) Fb Fc Nb Nc) as [F E]. fold k in F, E. split; [exact F|].
  pose proof u32_pos as U0. pose proof u32_small as U1. pose proof dl_num as DN. pose proof (norm_sub_le _ _ Eb) as Nb'. pose proof (norm_sub_le _ _ Ec) as Nc'.
  set (P := psub (rval b) (rval a)) in * . set (Q := psub (rval c) (rval a)) in * . set (p := rval (v2sub b a)) in * . set (q := rval (v2sub c a)) in * .
  assert (X1 : Rabs (pcross p q - pcross P Q) <= u32 * norm P * norm q + norm P * (u32 * norm Q)).
  { replace (pcross p q - pcross P Q) with (pcross (psub p P) q + pcross P (psub q Q)) by (unfold pcross, psub; cbn; ring). eapply Rle_trans; [apply Rabs_triang|].
    pose proof (norm_nonneg q). pose proof (norm_nonneg P). apply Rplus_le_compat; (eapply Rle_trans; [apply cross_bound|]); [apply Rmult_le_compat_r | apply Rmult_le_compat_l]; assumption. }
  pose proof (norm_nonneg p) as Pp. pose proof (norm_nonneg q) as Pq. pose proof (norm_nonneg P) as PP. pose proof (norm_nonneg Q) as PQ.
  assert (Y1 : norm p <= 129 * dl). { assert (u32 * norm P <= 1 / 16777216 * (128 * dl)) by (apply Rmult_le_compat; lra). lra. }
  assert (Y2 : norm q <= 129 * dl). { assert (u32 * norm Q <= 1 / 16777216 * (128 * dl)) by (apply Rmult_le_compat; lra). lra. }
  assert (D2 : 0 < dl * dl) by nra.
  assert (Z1 : norm p * norm q <= (129 * dl) * (129 * dl)) by (apply Rmult_le_compat; lra).
  assert (Z2 : norm P * norm q <= (128 * dl) * (129 * dl)) by (apply Rmult_le_compat; lra). assert (Z3 : norm P * norm Q <= (128 * dl) * (128 * dl)) by (apply Rmult_le_compat; lra).
  assert (W1 : u32 * (norm p * norm q) <= 1 / 16777216 * (129 * dl * (129 * dl))) by (apply Rmult_le_compat; try lra; apply Rmult_le_pos; assumption).
  assert (W2 : u32 * (norm P * norm q) <= 1 / 16777216 * (128 * dl * (129 * dl))) by (apply Rmult_le_compat; try lra; apply Rmult_le_pos; assumption).
  assert (W3 : u32 * (norm P * norm Q) <= 1 / 16777216 * (128 * dl * (128 * dl))) by (apply Rmult_le_compat; try lra; apply Rmult_le_pos; assumption).
  assert (TT : tiny <= u32 / 100 * (dl * dl)).
  { apply tiny_100. replace (-100)%Z with (-50 + -50)%Z by reflexivity. rewrite bpow_plus. assert (bpow radix2 (-50) <= dl) by (apply Rle_trans with (bpow radix2 (-20)); [apply bpow_le; lia | exact Hlo]). apply Rmult_le_compat; try apply bpow_ge_0; assumption. }
  assert (W4 : u32 / 100 * (dl * dl) <= 1 / 16777216 * (dl * dl)) by (apply Rmult_le_compat_r; lra).
  assert (V : Rabs (val k - pcross P Q) <= 8 / 100 * (dl * dl)).
  { replace (val k - pcross P Q) with ((val k - pcross p q) + (pcross p q - pcross P Q)) by ring. eapply Rle_trans; [apply Rabs_triang|]. lra. }
  assert (CB : Rabs (pcross P Q) <= norm P * norm Q) by apply cross_bound. split; [|split].
  - assert (Rabs (sg * (val k - pcross P Q)) <= 8 / 100 * (dl * dl)) by (rewrite Rabs_mult, (abs_sig sg S), Rmult_1_l; exact V). apply abs_le2' in H0. lra.
  - unfold small. assert (bpow radix2 39 = 549755813888) by (cbn; lra). pose proof (Rabs_triang (val k - pcross P Q) (pcross P Q)) as TR. replace (val k - pcross P Q + pcross P Q) with (val k) in TR by ring.
    assert (dl * dl <= 4096 * 4096) by (apply Rmult_le_compat; lra). lra.
  - assert (138 / 100 * (dl * dl) <= norm P * norm Q). { eapply Rle_trans; [exact H|]. eapply Rle_trans; [apply Rle_abs|]. rewrite Rabs_mult, (abs_sig sg S), Rmult_1_l. exact CB. }
    assert (norm P * norm Q <= norm P * (128 * dl)) by (apply Rmult_le_compat_l; lra). apply Rmult_le_reg_r with (128 * dl); [lra|]. lra.
Qed.
End Step.
