(** * GJK on bodies that overlap deeply: the region that can still contain the origin shrinks by four per step (proofs). *)
From Coq Require Import Reals Lra Psatz Bool List Lia Arith.
From Verif Require Import Num NumXR Glam Transform2 Shapes2 Gjk Spec SpecLink P_Base P_Transform P_Shapes P_Geo P_GjkShape SpecGjk P_Gjk P_Gjk2 P_Gjk3 P_Epa.
Import ListNotations.
Local Open Scope R_scope.

(** cross products along a direction u, read off a normal n of u *)
Lemma cross_by_normal u n v : pdot n u = 0 -> pcross u v * pdot n n = pcross u n * pdot n v.
Proof.
  intro H. replace (pcross u v * pdot n n) with (pcross u n * pdot n v + pdot n u * pcross n v) by (unfold pcross, pdot; ring).
  rewrite H. ring.
Qed.
Lemma cross_sub_r u v w : pcross u (psub v w) = pcross u v - pcross u w.
Proof. unfold pcross, psub; cbn; ring. Qed.
Lemma cross_sub_l u v w : pcross (psub v w) u = pcross v u - pcross w u.
Proof. unfold pcross, psub; cbn; ring. Qed.
Lemma cross_scale_r k u v : pcross u (pscale k v) = k * pcross u v.
Proof. unfold pcross, pscale; cbn; ring. Qed.
Lemma cross_scale_l k u v : pcross (pscale k u) v = k * pcross u v.
Proof. unfold pcross, pscale; cbn; ring. Qed.
Lemma lagrange_id u v : pcross u v * pcross u v + pdot u v * pdot u v = pdot u u * pdot v v.
Proof. unfold pcross, pdot; ring. Qed.

Lemma norm_ge x p : 0 <= x -> x * x <= pdot p p -> x <= norm p.
Proof. intros H0 H. destruct (Rle_or_lt x (norm p)) as [|L]; [assumption|]. apply norm_lt_sq in L; [lra | assumption]. Qed.
Section Deep.
Variables (M : pset) (s : pt -> pt) (sup : vec2 XR -> vec2 XR) (K rho : R).
Hypothesis Hsup : forall d, norm d <= K -> sup (inj d) = inj (s d).
Hypothesis Hfar : forall d, norm d <= K -> is_farthest M d (s d).
Hypothesis HM : forall m, M m -> norm m <= rho.
Hypothesis K1 : 2 * rho <= K.
Hypothesis K3 : 8 * (rho * rho * rho) <= K.
Variables (D delta : R).
Hypothesis HD : forall m, M m -> norm m <= D.
Hypothesis Hdelta : 0 < delta.
Hypothesis Hball : forall w, norm w <= delta -> M w.
Local Notation vert := (vert M s K).
Local Notation Inv := (Inv M s K).
Local Notation tri := (tri M s K).
Local Notation value := (value s K).

(** the point of the ball in a given direction *)
Definition tip (d : pt) : pt := pscale (delta / norm d) d.
Lemma tip_M d : d <> origin -> M (tip d).
Proof.
  intro N. apply Hball. unfold tip. pose proof (norm_pos d N). rewrite norm_scale, Rabs_right by (apply Rle_ge, Rlt_le, Rdiv_lt_0_compat; lra).
  replace (delta / norm d * norm d) with delta by (field; lra). lra.
Qed.
Lemma tip_dot d : d <> origin -> pdot d (tip d) = delta * norm d.
Proof. intro N. pose proof (norm_pos d N). unfold tip. rewrite pdot_scale_r, <- norm_sq. field. lra. Qed.
Lemma far_deep d p : d <> origin -> is_farthest M d p -> delta * norm d <= pdot d p.
Proof. intros N [_ H]. rewrite <- (tip_dot d N). apply H, tip_M, N. Qed.
Lemma no_behind : ~ behind M.
Proof.
  intros (d & N & H). pose proof (H _ (tip_M d N)) as Q. rewrite (tip_dot d N) in Q. pose proof (norm_pos d N).
  assert (0 < delta * norm d) by (apply Rmult_lt_0_compat; lra). lra.
Qed.
Lemma vert_deep v : vert v -> delta <= norm v.
Proof.
  intros [(e & F & P) _]. assert (N : e <> origin) by (intros ->; unfold pdot, origin in P; cbn in P; lra).
  pose proof (far_deep e v N F) as Q. pose proof (norm_pos e N). pose proof (cauchy e v) as C.
  apply Rmult_le_reg_l with (norm e); [assumption|]. lra.
Qed.
Lemma pair_long d b c : vert b -> vert c -> pair_ok d b c -> 2 * (delta * delta) <= pdot (psub c b) (psub c b).
Proof.
  intros Vb Vc (_ & _ & Z & _). pose proof (vert_deep b Vb). pose proof (vert_deep c Vc).
  replace (pdot (psub c b) (psub c b)) with (pdot c c - 2 * pdot b c + pdot b b) by (unfold pdot, psub; cbn; ring).
  rewrite <- (norm_sq b), <- (norm_sq c). nra.
Qed.

(** ** The triangle beyond an edge: M lies inside the lines b-p and p-c; [T] is twice its area *)
Definition Wedge (b c d : pt) (T : R) : Prop := exists sg p, sg * sg = 1 /\
  (forall m, M m -> sg * pcross (psub p b) (psub m b) <= 0) /\ (forall m, M m -> sg * pcross (psub c p) (psub m p) <= 0) /\
  sg * pcross (psub c b) (psub p b) <= T /\ 0 < sg * pcross (psub c b) d.
Lemma wedge_sym b c d T : Wedge b c d T -> Wedge c b d T.
Proof.
  intros (sg & p & S & A & B & L & P). exists (- sg), p. split; [lra|]. split; [|split; [|split]].
  - intros m Hm. pose proof (B m Hm) as Q. replace (- sg * pcross (psub p c) (psub m c)) with (sg * pcross (psub c p) (psub m p)) by (unfold pcross, psub; cbn; ring). exact Q.
  - intros m Hm. pose proof (A m Hm) as Q. replace (- sg * pcross (psub b p) (psub m p)) with (sg * pcross (psub p b) (psub m b)) by (unfold pcross, psub; cbn; ring). exact Q.
  - replace (- sg * pcross (psub b c) (psub p c)) with (sg * pcross (psub c b) (psub p b)) by (unfold pcross, psub; cbn; ring). exact L.
  - replace (- sg * pcross (psub b c) d) with (sg * pcross (psub c b) d) by (unfold pcross, psub; cbn; ring). exact P.
Qed.
Lemma wedge_mono b c d T T' : T <= T' -> Wedge b c d T -> Wedge b c d T'.
Proof. intros H (sg & p & S & A & B & L & P). exists sg, p. repeat split; try assumption. lra. Qed.
(** no point of M is higher over the edge than the apex *)
Lemma wedge_height sg b c p m : sg * pcross (psub p b) (psub m b) <= 0 -> sg * pcross (psub c p) (psub m p) <= 0 ->
  sg * pcross (psub c b) (psub m b) <= sg * pcross (psub c b) (psub p b).
Proof.
  intros A B.
  assert (E : sg * pcross (psub c b) (psub m b) = sg * pcross (psub c b) (psub p b) + sg * pcross (psub p b) (psub m b) + sg * pcross (psub c p) (psub m p))
    by (unfold pcross, psub; cbn; ring). lra.
Qed.
(** the triangle contains a half disc *)
Lemma wedge_low b c d T : vert b -> vert c -> d <> origin -> pair_ok d b c -> Wedge b c d T -> 2 * (delta * delta * (delta * delta)) <= T * T /\ 0 < T.
Proof.
  intros Vb Vc Nd OK (sg & p & S & A & B & L & P). pose proof (pair_long d b c Vb Vc OK) as LL. destruct OK as (E & Z & _).
  set (u := psub c b) in * . pose proof (dot_pos d Nd) as Pd. pose proof (norm_pos d Nd) as Nn.
  assert (Hu : pdot d u = 0) by (unfold u; rewrite pdot_sub_r; lra).
  pose proof (tip_M d Nd) as Mt. pose proof (wedge_height sg b c p (tip d) (A _ Mt) (B _ Mt)) as H. fold u in H.
  pose proof (cross_by_normal u d (psub (tip d) b) Hu) as C. rewrite pdot_sub_r, (tip_dot d Nd) in C.
  pose proof (lagrange_id u d) as LG. rewrite (pdot_comm u d), Hu in LG.
  set (q := pcross u d) in * . set (w := pcross u (psub (tip d) b)) in * .
  assert (Q1 : sg * w * pdot d d = sg * q * (delta * norm d - pdot d b)) by (rewrite !Rmult_assoc, C; ring).
  assert (Q2 : sg * q * (delta * norm d) <= sg * w * pdot d d) by (rewrite Q1; apply Rmult_le_compat_l; lra).
  assert (Q3 : 0 < sg * q * (delta * norm d)) by (apply Rmult_lt_0_compat; [exact P | apply Rmult_lt_0_compat; lra]).
  assert (Q4 : 0 < sg * w) by (apply Rmult_lt_reg_r with (pdot d d); [exact Pd | lra]).
  split; [|lra].
  assert (Q5 : (sg * q * (delta * norm d)) * (sg * q * (delta * norm d)) <= (sg * w * pdot d d) * (sg * w * pdot d d)) by (apply Rmult_le_compat; lra).
  replace ((sg * q * (delta * norm d)) * (sg * q * (delta * norm d))) with ((sg * sg) * (q * q) * (delta * delta) * (norm d * norm d)) in Q5 by ring.
  rewrite S, norm_sq in Q5. replace (q * q) with (pdot u u * pdot d d) in Q5 by lra.
  replace ((sg * w * pdot d d) * (sg * w * pdot d d)) with ((sg * w) * (sg * w) * (pdot d d * pdot d d)) in Q5 by ring.
  replace (1 * (pdot u u * pdot d d) * (delta * delta) * pdot d d) with (pdot u u * (delta * delta) * (pdot d d * pdot d d)) in Q5 by ring.
  apply Rmult_le_reg_r in Q5; [|nra].
  assert (2 * (delta * delta) * (delta * delta) <= pdot u u * (delta * delta)) by (apply Rmult_le_compat_r; nra).
  assert ((sg * w) * (sg * w) <= T * T) by (apply Rmult_le_compat; lra). lra.
Qed.

(** the new normal is on the side of the wedge *)
Lemma side sg x a y n : pdot n (psub a x) = 0 -> pdot n y < pdot n x -> sg * pcross (psub a x) (psub y x) < 0 -> 0 < sg * pcross (psub a x) n.
Proof.
  intros H L N. pose proof (cross_by_normal (psub a x) n (psub y x) H) as C. rewrite pdot_sub_r in C.
  assert (Nn : n <> origin) by (apply (ne_origin_of_dot n y x L)). pose proof (dot_pos n Nn) as P.
  assert (E : (sg * pcross (psub a x) (psub y x)) * pdot n n = (sg * pcross (psub a x) n) * (pdot n y - pdot n x)) by (rewrite !Rmult_assoc, C; ring).
  apply Rnot_le_lt. intro G. assert ((sg * pcross (psub a x) (psub y x)) * pdot n n < 0) by nra.
  assert (0 <= (sg * pcross (psub a x) n) * (pdot n y - pdot n x)) by nra. lra.
Qed.
(** one step: the kept half of the wedge is at most a quarter as large *)
Lemma wedge_step x y a d n T : d <> origin -> is_farthest M d a -> pdot d x = pdot d y -> pdot d x < pdot d a ->
  pdot n a = pdot n x -> pdot n y < pdot n x -> Wedge x y d T -> Wedge a x n (T / 4).
Proof.
  intros Nd Fa E La En Ly (sg & p & S & A & B & L & P). apply wedge_sym. destruct Fa as [Ma Fa].
  pose proof (dot_pos d Nd) as Pd.
  set (Y := psub y x) in * . set (P0 := psub p x) in * .
  assert (Hu : pdot d Y = 0) by (unfold Y; rewrite pdot_sub_r; lra).
  set (T0 := sg * pcross Y P0) in * . set (q := sg * pcross Y d) in * .
  assert (Hgt : forall v, sg * pcross Y v * pdot d d = q * pdot d v).
  { intro v. unfold q. rewrite !Rmult_assoc, (cross_by_normal Y d v Hu). ring. }
  set (h := sg * pcross Y (psub a x)).
  assert (Hh : 0 < h). { apply Rmult_lt_reg_r with (pdot d d); [exact Pd|]. unfold h. rewrite Hgt, pdot_sub_r. nra. }
  pose proof (wedge_height sg x y p a (A a Ma) (B a Ma)) as HT. fold Y P0 T0 h in HT.
  assert (PT : 0 < T0) by lra. set (mu := h / T0). set (ka := sg * pcross (psub a x) P0 / T0).
  assert (M0 : 0 < mu) by (apply Rdiv_lt_0_compat; assumption).
  assert (K0 : 0 <= ka).
  { apply Rmult_le_pos; [|apply Rlt_le, Rinv_0_lt_compat, PT]. pose proof (A a Ma) as Q. fold P0 in Q. rewrite cross_anti in Q. lra. }
  assert (Ea : psub a x = padd (pscale mu P0) (pscale ka Y)).
  { unfold mu, ka, h, T0. assert (NZ : pcross Y P0 <> 0) by (intro Z; unfold T0 in PT; rewrite Z in PT; lra).
    assert (Ns : sg <> 0) by (intro Z; rewrite Z in S; lra).
    apply pt_eq; cbn [fst snd padd pscale].
    - transitivity ((pcross Y (psub a x) * fst P0 + pcross (psub a x) P0 * fst Y) / pcross Y P0); [|field; split; assumption].
      replace (pcross Y (psub a x) * fst P0 + pcross (psub a x) P0 * fst Y) with (fst (psub a x) * pcross Y P0) by (unfold pcross; ring). field. exact NZ.
    - transitivity ((pcross Y (psub a x) * snd P0 + pcross (psub a x) P0 * snd Y) / pcross Y P0); [|field; split; assumption].
      replace (pcross Y (psub a x) * snd P0 + pcross (psub a x) P0 * snd Y) with (snd (psub a x) * pcross Y P0) by (unfold pcross; ring). field. exact NZ. }
  assert (KM : ka + mu <= 1).
  { pose proof (B a Ma) as Q.
    replace (psub y p) with (psub Y P0) in Q by (apply pt_eq; cbn; ring). replace (psub a p) with (psub (psub a x) P0) in Q by (apply pt_eq; cbn; ring).
    rewrite Ea in Q. replace (sg * pcross (psub Y P0) (psub (padd (pscale mu P0) (pscale ka Y)) P0)) with ((mu + ka - 1) * T0) in Q by (unfold T0, pcross; cbn; ring).
    nra. }
  exists sg, (padd x (pscale mu P0)). replace (psub (padd x (pscale mu P0)) x) with (pscale mu P0) by (apply pt_eq; cbn; ring).
  split; [exact S|]. split; [|split; [|split]].
  - intros m Hm. rewrite cross_scale_l. pose proof (A m Hm) as Q. fold P0 in Q. nra.
  - intros m Hm. replace (psub a (padd x (pscale mu P0))) with (pscale ka Y) by (replace a with (padd x (psub a x)) by (apply pt_eq; cbn; ring); rewrite Ea; apply pt_eq; cbn; ring).
    rewrite cross_scale_l. replace (psub m (padd x (pscale mu P0))) with (psub (psub m x) (pscale mu P0)) by (apply pt_eq; cbn; ring).
    rewrite cross_sub_r, cross_scale_r.
    assert (Q : sg * pcross Y (psub m x) <= h).
    { apply Rmult_le_reg_r with (pdot d d); [exact Pd|]. unfold h. rewrite !Hgt, !pdot_sub_r. apply Rmult_le_compat_l; [lra|]. pose proof (Fa m Hm). lra. }
    replace (sg * (ka * (pcross Y (psub m x) - mu * pcross Y P0))) with (ka * (sg * pcross Y (psub m x) - mu * T0)) by (unfold T0; ring).
    replace (mu * T0) with h by (unfold mu; field; lra). assert (0 <= ka * (h - sg * pcross Y (psub m x))) by (apply Rmult_le_pos; lra). lra.
  - rewrite Ea. replace (sg * pcross (padd (pscale mu P0) (pscale ka Y)) (pscale mu P0)) with (ka * mu * T0) by (unfold T0, pcross; cbn; ring).
    assert ((ka + mu) * (ka + mu) <= 1 * 1) by (apply Rmult_le_compat; lra). pose proof (Rle_0_sqr (ka - mu)) as Q. unfold Rsqr in Q.
    assert (Q2 : 4 * (ka * mu) <= 1) by lra. assert (4 * (ka * mu) * T0 <= 1 * T0) by (apply Rmult_le_compat_r; lra). lra.
  - apply (side sg x a y n); [rewrite pdot_sub_r; lra | exact Ly|]. fold Y. rewrite Ea.
    replace (sg * pcross (padd (pscale mu P0) (pscale ka Y)) Y) with (- (mu * T0)) by (unfold T0, pcross; cbn; ring). nra.
Qed.

(** ** The first wedge *)
(** state after one three-point step: x kept, y dropped, a found beyond the edge x-y along d *)
Definition Opened (a x n : pt) : Prop := exists y d e, M y /\ d <> origin /\ is_farthest M d a /\ pdot d x = pdot d y /\ pdot d x < pdot d a /\
  pdot n a = pdot n x /\ pdot n y < pdot n x /\ is_farthest M e x /\ pdot e a < pdot e x.
(** the edges of a parallelogram-like region *)
Lemma opened_wedge a x n a' n' w w' : Opened a x n -> is_farthest M n a' -> pdot n x < pdot n a' ->
  ((w = a /\ w' = x) \/ (w = x /\ w' = a)) -> pdot n' a' = pdot n' w -> pdot n' w' < pdot n' w -> Wedge a' w n' (4 * (D * D)).
Proof.
  intros (y & d & e & My & Nd & [Ma Fa] & Exy & La & En & Ly & [Mx Fx] & Le) [Ma' Fa'] La' W En' Ly'.
  set (u := psub a x). set (v := psub a' x).
  assert (Nn : n <> origin) by (apply (ne_origin_of_dot n y x Ly)). pose proof (dot_pos n Nn) as Pn.
  assert (Hu : pdot n u = 0) by (unfold u; rewrite pdot_sub_r; lra).
  (* orientation *)
  assert (NZ : pcross u n <> 0).
  { intro Z. pose proof (lagrange_id u n) as LG. rewrite (pdot_comm u n), Hu, Z in LG.
    assert (U0 : pdot u u = 0) by nra. apply dot_0 in U0. assert (a = x) by (apply pt_eq; [apply (f_equal fst) in U0 | apply (f_equal snd) in U0]; cbn in U0; lra). subst a. lra. }
  destruct (sign_of _ NZ) as (sg & S & P).
  assert (Hgt : forall z, sg * pcross u z * pdot n n = (sg * pcross u n) * pdot n z).
  { intro z. rewrite !Rmult_assoc, (cross_by_normal u n z Hu). ring. }
  set (h := sg * pcross u v).
  assert (Hh : 0 < h). { apply Rmult_lt_reg_r with (pdot n n); [exact Pn|]. unfold h. rewrite Hgt. unfold v. rewrite pdot_sub_r. nra. }
  assert (Hmax : forall m, M m -> sg * pcross u (psub m x) <= h).
  { intros m Hm. apply Rmult_le_reg_r with (pdot n n); [exact Pn|]. unfold h, v. rewrite !Hgt, !pdot_sub_r. apply Rmult_le_compat_l; [lra|]. pose proof (Fa' m Hm). lra. }
  assert (Hy : sg * pcross u (psub y x) < 0).
  { apply Rmult_lt_reg_r with (pdot n n); [exact Pn|]. rewrite Hgt, Rmult_0_l, pdot_sub_r. nra. }
  assert (Hle : h <= 4 * (D * D)).
  { assert (Hd : forall p q, M p -> M q -> norm (psub p q) <= 2 * D) by (intros p q Hp Hq; pose proof (norm_psub p q); pose proof (HD p Hp); pose proof (HD q Hq); lra).
    assert (h <= Rabs (pcross u v)).
    { unfold h. assert (sg = 1 \/ sg = -1) as [->| ->] by (assert ((sg - 1) * (sg + 1) = 0) by lra; apply Rmult_integral in H; lra);
        [rewrite Rmult_1_l; apply Rle_abs | rewrite <- (Rabs_Ropp (pcross u v)); replace (-1 * pcross u v) with (- pcross u v) by ring; apply Rle_abs]. }
    pose proof (cross_bound u v). pose proof (Hd a x Ma Mx). pose proof (Hd a' x Ma' Mx). fold u in H1. fold v in H2.
    pose proof (norm_nonneg u). pose proof (norm_nonneg v). assert (norm u * norm v <= (2 * D) * (2 * D)) by (apply Rmult_le_compat; lra). lra. }
  (* coordinates of a' with respect to u and y - x *)
  set (Y := psub y x) in * .
  assert (NY : pcross u Y <> 0) by (intro Z; rewrite Z in Hy; lra).
  destruct (decompose u Y v NY) as (i & j & Ev).
  assert (J : j < 0). { unfold h in Hh. rewrite Ev in Hh. replace (pcross u (padd (pscale i u) (pscale j Y))) with (j * pcross u Y) in Hh by (unfold pcross; cbn; ring). nra. }
  assert (Ei : pdot d v = i * pdot d u).
  { rewrite Ev, pdot_add_r, !pdot_scale_r. replace (pdot d Y) with 0 by (unfold Y; rewrite pdot_sub_r; lra). ring. }
  assert (Pu : 0 < pdot d u) by (unfold u; rewrite pdot_sub_r; lra).
  assert (I1 : i <= 1). { pose proof (Fa a' Ma') as Q. assert (pdot d v <= pdot d u) by (unfold u, v; rewrite !pdot_sub_r; lra). nra. }
  assert (Eu : pdot e u < 0) by (unfold u; rewrite pdot_sub_r; lra).
  assert (Ee : pdot e v = i * pdot e u + j * pdot e Y) by (rewrite Ev, pdot_add_r, !pdot_scale_r; reflexivity).
  assert (EY : pdot e Y <= 0) by (unfold Y; rewrite pdot_sub_r; pose proof (Fx y My); lra).
  assert (Vv : pdot e v <= 0) by (unfold v; rewrite pdot_sub_r; pose proof (Fx a' Ma'); lra).
  set (t1 := pdot e v / pdot e u). assert (T1 : t1 * pdot e u = pdot e v) by (unfold t1; field; lra).
  assert (T10 : 0 <= t1) by (apply Rnot_lt_le; intro; nra). assert (T1i : t1 <= i) by (apply Rnot_lt_le; intro; nra).
  destruct W as [[-> ->]|[-> ->]].
  - (* kept: a', a; apex a' + (1 - i) u *)
    exists sg, (padd a' (pscale (1 - i) u)).
    assert (E1 : psub (padd a' (pscale (1 - i) u)) a' = pscale (1 - i) u) by (apply pt_eq; cbn; ring). rewrite E1.
    assert (E2 : psub a (padd a' (pscale (1 - i) u)) = pscale (- j) Y).
    { replace (psub a (padd a' (pscale (1 - i) u))) with (psub u (padd v (pscale (1 - i) u))) by (apply pt_eq; cbn; ring). rewrite Ev. apply pt_eq; cbn; ring. }
    rewrite E2. split; [exact S|]. split; [|split; [|split]].
    + intros m Hm. rewrite cross_scale_l. pose proof (Hmax m Hm) as Q.
      replace (psub m a') with (psub (psub m x) v) by (apply pt_eq; cbn; ring). rewrite cross_sub_r.
      replace (sg * ((1 - i) * (pcross u (psub m x) - pcross u v))) with (- ((1 - i) * (h - sg * pcross u (psub m x)))) by (unfold h; ring).
      assert (0 <= (1 - i) * (h - sg * pcross u (psub m x))) by (apply Rmult_le_pos; lra). lra.
    + intros m Hm. rewrite cross_scale_l.
      replace (psub m (padd a' (pscale (1 - i) u))) with (psub (psub m a) (pscale j Y)).
      2:{ replace (psub m (padd a' (pscale (1 - i) u))) with (psub (psub m x) (padd v (pscale (1 - i) u))) by (apply pt_eq; cbn; ring). rewrite Ev. unfold u. apply pt_eq; cbn; ring. }
      rewrite cross_sub_r, cross_scale_r, cross_self, Rmult_0_r, Rminus_0_r.
      (* d . m <= d . a, and Y is orthogonal to d *)
      assert (HY : pdot d Y = 0) by (unfold Y; rewrite pdot_sub_r; lra). pose proof (dot_pos d Nd) as Pd.
      pose proof (cross_by_normal Y d (psub m a) HY) as C1. pose proof (cross_by_normal Y d u HY) as C2.
      rewrite pdot_sub_r in C1. pose proof (Fa m Hm) as Fm. assert (Wa : 0 < sg * pcross Y u) by (rewrite cross_anti; lra).
      assert (G : 0 <= sg * pcross Y d).
      { apply Rnot_lt_le. intro G. assert ((sg * pcross Y u) * pdot d d = (sg * pcross Y d) * pdot d u) by (rewrite !Rmult_assoc, C2; ring).
        assert (0 < (sg * pcross Y u) * pdot d d) by (apply Rmult_lt_0_compat; assumption). assert (0 < - (sg * pcross Y d) * pdot d u) by (apply Rmult_lt_0_compat; lra). lra. }
      assert (Q : (sg * pcross Y (psub m a)) * pdot d d = (sg * pcross Y d) * (pdot d m - pdot d a)) by (rewrite !Rmult_assoc, C1; ring).
      assert (Q2 : sg * pcross Y (psub m a) <= 0).
      { apply Rnot_lt_le. intro L0. assert (0 < (sg * pcross Y (psub m a)) * pdot d d) by (apply Rmult_lt_0_compat; assumption).
        assert (0 <= (sg * pcross Y d) * (pdot d a - pdot d m)) by (apply Rmult_le_pos; lra). lra. }
      replace (sg * (- j * pcross Y (psub m a))) with (- j * (sg * pcross Y (psub m a))) by ring.
      assert (0 <= - j * (- (sg * pcross Y (psub m a)))) by (apply Rmult_le_pos; lra). lra.
    + replace (psub a a') with (psub u v) by (apply pt_eq; cbn; ring). rewrite cross_scale_r, cross_sub_l, cross_self, (cross_anti v u).
      replace (sg * ((1 - i) * (0 - - pcross u v))) with ((1 - i) * h) by (unfold h; ring). assert (0 <= i * h) by (apply Rmult_le_pos; lra). lra.
    + apply (side (- sg) a a' x n') in Ly'; [|rewrite pdot_sub_r; lra|].
      * replace (sg * pcross (psub a a') n') with (- sg * pcross (psub a' a) n') by (unfold pcross, psub; cbn; ring). exact Ly'.
      * replace (- sg * pcross (psub a' a) (psub x a)) with (- h) by (unfold h, u, v, pcross, psub; cbn; ring). lra.
  - (* kept: a', x; apex a' - t1 u *)
    apply wedge_sym. exists sg, (psub a' (pscale t1 u)).
    assert (Hp : pdot e (psub (psub a' (pscale t1 u)) x) = 0).
    { replace (psub (psub a' (pscale t1 u)) x) with (psub v (pscale t1 u)) by (apply pt_eq; cbn; ring). rewrite pdot_sub_r, pdot_scale_r. lra. }
    set (Z := psub (psub a' (pscale t1 u)) x) in * .
    assert (EZ : psub v (pscale t1 u) = Z) by (unfold Z, v; apply pt_eq; cbn; ring).
    assert (Ne : e <> origin) by (apply (ne_origin_of_dot e a x Le)). pose proof (dot_pos e Ne) as Pe.
    assert (GZ : 0 <= sg * pcross Z e).
    { pose proof (cross_by_normal Z e u Hp) as C. assert (E3 : sg * pcross Z u = - h).
      { rewrite <- EZ, cross_sub_l, cross_scale_l, cross_self, (cross_anti v u). unfold h. ring. }
      assert ((sg * pcross Z u) * pdot e e = (sg * pcross Z e) * pdot e u) by (rewrite !Rmult_assoc, C; ring). rewrite E3 in H.
      apply Rnot_lt_le. intro G. assert (0 < h * pdot e e) by (apply Rmult_lt_0_compat; assumption). assert (0 < - (sg * pcross Z e) * - pdot e u) by (apply Rmult_lt_0_compat; lra). lra. }
    split; [exact S|]. split; [|split; [|split]].
    + intros m Hm. pose proof (cross_by_normal Z e (psub m x) Hp) as C. rewrite pdot_sub_r in C. pose proof (Fx m Hm) as Fm.
      assert (Q : (sg * pcross Z (psub m x)) * pdot e e = (sg * pcross Z e) * (pdot e m - pdot e x)) by (rewrite !Rmult_assoc, C; ring).
      apply Rnot_lt_le. intro G. assert (0 < (sg * pcross Z (psub m x)) * pdot e e) by (apply Rmult_lt_0_compat; assumption).
      assert (0 <= (sg * pcross Z e) * (pdot e x - pdot e m)) by (apply Rmult_le_pos; lra). lra.
    + intros m Hm. replace (psub a' (psub a' (pscale t1 u))) with (pscale t1 u) by (apply pt_eq; cbn; ring). rewrite cross_scale_l.
      replace (psub m (psub a' (pscale t1 u))) with (psub (psub m x) (psub v (pscale t1 u))) by (apply pt_eq; cbn; ring).
      rewrite (cross_sub_r u (psub m x)), (cross_sub_r u v), cross_scale_r, cross_self. pose proof (Hmax m Hm) as Q.
      replace (sg * (t1 * (pcross u (psub m x) - (pcross u v - t1 * 0)))) with (- (t1 * (h - sg * pcross u (psub m x)))) by (unfold h; ring).
      assert (0 <= t1 * (h - sg * pcross u (psub m x))) by (apply Rmult_le_pos; lra). lra.
    + fold v. rewrite <- EZ, cross_sub_r, cross_scale_r, cross_self, (cross_anti v u).
      replace (sg * (0 - t1 * - pcross u v)) with (t1 * h) by (unfold h; ring). assert (0 <= (1 - t1) * h) by (apply Rmult_le_pos; lra). lra.
    + fold v. apply (side sg x a' a n'); [rewrite pdot_sub_r; lra | exact Ly'|]. fold u v. rewrite (cross_anti v u). replace (sg * - pcross u v) with (- h) by (unfold h; ring). lra.
Qed.

(** ** Steps of the search *)
Lemma three_norm b c a x n : add_point (map inj [b; c]) (inj a) = Ok (map inj [a; x], (false, inj n)) ->
  pdot n n = pdot (psub x a) (psub x a) * (abc_ a b c * abc_ a b c).
Proof.
  cbn [map]. rewrite addp3. intro E.
  destruct (Rleb 0 (pdot (abp a b c) (pneg a))); [destruct (Rleb 0 (pdot (psub b a) (pneg a)))|destruct (Rleb 0 (pdot (acp a b c) (pneg a)))].
  - assert (E1 : inj b = inj x) by congruence. assert (E2 : inj (abp a b c) = inj n) by congruence. apply inj_inj in E1. apply inj_inj in E2. subst. apply abp_norm.
  - assert (E1 : inj c = inj x) by congruence. assert (E2 : inj (acp a b c) = inj n) by congruence. apply inj_inj in E1. apply inj_inj in E2. subst. apply acp_norm.
  - assert (E1 : inj c = inj x) by congruence. assert (E2 : inj (acp a b c) = inj n) by congruence. apply inj_inj in E1. apply inj_inj in E2. subst. apply acp_norm.
  - exfalso. congruence.
Qed.
(** in a deep overlap every normal built by a three-point step is long *)
Lemma three_long b c d x n : Inv [b; c] d -> add_point (map inj [b; c]) (inj (s d)) = Ok (map inj [s d; x], (false, inj n)) -> Inv [s d; x] n ->
  eps <= 2 * (delta * delta * delta) -> direction_is_too_small (inj n) = false.
Proof.
  intros (FS & Hd & Nd & OK) E (FS' & _ & _ & OK') HE. rewrite small_inj. apply Rltb_false. rewrite (three_norm _ _ _ _ _ E).
  inversion FS as [|? ? Vb FS1]; subst. inversion FS1 as [|? ? Vc _]; subst. inversion FS' as [|? ? Va FS2]; subst. inversion FS2 as [|? ? Vx _]; subst.
  pose proof (pair_long _ _ _ Va Vx OK') as L1. pose proof (pair_long _ _ _ Vb Vc OK) as L2. destruct OK as (Eb & Z & _).
  pose proof (far_deep d (s d) Nd (Hfar d Hd)) as F. set (a := s d) in * .
  assert (Ea : abc_ a b c = pcross (psub c b) (psub a b)) by (unfold abc_, pcross, psub; cbn; ring). rewrite Ea.
  pose proof (dot_pos d Nd) as Pd. pose proof (norm_pos d Nd) as Nn.
  assert (Hu : pdot d (psub c b) = 0) by (rewrite pdot_sub_r; lra).
  pose proof (cross_by_normal (psub c b) d (psub a b) Hu) as C. rewrite pdot_sub_r in C.
  pose proof (lagrange_id (psub c b) d) as LG. rewrite (pdot_comm (psub c b) d), Hu in LG.
  set (u := psub c b) in * . set (q := pcross u (psub a b)) in * . set (r := pcross u d) in * .
  assert (Q : 2 * (delta * delta) * (delta * delta) <= q * q).
  { apply Rmult_le_reg_r with (pdot d d * pdot d d); [nra|].
    replace (q * q * (pdot d d * pdot d d)) with ((q * pdot d d) * (q * pdot d d)) by ring. rewrite C.
    replace (r * (pdot d a - pdot d b) * (r * (pdot d a - pdot d b))) with ((r * r) * ((pdot d a - pdot d b) * (pdot d a - pdot d b))) by ring.
    replace (r * r) with (pdot u u * pdot d d) by lra.
    assert (0 < delta * norm d) by (apply Rmult_lt_0_compat; lra).
    assert (G : (delta * norm d) * (delta * norm d) <= (pdot d a - pdot d b) * (pdot d a - pdot d b)) by (apply Rmult_le_compat; lra).
    replace (delta * norm d * (delta * norm d)) with (delta * delta * pdot d d) in G by (rewrite <- norm_sq; ring).
    replace (2 * (delta * delta) * (delta * delta) * (pdot d d * pdot d d)) with ((2 * (delta * delta) * pdot d d) * (delta * delta * pdot d d)) by ring.
    assert (0 < delta * delta) by nra. assert (2 * (delta * delta) * pdot d d <= pdot u u * pdot d d) by (apply Rmult_le_compat_r; lra).
    apply Rmult_le_compat; try assumption; repeat apply Rmult_le_pos; lra. }
  pose proof eps_pos as EP.
  assert (eps * eps <= 2 * (delta * delta * delta) * (2 * (delta * delta * delta))) by (apply Rmult_le_compat; lra).
  assert (0 < delta * delta) by nra.
  assert (2 * (delta * delta) * (2 * (delta * delta) * (delta * delta)) <= pdot (psub x a) (psub x a) * (q * q)) by (apply Rmult_le_compat; try assumption; repeat apply Rmult_le_pos; lra).
  lra.
Qed.
Lemma deep_beyond d : norm d <= K -> d <> origin -> 0 < pdot (s d) d.
Proof. intros Hd N. rewrite pdot_comm. pose proof (far_deep d (s d) N (Hfar d Hd)). pose proof (norm_pos d N). nra. Qed.

(** what a three-point step does to a state described by P, ending in a state described by Q *)
Definition steps (b c d : pt) (Q : pt -> pt -> pt -> Prop) : Prop :=
  (exists x n, add_point (map inj [b; c]) (inj (s d)) = Ok (map inj [s d; x], (false, inj n)) /\ Inv [s d; x] n /\ Q (s d) x n)
  \/ (add_point (map inj [b; c]) (inj (s d)) = Ok (map inj [s d; b; c], (true, v2nan)) /\ tri (s d) b c).
Lemma open_step b c d : Inv [b; c] d -> steps b c d Opened.
Proof.
  intros I. pose proof I as (FS & Hd & Nd & (E & Z & _ & _ & _)). pose proof (deep_beyond d Hd Nd) as F.
  destruct (three M s K rho Hfar HM K3 b c d I F) as [(x & y & n & XY & EA & I' & L & _)|Cap]; [left|right; exact Cap].
  exists x, n. split; [exact EA|]. split; [exact I'|].
  pose proof I' as (FS' & Hn & Nn & OK'). pose proof (pair_ne _ _ _ OK') as NE. destruct OK' as (E' & Z' & _ & _ & _).
  rewrite pdot_comm in F.
  inversion FS as [|? ? Vb FS1]; subst. inversion FS1 as [|? ? Vc _]; subst. inversion FS' as [|? ? Va FS2]; subst. inversion FS2 as [|? ? Vx _]; subst.
  pose proof (vert_M M s K _ Va) as A. pose proof (vert_M M s K _ Vb) as B. pose proof (vert_M M s K _ Vc) as C.
  assert (My : M y) by (destruct XY as [[_ ->]|[_ ->]]; assumption).
  destruct (becomes_clean M s K no_behind n (s d) x y Nn NE E' ltac:(lra) L A My Vx) as (e & Fe & Le).
  exists y, d, e. split; [exact My|]. split; [exact Nd|]. split; [apply Hfar, Hd|].
  split; [destruct XY as [[-> ->]|[-> ->]]; lra|]. split; [destruct XY as [[-> ->]|[-> ->]]; lra|]. auto.
Qed.
Lemma second_step a x n : Inv [a; x] n -> Opened a x n -> steps a x n (fun a' w n' => Wedge a' w n' (4 * (D * D))).
Proof.
  intros I O. pose proof I as (FS & Hd & Nd & (E & Z & _ & _ & _)). pose proof (deep_beyond n Hd Nd) as F.
  destruct (three M s K rho Hfar HM K3 a x n I F) as [(w & w' & n' & XY & EA & I' & L & _)|Cap]; [left|right; exact Cap].
  exists w, n'. split; [exact EA|]. split; [exact I'|]. pose proof I' as (_ & _ & _ & (E' & _)). rewrite pdot_comm in F.
  apply (opened_wedge a x n (s n) n' w w' O (Hfar n Hd)); try assumption. lra.
Qed.
Lemma deep_step b c d T : Inv [b; c] d -> Wedge b c d T -> steps b c d (fun a x n => Wedge a x n (T / 4)).
Proof.
  intros I W. pose proof I as (FS & Hd & Nd & (E & Z & _ & _ & _)). pose proof (deep_beyond d Hd Nd) as F.
  destruct (three M s K rho Hfar HM K3 b c d I F) as [(x & y & n & XY & EA & I' & L & _)|Cap]; [left|right; exact Cap].
  exists x, n. split; [exact EA|]. split; [exact I'|]. pose proof I' as (_ & _ & _ & (E' & _)). rewrite pdot_comm in F.
  assert (Wxy : Wedge x y d T) by (destruct XY as [[-> ->]|[-> ->]]; [exact W | apply wedge_sym, W]).
  apply (wedge_step x y (s d) d n T Nd (Hfar d Hd)); try assumption; destruct XY as [[-> ->]|[-> ->]]; lra.
Qed.

Fixpoint pow16 (n : nat) : R := match n with O => 1 | S n' => 16 * pow16 n' end.
Definition small_wedge (T : R) (n : nat) : Prop := T * T < 2 * (delta * delta * (delta * delta)) * pow16 n.
Lemma small_wedge_0 b c d T : Inv [b; c] d -> Wedge b c d T -> small_wedge T 0 -> False.
Proof.
  intros (FS & _ & Nd & OK) W L. inversion FS as [|? ? Vb FS1]; subst. inversion FS1 as [|? ? Vc _]; subst.
  destruct (wedge_low b c d T Vb Vc Nd OK W) as [H _]. unfold small_wedge in L. cbn [pow16] in L. lra.
Qed.
Lemma small_wedge_S T n : small_wedge T (S n) -> small_wedge (T / 4) n.
Proof. unfold small_wedge. cbn [pow16]. intro H. replace (T / 4 * (T / 4)) with (T * T / 16) by field. lra. Qed.

Lemma ff_wedge n : forall b c d T, Inv [b; c] d -> Wedge b c d T -> small_wedge T n -> found (run_ff sup n (map inj [b; c]) (inj d)).
Proof.
  induction n as [|n IH]; intros b c d T I W L; pose proof I as (FS & Hd & Nd & _).
  - exfalso. apply (small_wedge_0 b c d T I W L).
  - cbn [run_ff]. rewrite (fle_beyond M s sup K Hsup Hfar no_behind d Hd Nd), (Hsup d Hd).
    destruct (deep_step b c d T I W) as [(x & m & -> & I' & W')|[-> _]]; [|left; eauto].
    destruct (direction_is_too_small (inj m)); [right; eauto|]. apply (IH _ _ _ (T / 4) I' W'), small_wedge_S, L.
Qed.
Lemma ff_opened n a x d : Inv [a; x] d -> Opened a x d -> small_wedge (4 * (D * D)) n -> found (run_ff sup (S n) (map inj [a; x]) (inj d)).
Proof.
  intros I O L. pose proof I as (FS & Hd & Nd & _). cbn [run_ff]. rewrite (fle_beyond M s sup K Hsup Hfar no_behind d Hd Nd), (Hsup d Hd).
  destruct (second_step a x d I O) as [(w & m & -> & I' & W')|[-> _]]; [|left; eauto].
  destruct (direction_is_too_small (inj m)); [right; eauto|]. apply (ff_wedge n _ _ _ _ I' W' L).
Qed.
Lemma ff_edge n b c d : Inv [b; c] d -> small_wedge (4 * (D * D)) n -> found (run_ff sup (S (S n)) (map inj [b; c]) (inj d)).
Proof.
  intros I L. pose proof I as (FS & Hd & Nd & _). change (S (S n)) with (S (S n)). cbn [run_ff]. rewrite (fle_beyond M s sup K Hsup Hfar no_behind d Hd Nd), (Hsup d Hd).
  destruct (open_step b c d I) as [(x & m & -> & I' & O')|[-> _]]; [|left; eauto].
  destruct (direction_is_too_small (inj m)); [right; eauto|]. exact (ff_opened n _ _ _ I' O' L).
Qed.
Lemma ratio_small n : D <= 32768 * delta -> (16 <= n)%nat -> small_wedge (4 * (D * D)) n.
Proof.
  intros L N. unfold small_wedge. assert (D0 : 0 <= D) by (pose proof (HD origin (Hball origin ltac:(rewrite norm_origin; lra))); rewrite norm_origin in H; exact H).
  assert (P : pow16 16 <= pow16 n).
  { induction N as [|m N IH]; [apply Rle_refl|]. change (pow16 (S m)) with (16 * pow16 m). assert (0 <= pow16 m) by (clear; induction m; cbn [pow16]; lra). lra. }
  assert (Q : D * D <= (32768 * delta) * (32768 * delta)) by (apply Rmult_le_compat; assumption).
  assert (Q0 : 0 <= D * D) by (apply Rmult_le_pos; assumption).
  assert (Q2 : (D * D) * (D * D) <= ((32768 * delta) * (32768 * delta)) * ((32768 * delta) * (32768 * delta))) by (apply Rmult_le_compat; assumption).
  set (e := delta * delta * (delta * delta)) in * . assert (Pe : 0 < e) by (unfold e; assert (0 < delta * delta) by (apply Rmult_lt_0_compat; assumption); apply Rmult_lt_0_compat; assumption).
  assert (Q3 : (D * D) * (D * D) <= (32768 * 32768 * (32768 * 32768)) * e) by (unfold e; lra).
  assert (Q4 : 2 * e * pow16 16 <= 2 * e * pow16 n) by (apply Rmult_le_compat_l; lra).
  cbn [pow16] in Q4. lra.
Qed.
Lemma deep_ff_found d0 : norm d0 <= K -> d0 <> origin -> D <= 32768 * delta -> found (run_ff sup 20 [] (inj d0)).
Proof.
  intros Hd Nd L. assert (F := deep_beyond d0 Hd Nd). cbn [run_ff]. rewrite (fle_beyond M s sup K Hsup Hfar no_behind d0 Hd Nd), (Hsup d0 Hd).
  assert (Fd : 0 < pdot d0 (s d0)) by (rewrite pdot_comm; exact F).
  assert (Vb : vert (s d0)) by (split; [exists d0; split; [apply Hfar, Hd | exact Fd] | exists d0; auto]).
  rewrite addp1. destruct (direction_is_too_small (inj (pneg (s d0)))) eqn:SM; [right; eauto|].
  assert (I : Inv [s d0] (pneg (s d0))).
  { split; [auto|]. split; [apply (neg_bound M K rho HM K1), (vert_M M s K _ Vb)|]. split; [apply small_ne, SM | reflexivity]. }
  set (b := s d0) in *; set (d := pneg b) in * .
  pose proof I as (_ & Hd1 & Nd1 & _). rewrite (fle_beyond M s sup K Hsup Hfar no_behind d Hd1 Nd1), (Hsup d Hd1).
  destruct (two M s K rho Hfar HM K1 K3 b d I (deep_beyond d Hd1 Nd1)) as (n & EA & C & _). change ([inj b]) with (map inj [b]). rewrite EA.
  destruct (direction_is_too_small (inj n)) eqn:SM2; [right; eauto|].
  destruct C as [(_ & I2)|(-> & _)]; [|exfalso; apply (small_ne _ SM2 eq_refl)].
  exact (ff_edge 16 _ _ _ I2 (ratio_small 16 L (le_n 16))).
Qed.
(** ** The variants that replace a too short direction *)
Hypothesis Heps : 4 * eps * D <= delta * delta * (delta * delta).
Lemma delta_D : delta <= D.
Proof.
  assert (N : (1, 0) <> origin) by (intro E; injection E; lra).
  pose proof (HD _ (tip_M (1, 0) N)) as H. pose proof (tip_dot (1, 0) N) as T. pose proof (cauchy (1, 0) (tip (1, 0))) as C.
  rewrite norm_xaxis, Rabs_R1 in * . lra.
Qed.
Lemma eps_cube : eps <= 2 * (delta * delta * delta) /\ eps <= delta.
Proof.
  pose proof delta_D as L. pose proof eps_pos as EP.
  assert (H : 4 * eps * delta <= delta * delta * delta * delta) by (assert (4 * eps * delta <= 4 * eps * D) by (apply Rmult_le_compat_l; lra); lra).
  assert (H2 : 4 * eps <= delta * delta * delta) by (apply Rmult_le_reg_r with delta; lra).
  assert (P3 : 0 < delta * delta * delta) by (repeat apply Rmult_lt_0_compat; assumption). split; [lra|].
  destruct (Rle_lt_dec 1 delta) as [G|G].
  - assert (eps < 1). { unfold eps. rewrite <- Rinv_1. apply Rinv_lt_contravar; [|apply IZR_lt; reflexivity]. rewrite Rmult_1_l. apply IZR_lt. reflexivity. } lra.
  - assert (delta * delta <= 1 * 1) by (apply Rmult_le_compat; lra). assert (delta * delta * delta <= 1 * delta) by (apply Rmult_le_compat_r; lra). lra.
Qed.

Section Skew.
(** b = first point; a = support along -b; the normal of the edge a-b was too short; c = support along the replacement direction *)
Variables a b c : pt.
Hypothesis Vb : vert b.
Hypothesis Ha : norm (pneg b) <= K /\ a = s (pneg b).
Hypothesis Hc : c = s (perp (pneg b)).
Hypothesis Hq : norm (psub b a) * Rabs (pcross a b) < eps.
Let e := perp (pneg b).
Let q := pcross a b.
Lemma sk_b : delta <= norm b /\ b <> origin.
Proof. split; [apply vert_deep, Vb|]. intros E. pose proof (vert_deep b Vb) as H. rewrite E, norm_origin in H. lra. Qed.
Lemma sk_Va : vert a.
Proof.
  destruct sk_b as [_ N]. destruct Ha as [HK E]. assert (Nn : pneg b <> origin) by (intro Z; apply N; rewrite <- (pneg_pneg b), Z; apply pneg_origin).
  split; [exists (pneg b); split; [rewrite E; apply Hfar, HK | rewrite E, pdot_comm; apply deep_beyond; assumption] | exists (pneg b); auto].
Qed.
Lemma sk_e : e <> origin /\ norm e = norm b /\ norm e <= K /\ forall v, pdot e v = pcross v b.
Proof.
  destruct sk_b as [_ N]. destruct Ha as [HK _]. assert (Nn : pneg b <> origin) by (intro Z; apply N; rewrite <- (pneg_pneg b), Z; apply pneg_origin).
  split; [apply perp_ne, Nn|]. split; [unfold e; rewrite perp_norm; apply norm_neg|]. split; [unfold e; rewrite perp_norm; exact HK|].
  intro v. unfold e, perp, pdot, pcross, pneg; cbn. ring.
Qed.
Lemma sk_Vc : vert c.
Proof. destruct sk_e as (N & _ & HK & _). rewrite Hc. fold e. split; [exists e; split; [apply Hfar, HK | rewrite pdot_comm; apply deep_beyond; assumption] | exists e; auto]. Qed.
Lemma sk_ab : pdot a b <= - (delta * norm b).
Proof.
  destruct sk_b as [_ N]. destruct Ha as [HK E]. assert (Nn : pneg b <> origin) by (intro Z; apply N; rewrite <- (pneg_pneg b), Z; apply pneg_origin).
  pose proof (far_deep _ _ Nn (Hfar _ HK)) as H. rewrite norm_neg, <- E, pdot_neg_l, pdot_comm in H. lra.
Qed.
Lemma sk_len : 2 * delta <= norm (psub b a) /\ norm b <= norm (psub b a).
Proof.
  pose proof sk_ab as H. destruct sk_b as [L _]. pose proof (vert_deep a sk_Va) as La.
  assert (E : pdot (psub b a) (psub b a) = norm b * norm b - 2 * pdot a b + norm a * norm a) by (rewrite !norm_sq; unfold pdot, psub; cbn; ring).
  assert (P : delta * delta <= delta * norm b) by (apply Rmult_le_compat_l; lra).
  split.
  - apply norm_ge; [lra|]. rewrite E. assert (delta * delta <= norm b * norm b) by (apply Rmult_le_compat; lra). assert (delta * delta <= norm a * norm a) by (apply Rmult_le_compat; lra). lra.
  - apply norm_ge; [lra|]. rewrite E. assert (0 <= norm a * norm a) by (apply Rmult_le_pos; apply norm_nonneg). assert (0 <= delta * delta) by (apply Rmult_le_pos; lra). lra.
Qed.
Lemma sk_q : Rabs q * D <= delta * delta * delta / 8 /\ Rabs q <= delta * delta / 8.
Proof.
  destruct sk_len as [L _]. pose proof delta_D as LD. pose proof (Rabs_pos q) as Q0. fold q in Hq.
  assert (H : 2 * delta * Rabs q <= eps) by (assert (2 * delta * Rabs q <= norm (psub b a) * Rabs q) by (apply Rmult_le_compat_r; lra); lra).
  assert (H2 : 2 * delta * Rabs q * (4 * D) <= eps * (4 * D)) by (apply Rmult_le_compat_r; lra).
  assert (H3 : Rabs q * D <= delta * delta * delta / 8) by (apply Rmult_le_reg_r with (8 * delta); [lra|]; lra).
  split; [exact H3|]. assert (Rabs q * delta <= Rabs q * D) by (apply Rmult_le_compat_l; assumption). apply Rmult_le_reg_r with delta; [assumption | lra].
Qed.
Lemma sk_id v : pdot b b * pcross a v = - pdot a b * pcross v b + q * pdot v b.
Proof. unfold q, pdot, pcross. ring. Qed.
Lemma q_dot v : M v -> - (delta * delta * delta / 8 * norm b) <= q * pdot v b <= delta * delta * delta / 8 * norm b.
Proof.
  intro Mv. destruct sk_q as [Q _]. pose proof (cauchy_abs v b) as C. pose proof (HD v Mv) as L. pose proof (norm_nonneg b) as Nb.
  assert (A : Rabs (q * pdot v b) <= delta * delta * delta / 8 * norm b).
  { rewrite Rabs_mult. apply Rle_trans with (Rabs q * (D * norm b)).
    - apply Rmult_le_compat_l; [apply Rabs_pos|]. eapply Rle_trans; [exact C|]. apply Rmult_le_compat_r; assumption.
    - rewrite <- Rmult_assoc. apply Rmult_le_compat_r; assumption. }
  revert A. unfold Rabs. destruct (Rcase_abs _); lra.
Qed.
Lemma sk_cb : delta * norm b <= pcross c b.
Proof. destruct sk_e as (N & En & HK & Ev). rewrite <- Ev, <- En, Hc. apply far_deep; [exact N | apply Hfar, HK]. Qed.
Lemma sk_ac : 7 / 8 * (delta * delta) <= pcross a c.
Proof.
  pose proof (sk_id c) as I. pose proof sk_ab as A. pose proof sk_cb as C. pose proof (q_dot c (vert_M M s K c sk_Vc)) as [Q _]. destruct sk_b as [L N]. pose proof (dot_pos b N) as P.
  assert (0 < norm b) by lra. assert (P2 : 0 < delta * norm b) by (apply Rmult_lt_0_compat; assumption).
  assert (H1 : (delta * norm b) * (delta * norm b) <= - pdot a b * pcross c b) by (apply Rmult_le_compat; lra).
  assert (H2 : delta * delta * (delta * norm b) <= delta * delta * (norm b * norm b)) by (apply Rmult_le_compat_l; [apply Rmult_le_pos; lra | apply Rmult_le_compat_r; lra]).
  apply Rmult_le_reg_l with (pdot b b); [exact P|]. rewrite I, <- norm_sq. lra.
Qed.
Lemma sk_abc : abc_ c a b < 0.
Proof.
  rewrite abc_sum. fold q. destruct sk_q as [_ Q]. pose proof (Rle_abs q). pose proof sk_cb as C. pose proof sk_ac as A. rewrite (cross_anti b c), (cross_anti c a).
  destruct sk_b as [L _]. assert (delta * delta <= delta * norm b) by (apply Rmult_le_compat_l; lra). assert (0 < delta * delta) by (apply Rmult_lt_0_compat; assumption). lra.
Qed.
(** the next step captures *)
Lemma sk_capture : add_point (map inj [a; b]) (inj c) = Ok (map inj [c; a; b], (true, v2nan)).
Proof.
  cbn [map]. rewrite addp3. pose proof sk_abc as N. pose proof sk_cb as C. pose proof sk_ac as A.
  destruct sk_b as [L _]. assert (P : 0 < delta * norm b) by (apply Rmult_lt_0_compat; lra). assert (P2 : 0 < delta * delta) by (apply Rmult_lt_0_compat; assumption).
  replace (pdot (abp c a b) (pneg c)) with (- (abc_ c a b * pcross c a)) by (unfold abp, pdot, pcross, pneg, psub; cbn; ring).
  replace (pdot (acp c a b) (pneg c)) with (abc_ c a b * pcross c b) by (unfold acp, pdot, pcross, pneg, psub; cbn; ring).
  rewrite (cross_anti c a). assert (0 < - abc_ c a b * pcross a c) by (apply Rmult_lt_0_compat; lra). assert (0 < - abc_ c a b * pcross c b) by (apply Rmult_lt_0_compat; lra).
  rewrite (Rleb_false 0 (- (abc_ c a b * - pcross a c))) by lra. rewrite (Rleb_false 0 (abc_ c a b * pcross c b)) by lra. reflexivity.
Qed.
Lemma sk_tri : q <= 0 -> tri c a b.
Proof.
  intro Q. pose proof sk_abc as N. pose proof sk_cb as C. pose proof sk_ac as A.
  destruct sk_b as [L _]. assert (P : 0 < delta * norm b) by (apply Rmult_lt_0_compat; lra). assert (P2 : 0 < delta * delta) by (apply Rmult_lt_0_compat; assumption).
  split; [apply sk_Vc|]. split; [apply sk_Va|]. split; [exact Vb|]. split; [lra|]. split; [|split].
  - assert (0 <= - abc_ c a b * - pcross a b) by (apply Rmult_le_pos; fold q; lra). lra.
  - rewrite (cross_anti b c). assert (0 < - abc_ c a b * pcross c b) by (apply Rmult_lt_0_compat; lra). lra.
  - rewrite (cross_anti c a). assert (0 < - abc_ c a b * pcross a c) by (apply Rmult_lt_0_compat; lra). lra.
Qed.
Lemma sk_ccw : enforce_ccw (map inj [c; a; b]) = Ok (map inj [c; b; a]).
Proof.
  cbn [map enforce_ccw]. assert (E : cross (v2sub (inj a) (inj c)) (v2sub (inj b) (inj c)) = XFin (abc_ c a b)) by reflexivity. rewrite E.
  change (flt f0 (XFin (abc_ c a b))) with (Rltb 0 (abc_ c a b)). rewrite Rltb_false; [reflexivity|]. pose proof sk_abc. lra.
Qed.

(** *** EPA started from a triangle that misses the origin by a hair: the first step repairs it *)
Hypothesis Hpos : 0 < q.
Let n := nrm b a.
Let x := s n.
Lemma sk_n : n <> origin /\ norm n = norm (psub b a) /\ norm n <= K /\ forall v, pdot n v = pcross v a + pcross b v.
Proof.
  assert (NE : b <> a). { intros E. destruct sk_len as [L _]. rewrite E in L. replace (psub a a) with origin in L by (apply pt_eq; cbn; ring). rewrite norm_origin in L. lra. }
  split; [apply nrm_ne, NE|]. assert (E : norm n = norm (psub b a)) by (unfold n; rewrite nrm_norm; replace (psub a b) with (pneg (psub b a)) by (apply pt_eq; cbn; ring); apply norm_neg).
  split; [exact E|]. split.
  - rewrite E. eapply Rle_trans; [apply (diff_bound M rho HM); apply (vert_M M s K); [apply sk_Va | exact Vb] | exact K1].
  - intro v. unfold n, nrm, pdot, pcross, psub; cbn. ring.
Qed.
Lemma sk_Vx : vert x.
Proof. destruct sk_n as (N & _ & HK & _). split; [exists n; split; [apply Hfar, HK | unfold x; rewrite pdot_comm; apply deep_beyond; assumption] | exists n; auto]. Qed.
Lemma sk_x : 0 < pcross b x /\ 0 < pcross x a.
Proof.
  destruct sk_n as (N & En & HK & Ev). pose proof (far_deep n x N (Hfar n HK)) as F. rewrite Ev, En in F. destruct sk_len as [L1 L2]. destruct sk_b as [Lb Nb].
  pose proof (sk_id x) as I. pose proof sk_ab as A. pose proof (q_dot x (vert_M M s K x sk_Vx)) as [Q1 Q2]. pose proof (dot_pos b Nb) as P. rewrite <- norm_sq in I, P.
  set (B := norm b * norm b) in * . set (l := - pdot a b) in * . set (X := pcross x a) in * . set (Y := pcross b x) in * .
  rewrite (cross_anti a x), (cross_anti x b) in I. fold X Y in I. set (z := q * pdot x b) in * .
  assert (Lp : 0 < norm b) by lra. assert (P1 : 0 < delta * norm b) by (apply Rmult_lt_0_compat; lra). assert (P3 : 0 < delta * delta * delta) by (repeat apply Rmult_lt_0_compat; assumption).
  assert (P4 : 0 < delta * delta * delta * norm b) by (apply Rmult_lt_0_compat; assumption).
  assert (HN : 2 * (delta * delta) <= X + Y).
  { assert (delta * (2 * delta) <= delta * norm (psub b a)) by (apply Rmult_le_compat_l; lra). lra. }
  assert (HB : delta * norm b <= B) by (unfold B; apply Rmult_le_compat_r; lra).
  assert (Hl : delta * norm b <= l) by (unfold l; lra).
  assert (G1 : delta * norm b * (2 * (delta * delta)) <= B * (X + Y)) by (apply Rmult_le_compat; try lra; assert (0 < delta * delta) by (apply Rmult_lt_0_compat; assumption); lra).
  assert (G2 : delta * norm b * (2 * (delta * delta)) <= l * (X + Y)) by (apply Rmult_le_compat; try lra; assert (0 < delta * delta) by (apply Rmult_lt_0_compat; assumption); lra).
  assert (Pl : 0 < l) by lra.
  split.
  - apply Rmult_lt_reg_l with (B + l); [lra|]. rewrite Rmult_0_r. replace ((B + l) * Y) with (B * (X + Y) + z) by lra. lra.
  - apply Rmult_lt_reg_l with (B + l); [lra|]. rewrite Rmult_0_r. replace ((B + l) * X) with (l * (X + Y) - z) by lra. lra.
Qed.
Lemma sk_ne : c <> b /\ b <> a /\ a <> c.
Proof.
  pose proof sk_cb as C. pose proof sk_ac as A. destruct sk_b as [Lb _]. assert (0 < delta * norm b) by (apply Rmult_lt_0_compat; lra). assert (0 < delta * delta) by (apply Rmult_lt_0_compat; assumption).
  split; [|split]; intros E.
  - rewrite E, cross_self in C. lra.
  - pose proof Hpos as P. unfold q in P. rewrite E, cross_self in P. lra.
  - rewrite E, cross_self in A. lra.
Qed.
Lemma sk_closest : find_closest_edge (map inj [c; b; a]) = (1%nat, (inj b, inj a)).
Proof.
  destruct sk_ne as (N1 & N2 & N3).
  destruct (closest_spec c [b; a]) as (i & p & r & NE & EC & MIN); [cbn [path]; repeat constructor; cbn; assumption|].
  cbn [path] in NE, MIN. pose proof (Forall_inv MIN) as M1. pose proof (Forall_inv (Forall_inv_tail MIN)) as M2. pose proof (Forall_inv (Forall_inv_tail (Forall_inv_tail MIN))) as M3. cbn [fst snd] in M1, M2, M3.
  destruct sk_len as [L1 _]. destruct sk_q as [Q _]. rewrite (Rabs_right q) in Q by lra. pose proof delta_D as LD. destruct sk_b as [Lb Nb].
  pose proof (vert_M M s K a sk_Va) as Ma. pose proof (vert_M M s K b Vb) as Mb. pose proof (vert_M M s K c sk_Vc) as Mc.
  assert (P2 : 0 < delta * delta) by (apply Rmult_lt_0_compat; assumption).
  (* the distance of the short side *)
  assert (S1 : 256 * (D * D) * segd b a <= delta * delta * (delta * delta)).
  { assert (Pn : 0 < pdot (psub a b) (psub a b)) by (apply dot_pos, sub_ne, N2).
    set (w := pdot (psub a b) (psub a b)) in * . pose proof sk_ab as A. assert (Pb : 0 < delta * norm b) by (apply Rmult_lt_0_compat; lra).
    set (t := (pdot b b - pdot a b) / w). assert (Ew : w = pdot a a - 2 * pdot a b + pdot b b) by (unfold w, pdot, psub; cbn; ring).
    pose proof (pdot_nonneg a). pose proof (pdot_nonneg b).
    assert (Ht : 0 <= t <= 1).
    { unfold t. split; [apply Rmult_le_pos; [lra | apply Rlt_le, Rinv_0_lt_compat, Pn]|]. apply Rmult_le_reg_r with w; [exact Pn|]. unfold Rdiv. rewrite Rmult_assoc, Rinv_l by lra. lra. }
    pose proof (segd_min b a t N2 Ht) as SM.
    assert (EQ : pdot (padd b (pscale t (psub a b))) (padd b (pscale t (psub a b))) * w = q * q).
    { assert (Et : t * w = pdot b b - pdot a b) by (unfold t; field; lra).
      replace (pdot (padd b (pscale t (psub a b))) (padd b (pscale t (psub a b)))) with (pdot b b - 2 * t * (pdot b b - pdot a b) + t * (t * w)) by (unfold w, pdot, padd, pscale, psub; cbn; ring).
      rewrite Et. replace ((pdot b b - 2 * t * (pdot b b - pdot a b) + t * (pdot b b - pdot a b)) * w) with (pdot b b * w - (t * w) * (pdot b b - pdot a b)) by ring.
      rewrite Et, Ew. unfold q, pdot, pcross. ring. }
    assert (Lw : 4 * (delta * delta) <= w).
    { assert (E2 : w = norm (psub b a) * norm (psub b a)) by (rewrite norm_sq; unfold w, pdot, psub; cbn; ring). rewrite E2.
      assert (2 * delta * (2 * delta) <= norm (psub b a) * norm (psub b a)) by (apply Rmult_le_compat; lra). lra. }
    assert (S0 : segd b a * w <= q * q) by (rewrite <- EQ; apply Rmult_le_compat_r; lra).
    assert (Sn : 0 <= segd b a) by (unfold segd; apply pdot_nonneg).
    assert (S2 : segd b a * (4 * (delta * delta)) <= q * q) by (eapply Rle_trans; [apply Rmult_le_compat_l; [exact Sn | exact Lw] | exact S0]).
    assert (Q2 : (q * D) * (q * D) <= (delta * delta * delta / 8) * (delta * delta * delta / 8)) by (apply Rmult_le_compat; try exact Q; apply Rmult_le_pos; lra).
    apply Rmult_le_reg_r with (delta * delta); [exact P2|].
    assert (S3 : segd b a * (4 * (delta * delta)) * (D * D) <= q * q * (D * D)) by (apply Rmult_le_compat_r; [apply Rmult_le_pos; lra | exact S2]). lra. }
  assert (LOW : forall u v k, M u -> M v -> 0 <= k -> k <= pcross u v -> k * k <= 4 * (D * D) * segd u v).
  { intros u v k Mu Mv Kp Ku. pose proof (segd_line u v) as SL. rewrite nrm_sq in SL.
    assert (k * k <= pcross u v * pcross u v) by (apply Rmult_le_compat; lra).
    assert (Ln : norm (psub v u) <= 2 * D) by (pose proof (norm_psub v u); pose proof (HD u Mu); pose proof (HD v Mv); lra).
    pose proof (norm_nonneg (psub v u)). assert (pdot (psub v u) (psub v u) <= 2 * D * (2 * D)) by (rewrite <- norm_sq; apply Rmult_le_compat; lra).
    assert (0 <= segd u v) by (unfold segd; apply pdot_nonneg).
    assert (pdot (psub v u) (psub v u) * segd u v <= 2 * D * (2 * D) * segd u v) by (apply Rmult_le_compat_r; assumption). lra. }
  assert (P4 : 0 < delta * delta * (delta * delta)) by (apply Rmult_lt_0_compat; assumption).
  assert (LA : segd b a < segd c b).
  { pose proof (LOW c b (delta * delta) Mc Mb ltac:(lra)) as H. specialize (H ltac:(pose proof sk_cb; assert (delta * delta <= delta * norm b) by (apply Rmult_le_compat_l; lra); lra)).
    apply Rmult_lt_reg_l with (256 * (D * D)); [assert (0 < D * D) by (apply Rmult_lt_0_compat; lra); lra|]. lra. }
  assert (LB : segd b a < segd a c).
  { pose proof (LOW a c (7 / 8 * (delta * delta)) Ma Mc ltac:(lra) sk_ac) as H.
    apply Rmult_lt_reg_l with (256 * (D * D)); [assert (0 < D * D) by (apply Rmult_lt_0_compat; lra); lra|]. lra. }
  rewrite EC. destruct i as [|[|[|i]]]; cbn in NE; [| | |destruct i; discriminate]; injection NE as -> ->; [exfalso; lra | reflexivity | exfalso; lra].
Qed.
Lemma sk_epa_step k : epa_run sup (S k) (map inj [c; b; a]) = epa_run sup k (map inj [c; b; x; a]).
Proof.
  cbn [epa_run]. rewrite sk_closest. rewrite nrm_inj. fold n. destruct sk_n as (N & En & HK & Ev). rewrite (Hsup n HK). fold x.
  rewrite !v2dot_inj. assert (E1 : pdot b n = - q) by (rewrite pdot_comm, Ev, cross_self; rewrite (cross_anti b a); unfold q; ring).
  rewrite E1. pose proof (deep_beyond n HK N) as F. fold x in F.
  assert (SB : sufficiently_better (XFin (pdot x n)) (XFin (- q)) fcent = true).
  { unfold sufficiently_better. cbn. rewrite (Rltb_false 0 (- q)) by lra. apply Rltb_true. lra. }
  rewrite SB. reflexivity.
Qed.
Lemma quad_cover p1 p2 p3 p4 : 0 < pcross p1 p2 -> 0 < pcross p2 p3 -> 0 < pcross p3 p4 -> 0 < pcross p4 p1 -> cover [(p1, p2); (p2, p3); (p3, p4); (p4, p1)].
Proof.
  clear. intros A B C E u.
  assert (H : forall p r, In (p, r) [(p1, p2); (p2, p3); (p3, p4); (p4, p1)] -> 0 < pcross p r -> 0 <= pcross p u -> pcross r u <= 0 ->
     exists e, In e [(p1, p2); (p2, p3); (p3, p4); (p4, p1)] /\ sector e u).
  { intros p r I P X Y. exists (p, r). split; [exact I|]. left. cbn [fst snd]. apply cone_cross; try assumption. rewrite cross_anti. lra. }
  destruct (Rle_lt_dec 0 (pcross p1 u)) as [S1|S1]; destruct (Rle_lt_dec (pcross p2 u) 0) as [S2|S2].
  - apply (H p1 p2); cbn; auto.
  - destruct (Rle_lt_dec (pcross p3 u) 0) as [S3|S3]; [apply (H p2 p3); cbn; auto; lra|].
    destruct (Rle_lt_dec (pcross p4 u) 0) as [S4|S4]; [apply (H p3 p4); cbn; auto; lra|].
    destruct (Rle_lt_dec (pcross p1 u) 0) as [S0|S0]; [apply (H p4 p1); cbn; auto; lra|]. exfalso.
    pose proof (cross3 p1 p2 p3 u) as D1. pose proof (cross3 p3 p4 p1 u) as D2.
    assert (0 < pcross p2 p3 * pcross p1 u) by (apply Rmult_lt_0_compat; assumption). assert (0 < pcross p1 p2 * pcross p3 u) by (apply Rmult_lt_0_compat; assumption).
    assert (0 < pcross p4 p1 * pcross p3 u) by (apply Rmult_lt_0_compat; assumption). assert (0 < pcross p3 p4 * pcross p1 u) by (apply Rmult_lt_0_compat; assumption).
    rewrite (cross_anti p1 p3) in D2. destruct (Rle_lt_dec 0 (pcross p3 p1)) as [G|G].
    + assert (0 <= pcross p3 p1 * pcross p2 u) by (apply Rmult_le_pos; lra). lra.
    + assert (0 <= - pcross p3 p1 * pcross p4 u) by (apply Rmult_le_pos; lra). lra.
  - destruct (Rle_lt_dec 0 (pcross p4 u)) as [S4|S4]; [apply (H p4 p1); cbn; auto; lra|].
    destruct (Rle_lt_dec 0 (pcross p3 u)) as [S3|S3]; [apply (H p3 p4); cbn; auto; lra|].
    destruct (Rle_lt_dec 0 (pcross p2 u)) as [S0|S0]; [apply (H p2 p3); cbn; auto; lra|]. exfalso.
    pose proof (cross3 p1 p2 p3 u) as D1. pose proof (cross3 p3 p4 p1 u) as D2.
    assert (0 < pcross p2 p3 * - pcross p1 u) by (apply Rmult_lt_0_compat; lra). assert (0 < pcross p1 p2 * - pcross p3 u) by (apply Rmult_lt_0_compat; lra).
    assert (0 < pcross p4 p1 * - pcross p3 u) by (apply Rmult_lt_0_compat; lra). assert (0 < pcross p3 p4 * - pcross p1 u) by (apply Rmult_lt_0_compat; lra).
    rewrite (cross_anti p1 p3) in D2. destruct (Rle_lt_dec 0 (pcross p3 p1)) as [G|G].
    + assert (0 <= pcross p3 p1 * - pcross p2 u) by (apply Rmult_le_pos; lra). lra.
    + assert (0 <= - pcross p3 p1 * - pcross p4 u) by (apply Rmult_le_pos; lra). lra.
  - destruct (Rle_lt_dec (pcross p3 u) 0) as [S3|S3]; [apply (H p2 p3); cbn; auto; lra|].
    destruct (Rle_lt_dec (pcross p4 u) 0) as [S4|S4]; [apply (H p3 p4); cbn; auto; lra|].
    apply (H p4 p1); cbn; auto; lra.
Qed.
Lemma sk_poly : Poly M s K (path c [b; x; a] c).
Proof.
  destruct sk_x as [X1 X2]. pose proof sk_cb as C. pose proof sk_ac as A. destruct sk_b as [Lb _].
  assert (0 < delta * norm b) by (apply Rmult_lt_0_compat; lra). assert (0 < delta * delta) by (apply Rmult_lt_0_compat; assumption).
  cbn [path]. split; [|apply quad_cover; lra].
  repeat apply Forall_cons; try apply Forall_nil; cbn [fst snd]; (split; [|split; [|left; cbn [fst snd]; lra]]); first [apply sk_Vc | exact Vb | apply sk_Vx | apply sk_Va].
Qed.
End Skew.

(** *** What a run that replaces short directions captures *)
Definition grip (l : list (vec2 XR)) : Prop :=
  exists p l' k, (l' = [] -> False) /\ Poly M s K (path p l' p) /\ (k <= 1)%nat /\
  (forall V, (forall d, norm d <= K -> In (s d) V) -> (mu V (path p l' p) + k + 1 <= length V)%nat) /\
  exists pts, enforce_ccw l = Ok pts /\ forall j, epa_run sup (k + j) pts = epa_run sup j (map inj (p :: l')).
Lemma tri_grip x y z : tri x y z -> grip (map inj [x; y; z]).
Proof.
  intro T. destruct (tri_ccw M s K x y z T) as (p & q & r & E & C). exists p, [q; r], 0%nat. split; [discriminate|]. split; [apply ccw_poly, C|]. split; [lia|]. split.
  - intros V HV. assert (I : In p V) by (destruct C as ([_ (e & He & ->)] & _); apply HV, He). pose proof (mu_triangle M s K V p q r C I). lia.
  - exists (map inj [p; q; r]). split; [exact E|]. reflexivity.
Qed.
Lemma mu_quad V p1 p2 p3 p4 : 0 < pcross p1 p2 -> 0 < pcross p2 p3 -> 0 < pcross p3 p4 -> 0 < pcross p4 p1 -> In p1 V -> In p2 V ->
  (mu V [(p1, p2); (p2, p3); (p3, p4); (p4, p1)] + 2 <= length V)%nat.
Proof.
  clear. intros A B C E I1 I2. unfold mu. cbn [fold_right].
  assert (X : forall v x y z, beyondb (x, y) v = true -> beyondb (y, z) v = true -> False).
  { intros v x y z H1 H2. apply beyondb_spec in H1. apply beyondb_spec in H2. destruct H1 as (_ & H1 & _). destruct H2 as (H2 & _). rewrite cross_anti in H2. lra. }
  assert (Y : forall v q1 q2 q3 q4, 0 < pcross q1 q2 -> 0 < pcross q2 q3 -> 0 < pcross q3 q4 -> 0 < pcross q4 q1 -> beyondb (q1, q2) v = true -> beyondb (q3, q4) v = true -> False).
  { clear. intros v q1 q2 q3 q4 A B C E H1 H2. apply beyondb_spec in H1. apply beyondb_spec in H2. destruct H1 as (H1 & H3 & _). destruct H2 as (H2 & H4 & _).
    pose proof (cross3 q1 q2 q3 v) as D1. pose proof (cross3 q3 q4 q1 v) as D2. rewrite (cross_anti q1 q3) in D2. rewrite (cross_anti q2 v) in D1. rewrite (cross_anti q4 v) in D2.
    assert (0 < pcross q2 q3 * pcross q1 v) by (apply Rmult_lt_0_compat; assumption). assert (0 < pcross q1 q2 * pcross q3 v) by (apply Rmult_lt_0_compat; assumption).
    assert (0 < pcross q4 q1 * pcross q3 v) by (apply Rmult_lt_0_compat; assumption). assert (0 < pcross q3 q4 * pcross q1 v) by (apply Rmult_lt_0_compat; assumption).
    destruct (Rle_lt_dec 0 (pcross q3 q1)) as [G|G].
    + assert (0 <= pcross q3 q1 * pcross v q4) by (apply Rmult_le_pos; lra). lra.
    + assert (0 <= - pcross q3 q1 * pcross v q2) by (apply Rmult_le_pos; lra). lra. }
  assert (Z : forall v x y, v = x \/ v = y \/ pcross x v < 0 \/ pcross v y < 0 -> beyondb (x, y) v = false).
  { intros v x y H. destruct (beyondb (x, y) v) eqn:Q; [|reflexivity]. exfalso. apply beyondb_spec in Q. destruct Q as (Q1 & Q2 & _).
    destruct H as [->|[->|[H|H]]]; rewrite ?cross_self in *; lra. }
  set (f := beyondb (p1, p2)) in *; set (g := beyondb (p2, p3)) in *; set (h := beyondb (p3, p4)) in *; set (k := beyondb (p4, p1)) in * .
  assert (G : forall l, (length (filter f l) + (length (filter g l) + (length (filter h l) + (length (filter k l) + 0))) <= length (filter (fun v => f v || g v || h v || k v) l))%nat).
  { induction l as [|v l IH]; cbn; [lia|].
    pose proof (X v p1 p2 p3) as X1. pose proof (X v p2 p3 p4) as X2. pose proof (X v p3 p4 p1) as X3. pose proof (X v p4 p1 p2) as X4.
    pose proof (Y v p1 p2 p3 p4 A B C E) as Y1. pose proof (Y v p2 p3 p4 p1 B C E A) as Y2. fold f g h k in X1, X2, X3, X4, Y1, Y2.
    destruct (f v), (g v), (h v), (k v); cbn; try (exfalso; auto; fail); lia. }
  specialize (G V).
  assert (NE : p1 <> p2) by (intros ->; rewrite cross_self in A; lra).
  pose proof (filter_outside (fun v => f v || g v || h v || k v) V [p1; p2]) as S. cbn [length] in S.
  assert (S2 : (length (filter (fun v : pt => f v || g v || h v || k v) V) + 2 <= length V)%nat); [|lia].
  apply S.
  - repeat constructor; cbn; [intros [H|[]]; auto | auto].
  - rewrite (cross_anti p1 p2) in A. rewrite (cross_anti p2 p3) in B. rewrite (cross_anti p4 p1) in E.
    intros v [<-|[<-|[]]]; (split; [assumption|]); unfold f, g, h, k; rewrite !Z; try reflexivity; auto; right; right; (left; lra) || (right; lra).
Qed.
Lemma mu_quad_path V p1 p2 p3 p4 : 0 < pcross p1 p2 -> 0 < pcross p2 p3 -> 0 < pcross p3 p4 -> 0 < pcross p4 p1 -> In p1 V -> In p2 V ->
  (mu V (path p1 [p2; p3; p4] p1) + 2 <= length V)%nat.
Proof. exact (mu_quad V p1 p2 p3 p4). Qed.
Lemma skew_grip a b c : vert b -> norm (pneg b) <= K /\ a = s (pneg b) -> c = s (perp (pneg b)) -> norm (psub b a) * Rabs (pcross a b) < eps ->
  add_point (map inj [a; b]) (inj c) = Ok (map inj [c; a; b], (true, v2nan)) /\ grip (map inj [c; a; b]).
Proof.
  intros Vb Ha Hc Hq. split; [apply sk_capture; assumption|].
  destruct (Rle_lt_dec (pcross a b) 0) as [Q|Q]; [apply tri_grip, sk_tri; assumption|].
  set (x := s (nrm b a)). exists c, [b; x; a], 1%nat. split; [discriminate|]. split; [apply sk_poly; assumption|]. split; [lia|]. split.
  - intros V HV. pose proof (sk_Vc a b c Vb Ha Hc) as Vc. destruct (sk_x a b Vb Ha Hq) as [X1 X2].
    pose proof (sk_cb a b c Vb Ha Hc) as C. pose proof (sk_ac a b c Vb Ha Hc Hq) as A. destruct (sk_b b Vb) as [Lb _].
    assert (0 < delta * norm b) by (apply Rmult_lt_0_compat; lra). assert (0 < delta * delta) by (apply Rmult_lt_0_compat; assumption).
    assert (IV : forall v, vert v -> In v V) by (intros v [_ (e & He & ->)]; apply HV, He).
    pose proof (mu_quad_path V c b x a ltac:(lra) X1 X2 ltac:(lra) (IV c Vc) (IV b Vb)). lia.
  - exists (map inj [c; b; a]). split; [apply sk_ccw; assumption|]. intro j. apply sk_epa_step; assumption.
Qed.

Lemma tf_wedge n : forall b c d T, Inv [b; c] d -> Wedge b c d T -> small_wedge T n -> exists l, run_tf sup n (map inj [b; c]) (inj d) = Captured l /\ grip l.
Proof.
  induction n as [|n IH]; intros b c d T I W L; pose proof I as (FS & Hd & Nd & _).
  - exfalso. apply (small_wedge_0 b c d T I W L).
  - cbn [run_tf]. rewrite (fle_beyond M s sup K Hsup Hfar no_behind d Hd Nd), (Hsup d Hd).
    destruct (deep_step b c d T I W) as [(x & m & E & I' & W')|[-> T3]]; [|eexists; split; [reflexivity | apply tri_grip, T3]].
    rewrite E, (three_long b c d x m I E I' (proj1 eps_cube)). apply (IH _ _ _ (T / 4) I' W'), small_wedge_S, L.
Qed.
Lemma tf_opened n a x d : Inv [a; x] d -> Opened a x d -> small_wedge (4 * (D * D)) n -> exists l, run_tf sup (S n) (map inj [a; x]) (inj d) = Captured l /\ grip l.
Proof.
  intros I O L. pose proof I as (FS & Hd & Nd & _). cbn [run_tf]. rewrite (fle_beyond M s sup K Hsup Hfar no_behind d Hd Nd), (Hsup d Hd).
  destruct (second_step a x d I O) as [(w & m & E & I' & W')|[-> T3]]; [|eexists; split; [reflexivity | apply tri_grip, T3]].
  rewrite E, (three_long a x d w m I E I' (proj1 eps_cube)). apply (tf_wedge n _ _ _ _ I' W' L).
Qed.
(** either the shapes are not too flat, or the difference has few extreme points *)
Definition enough : Prop := D <= 32768 * delta \/ exists V, (length V <= 20)%nat /\ (forall d, norm d <= K -> In (s d) V) /\ (forall v, In v V -> M v).
Section Few.
Variable V : list pt.
Hypothesis HV : forall d, norm d <= K -> In (s d) V.
Hypothesis HVM : forall v, In v V -> M v.
Lemma tf_few n : forall b c d, Inv [b; c] d -> clean M b c -> clean M c b -> (left V d b <= n)%nat -> exists l, run_tf sup n (map inj [b; c]) (inj d) = Captured l /\ grip l.
Proof.
  induction n as [|n IH]; intros b c d I Cb Cc L; pose proof I as (FS & Hd & Nd & (E & Z & _)).
  - exfalso. pose proof (deep_beyond d Hd Nd) as F. rewrite pdot_comm in F. pose proof (left_pos s K V HV b d Hd ltac:(lra)). lia.
  - cbn [run_tf]. rewrite (fle_beyond M s sup K Hsup Hfar no_behind d Hd Nd), (Hsup d Hd).
    destruct (good_step M s K rho Hfar HM K3 no_behind V HV HVM b c d I Cb Cc) as [(x & m & EA & I' & C1 & C2 & L' & _)|[-> T3]]; [|eexists; split; [reflexivity | apply tri_grip, T3]].
    rewrite EA, (three_long b c d x m I EA I' (proj1 eps_cube)). apply IH; try assumption. lia.
Qed.
Lemma tf_few_first n b c d : Inv [b; c] d -> (length V <= n + 3)%nat -> exists l, run_tf sup (S n) (map inj [b; c]) (inj d) = Captured l /\ grip l.
Proof.
  intros I L. pose proof I as (FS & Hd & Nd & _). cbn [run_tf]. rewrite (fle_beyond M s sup K Hsup Hfar no_behind d Hd Nd), (Hsup d Hd).
  destruct (first_step M s K rho Hfar HM K3 no_behind V HV b c d I) as [(x & m & EA & I' & C1 & C2 & L' & _)|[-> T3]]; [|eexists; split; [reflexivity | apply tri_grip, T3]].
  rewrite EA, (three_long b c d x m I EA I' (proj1 eps_cube)). apply tf_few; try assumption. lia.
Qed.
End Few.
Lemma tf_edge n b c d : Inv [b; c] d -> enough -> (17 <= n)%nat -> exists l, run_tf sup (S n) (map inj [b; c]) (inj d) = Captured l /\ grip l.
Proof.
  intros I H Hn. destruct H as [L|(V & L & HV & HVM)]; [|apply (tf_few_first V HV HVM n); [exact I | lia]].
  destruct n as [|n]; [lia|]. pose proof (ratio_small n L ltac:(lia)) as SW.
  pose proof I as (FS & Hd & Nd & _).
  change (run_tf sup (S (S n)) (map inj [b; c]) (inj d)) with
   (if fle (v2dot (sup (inj d)) (inj d)) f0 then Separated (map inj [b; c]) (inj d)
      else match add_point (map inj [b; c]) (sup (inj d)) with
           | Panic p => Crashed p
           | Ok (s', (collides, new_dir)) =>
               let new_dir := if direction_is_too_small new_dir then v2perp (inj d) else new_dir in
               if collides then Captured s' else run_tf sup (S n) s' new_dir
           end).
  rewrite (fle_beyond M s sup K Hsup Hfar no_behind d Hd Nd), (Hsup d Hd). cbv zeta.
  destruct (open_step b c d I) as [(x & m & E & I' & O')|[-> T3]]; [|eexists; split; [reflexivity | apply tri_grip, T3]].
  rewrite E, (three_long b c d x m I E I' (proj1 eps_cube)). exact (tf_opened n _ _ _ I' O' SW).
Qed.
Lemma tf_single n b : Inv [b] (pneg b) -> enough -> (17 <= n)%nat -> exists l, run_tf sup (S (S n)) (map inj [b]) (inj (pneg b)) = Captured l /\ grip l.
Proof.
  intros I H Hn. pose proof I as (FS & Hd & Nd & _). set (d := pneg b) in * .
  change (run_tf sup (S (S n)) (map inj [b]) (inj d)) with
   (if fle (v2dot (sup (inj d)) (inj d)) f0 then Separated (map inj [b]) (inj d)
      else match add_point (map inj [b]) (sup (inj d)) with
           | Panic p => Crashed p
           | Ok (s', (collides, new_dir)) =>
               let new_dir := if direction_is_too_small new_dir then v2perp (inj d) else new_dir in
               if collides then Captured s' else run_tf sup (S n) s' new_dir
           end).
  rewrite (fle_beyond M s sup K Hsup Hfar no_behind d Hd Nd), (Hsup d Hd). cbv zeta.
  destruct (two M s K rho Hfar HM K1 K3 b d I (deep_beyond d Hd Nd)) as (m & EA & C & _). rewrite EA.
  destruct (direction_is_too_small (inj m)) eqn:SM.
  - rewrite perp_inj. destruct C as [(Nm & I2)|(_ & I2)]; [|exact (tf_edge n _ _ _ I2 H Hn)].
    (* a short but non-zero normal: the next point captures at once *)
    pose proof (Forall_inv FS) as Vb.
    assert (Q : norm (psub b (s d)) * Rabs (pcross (s d) b) < eps).
    { rewrite <- norm_raba. apply norm_lt_sq; [apply Rlt_le, eps_pos|]. rewrite small_inj in SM. cbn [map] in EA. rewrite addp2 in EA.
      assert (Em : inj (raba (psub b (s d)) (pneg (s d))) = inj m).
      { pose proof (deep_beyond d Hd Nd) as F. rewrite pdot_comm in F. destruct (step2 (s d) b F) as (D2 & _). rewrite Rleb_true in EA by exact D2. congruence. }
      apply inj_inj in Em. rewrite Em. destruct (Rltb_spec (pdot m m) (eps * eps)) as [Y|]; [exact Y | discriminate]. }
    destruct (skew_grip (s d) b (s (perp d)) Vb (conj Hd eq_refl) eq_refl Q) as [EC G].
    cbn [run_tf]. assert (Hp : norm (perp d) <= K) by (rewrite perp_norm; exact Hd). assert (Np : perp d <> origin) by (apply perp_ne, Nd).
    change (- snd d, fst d) with (perp d).
    rewrite (fle_beyond M s sup K Hsup Hfar no_behind (perp d) Hp Np), (Hsup (perp d) Hp), EC. eauto.
  - destruct C as [(_ & I2)|(-> & _)]; [|exfalso; apply (small_ne _ SM eq_refl)]. exact (tf_edge n _ _ _ I2 H Hn).
Qed.

Lemma deep_start d0 : norm d0 <= K -> d0 <> origin -> Inv [s d0] (pneg (s d0)) /\ direction_is_too_small (inj (pneg (s d0))) = false.
Proof.
  intros Hd Nd. assert (F := deep_beyond d0 Hd Nd). assert (Fd : 0 < pdot d0 (s d0)) by (rewrite pdot_comm; exact F).
  assert (Vb : vert (s d0)) by (split; [exists d0; split; [apply Hfar, Hd | exact Fd] | exists d0; auto]).
  assert (SM : direction_is_too_small (inj (pneg (s d0))) = false).
  { rewrite small_inj. apply Rltb_false. pose proof (vert_deep _ Vb) as L. destruct eps_cube as [_ E]. pose proof eps_pos. rewrite <- norm_sq, norm_neg. apply Rmult_le_compat; lra. }
  split; [|exact SM]. split; [auto|]. split; [apply (neg_bound M K rho HM K1), (vert_M M s K _ Vb)|]. split; [apply small_ne, SM | reflexivity].
Qed.
Lemma deep_tf d0 : norm d0 <= K -> d0 <> origin -> enough -> exists l, run_tf sup 20 [] (inj d0) = Captured l /\ grip l.
Proof.
  intros Hd Nd H.
  change (run_tf sup 20 [] (inj d0)) with
   (if fle (v2dot (sup (inj d0)) (inj d0)) f0 then Separated [] (inj d0)
      else match add_point [] (sup (inj d0)) with
           | Panic p => Crashed p
           | Ok (s', (collides, new_dir)) =>
               let new_dir := if direction_is_too_small new_dir then v2perp (inj d0) else new_dir in
               if collides then Captured s' else run_tf sup 19 s' new_dir
           end).
  rewrite (fle_beyond M s sup K Hsup Hfar no_behind d0 Hd Nd), (Hsup d0 Hd), addp1. cbv zeta.
  destruct (deep_start d0 Hd Nd) as [I SM]. rewrite SM. exact (tf_single 17 (s d0) I H (le_n 17)).
Qed.
(** while no direction separates, the distance variants take the same steps *)
Lemma ft_tf n : forall S d la, Forall M S -> (length S <= 2)%nat -> norm d <= K -> d <> origin -> run_ft sup n (map inj S) la (inj d) = run_tf sup n (map inj S) (inj d).
Proof.
  induction n as [|n IH]; intros S d la FS L Hd Nd; cbn [run_ft run_tf]; [reflexivity|].
  rewrite (fle_beyond M s sup K Hsup Hfar no_behind d Hd Nd), (Hsup d Hd). cbn [andb]. pose proof (proj1 (Hfar d Hd)) as A.
  destruct (add_any M K rho HM K1 K3 S (s d) FS A L) as [(S1 & d1 & E1 & F1 & L1 & N1)|(b & c & -> & E1)]; rewrite E1; [|reflexivity].
  destruct (direction_is_too_small (inj d1)) eqn:SM.
  - rewrite perp_inj. apply (IH S1 (perp d)); [exact F1 | lia | rewrite perp_norm; exact Hd | apply perp_ne, Nd].
  - apply IH; [exact F1 | lia | exact N1 | apply small_ne, SM].
Qed.
Lemma tt_tf n : forall S d la, Forall M S -> (length S <= 2)%nat -> norm d <= K -> d <> origin -> run_tt sup n (map inj S) la (inj d) true = run_tf sup n (map inj S) (inj d).
Proof.
  induction n as [|n IH]; intros S d la FS L Hd Nd; cbn [run_tt run_tf]; [reflexivity|].
  rewrite (fle_beyond M s sup K Hsup Hfar no_behind d Hd Nd), (Hsup d Hd). cbn [andb]. pose proof (proj1 (Hfar d Hd)) as A.
  destruct (add_any M K rho HM K1 K3 S (s d) FS A L) as [(S1 & d1 & E1 & F1 & L1 & N1)|(b & c & -> & E1)]; rewrite E1; cbn [andb negb]; [|reflexivity].
  destruct (direction_is_too_small (inj d1)) eqn:SM.
  - rewrite perp_inj. apply (IH S1 (perp d)); [exact F1 | lia | rewrite perp_norm; exact Hd | apply perp_ne, Nd].
  - apply IH; [exact F1 | lia | exact N1 | apply small_ne, SM].
Qed.
Lemma deep_ft d0 : norm d0 <= K -> d0 <> origin -> enough -> exists l, start_ft sup (inj d0) = Captured l /\ grip l.
Proof.
  intros Hd Nd H. unfold start_ft. rewrite (Hsup d0 Hd), addp1. destruct (deep_start d0 Hd Nd) as [I _]. change ([inj (s d0)]) with (map inj [s d0]).
  pose proof I as (FS & Hd1 & Nd1 & _). rewrite (ft_tf 20); [exact (tf_single 18 (s d0) I H ltac:(lia)) | | cbn; lia | exact Hd1 | exact Nd1].
  constructor; [apply Hfar, Hd | constructor].
Qed.
Lemma deep_tt d0 : norm d0 <= K -> d0 <> origin -> enough -> exists l, start_tt sup (inj d0) = Captured l /\ grip l.
Proof.
  intros Hd Nd H. unfold start_tt. rewrite (Hsup d0 Hd), addp1. destruct (deep_start d0 Hd Nd) as [I _]. change ([inj (s d0)]) with (map inj [s d0]).
  pose proof I as (FS & Hd1 & Nd1 & _). rewrite (tt_tf 20); [exact (tf_single 18 (s d0) I H ltac:(lia)) | | cbn; lia | exact Hd1 | exact Nd1].
  constructor; [apply Hfar, Hd | constructor].
Qed.
Hypothesis HC : convex M.
Lemma grip_epa l : grip l -> exists pts, enforce_ccw l = Ok pts /\
  (epa sup 20 pts = v2zero \/ exists v, epa sup 20 pts = inj v /\ good_vector M v) /\
  forall V, (length V <= 20)%nat -> (forall d, norm d <= K -> In (s d) V) -> exists v, epa sup 20 pts = inj v /\ good_vector M v.
Proof.
  intros (p & l' & k & _ & P & Hk & HMu & pts & EC & ES). exists pts. split; [exact EC|].
  assert (HO : M origin) by (apply Hball; rewrite norm_origin; lra).
  assert (E20 : epa_run sup 20 pts = epa_run sup (20 - k) (map inj (p :: l'))) by (rewrite <- ES; f_equal; lia).
  unfold epa. rewrite E20. split.
  - destruct (epa_run sup (20 - k) (map inj (p :: l'))) as [u|] eqn:R; [right | left; reflexivity].
    exact (epa_good M s sup K rho Hsup Hfar HM K1 HC HO (20 - k) p l' u P R).
  - intros V L HV. pose proof (HMu V HV) as Mu.
    destruct (epa_converges M s sup K rho Hsup Hfar HM K1 HC HO V HV (19 - k) p l' P ltac:(lia)) as (v & Ev & G).
    exists v. split; [|exact G]. replace (20 - k)%nat with (S (19 - k)) by lia. rewrite Ev. reflexivity.
Qed.
Lemma grip_length l : grip l -> length l = 3%nat.
Proof.
  intros (p & l' & k & _ & _ & _ & _ & pts & EC & _).
  destruct l as [|u [|v [|w [|x l]]]]; cbn in EC; try discriminate EC; reflexivity.
Qed.
End Deep.
