(** * GJK in exact arithmetic: the variants that go on searching after separation is known (proofs).

    The simplex may then have both points on the same side of the foot of the origin. Two-point states [b; c] (b newest)
    searched along n fall in three classes: TI (the search came from beyond c), TII (overshoot) and W (only right after the
    first edge). *)
From Coq Require Import Reals Lra Psatz Bool List Lia Arith.
From Verif Require Import Num NumXR Glam Transform2 Shapes2 Gjk Spec SpecLink P_Base P_Transform P_Shapes P_Geo P_GjkShape SpecGjk P_Gjk P_Gjk2 P_Gjk3.
Import ListNotations.
Local Open Scope R_scope.

Lemma abp_dot a b c p : pdot (abp a b c) p = - (abc_ a b c * pcross (psub b a) p).
Proof. unfold abp, pdot, pcross. cbn [fst snd]. ring. Qed.
Lemma acp_dot a b c p : pdot (acp a b c) p = abc_ a b c * pcross (psub c a) p.
Proof. unfold acp, pdot, pcross. cbn [fst snd]. ring. Qed.
Lemma lagrange l e p : pcross l e * pdot p l - pdot e l * pcross l p = pdot l l * pcross p e.
Proof. unfold pcross, pdot. ring. Qed.
Lemma ne_of_dot n a b : pdot n b < pdot n a -> a <> b.
Proof. intros H ->. lra. Qed.
Lemma ne_sub a b : a <> b -> 0 < pdot (psub a b) (psub a b).
Proof. intro N. apply dot_pos. intro E. apply N. apply pt_eq; [apply (f_equal fst) in E | apply (f_equal snd) in E]; cbn in E; lra. Qed.

Definition base (n b c : pt) : Prop := n <> origin /\ b <> c /\ pdot n b = pdot n c /\ pdot n b <= 0.
Definition TI (M : pset) (n b c : pt) : Prop :=
  0 <= pdot c (psub c b) /\
  exists e, is_farthest M e b /\ pdot e (psub c b) < 0 /\ pdot e (psub c b) * pdot n c <= pdot e n * pdot c (psub c b).
Definition TII (M : pset) (n b c : pt) : Prop :=
  exists sg g e, sg * sg = 1 /\ g <> origin /\ e <> origin /\ is_farthest M g b /\ is_farthest M e c /\
    0 < X sg g c /\ Y g c <= 0 /\ X sg g c <= X sg g b /\ Y g c < Y g b /\ X sg g e <= 0 /\ 0 <= Y g e.
Definition Wst (M : pset) (n b c : pt) : Prop := n = pneg b /\ pdot b b < pdot b c /\ is_farthest M (pneg c) b.

(** ** Generic transitions *)
(** keeping b: sign of the triangle's orientation against the height of b *)
Lemma to_TI (M : pset) n a x m : is_farthest M n a -> pdot n x < pdot n a -> 0 <= pdot x (psub x a) ->
  0 <= pdot n m * pdot x (psub x a) - pdot n (psub x a) * pdot m x -> TI M m a x.
Proof.
  intros F L P Q. split; [exact P|]. exists n. split; [exact F|]. rewrite !pdot_sub_r in * . split; [lra|]. lra.
Qed.
Lemma AB_I M n a b c : is_farthest M n a -> pdot n b < pdot n a -> 0 <= pdot b (psub b a) ->
  0 <= abc_ a b c * pcross n b -> TI M (abp a b c) a b.
Proof.
  intros F L P Q. apply (to_TI M n a b _ F L P).
  rewrite (pdot_comm n (abp a b c)), !abp_dot.
  pose proof (lagrange (psub b a) n b) as G. pose proof (pdot_nonneg (psub b a)) as N0.
  replace (pcross b n) with (- pcross n b) in G by (unfold pcross; ring).
  replace (- (abc_ a b c * pcross (psub b a) n) * pdot b (psub b a) - pdot n (psub b a) * - (abc_ a b c * pcross (psub b a) b))
    with (- abc_ a b c * (pcross (psub b a) n * pdot b (psub b a) - pdot n (psub b a) * pcross (psub b a) b)) by ring.
  rewrite G. replace (- abc_ a b c * (pdot (psub b a) (psub b a) * - pcross n b)) with (pdot (psub b a) (psub b a) * (abc_ a b c * pcross n b)) by ring.
  apply Rmult_le_pos; assumption.
Qed.
Lemma AC_I M n a b c : is_farthest M n a -> pdot n c < pdot n a -> 0 <= pdot c (psub c a) ->
  0 <= - (abc_ a b c * pcross n c) -> TI M (acp a b c) a c.
Proof.
  intros F L P Q. apply (to_TI M n a c _ F L P).
  rewrite (pdot_comm n (acp a b c)), !acp_dot.
  pose proof (lagrange (psub c a) n c) as G. pose proof (pdot_nonneg (psub c a)) as N0.
  replace (pcross c n) with (- pcross n c) in G by (unfold pcross; ring).
  replace (abc_ a b c * pcross (psub c a) n * pdot c (psub c a) - pdot n (psub c a) * (abc_ a b c * pcross (psub c a) c))
    with (abc_ a b c * (pcross (psub c a) n * pdot c (psub c a) - pdot n (psub c a) * pcross (psub c a) c)) by ring.
  rewrite G. replace (abc_ a b c * (pdot (psub c a) (psub c a) * - pcross n c)) with (pdot (psub c a) (psub c a) * - (abc_ a b c * pcross n c)) by ring.
  apply Rmult_le_pos; assumption.
Qed.
(** keeping x, dropping y (n.x = n.y), when x lies past the foot of the origin *)
Lemma to_TII M n a x y e m : n <> origin -> pdot n x = pdot n y -> pdot n x <= 0 -> pdot n x < pdot n a -> is_farthest M n a ->
  pdot x (psub x y) < 0 -> 0 <= pdot (psub a x) (psub y x) -> is_farthest M e x -> e <> origin ->
  pdot e (psub y x) <= 0 -> 0 <= pdot e n -> TII M m a x.
Proof.
  intros N E Z L F B Ov Fe Ne D1 D2. pose proof (dot_pos n N) as P.
  assert (Kne : pcross n y - pcross n x <> 0).
  { intro K. assert (Exy : x = y) by (apply (XY_eq 1 n); try assumption; unfold X, Y; lra).
    subst y. rewrite pdot_sub_r in B. lra. }
  destruct (sign_of _ Kne) as (sg & S & Ks).
  exists sg, n, e. pose proof (frame_dot sg n x (psub x y) S) as F1. pose proof (frame_dot sg n (psub a x) (psub y x) S) as F2.
  pose proof (frame_dot sg n e (psub y x) S) as F3. rewrite !X_sub, !Y_sub in * .
  assert (Kx : 0 < X sg n y - X sg n x) by (unfold X; lra).
  assert (EY : Y n y = Y n x) by (symmetry; exact E). rewrite EY in F1, F2, F3.
  change (Y n x) with (pdot n x) in *; change (Y n a) with (pdot n a) in * .
  assert (B1 : 0 < X sg n x) by nra. assert (O1 : 0 <= X sg n a - X sg n x) by nra. assert (E1 : X sg n e <= 0) by nra.
  repeat split; try assumption; try lra; try apply F; try apply Fe. unfold Y. rewrite pdot_comm. exact D2.
Qed.

(** ** Real-number facts *)
Lemma ti_key xa xb xc xe ye H D : 0 < xc - xb -> 0 <= H -> 0 < D -> 0 <= xc -> xe < 0 -> - xe * H <= ye * xc ->
  ye * D <= - xe * (xa - xb) -> H * D <= xc * (xa - xb).
Proof.
  intros. assert (A1 : - xe * H * D <= ye * xc * D) by (apply Rmult_le_compat_r; lra).
  assert (A2 : ye * D * xc <= - xe * (xa - xb) * xc) by (apply Rmult_le_compat_r; lra).
  apply Rmult_le_reg_l with (- xe); [lra|]. lra.
Qed.
Lemma ti_1 xa xb xc H D : 0 < xc - xb -> 0 <= H -> 0 < D -> 0 <= xc -> H * D <= xc * (xa - xb) ->
  0 <= (D - H) * xb + xa * H -> xa * (xa - xb) + (D - H) * D < 0 -> (D - H) * xc + xa * H <= 0.
Proof.
  intros U H0 D0 C0 K P Q. assert (HD : 0 <= H * D) by nra.
  destruct (Req_dec xc 0) as [Z|Z].
  - assert (H = 0) by (rewrite Z in K; nra). subst. lra.
  - assert (Cp : 0 < xc) by lra. assert (Xab : 0 <= xa - xb) by (apply Rmult_le_reg_l with xc; lra).
    destruct (Rle_dec 0 xa) as [A|A].
    + apply Rmult_le_reg_l with D; [exact D0|]. rewrite Rmult_0_r.
      assert (xa * (H * D) <= xa * (xc * (xa - xb))) by (apply Rmult_le_compat_l; assumption).
      assert (xc * (xa * (xa - xb) + (D - H) * D) <= xc * 0) by (apply Rmult_le_compat_l; lra). lra.
    + assert (xb < 0) by lra. assert (xa * H <= 0) by nra. assert (D - H <= 0) by nra. nra.
Qed.
Lemma ti_2 xa xb xc H D : 0 < xc - xb -> 0 <= H -> 0 < D -> 0 <= xc -> H * D <= xc * (xa - xb) ->
  0 <= (D - H) * xb + xa * H -> xb <= 0 -> 0 <= xb * (xb - xa) + H * D.
Proof.
  intros U H0 D0 C0 K P B. assert (HD : 0 <= H * D) by nra.
  destruct (Req_dec xc 0) as [Z|Z].
  - exfalso. assert (H = 0) by (rewrite Z in K; nra). subst. assert (xb < 0) by lra. nra.
  - assert (Cp : 0 < xc) by lra. assert (Xab : 0 <= xa - xb) by (apply Rmult_le_reg_l with xc; lra). nra.
Qed.
Lemma ti_4 xa xc H D : 0 <= H -> 0 < D -> 0 <= xc -> (D - H) * xc + xa * H <= 0 -> 0 <= xc * (xc - xa) + H * D.
Proof.
  intros H0 D0 C0 P. destruct (Rle_dec xa xc) as [A|A]; [nra|]. assert (xc < xa) by lra.
  destruct (Req_dec H 0) as [Z|Z]; [subst; assert (xc = 0) by nra; subst; lra|].
  exfalso. assert (H * xc < H * xa) by (apply Rmult_lt_compat_l; lra). nra.
Qed.

(** in coordinates around c: b = c + (u, w), a = c + (x, y), n = (xn, yn), e = (xe, ye), c = (p, -q) *)
Lemma tii_facts p q u w x y xn yn xe ye : 0 < p -> 0 <= q -> 0 <= u -> 0 < w -> xe <= 0 -> 0 <= ye -> (xe <> 0 \/ ye <> 0) ->
  xn * u + yn * w = 0 -> (xn <> 0 \/ yn <> 0) -> xn * p - yn * q <= 0 -> 0 < xn * x + yn * y -> y <= w ->
  xe * x + ye * y <= 0 -> xe * u + ye * w <= 0 ->
  xn < 0 /\ 0 <= yn /\ 0 < y /\ 0 <= x /\ w * x < u * y /\ 0 <= u - x.
Proof.
  intros Hp Hq Hu Hw Hxe Hye Ne E0 Nn Z L Yw E1 E2.
  assert (Xn0 : xn <> 0). { intro Q. subst xn. assert (yn = 0) by nra. tauto. }
  assert (Xn : xn < 0).
  { apply Rnot_le_lt. intro Q. assert (Qp : 0 < xn) by lra. assert (yn <= 0) by nra. assert (0 < xn * p) by nra. nra. }
  assert (Yn : 0 <= yn) by nra.
  assert (L2 : w * x < u * y).
  { assert (Q : 0 < w * (xn * x + yn * y)) by (apply Rmult_lt_0_compat; lra).
    replace (w * (xn * x + yn * y)) with (xn * (w * x) + (yn * w) * y) in Q by ring.
    replace (yn * w) with (- (xn * u)) in Q by lra. nra. }
  assert (Xe : xe < 0).
  { destruct (Req_dec xe 0) as [Q|Q]; [|lra]. subst xe. assert (ye = 0) by nra. tauto. }
  assert (Yp : 0 < y).
  { apply Rnot_le_lt. intro Q.
    assert (A1 : xe * (u * y) < xe * (w * x)) by nra.
    assert (A2 : 0 <= (xe * u + ye * w) * y) by nra.
    assert (A3 : w * (xe * x + ye * y) <= 0) by nra. nra. }
  assert (Xp : 0 <= x) by nra.
  repeat split; try assumption. assert (u * y <= u * w) by nra. nra.
Qed.
Lemma tii_2 p q u w x y : 0 < p -> 0 <= q -> 0 <= u -> 0 < w -> y <= w -> w * x < u * y -> 0 <= u - x ->
  0 <= (p + u) * u + (w - q) * w -> 0 <= (p + u) * (u - x) + (w - q) * (w - y).
Proof.
  intros Hp Hq Hu Hw Yw L X0 H. destruct (Rle_dec q w) as [Q|Q].
  - assert (0 <= (p + u) * (u - x)) by (apply Rmult_le_pos; lra). assert (0 <= (w - q) * (w - y)) by (apply Rmult_le_pos; lra). lra.
  - apply Rmult_le_reg_l with w; [exact Hw|]. rewrite Rmult_0_r.
    assert (A1 : 0 <= ((p + u) * u + (w - q) * w) * (w - y)) by (apply Rmult_le_pos; lra).
    assert (A2 : 0 <= (p + u) * (u * y - w * x)) by (apply Rmult_le_pos; lra). lra.
Qed.
Lemma tii_4 p q u w x y : 0 < p -> 0 <= q -> 0 < w -> 0 < y -> w * x < u * y -> 0 <= - p * u + q * w -> 0 <= - p * x + q * y.
Proof.
  intros Hp Hq Hw Hy L H. apply Rmult_le_reg_l with w; [exact Hw|]. rewrite Rmult_0_r.
  assert (A1 : 0 <= (- p * u + q * w) * y) by (apply Rmult_le_pos; lra). assert (A2 : 0 <= p * (u * y - w * x)) by (apply Rmult_le_pos; lra). lra.
Qed.

(** ** One step from a TI or TII state; a is the farthest point along n *)
Section Step.
Variables (M : pset) (n a b c : pt).
Hypothesis Bs : base n b c.
Hypothesis Fa : is_farthest M n a.
Hypothesis La : pdot n b < pdot n a.
Hypothesis HMb : M b.
Hypothesis HMc : M c.

Lemma key_b : abc_ a b c * pcross n b = (pdot n a - pdot n b) * pdot b (psub b c).
Proof.
  destruct Bs as (N & _ & E & _). pose proof (dot_pos n N) as P.
  pose proof (fr_abc 1 n a b c ltac:(lra) E) as F. pose proof (frame_dot 1 n b (psub b c) ltac:(lra)) as G.
  rewrite (X_sub 1 n), (Y_sub n) in G. unfold X, Y in * .
  apply Rmult_eq_reg_l with (pdot n n); [|lra].
  transitivity ((pdot n n * abc_ a b c) * pcross n b); [ring|]. rewrite F.
  transitivity ((pdot n a - pdot n b) * (pdot n n * pdot b (psub b c))); [|ring]. rewrite G, E. ring.
Qed.
Lemma key_c : - (abc_ a b c * pcross n c) = (pdot n a - pdot n b) * pdot c (psub c b).
Proof.
  destruct Bs as (N & _ & E & _). pose proof (dot_pos n N) as P.
  pose proof (fr_abc 1 n a b c ltac:(lra) E) as F. pose proof (frame_dot 1 n c (psub c b) ltac:(lra)) as G.
  rewrite (X_sub 1 n), (Y_sub n) in G. unfold X, Y in * .
  apply Rmult_eq_reg_l with (pdot n n); [|lra].
  transitivity (- (pdot n n * abc_ a b c) * pcross n c); [ring|]. rewrite F.
  transitivity ((pdot n a - pdot n b) * (pdot n n * pdot c (psub c b))); [|ring]. rewrite G, E. ring.
Qed.
Lemma abc_ne : abc_ a b c <> 0.
Proof.
  destruct Bs as (N & NE & E & _). pose proof (fr_abc 1 n a b c ltac:(lra) E) as F. intro Z. rewrite Z in F. unfold X, Y in F.
  assert (K : pcross n b = pcross n c) by nra. apply NE. apply (XY_eq 1 n); try assumption; unfold X, Y; lra.
Qed.
Lemma nab : a <> b. Proof. apply (ne_of_dot n), La. Qed.
Lemma nac : a <> c. Proof. destruct Bs as (_ & _ & E & _). apply (ne_of_dot n). lra. Qed.
(** the base facts of both possible successors *)
Lemma base_ab : 0 <= pdot (abp a b c) (pneg a) -> base (abp a b c) a b /\ pdot (abp a b c) c < pdot (abp a b c) a.
Proof.
  intro H. pose proof (abp_drop a b c) as D. pose proof (sq_pos _ abc_ne) as Q. rewrite pdot_sub_r in D.
  assert (S1 : pdot (abp a b c) c < pdot (abp a b c) a) by lra. split; [|exact S1].
  split; [apply (ne_origin_of_dot _ _ _ S1)|]. split; [apply nab|]. pose proof (abp_perp a b c) as R. rewrite pdot_sub_r in R.
  rewrite pdot_neg_r in H. split; lra.
Qed.
Lemma base_ac : 0 <= pdot (acp a b c) (pneg a) -> base (acp a b c) a c /\ pdot (acp a b c) b < pdot (acp a b c) a.
Proof.
  intro H. pose proof (acp_drop a b c) as D. pose proof (sq_pos _ abc_ne) as Q. rewrite pdot_sub_r in D.
  assert (S1 : pdot (acp a b c) b < pdot (acp a b c) a) by lra. split; [|exact S1].
  split; [apply (ne_origin_of_dot _ _ _ S1)|]. split; [apply nac|]. pose proof (acp_perp a b c) as R. rewrite pdot_sub_r in R.
  rewrite pdot_neg_r in H. split; lra.
Qed.
Lemma go_AB_I : 0 <= pdot b (psub b a) -> 0 <= pdot b (psub b c) -> TI M (abp a b c) a b.
Proof. intros P Q. apply (AB_I M n a b c Fa La P). rewrite key_b. apply Rmult_le_pos; lra. Qed.
Lemma go_AC_I : 0 <= pdot c (psub c a) -> 0 <= pdot c (psub c b) -> TI M (acp a b c) a c.
Proof.
  intros P Q. destruct Bs as (_ & _ & E & _). apply (AC_I M n a b c Fa ltac:(lra) P). rewrite key_c. apply Rmult_le_pos; lra.
Qed.

Lemma go_AB_II e m : pdot b (psub b c) < 0 -> 0 <= pdot (psub a b) (psub c b) -> is_farthest M e b -> e <> origin ->
  pdot e (psub c b) <= 0 -> 0 <= pdot e n -> TII M m a b.
Proof. intros. destruct Bs as (N & _ & E & Z). apply (to_TII M n a b c e); assumption. Qed.
Lemma go_AC_II e m : pdot c (psub c b) < 0 -> 0 <= pdot (psub a c) (psub b c) -> is_farthest M e c -> e <> origin ->
  pdot e (psub b c) <= 0 -> 0 <= pdot e n -> TII M m a c.
Proof. intros. destruct Bs as (N & _ & E & Z). apply (to_TII M n a c b e); try assumption; lra. Qed.

(** *** TI *)
Lemma step_TI : TI M n b c ->
  (0 <= pdot (abp a b c) (pneg a) -> 0 <= pdot (psub b a) (pneg a) -> TI M (abp a b c) a b \/ TII M (abp a b c) a b) /\
  (0 <= pdot (abp a b c) (pneg a) -> pdot (psub b a) (pneg a) < 0 -> 0 <= pdot (acp a b c) (pneg a)) /\
  (0 <= pdot (acp a b c) (pneg a) -> TI M (acp a b c) a c).
Proof.
  intros (Hc & e & Fe & He & Hn). pose proof go_AB_I as GAB. pose proof go_AC_I as GAC. pose proof (go_AB_II e (abp a b c)) as GAB2.
  pose proof Bs as (N & NE & E & Z). pose proof (dot_pos n N) as P.
  assert (Kne : pcross n c - pcross n b <> 0).
  { intro K. apply NE. apply (XY_eq 1 n); try assumption; unfold X, Y; lra. }
  destruct (sign_of _ Kne) as (sg & S & Ks).
  pose proof (fr_ab sg n a b c S E) as Fab. pose proof (fr_ac sg n a b c S E) as Fac.
  pose proof (frame_dot sg n c (psub c b) S) as F1. pose proof (frame_dot sg n e (psub c b) S) as F2.
  pose proof (frame_dot sg n e a S) as F3. pose proof (frame_dot sg n e b S) as F4.
  pose proof (frame_dot sg n (psub b a) (pneg a) S) as F5. pose proof (frame_dot sg n b (psub b c) S) as F6.
  pose proof (frame_dot sg n b (psub b a) S) as F7. pose proof (frame_dot sg n c (psub c a) S) as F8.
  pose proof (proj2 Fe a (proj1 Fa)) as Fea.
  assert (XN : X sg n (pneg a) = - X sg n a) by (unfold X, pcross, pneg; cbn; ring).
  assert (YN : Y n (pneg a) = - Y n a) by (unfold Y; apply pdot_neg_r).
  rewrite XN, YN in F5. rewrite !(X_sub sg n), !(Y_sub n) in * .
  assert (EY : Y n c = Y n b) by (symmetry; exact E). rewrite EY in F1, F2, F6, F8.
  assert (Kx : 0 < X sg n c - X sg n b) by (unfold X; lra).
  rewrite (pdot_comm e n) in Hn. change (pdot n e) with (Y n e) in Hn. change (pdot n c) with (Y n c) in Hn. rewrite EY in Hn.
  change (pdot n b) with (Y n b) in * . change (pdot n a) with (Y n a) in * . clear E.
  set (NN := pdot n n) in * .
  set (xa := X sg n a) in *; set (xb := X sg n b) in *; set (xc := X sg n c) in *; set (xe := X sg n e) in *; set (ye := Y n e) in * .
  set (H := - Y n b) in * . set (D := Y n a - Y n b) in * .
  assert (Ya : Y n a = D - H) by (unfold D, H; ring). assert (Yb : Y n b = - H) by (unfold H; ring).
  rewrite Ya, Yb in * . assert (H0 : 0 <= H) by lra. assert (D0 : 0 < D) by lra.
  assert (C0 : 0 <= xc). { apply Rnot_lt_le. intro L. assert (xc * (xc - xb) < 0) by nra. nra. }
  assert (E0 : xe < 0). { apply Rnot_le_lt. intro L. assert (0 <= xe * (xc - xb)) by nra. nra. }
  assert (T1 : - xe * H <= ye * xc).
  { assert (Q : NN * (pdot e (psub c b) * - H) <= NN * (ye * pdot c (psub c b))) by (apply Rmult_le_compat_l; lra).
    replace (NN * (pdot e (psub c b) * - H)) with ((NN * pdot e (psub c b)) * - H) in Q by ring.
    replace (NN * (ye * pdot c (psub c b))) with (ye * (NN * pdot c (psub c b))) in Q by ring.
    rewrite F1, F2 in Q. apply Rmult_le_reg_r with (xc - xb); [exact Kx|]. lra. }
  assert (T2 : ye * D <= - xe * (xa - xb)).
  { assert (Q : NN * pdot e a <= NN * pdot e b) by (apply Rmult_le_compat_l; lra). rewrite F3, F4 in Q. lra. }
  pose proof (ti_key xa xb xc xe ye H D Kx H0 D0 C0 E0 T1 T2) as Key.
  assert (NN2 : 0 < NN * NN) by nra. assert (DK : 0 < D * (xc - xb)) by nra.
  assert (ABP : 0 <= pdot (abp a b c) (pneg a) -> 0 <= (D - H) * xb + xa * H).
  { intro Q. assert (Q2 : 0 <= NN * NN * pdot (abp a b c) (pneg a)) by (apply Rmult_le_pos; lra). rewrite Fab in Q2.
    replace (D - H - - H) with D in Q2 by ring. apply Rmult_le_reg_l with (D * (xc - xb)); [exact DK|]. lra. }
  assert (ACP : 0 <= pdot (acp a b c) (pneg a) -> (D - H) * xc + xa * H <= 0).
  { intro Q. assert (Q2 : 0 <= NN * NN * pdot (acp a b c) (pneg a)) by (apply Rmult_le_pos; lra). rewrite Fac in Q2.
    replace (D - H - - H) with D in Q2 by ring. apply Rmult_le_reg_l with (D * (xc - xb)); [exact DK|]. lra. }
  split; [|split].
  - intros Q1 Q2. destruct (Rle_dec 0 (pdot b (psub b c))) as [B|B].
    + left. apply GAB; [|exact B]. apply Rmult_le_reg_l with NN; [exact P|]. rewrite F7, Rmult_0_r.
      assert (B2 : 0 <= NN * pdot b (psub b c)) by (apply Rmult_le_pos; lra). rewrite F6 in B2.
      assert (Bx : xb <= 0) by nra. pose proof (ti_2 xa xb xc H D Kx H0 D0 C0 Key (ABP Q1) Bx). lra.
    + right. apply Rnot_le_lt in B. assert (B2 : NN * pdot b (psub b c) < 0) by nra. rewrite F6 in B2.
      assert (Bx : 0 < xb) by nra. assert (Cp : 0 < xc) by lra. assert (HD : 0 <= H * D) by nra.
      assert (Xab : 0 <= xa - xb) by (apply Rmult_le_reg_l with xc; lra).
      apply GAB2; try assumption.
      * apply Rmult_le_reg_l with NN; [exact P|]. rewrite Rmult_0_r. unfold NN. rewrite (frame_dot sg n _ _ S), !(X_sub sg n), !(Y_sub n), EY, Ya, Yb.
        fold xa xb xc. assert (0 <= (xa - xb) * (xc - xb)) by (apply Rmult_le_pos; lra). lra.
      * intro Ee. subst e. unfold pdot, origin in He; cbn in He. lra.
      * lra.
      * rewrite pdot_comm. change (0 <= ye). assert (0 <= - xe * H) by nra. nra.
  - intros Q1 Q2. assert (Q3 : NN * pdot (psub b a) (pneg a) < 0) by nra. rewrite F5 in Q3.
    pose proof (ti_1 xa xb xc H D Kx H0 D0 C0 Key (ABP Q1) ltac:(lra)) as R.
    apply Rmult_le_reg_l with (NN * NN); [exact NN2|]. rewrite Fac, Rmult_0_r. replace (D - H - - H) with D by ring.
    assert (0 <= (D * (xc - xb)) * - ((D - H) * xc + xa * H)) by (apply Rmult_le_pos; lra). lra.
  - intro Q. apply GAC; [|exact Hc]. apply Rmult_le_reg_l with NN; [exact P|]. rewrite F8, Rmult_0_r.
    pose proof (ti_4 xa xc H D H0 D0 C0 (ACP Q)). lra.
Qed.

(** *** TII: never captures *)
Lemma step_TII : TII M n b c ->
  0 < pdot (acp a b c) (pneg a) /\
  (TI M (abp a b c) a b \/ TII M (abp a b c) a b) /\ (TI M (acp a b c) a c \/ TII M (acp a b c) a c).
Proof.
  intros (sg & g & e & S & Ng & Ne & Fg & Fe & C1 & C2 & C3 & C4 & E1 & E2).
  pose proof go_AB_I as GAB. pose proof go_AC_I as GAC. pose proof (go_AB_II g (abp a b c)) as GAB2. pose proof (go_AC_II e (acp a b c)) as GAC2.
  pose proof Bs as (N & NE & E & Z). pose proof La as La'. pose proof (dot_pos g Ng) as P.
  pose proof (proj2 Fg a (proj1 Fa)) as Yab. pose proof (proj2 Fe a (proj1 Fa)) as Ea. pose proof (proj2 Fe b HMb) as Eb.
  pose proof (frame_dot sg g n b S) as F1. pose proof (frame_dot sg g n c S) as F2. pose proof (frame_dot sg g n a S) as F3.
  pose proof (frame_dot sg g e a S) as F4. pose proof (frame_dot sg g e b S) as F5. pose proof (frame_dot sg g e c S) as F6.
  pose proof (frame_dot sg g e n S) as F7.
  set (GG := pdot g g) in * .
  assert (Nn : X sg g n <> 0 \/ Y g n <> 0).
  { destruct (Req_dec (X sg g n) 0) as [Q|Q]; [right | left; exact Q]. intro Q2. apply N. apply (XY_eq sg g); try assumption.
    - rewrite Q. unfold X, pcross, origin; cbn; ring.
    - rewrite Q2. unfold Y, pdot, origin; cbn; ring. }
  assert (Nne : X sg g e <> 0 \/ Y g e <> 0).
  { destruct (Req_dec (X sg g e) 0) as [Q|Q]; [right | left; exact Q]. intro Q2. apply Ne. apply (XY_eq sg g); try assumption.
    - rewrite Q. unfold X, pcross, origin; cbn; ring.
    - rewrite Q2. unfold Y, pdot, origin; cbn; ring. }
  change (Y g a <= Y g b) in Yab.
  destruct (tii_facts (X sg g c) (- Y g c) (X sg g b - X sg g c) (Y g b - Y g c) (X sg g a - X sg g c) (Y g a - Y g c)
    (X sg g n) (Y g n) (X sg g e) (Y g e)) as (Xn & Yn & Yp & Xp & L2 & Xu); try assumption; try lra.
  { assert (Q : GG * pdot n b = GG * pdot n c) by (rewrite E; reflexivity). rewrite F1, F2 in Q. lra. }
  { assert (Q : GG * pdot n c <= 0) by nra. rewrite F2 in Q. lra. }
  { assert (Q : GG * pdot n c < GG * pdot n a) by (apply Rmult_lt_compat_l; lra). rewrite F2, F3 in Q. lra. }
  { assert (Q : GG * pdot e a <= GG * pdot e c) by (apply Rmult_le_compat_l; lra). rewrite F4, F6 in Q. lra. }
  { assert (Q : GG * pdot e b <= GG * pdot e c) by (apply Rmult_le_compat_l; lra). rewrite F5, F6 in Q. lra. }
  assert (Dots : forall p q, GG * pdot p q = X sg g p * X sg g q + Y g p * Y g q) by (intros; apply frame_dot, S).
  assert (XS : forall p q, X sg g (psub p q) = X sg g p - X sg g q) by (intros; apply X_sub).
  assert (YS : forall p q, Y g (psub p q) = Y g p - Y g q) by (intros; apply Y_sub).
  set (xa := X sg g a) in *; set (xb := X sg g b) in *; set (xc := X sg g c) in *; set (ya := Y g a) in *; set (yb := Y g b) in *; set (yc := Y g c) in * .
  split; [|split].
  - replace (pdot (acp a b c) (pneg a)) with (abc_ a b c * pcross a c) by (unfold acp, pdot, pcross, pneg, psub; cbn; ring).
    assert (K1 : GG * abc_ a b c = sg * ((xb - xc) * (ya - yc) - (yb - yc) * (xa - xc))).
    { unfold abc_, GG. rewrite (frame_cross sg g _ _ S), !XS, !YS. fold xa xb xc ya yb yc. ring. }
    assert (K2 : GG * pcross a c = sg * ((ya - yc) * xc + (xa - xc) * - yc)).
    { unfold GG. rewrite (frame_cross sg g _ _ S). fold xa xc ya yc. ring. }
    assert (K3 : (GG * GG) * (abc_ a b c * pcross a c) = ((xb - xc) * (ya - yc) - (yb - yc) * (xa - xc)) * ((ya - yc) * xc + (xa - xc) * - yc)).
    { transitivity ((GG * abc_ a b c) * (GG * pcross a c)); [ring|]. rewrite K1, K2.
      transitivity ((sg * sg) * (((xb - xc) * (ya - yc) - (yb - yc) * (xa - xc)) * ((ya - yc) * xc + (xa - xc) * - yc))); [ring|]. rewrite S. ring. }
    apply Rmult_lt_reg_l with (GG * GG); [nra|]. rewrite K3, Rmult_0_r.
    assert (0 < (ya - yc) * xc) by (apply Rmult_lt_0_compat; lra). assert (0 <= (xa - xc) * - yc) by (apply Rmult_le_pos; lra).
    apply Rmult_lt_0_compat; lra.
  - destruct (Rle_dec 0 (pdot b (psub b c))) as [B|B].
    + left. apply GAB; [|exact B]. apply Rmult_le_reg_l with GG; [exact P|]. rewrite Rmult_0_r, Dots, XS, YS. fold xa xb ya yb.
      assert (Q : 0 <= GG * pdot b (psub b c)) by (apply Rmult_le_pos; lra). rewrite Dots, XS, YS in Q. fold xc xb yc yb in Q.
      pose proof (tii_2 xc (- yc) (xb - xc) (yb - yc) (xa - xc) (ya - yc)) as T. lra.
    + right. apply Rnot_le_lt in B. apply GAB2; try assumption.
      * apply Rmult_le_reg_l with GG; [exact P|]. rewrite Rmult_0_r, Dots, !XS, !YS. fold xa xb ya yb xc yc.
        assert (0 <= (xb - xa) * (xb - xc)) by (apply Rmult_le_pos; lra). assert (0 <= (yb - ya) * (yb - yc)) by (apply Rmult_le_pos; lra). lra.
      * change (Y g (psub c b) <= 0). rewrite YS. fold yc yb. lra.
  - destruct (Rle_dec 0 (pdot c (psub c b))) as [B|B].
    + left. apply GAC; [|exact B]. apply Rmult_le_reg_l with GG; [exact P|]. rewrite Rmult_0_r, Dots, XS, YS. fold xa xc ya yc.
      assert (Q : 0 <= GG * pdot c (psub c b)) by (apply Rmult_le_pos; lra). rewrite Dots, XS, YS in Q. fold xc xb yc yb in Q.
      pose proof (tii_4 xc (- yc) (xb - xc) (yb - yc) (xa - xc) (ya - yc)) as T. lra.
    + right. apply Rnot_le_lt in B. apply GAC2; try assumption.
      * apply Rmult_le_reg_l with GG; [exact P|]. rewrite Rmult_0_r, Dots, !XS, !YS. fold xa xb ya yb xc yc.
        assert (0 <= (xa - xc) * (xb - xc)) by (apply Rmult_le_pos; lra). assert (0 <= (ya - yc) * (yb - yc)) by (apply Rmult_le_pos; lra). lra.
      * rewrite pdot_sub_r. lra.
      * apply Rmult_le_reg_l with GG; [exact P|]. rewrite Rmult_0_r, F7.
        assert (0 <= X sg g e * X sg g n) by nra. assert (0 <= Y g e * Y g n) by nra. lra.
Qed.

(** *** A captured triangle contains the origin *)
Lemma step_cap : pdot (abp a b c) (pneg a) < 0 -> pdot (acp a b c) (pneg a) < 0 ->
  0 < pdot n a /\ 0 <= abc_ a b c * pcross b c /\ 0 < abc_ a b c * pcross c a /\ 0 < abc_ a b c * pcross a b /\
  (abc_ a b c * pcross b c = 0 -> pdot n b = 0).
Proof.
  intros H1 H2. pose proof Bs as (N & NE & E & Z). pose proof La as L. pose proof (dot_pos n N) as P.
  assert (Kne : pcross n c - pcross n b <> 0).
  { intro K. apply NE. apply (XY_eq 1 n); try assumption; unfold X, Y; lra. }
  destruct (sign_of _ Kne) as (sg & S & Ks).
  pose proof (fr_abc sg n a b c S E) as Fabc. pose proof (fr_ab sg n a b c S E) as Fab. pose proof (fr_ac sg n a b c S E) as Fac.
  pose proof (frame_cross sg n b c S) as Cbc. pose proof (frame_cross sg n c a S) as Cca. pose proof (frame_cross sg n a b S) as Cab.
  assert (EY : Y n c = Y n b) by (symmetry; exact E). rewrite EY in Cbc, Cca. clear E.
  change (pdot n b) with (Y n b) in * . change (pdot n a) with (Y n a) in * .
  assert (Kx : 0 < X sg n c - X sg n b) by (unfold X; lra).
  set (xa := X sg n a) in *; set (xb := X sg n b) in *; set (xc := X sg n c) in * .
  set (ya := Y n a) in *; set (yb := Y n b) in *; set (NN := pdot n n) in * .
  assert (W : 0 < ya - yb) by lra. assert (Q : 0 < (ya - yb) * (xc - xb)) by nra. assert (NN2 : 0 < NN * NN) by nra.
  assert (P1 : NN * NN * pdot (abp a b c) (pneg a) < 0) by nra.
  assert (P2 : NN * NN * pdot (acp a b c) (pneg a) < 0) by nra.
  rewrite Fab in P1. rewrite Fac in P2.
  assert (L1 : ya * xb - xa * yb < 0) by nra. assert (L2 : 0 < ya * xc - xa * yb) by nra.
  assert (R : forall u v, NN * u = - sg * v -> NN * NN * (abc_ a b c * u) = ((ya - yb) * (xc - xb)) * v).
  { intros u v Hu. transitivity ((NN * abc_ a b c) * (NN * u)); [ring|]. rewrite Hu, Fabc.
    transitivity ((sg * sg) * (((ya - yb) * (xc - xb)) * v)); [ring | rewrite S; ring]. }
  assert (R1 := R (pcross b c) (- yb * (xc - xb)) ltac:(rewrite Cbc; ring)).
  assert (R2 := R (pcross c a) (ya * xc - xa * yb) ltac:(rewrite Cca; ring)).
  assert (R3 := R (pcross a b) (xa * yb - ya * xb) ltac:(rewrite Cab; ring)).
  repeat split.
  - nra.
  - apply Rmult_le_reg_l with (NN * NN); [exact NN2|]. rewrite Rmult_0_r, R1. apply Rmult_le_pos; nra.
  - apply Rmult_lt_reg_l with (NN * NN); [exact NN2|]. rewrite Rmult_0_r, R2. apply Rmult_lt_0_compat; nra.
  - apply Rmult_lt_reg_l with (NN * NN); [exact NN2|]. rewrite Rmult_0_r, R3. apply Rmult_lt_0_compat; nra.
  - intro K. rewrite K, Rmult_0_r in R1. assert (Kb : yb * (xc - xb) = 0) by nra. nra.
Qed.
End Step.

(** *** W: from [b; c] along -b *)
Lemma step_W M n a b c : Wst M n b c -> is_farthest M n a -> pdot n b < pdot n a -> M b ->
  0 < pdot (abp a b c) (pneg a) /\
  (base (abp a b c) a b /\ TI M (abp a b c) a b /\ pdot (abp a b c) c < pdot (abp a b c) a) /\
  (pdot (psub b a) (pneg a) < 0 ->
     base (acp a b c) a c /\ TI M (acp a b c) a c /\ pdot (acp a b c) b < pdot (acp a b c) a).
Proof.
  intros (-> & Hbc & Fb) Fa La HB. rewrite !pdot_neg_l in La.
  assert (Nb : b <> origin) by (intros ->; unfold pdot, origin in Hbc; cbn in Hbc; lra).
  pose proof (dot_pos b Nb) as Pb. pose proof (proj2 Fb a (proj1 Fa)) as K0. rewrite !pdot_neg_l in K0.
  (* coordinates: h = b.b, along b and across *)
  assert (Lg : pdot b b * pdot c a = pdot b c * pdot b a + pcross b c * pcross b a) by (unfold pdot, pcross; ring).
  set (h := pdot b b) in * .
  assert (Ka : pdot b c * (h - pdot b a) <= pcross b c * pcross b a) by (rewrite (pdot_comm c b) in K0; nra).
  assert (Pos : 0 < pcross b c * pcross b a) by (assert (0 < pdot b c * (h - pdot b a)) by (apply Rmult_lt_0_compat; lra); lra).
  assert (Kabc : h * abc_ a b c = pcross b c * (h - pdot b a) + pcross b a * (pdot b c - h)).
  { unfold abc_, h, pdot, pcross, psub; cbn. ring. }
  assert (Kba : 0 < h * abc_ a b c * pcross b a).
  { rewrite Kabc. replace ((pcross b c * (h - pdot b a) + pcross b a * (pdot b c - h)) * pcross b a)
      with (pcross b c * pcross b a * (h - pdot b a) + pcross b a * pcross b a * (pdot b c - h)) by ring.
    assert (0 < pcross b c * pcross b a * (h - pdot b a)) by (apply Rmult_lt_0_compat; lra).
    assert (0 <= pcross b a * pcross b a * (pdot b c - h)) by (apply Rmult_le_pos; nra). lra. }
  assert (Kbc : 0 < h * abc_ a b c * pcross b c).
  { rewrite Kabc. replace ((pcross b c * (h - pdot b a) + pcross b a * (pdot b c - h)) * pcross b c)
      with (pcross b c * pcross b c * (h - pdot b a) + pcross b c * pcross b a * (pdot b c - h)) by ring.
    assert (0 <= pcross b c * pcross b c * (h - pdot b a)) by (apply Rmult_le_pos; nra).
    assert (0 < pcross b c * pcross b a * (pdot b c - h)) by (apply Rmult_lt_0_compat; lra). lra. }
  assert (Kab' : 0 < abc_ a b c * pcross b a) by nra. assert (Kbc' : 0 < abc_ a b c * pcross b c) by nra.
  assert (Nk : abc_ a b c <> 0) by (intro Z; rewrite Z in Kab'; lra).
  pose proof (sq_pos _ Nk) as Q. pose proof (abp_drop a b c) as D1. pose proof (acp_drop a b c) as D2. rewrite pdot_sub_r in D1, D2.
  assert (S1 : pdot (abp a b c) c < pdot (abp a b c) a) by lra. assert (S2 : pdot (acp a b c) b < pdot (acp a b c) a) by lra.
  assert (AB : pdot (abp a b c) (pneg a) = abc_ a b c * pcross b a) by (unfold abp, pdot, pcross, pneg, psub; cbn; ring).
  assert (AC : pdot (acp a b c) (pneg a) = abc_ a b c * pcross a c) by (unfold acp, pdot, pcross, pneg, psub; cbn; ring).
  pose proof (abp_perp a b c) as R1. pose proof (acp_perp a b c) as R2. rewrite pdot_sub_r in R1, R2.
  split; [lra|]. split.
  - split; [split; [apply (ne_origin_of_dot _ _ _ S1)|]; split; [|split; [lra | rewrite pdot_neg_r in AB; lra]]|].
    + intro Eab. subst a. unfold h in La. lra.
    + split; [|exact S1]. apply (AB_I M (pneg b) a b c Fa).
      * rewrite !pdot_neg_l. fold h; lra.
      * rewrite pdot_sub_r. fold h. lra.
      * replace (pcross (pneg b) b) with 0 by (unfold pcross, pneg; cbn; ring). lra.
  - intro Neg. rewrite pdot_neg_r, pdot_sub_l in Neg.
    (* |a|^2 < a.b *)
    assert (Sm : pdot a a < pdot b a) by lra.
    assert (AAsq : h * pdot a a = pdot b a * pdot b a + pcross b a * pcross b a) by (unfold h, pdot, pcross; ring).
    assert (T0 : 0 < pdot b a) by (pose proof (pdot_nonneg a); lra).
    (* across: (b x a)^2 < (b.a)(h - b.a) *)
    assert (X2 : pcross b a * pcross b a < pdot b a * (h - pdot b a)) by nra.
    assert (Cac : h * (abc_ a b c * pcross a c) = abc_ a b c * (pdot b a * pcross b c - pcross b a * pdot b c)).
    { replace (h * (abc_ a b c * pcross a c)) with (abc_ a b c * (h * pcross a c)) by ring. f_equal. unfold h, pdot, pcross. ring. }
    (* sign of b.a (b x c) - (b x a)(b.c), times (b x a) *)
    assert (Key : 0 <= (pdot b a * pcross b c - pcross b a * pdot b c) * pcross b a).
    { assert (Z1 : pdot b a * (pdot b c * (h - pdot b a)) <= pdot b a * (pcross b c * pcross b a)) by (apply Rmult_le_compat_l; lra).
      assert (Z2 : pdot b c * (pcross b a * pcross b a) <= pdot b c * (pdot b a * (h - pdot b a))) by (apply Rmult_le_compat_l; lra). lra. }
    assert (ACp : 0 <= abc_ a b c * pcross a c).
    { apply Rmult_le_reg_l with h; [exact Pb|]. rewrite Rmult_0_r, Cac.
      set (k := abc_ a b c) in *; set (z := pdot b a * pcross b c - pcross b a * pdot b c) in *; set (x := pcross b a) in * .
      assert (Hx : x <> 0) by (intro Zx; rewrite Zx in Kab'; lra). pose proof (sq_pos x Hx).
      apply Rmult_le_reg_r with (x * x); [assumption|]. replace (k * z * (x * x)) with ((k * x) * (z * x)) by ring. rewrite Rmult_0_l.
      apply Rmult_le_pos; lra. }
    split; [split; [apply (ne_origin_of_dot _ _ _ S2)|]; split; [|split; [lra | rewrite pdot_neg_r in AC; lra]]|].
    + intro Eac. subst a. lra.
    + split; [|exact S2]. apply (AC_I M (pneg b) a b c Fa).
      * rewrite !pdot_neg_l. lra.
      * (* c.(c - a) >= 0 *)
        rewrite pdot_sub_r. assert (CC : h * pdot c c = pdot b c * pdot b c + pcross b c * pcross b c) by (unfold h, pdot, pcross; ring).
        assert (G : pdot a a < pdot b c) by (pose proof (pdot_nonneg a); lra).
        assert (pdot c a * pdot c a <= pdot c c * pdot a a).
        { assert (I : pdot c c * pdot a a - pdot c a * pdot c a = pcross c a * pcross c a) by (unfold pdot, pcross; ring). nra. }
        assert (CB : pdot b c * pdot b c <= pdot c c * h).
        { rewrite (Rmult_comm (pdot c c)), CC. nra. }
        apply Rnot_lt_le. intro Lt. pose proof (pdot_nonneg c) as C0. pose proof (pdot_nonneg a) as A0.
        assert (Cc : pdot c c < pdot c a) by lra.
        assert (M1 : pdot c c * pdot c c < pdot c a * pdot c a) by nra.
        assert (M2 : pdot c c < pdot a a).
        { apply Rnot_le_lt. intro W. assert (pdot c c * pdot a a <= pdot c c * pdot c c) by nra. lra. }
        assert (M3 : pdot a a < h) by lra.
        assert (M4 : h * h < pdot c c * h) by nra. nra.
      * replace (pcross (pneg b) c) with (- pcross b c) by (unfold pcross, pneg; cbn; ring). lra.
Qed.

(** ** Runs of the distance variants *)
Lemma Forall_hd {A} (P : A -> Prop) x l : Forall P (x :: l) -> P x.
Proof. inversion 1; assumption. Qed.
Definition cap_facts (n a b c : pt) : Prop :=
  0 < pdot n a /\ 0 <= abc_ a b c * pcross b c /\ 0 < abc_ a b c * pcross c a /\ 0 < abc_ a b c * pcross a b /\
  (abc_ a b c * pcross b c = 0 -> pdot n b = 0).
Lemma cap_origin M n a b c : convex M -> M a -> M b -> M c -> cap_facts n a b c -> M origin.
Proof.
  intros C A B Cc (_ & P1 & P2 & P3 & _).
  apply (triangle_origin M a b c C A B Cc (abc_ a b c * pcross b c) (abc_ a b c * pcross c a) (abc_ a b c * pcross a b)); try lra.
  transitivity (pscale (abc_ a b c) (padd (padd (pscale (pcross b c) a) (pscale (pcross c a) b)) (pscale (pcross a b) c)));
    [apply pt_eq; cbn; ring|]. rewrite barycentric. apply pt_eq; cbn; ring.
Qed.
(** no triangle can be captured once a separating direction was seen *)
Lemma cap_late (M : pset) n a b c : base n b c -> M a -> M b -> M c -> cap_facts n a b c -> behind M ->
  (pdot n b < 0 \/ b = origin \/ exists y, M y /\ pdot n y < pdot n b) -> False.
Proof.
  intros (N & NE & E & Z) A B Cc (P0 & P1 & P2 & P3 & P4) (d & Nd & Hd) J.
  pose proof (Hd a A) as Da. pose proof (Hd b B) as Db. pose proof (Hd c Cc) as Dc.
  assert (Sum : abc_ a b c * pcross b c * pdot d a + abc_ a b c * pcross c a * pdot d b + abc_ a b c * pcross a b * pdot d c = 0).
  { unfold pdot, pcross. ring. }
  assert (Da' : abc_ a b c * pcross b c * pdot d a <= 0) by nra.
  assert (Db' : abc_ a b c * pcross c a * pdot d b <= 0) by nra. assert (Dc' : abc_ a b c * pcross a b * pdot d c <= 0) by nra.
  assert (Zb : pdot d b = 0) by nra. assert (Zc : pdot d c = 0) by nra.
  destruct (Req_dec (abc_ a b c * pcross b c) 0) as [K|K].
  - pose proof (P4 K) as Yb. destruct J as [J|[->|(y & Hy & J)]]; [lra| |].
    + unfold pcross, origin in P3; cbn in P3. lra.
    + destruct (orthogonal_parallel (psub b c) d n) as (l & El); try assumption.
      * intro Q. apply NE. apply pt_eq; [apply (f_equal fst) in Q | apply (f_equal snd) in Q]; cbn in Q; lra.
      * rewrite pdot_sub_r. lra.
      * rewrite pdot_sub_r. lra.
      * pose proof (Hd y Hy) as Dy. assert (Sc : forall p, pdot d p = l * pdot n p) by (intro p; rewrite El; unfold pdot, pscale; cbn; ring).
        rewrite Sc in Da, Dy. rewrite Yb in J. assert (l = 0) by nra. subst l. apply Nd. rewrite El. apply pt_eq; cbn; ring.
  - assert (Za : pdot d a = 0) by nra. assert (Nk : abc_ a b c <> 0) by (intro Q; rewrite Q in P2; lra).
    apply Nd. apply pt_eq; cbn; apply Rmult_eq_reg_l with (abc_ a b c); try assumption; rewrite Rmult_0_r.
    + transitivity ((pdot d b - pdot d a) * snd (psub c a) - (pdot d c - pdot d a) * snd (psub b a));
        [unfold abc_, pdot, pcross, psub; cbn; ring | rewrite Za, Zb, Zc; ring].
    + transitivity ((pdot d c - pdot d a) * fst (psub b a) - (pdot d b - pdot d a) * fst (psub c a));
        [unfold abc_, pdot, pcross, psub; cbn; ring | rewrite Za, Zb, Zc; ring].
Qed.

Section DistRun.
Variables (M : pset) (s : pt -> pt) (sup : vec2 XR -> vec2 XR) (K rho : R).
Hypothesis Hsup : forall d, norm d <= K -> sup (inj d) = inj (s d).
Hypothesis Hfar : forall d, norm d <= K -> is_farthest M d (s d).
Hypothesis HM : forall m, M m -> norm m <= rho.
Hypothesis K1 : 2 * rho <= K.
Hypothesis K3 : 8 * (rho * rho * rho) <= K.
Hypothesis HC : convex M.
Local Notation value := (value s K).
Hypothesis Res : resolvable value.

Definition mv (v : pt) : Prop := M v /\ value v.
Definition St (S : list pt) (n : pt) : Prop :=
  Forall mv S /\ norm n <= K /\
  match S with
  | [b] => n = pneg b
  | [b; c] => (base n b c /\ (TI M n b c \/ TII M n b c)) \/ Wst M n b c
  | _ => False
  end.
Definition newest (S : list pt) : pt := hd origin S.
(** what excludes a late capture *)
Definition J (S : list pt) (n : pt) : Prop :=
  pdot n (newest S) < 0 \/ newest S = origin \/ exists y, M y /\ pdot n y < pdot n (newest S).

Lemma St_neg S n : St S n -> pdot n (newest S) <= 0.
Proof.
  intros (_ & _ & H). destruct S as [|b [|c [|x S]]]; try contradiction; cbn.
  - subst n. rewrite pdot_neg_l. pose proof (pdot_nonneg b). lra.
  - destruct H as [((_ & _ & _ & H) & _)|(-> & _)]; [exact H|]. rewrite pdot_neg_l. pose proof (pdot_nonneg b). lra.
Qed.
Lemma St_len S n : St S n -> (length S = 1 \/ length S = 2)%nat.
Proof. intros (_ & _ & H). destruct S as [|b [|c [|x S]]]; try contradiction; cbn; auto. Qed.

Inductive dstep (S : list pt) (n : pt) : Prop :=
  | dgo S' d' d'' : add_point (map inj S) (inj (s n)) = Ok (map inj S', (false, inj d')) ->
      (if direction_is_too_small (inj d') then v2perp (inj n) else inj d') = inj d'' ->
      St S' d'' -> newest S' = s n -> length S' = 2%nat -> (J S' d'' \/ (length S = 1%nat /\ 0 < pdot n (s n))) -> dstep S n
  | dcap b c : S = [b; c] -> base n b c -> add_point (map inj S) (inj (s n)) = Ok (map inj [s n; b; c], (true, v2nan)) ->
      cap_facts n (s n) b c -> TI M n b c -> dstep S n.

Lemma not_small_ne d : (pdot d d < eps * eps -> d = origin) -> d <> origin -> direction_is_too_small (inj d) = false.
Proof. intros H N. rewrite small_inj. apply Rltb_false, Rnot_lt_le. intro L. apply N, H, L. Qed.
Lemma small_dec d : (pdot d d < eps * eps -> d = origin) ->
  (d = origin /\ direction_is_too_small (inj d) = true) \/ (d <> origin /\ direction_is_too_small (inj d) = false).
Proof.
  intro H. rewrite small_inj. destruct (Rltb_spec (pdot d d) (eps * eps)) as [L|L].
  - left. split; [apply H, L | reflexivity].
  - right. split; [|reflexivity]. intros ->. apply L. pose proof eps_pos. unfold pdot, origin; cbn. nra.
Qed.

Lemma dist_step S n : St S n -> pdot n (newest S) < pdot n (s n) -> dstep S n.
Proof.
  intros I L. pose proof I as (FS & Hn & Hm). set (a := s n) in * .
  pose proof (Hfar n Hn) as Fa. fold a in Fa. assert (Va : mv a) by (split; [apply Fa | exists n; auto]).
  destruct S as [|b [|c [|x S]]]; try contradiction; cbn in L.
  - (* one point *)
    pose proof (Forall_hd _ _ _ FS) as Vb. subst n. set (n := pneg b) in * .
    assert (Lb : pdot b a < pdot b b) by (unfold n in L; rewrite !pdot_neg_l in L; lra).
    destruct (Rle_dec 0 (pdot (psub b a) (pneg a))) as [H|H].
    + destruct (small_dec (raba (psub b a) (pneg a)) (res_raba _ a b Res (proj2 Va) (proj2 Vb))) as [(Z & SM)|(N & SM)].
      * (* the origin is on the line ab *)
        assert (NE : a <> b) by (intro Q; rewrite Q in Lb; lra).
        assert (Zc : pcross a b = 0).
        { assert (Q : pdot (raba (psub b a) (pneg a)) (raba (psub b a) (pneg a)) = 0) by (rewrite Z; unfold pdot, origin; cbn; ring).
          rewrite raba_norm in Q. replace (pcross (psub b a) (pneg a)) with (pcross a b) in Q by (unfold pcross, psub, pneg; cbn; ring).
          apply (prod_sq_0 _ _ (ne_sub b a ltac:(auto)) Q). }
        assert (Nb : b <> origin) by (intro Q; rewrite Q in Lb; unfold pdot, origin in Lb; cbn in Lb; lra).
        apply (dgo [b] n [a; b] (raba (psub b a) (pneg a)) (perp n)).
        -- cbn [map]. rewrite addp2. rewrite Rleb_true by exact H. reflexivity.
        -- rewrite SM. apply perp_inj.
        -- split; [auto|]. split; [rewrite perp_norm; exact Hn|]. left. split.
           ++ split; [apply perp_ne; intro Q; apply Nb; rewrite <- (pneg_pneg b); fold n; rewrite Q; apply pneg_origin|].
              split; [exact NE|]. unfold n, perp, pdot, pneg; cbn. unfold pcross in Zc. split; lra.
           ++ left. split; [rewrite pdot_sub_r; lra|]. exists n. split; [exact Fa|]. unfold n. rewrite !pdot_neg_l, !pdot_sub_r. split; [lra|].
              unfold perp, pdot, pneg; cbn. lra.
        -- reflexivity.
        -- reflexivity.
        -- destruct (Rlt_dec 0 (pdot n a)) as [Q|Q]; [right; split; [reflexivity | exact Q]|]. left. right. left. cbn.
           (* a is between the origin and b, and beyond: a = 0 *)
           apply Rnot_lt_le in Q. unfold n in Q. rewrite pdot_neg_l in Q. rewrite pdot_neg_r, pdot_sub_l in H.
           assert (La : pdot b b * pdot a a = pdot b a * pdot b a).
           { assert (I2 : pdot b b * pdot a a - pdot b a * pdot b a = pcross a b * pcross a b) by (unfold pdot, pcross; ring). rewrite Zc in I2. lra. }
           pose proof (dot_pos b Nb) as Pb. apply dot_0. pose proof (pdot_nonneg a) as Pa.
           assert (Q2 : pdot b b * pdot b a <= pdot b a * pdot b a) by nra.
           assert (pdot b a = 0) by nra. nra.
      * apply (dgo [b] n [a; b] (raba (psub b a) (pneg a)) (raba (psub b a) (pneg a))).
        -- cbn [map]. rewrite addp2. rewrite Rleb_true by exact H. reflexivity.
        -- rewrite SM. reflexivity.
        -- assert (EE : pdot (raba (psub b a) (pneg a)) a = - (pcross a b * pcross a b)) by (unfold raba, pdot, pcross, pneg, psub; cbn; ring).
           pose proof (raba_perp (psub b a) (pneg a)) as R. rewrite pdot_sub_r in R.
           split; [auto|]. split; [apply (raba_bound M K rho HM K1 K3); [apply Va | apply Vb]|]. left. split.
           ++ split; [exact N|]. split; [intro Q; rewrite Q in Lb; lra|]. split; [lra | rewrite EE; nra].
           ++ left. split; [rewrite pdot_sub_r; lra|]. exists n. split; [exact Fa|]. unfold n. rewrite !pdot_neg_l, !pdot_sub_r. split; [lra|].
              rewrite (pdot_comm b (raba _ _)). lra.
        -- reflexivity.
        -- reflexivity.
        -- left. left. cbn. assert (EE : pdot (raba (psub b a) (pneg a)) a = - (pcross a b * pcross a b)) by (unfold raba, pdot, pcross, pneg, psub; cbn; ring).
           rewrite EE. assert (Q : pcross a b <> 0); [|pose proof (sq_pos _ Q); lra].
           intro Q. apply N. replace (pcross a b) with (pcross (psub b a) (pneg a)) in Q by (unfold pcross, psub, pneg; cbn; ring).
           unfold raba. rewrite Q. apply pt_eq; cbn; ring.
    + (* W *)
      apply Rnot_le_lt in H. assert (H' := H). rewrite pdot_neg_r, pdot_sub_l in H'.
      assert (Na : a <> origin) by (intro Q; rewrite Q in H'; unfold pdot, origin in H'; cbn in H'; lra).
      assert (SM : direction_is_too_small (inj (pneg a)) = false).
      { apply not_small_ne; [apply (res_neg _ a Res (proj2 Va))|]. intro Q. apply Na. rewrite <- (pneg_pneg a), Q. apply pneg_origin. }
      apply (dgo [b] n [a; b] (pneg a) (pneg a)).
      * cbn [map]. rewrite addp2. rewrite Rleb_false by exact H. reflexivity.
      * rewrite SM. reflexivity.
      * split; [auto|]. split; [apply (neg_bound M K rho HM K1), Va|]. right. split; [reflexivity|].
        split; [rewrite (pdot_comm a b); lra | exact Fa].
      * reflexivity.
      * reflexivity.
      * left. left. cbn. rewrite pdot_neg_l. pose proof (dot_pos a Na). lra.
  - (* two points *)
    inversion FS as [|? ? Vb FS']; subst. inversion FS' as [|? ? Vc _]; subst.
    assert (Gab : base (abp a b c) a b -> pdot (abp a b c) c < pdot (abp a b c) a -> TI M (abp a b c) a b \/ TII M (abp a b c) a b ->
      add_point (map inj [b; c]) (inj a) = Ok (map inj [a; b], (false, inj (abp a b c))) -> dstep [b; c] n).
    { intros B1 B2 B3 EA. apply (dgo [b; c] n [a; b] (abp a b c) (abp a b c)); try assumption; try reflexivity.
      - rewrite not_small_ne; [reflexivity | apply (res_abp _ a b c Res (proj2 Va) (proj2 Vb) (proj2 Vc)) | apply B1].
      - split; [auto|]. split; [apply (abp_bound M K rho HM K3); [apply Va | apply Vb | apply Vc] | left; auto].
      - left. right. right. exists c. split; [apply Vc | exact B2]. }
    assert (Gac : base (acp a b c) a c -> pdot (acp a b c) b < pdot (acp a b c) a -> TI M (acp a b c) a c \/ TII M (acp a b c) a c ->
      add_point (map inj [b; c]) (inj a) = Ok (map inj [a; c], (false, inj (acp a b c))) -> dstep [b; c] n).
    { intros B1 B2 B3 EA. apply (dgo [b; c] n [a; c] (acp a b c) (acp a b c)); try assumption; try reflexivity.
      - rewrite not_small_ne; [reflexivity | apply (res_acp _ a b c Res (proj2 Va) (proj2 Vb) (proj2 Vc)) | apply B1].
      - split; [auto|]. split; [apply (acp_bound M K rho HM K3); [apply Va | apply Vb | apply Vc] | left; auto].
      - left. right. right. exists b. split; [apply Vb | exact B2]. }
    pose proof (addp3 a b c) as EA. change ([inj b; inj c]) with (map inj [b; c]) in EA.
    destruct Hm as [(Bs & TT)|W].
    + pose proof (base_ab n a b c Bs L) as Bab. pose proof (base_ac n a b c Bs L) as Bac.
      destruct (Rleb_spec 0 (pdot (abp a b c) (pneg a))) as [H1|H1].
      * destruct (Rleb_spec 0 (pdot (psub b a) (pneg a))) as [H2|H2].
        -- apply Gab; [apply (Bab H1) | apply (Bab H1) | | exact EA].
           destruct TT as [T|T]; [apply (step_TI M n a b c Bs Fa L T); assumption | apply (step_TII M n a b c Bs Fa L (proj1 Vb) T)].
        -- apply Rnot_le_lt in H2. destruct TT as [T|T].
           ++ destruct (step_TI M n a b c Bs Fa L T) as (_ & T2 & T3). pose proof (T2 H1 H2) as H3.
              apply Gac; [apply (Bac H3) | apply (Bac H3) | left; apply (T3 H3) | exact EA].
           ++ destruct (step_TII M n a b c Bs Fa L (proj1 Vb) T) as (H3 & _ & T3).
              apply Gac; [apply Bac; lra | apply Bac; lra | exact T3 | exact EA].
      * destruct (Rleb_spec 0 (pdot (acp a b c) (pneg a))) as [H3|H3].
        -- apply Gac; [apply (Bac H3) | apply (Bac H3) | | exact EA].
           destruct TT as [T|T]; [left; apply (step_TI M n a b c Bs Fa L T); assumption | apply (step_TII M n a b c Bs Fa L (proj1 Vb) T)].
        -- apply Rnot_le_lt in H1. apply Rnot_le_lt in H3. destruct TT as [T|T].
           ++ apply (dcap [b; c] n b c eq_refl Bs); [exact EA | apply (step_cap n a b c Bs L); assumption | exact T].
           ++ exfalso. destruct (step_TII M n a b c Bs Fa L (proj1 Vb) T) as (H4 & _). lra.
    + destruct (step_W M n a b c W Fa L (proj1 Vb)) as (P1 & (B1 & T1 & D1) & Neg).
      rewrite (Rleb_true 0 (pdot (abp a b c) (pneg a))) in EA by lra.
      destruct (Rleb_spec 0 (pdot (psub b a) (pneg a))) as [H2|H2]; [apply Gab; auto|].
      destruct (Neg ltac:(lra)) as (B2 & T2 & D2). apply Gac; auto.
Qed.

(** how a search ends: [slack] is 1 for the exact test, 99/100 for the tolerant one *)
Definition stopped (k : R) (l : simplex XR) (d : vec2 XR) : Prop :=
  exists S n, l = map inj S /\ d = inj n /\ St S n /\ forall m, M m -> pdot n m <= k * pdot n (newest S).
Definition ended (k : R) (o : outcome XR) : Prop :=
  match o with
  | Separated l d => stopped k l d
  | Captured l => exists n a b c, l = map inj [a; b; c] /\ M a /\ M b /\ M c /\ base n b c /\ TI M n b c /\ cap_facts n a b c
  | Exhausted l => exists S n, l = map inj S /\ St S n
  | TooSmall _ _ | Crashed _ => False
  end.
Lemma cap_end S n b c : S = [b; c] -> St S n -> base n b c -> TI M n b c -> cap_facts n (s n) b c ->
  forall k, ended k (Captured (map inj [s n; b; c])).
Proof.
  intros -> (FS & Hn & _) B T F k. inversion FS as [|? ? Vb FS']; subst. inversion FS' as [|? ? Vc _]; subst.
  exists n, (s n), b, c. split; [reflexivity|]. split; [apply (Hfar n Hn)|]. split; [apply Vb|]. split; [apply Vc | auto].
Qed.
Lemma last_test b d : fle (v2dot (sup (inj d)) (inj d)) (v2dot (inj b) (inj d)) = fle (v2dot (sup (inj d)) (inj d)) (XFin (pdot b d)).
Proof. reflexivity. Qed.
Lemma ft_ended n : forall S d, St S d -> ended 1 (run_ft sup n (map inj S) (inj (newest S)) (inj d)).
Proof.
  induction n as [|n IH]; intros S d I; cbn [run_ft]; [exists S, d; auto|].
  pose proof I as (FS & Hd & _). pose proof (St_neg S d I) as Neg.
  rewrite (fle_test s sup K Hsup d Hd), (Hsup d Hd).
  change (fle (v2dot (inj (s d)) (inj d)) (v2dot (inj (newest S)) (inj d))) with (Rleb (pdot (s d) d) (pdot (newest S) d)).
  destruct (Rleb (pdot (s d) d) 0 && Rleb (pdot (s d) d) (pdot (newest S) d)) eqn:E.
  - apply andb_true_iff in E. destruct E as [_ E]. rcase_in E; [|discriminate].
    exists S, d. repeat split; try assumption; try apply I. intros m Hm. pose proof (proj2 (Hfar d Hd) m Hm).
    rewrite (pdot_comm (s d)), (pdot_comm (newest S)) in r. lra.
  - assert (L : pdot d (newest S) < pdot d (s d)).
    { rewrite (pdot_comm (s d)), (pdot_comm (newest S) d) in E. apply andb_false_iff in E.
      destruct E as [E|E]; rcase_in E; try discriminate; lra. }
    destruct (dist_step S d I L) as [S' d' d'' EA ED I' NW L2 _|b c ES B EA F T].
    + rewrite EA, ED. rewrite <- NW. apply IH, I'.
    + rewrite EA. apply (cap_end S d b c ES I B T F).
Qed.
Lemma start_St d0 : norm d0 <= K -> St [s d0] (pneg (s d0)).
Proof.
  intro H. pose proof (proj1 (Hfar d0 H)) as A. split; [repeat constructor; [exact A | exists d0; auto]|].
  split; [apply (neg_bound M K rho HM K1), A | reflexivity].
Qed.
Lemma start_ft_ended d0 : norm d0 <= K -> ended 1 (start_ft sup (inj d0)).
Proof.
  intro H. unfold start_ft. rewrite (Hsup d0 H), addp1. exact (ft_ended 20 [s d0] (pneg (s d0)) (start_St d0 H)).
Qed.

Definition possible_ok (p : bool) (S : list pt) (d : pt) : Prop :=
  p = true \/ (length S = 2%nat /\ behind M /\ J S d).
Lemma better_test x y : sufficiently_better (F:=XR) (XFin x) (XFin y) fcent =
  if Rltb 0 y then Rltb (y * (1 + 1/100)) x else Rltb (y * (1 - 1/100)) x.
Proof. reflexivity. Qed.
Lemma tt_ended n : forall S d p, St S d -> possible_ok p S d -> ended (99/100) (run_tt sup n (map inj S) (inj (newest S)) (inj d) p).
Proof.
  induction n as [|n IH]; intros S d p I PO; cbn [run_tt]; [exists S, d; auto|].
  pose proof I as (FS & Hd & _). pose proof (St_neg S d I) as Neg.
  rewrite (fle_test s sup K Hsup d Hd), (Hsup d Hd).
  change (v2dot (inj (s d)) (inj d)) with (XFin (pdot (s d) d)).
  change (v2dot (inj (newest S)) (inj d)) with (XFin (pdot (newest S) d)).
  rewrite better_test. rewrite (pdot_comm (newest S) d), (pdot_comm (s d) d). rewrite (Rltb_false 0 (pdot d (newest S))) by exact Neg.
  destruct (Rleb (pdot d (s d)) 0 && negb (Rltb (pdot d (newest S) * (1 - 1 / 100)) (pdot d (s d)))) eqn:E.
  - apply andb_true_iff in E. destruct E as [_ E]. apply negb_true_iff in E. rcase_in E; [discriminate|].
    exists S, d. repeat split; try assumption; try apply I. intros m Hm. pose proof (proj2 (Hfar d Hd) m Hm). lra.
  - assert (L : pdot d (newest S) < pdot d (s d)).
    { apply andb_false_iff in E. destruct E as [E|E]; [|apply negb_false_iff in E]; rcase_in E; try discriminate; lra. }
    assert (Nd : d <> origin) by apply (ne_origin_of_dot _ _ _ L).
    destruct (dist_step S d I L) as [S' d' d'' EA ED I' NW L2 JJ|b c ES B EA F T].
    + rewrite EA. cbn [andb]. rewrite ED, <- NW. apply IH; [exact I'|]. rewrite NW.
      destruct (Rleb_spec (pdot d (s d)) 0) as [Q|Q].
      * right. split; [exact L2|]. split; [apply (far_behind M s K Hfar d Hd Nd); rewrite pdot_comm; exact Q|].
        destruct JJ as [JJ|(_ & JJ)]; [exact JJ | lra].
      * destruct PO as [->|(L1 & BH & _)]; [left; reflexivity|]. right. split; [exact L2|]. split; [exact BH|].
        destruct JJ as [JJ|(L0 & _)]; [exact JJ | lia].
    + rewrite EA. pose proof F as (P0 & _). rewrite (Rleb_false (pdot d (s d)) 0) by exact P0. cbn [andb].
      destruct p; [apply (cap_end S d b c ES I B T F)|]. exfalso. destruct PO as [Q|(_ & BH & JJ)]; [discriminate|].
      subst S. inversion FS as [|? ? Vb FS']; subst. inversion FS' as [|? ? Vc _]; subst.
      apply (cap_late M d (s d) b c B (proj1 (Hfar d Hd)) (proj1 Vb) (proj1 Vc) F BH JJ).
Qed.
Lemma start_tt_ended d0 : norm d0 <= K -> ended (99/100) (start_tt sup (inj d0)).
Proof.
  intro H. unfold start_tt. rewrite (Hsup d0 H), addp1.
  exact (tt_ended 20 [s d0] (pneg (s d0)) true (start_St d0 H) (or_introl eq_refl)).
Qed.
End DistRun.
