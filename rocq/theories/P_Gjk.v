(** * GJK in exact arithmetic: frame, single steps, the collision-only variant (proofs). *)
From Coq Require Import Reals Lra Psatz Bool List Lia Arith.
From Verif Require Import Num NumXR Glam Transform2 Shapes2 Gjk Spec SpecLink P_Base P_Transform P_Shapes P_Geo P_GjkShape SpecGjk.
Import ListNotations.
Local Open Scope R_scope.

Lemma eps_pos : 0 < eps.
Proof. unfold eps. apply Rinv_0_lt_compat. apply IZR_lt. reflexivity. Qed.

(** the vectors computed by add_point *)
Definition abc_ (a b c : pt) : R := pcross (psub b a) (psub c a).
Definition raba (a b : pt) : pt := (- snd a * pcross a b, fst a * pcross a b).
Definition abp (a b c : pt) : pt := (snd (psub b a) * abc_ a b c, - fst (psub b a) * abc_ a b c).
Definition acp (a b c : pt) : pt := (- abc_ a b c * snd (psub c a), abc_ a b c * fst (psub c a)).

Lemma addp1 a : add_point [] (inj a) = Ok ([inj a], (false, inj (pneg a))).
Proof. reflexivity. Qed.
Lemma addp2 a b : add_point [inj b] (inj a) =
  if Rleb 0 (pdot (psub b a) (pneg a)) then Ok ([inj a; inj b], (false, inj (raba (psub b a) (pneg a))))
  else Ok ([inj a; inj b], (false, inj (pneg a))).
Proof. reflexivity. Qed.
Lemma addp3 a b c : add_point [inj b; inj c] (inj a) =
  if Rleb 0 (pdot (abp a b c) (pneg a)) then
    if Rleb 0 (pdot (psub b a) (pneg a)) then Ok ([inj a; inj b], (false, inj (abp a b c)))
    else Ok ([inj a; inj c], (false, inj (acp a b c)))
  else if Rleb 0 (pdot (acp a b c) (pneg a)) then Ok ([inj a; inj c], (false, inj (acp a b c)))
  else Ok ([inj a; inj b; inj c], (true, v2nan)).
Proof. reflexivity. Qed.
Lemma small_inj d : direction_is_too_small (inj d) = Rltb (pdot d d) (eps * eps).
Proof. reflexivity. Qed.
Lemma perp_inj d : v2perp (inj d) = inj (- snd d, fst d).
Proof. reflexivity. Qed.

(** ** Coordinates along a direction n: height Y and lateral coordinate X (with a chosen sign) *)
Definition X (sg : R) (n p : pt) : R := sg * pcross n p.
Definition Y (n p : pt) : R := pdot n p.
Lemma frame_dot sg n p q : sg * sg = 1 -> pdot n n * pdot p q = X sg n p * X sg n q + Y n p * Y n q.
Proof.
  intro S. unfold X, Y. replace (sg * pcross n p * (sg * pcross n q)) with ((sg * sg) * (pcross n p * pcross n q)) by ring.
  rewrite S. unfold pdot, pcross. ring.
Qed.
Lemma frame_cross sg n p q : sg * sg = 1 -> pdot n n * pcross p q = sg * (Y n p * X sg n q - X sg n p * Y n q).
Proof.
  intro S. unfold X, Y.
  transitivity ((sg * sg) * (pdot n p * pcross n q - pcross n p * pdot n q)); [|ring]. rewrite S. unfold pdot, pcross. ring.
Qed.
Lemma X_sub sg n p q : X sg n (psub p q) = X sg n p - X sg n q.
Proof. unfold X, pcross, psub; cbn. ring. Qed.
Lemma Y_sub n p q : Y n (psub p q) = Y n p - Y n q.
Proof. unfold Y, pdot, psub; cbn. ring. Qed.
Lemma dot_pos n : n <> origin -> 0 < pdot n n.
Proof. intro H. pose proof (norm_pos n H). rewrite <- norm_sq. nra. Qed.
Lemma dot_0 n : pdot n n = 0 -> n = origin.
Proof. intro H. apply norm_0. unfold norm. rewrite H. apply sqrt_0. Qed.
Lemma sign_of k : k <> 0 -> exists sg, sg * sg = 1 /\ 0 < sg * k.
Proof. intro H. destruct (Rlt_dec 0 k); [exists 1; lra | exists (-1); lra]. Qed.
Lemma XY_eq sg n p q : sg * sg = 1 -> n <> origin -> X sg n p = X sg n q -> Y n p = Y n q -> p = q.
Proof.
  intros S N HX HY. pose proof (dot_pos n N) as P.
  assert (D : pdot (psub p q) (psub p q) = 0).
  { apply Rmult_eq_reg_l with (pdot n n); [|lra]. rewrite (frame_dot sg n _ _ S), X_sub, Y_sub, HX, HY. ring. }
  apply dot_0 in D. apply pt_eq; [apply (f_equal fst) in D | apply (f_equal snd) in D]; cbn in D; lra.
Qed.

(** the three orientation quantities in the frame of a two-point state b, c with n.b = n.c *)
Section Frame3.
Variables (sg : R) (n a b c : pt).
Hypothesis S : sg * sg = 1.
Hypothesis E : Y n b = Y n c.
Let N := pdot n n.
Let x := X sg n. Let y := Y n.
Lemma fr_abc : N * abc_ a b c = - sg * ((y a - y b) * (x c - x b)).
Proof.
  unfold abc_, N, x, y. rewrite (frame_cross sg n _ _ S), !X_sub, !Y_sub, <- E. ring.
Qed.
Lemma fr_ab : N * N * pdot (abp a b c) (pneg a) = (y a - y b) * (x c - x b) * (y a * x b - x a * y b).
Proof.
  replace (pdot (abp a b c) (pneg a)) with (- (abc_ a b c * pcross a b)) by (unfold abp, pdot, pcross, pneg, psub; cbn; ring).
  transitivity (- ((N * abc_ a b c) * (N * pcross a b))); [ring|]. rewrite fr_abc. unfold N. rewrite (frame_cross sg n a b S).
  fold x y. transitivity ((sg * sg) * ((y a - y b) * (x c - x b) * (y a * x b - x a * y b))); [ring | rewrite S; ring].
Qed.
Lemma fr_ac : N * N * pdot (acp a b c) (pneg a) = - ((y a - y b) * (x c - x b) * (y a * x c - x a * y b)).
Proof.
  replace (pdot (acp a b c) (pneg a)) with (abc_ a b c * pcross a c) by (unfold acp, pdot, pcross, pneg, psub; cbn; ring).
  transitivity ((N * abc_ a b c) * (N * pcross a c)); [ring|]. rewrite fr_abc. unfold N. rewrite (frame_cross sg n a c S).
  fold x y. assert (E' : y c = y b) by (symmetry; exact E). rewrite E'.
  transitivity (- ((sg * sg) * ((y a - y b) * (x c - x b) * (y a * x c - x a * y b)))); [ring | rewrite S; ring].
Qed.
End Frame3.

Lemma abp_norm a b c : pdot (abp a b c) (abp a b c) = pdot (psub b a) (psub b a) * (abc_ a b c * abc_ a b c).
Proof. unfold abp, pdot; cbn. ring. Qed.
Lemma acp_norm a b c : pdot (acp a b c) (acp a b c) = pdot (psub c a) (psub c a) * (abc_ a b c * abc_ a b c).
Proof. unfold acp, pdot; cbn. ring. Qed.
Lemma raba_norm a b : pdot (raba a b) (raba a b) = pdot a a * (pcross a b * pcross a b).
Proof. unfold raba, pdot; cbn. ring. Qed.
Lemma abp_perp a b c : pdot (abp a b c) (psub a b) = 0.
Proof. unfold abp, pdot, psub; cbn. ring. Qed.
Lemma acp_perp a b c : pdot (acp a b c) (psub a c) = 0.
Proof. unfold acp, pdot, psub; cbn. ring. Qed.
Lemma raba_perp a b : pdot (raba a b) a = 0.
Proof. unfold raba, pdot; cbn. ring. Qed.
Lemma pdot_neg_r p q : pdot p (pneg q) = - pdot p q.
Proof. unfold pdot, pneg; cbn. ring. Qed.
Lemma pdot_neg_l p q : pdot (pneg p) q = - pdot p q.
Proof. unfold pdot, pneg; cbn. ring. Qed.
Lemma pdot_sub_l p q r : pdot (psub p q) r = pdot p r - pdot q r.
Proof. unfold pdot, psub; cbn. ring. Qed.
Lemma cross_bound p q : Rabs (pcross p q) <= norm p * norm q.
Proof.
  replace (pcross p q) with (pdot (- snd p, fst p) q) by (unfold pcross, pdot; cbn; ring).
  replace (norm p) with (norm (- snd p, fst p)); [apply cauchy_abs|].
  unfold norm. f_equal. unfold pdot; cbn. ring.
Qed.
Lemma norm_psub p q : norm (psub p q) <= norm p + norm q.
Proof.
  replace (psub p q) with (padd p (pneg q)) by (apply pt_eq; cbn; ring).
  rewrite <- (norm_neg q). apply norm_triangle.
Qed.
Lemma norm_of_dot p x y : 0 <= x -> pdot p p = pdot y y * (x * x) -> norm p = norm y * x.
Proof.
  intros Hx H. apply norm_eq; [apply Rmult_le_pos; [apply norm_nonneg | exact Hx]|].
  rewrite H, <- (norm_sq y). ring.
Qed.
Lemma sq_abs x : Rabs x * Rabs x = x * x.
Proof. rewrite <- Rabs_mult, Rabs_pos_eq; [reflexivity | nra]. Qed.

(** a set all of whose points are on the far side of a line through the origin does not contain a ball around it *)
Definition behind (M : pset) : Prop := exists d, d <> origin /\ forall m, M m -> pdot d m <= 0.
(** M comes closer to the origin than the tolerance of the direction test *)
Definition near (M : pset) : Prop := exists m, M m /\ pdot m m * pdot m m * pdot m m < eps * eps.
Lemma near_origin (M : pset) : M origin -> near M.
Proof. intro H. exists origin. split; [exact H|]. pose proof eps_pos. unfold pdot, origin; cbn. nra. Qed.
Lemma prod3 x y z e : 0 <= x -> 0 <= y -> 0 <= z -> x * y * z < e -> x * x * x < e \/ y * y * y < e \/ z * z * z < e.
Proof.
  intros Hx Hy Hz H.
  destruct (Rle_dec x y) as [A|A]; destruct (Rle_dec x z) as [B|B]; destruct (Rle_dec y z) as [C|C];
  try (left; assert (0 <= x * x) by nra; assert (x * x <= y * z) by nra; nra);
  try (right; left; assert (y * y <= x * z) by nra; nra);
  try (right; right; assert (z * z <= x * y) by nra; nra).
Qed.

(** the foot of the origin on the segment pq when p.q <= 0 *)
Lemma foot_in (M : pset) p q : convex M -> M p -> M q -> p <> q -> pdot p q <= 0 ->
  exists f, M f /\ pdot (psub p q) (psub p q) * pdot f f = pcross p q * pcross p q.
Proof.
  intros C Hp Hq N D.
  assert (P : 0 < pdot (psub p q) (psub p q)).
  { apply dot_pos. intro E. apply N. apply pt_eq; [apply (f_equal fst) in E | apply (f_equal snd) in E]; cbn in E; lra. }
  set (L := pdot (psub p q) (psub p q)) in * .
  set (t := pdot p (psub p q) / L).
  assert (Ht : t * L = pdot p p - pdot p q) by (unfold t; rewrite pdot_sub_r; field; lra).
  assert (EL : L = pdot p p - 2 * pdot p q + pdot q q) by (unfold L, pdot, psub; cbn; ring).
  pose proof (pdot_nonneg p). pose proof (pdot_nonneg q).
  exists (padd (pscale (1 - t) p) (pscale t q)). split.
  - apply C; try assumption. split.
    + apply Rmult_le_reg_r with L; [exact P|]. rewrite Ht. lra.
    + apply Rmult_le_reg_r with L; [exact P|]. rewrite Ht. lra.
  - replace (pdot (padd (pscale (1 - t) p) (pscale t q)) (padd (pscale (1 - t) p) (pscale t q)))
      with (pdot p p - 2 * t * (pdot p p - pdot p q) + t * t * L) by (unfold L, pdot, padd, pscale, psub; cbn; ring).
    replace (L * (pdot p p - 2 * t * (pdot p p - pdot p q) + t * t * L))
      with (L * pdot p p - 2 * (t * L) * (pdot p p - pdot p q) + (t * L) * (t * L)) by ring.
    rewrite Ht. unfold L, pdot, pcross, psub; cbn. ring.
Qed.

(** three points around the origin: it is a weighted average of them *)
Lemma triangle_origin (M : pset) a b c : convex M -> M a -> M b -> M c ->
  forall x y z, 0 <= x -> 0 <= y -> 0 <= z -> 0 < x + y + z ->
  padd (padd (pscale x a) (pscale y b)) (pscale z c) = origin -> M origin.
Proof.
  intros C Ha Hb Hc x y z Hx Hy Hz P E.
  destruct (Req_dec (x + y) 0) as [E0|N0].
  - assert (x = 0) by lra. assert (y = 0) by lra. subst x y. assert (Hz' : 0 < z) by lra.
    replace origin with c; [exact Hc|]. apply pt_eq; [apply (f_equal fst) in E | apply (f_equal snd) in E]; cbn in *; nra.
  - assert (P2 : 0 < x + y) by lra.
    assert (I : M (padd (pscale (1 - y / (x + y)) a) (pscale (y / (x + y)) b))).
    { apply C; try assumption. split; apply Rmult_le_reg_r with (x + y); try lra.
      - replace (y / (x + y) * (x + y)) with y by (field; lra). lra.
      - replace (y / (x + y) * (x + y)) with y by (field; lra). lra. }
    assert (J : M (padd (pscale (1 - z / (x + y + z)) (padd (pscale (1 - y / (x + y)) a) (pscale (y / (x + y)) b)))
                        (pscale (z / (x + y + z)) c))).
    { apply C; try assumption. split; apply Rmult_le_reg_r with (x + y + z); try lra.
      - replace (z / (x + y + z) * (x + y + z)) with z by (field; lra). lra.
      - replace (z / (x + y + z) * (x + y + z)) with z by (field; lra). lra. }
    replace origin with (padd (pscale (1 - z / (x + y + z)) (padd (pscale (1 - y / (x + y)) a) (pscale (y / (x + y)) b)))
                        (pscale (z / (x + y + z)) c)); [exact J|].
    apply pt_eq; [apply (f_equal fst) in E | apply (f_equal snd) in E]; cbn in * .
    + transitivity ((x * fst a + y * fst b + z * fst c) / (x + y + z)); [field; lra | rewrite E; field; lra].
    + transitivity ((x * snd a + y * snd b + z * snd c) / (x + y + z)); [field; lra | rewrite E; field; lra].
Qed.
Lemma barycentric a b c :
  padd (padd (pscale (pcross b c) a) (pscale (pcross c a) b)) (pscale (pcross a b) c) = origin.
Proof. apply pt_eq; unfold pcross; cbn; ring. Qed.
Lemma abc_sum a b c : abc_ a b c = pcross b c + pcross c a + pcross a b.
Proof. unfold abc_, pcross, psub; cbn. ring. Qed.

(** ** Steps of the two-point and three-point states (collision search: every new point is beyond the origin) *)
Definition pair_ok (n b c : pt) : Prop :=
  pdot n b = pdot n c /\ pdot n b <= 0 /\ pdot b c <= 0 /\ b <> origin /\ c <> origin.

Lemma pair_ne n b c : pair_ok n b c -> b <> c.
Proof. intros (_ & _ & D & B & _) E. subst c. apply B, dot_0. pose proof (pdot_nonneg b). lra. Qed.
Lemma beyond_ne n a : 0 < pdot n a -> a <> origin.
Proof. intros H E. subst a. unfold pdot, origin in H; cbn in H. lra. Qed.

(** from one point b, searching along -b *)
Lemma step2 a b : 0 < pdot (pneg b) a ->
  0 <= pdot (psub b a) (pneg a) /\
  pair_ok (raba (psub b a) (pneg a)) a b /\
  (pcross a b = 0 -> pair_ok (- snd (pneg b), fst (pneg b)) a b).
Proof.
  intro H. rewrite pdot_neg_l in H.
  pose proof (pdot_nonneg a) as Pa.
  assert (Na : a <> origin). { intro E; subst a. unfold pdot, origin in H; cbn in H; lra. }
  assert (Nb : b <> origin). { intro E; subst b. unfold pdot, origin in H; cbn in H; lra. }
  assert (Hab : pdot a b < 0) by (rewrite pdot_comm; lra).
  split; [|split].
  - rewrite pdot_neg_r, pdot_sub_l, (pdot_comm b a). lra.
  - repeat split; try assumption; try lra.
    + pose proof (raba_perp (psub b a) (pneg a)) as R. rewrite pdot_sub_r in R. lra.
    + assert (E : pdot (raba (psub b a) (pneg a)) a = - (pcross (psub b a) (pneg a) * pcross (psub b a) (pneg a)))
        by (unfold raba, pdot, pcross, pneg; cbn; ring). rewrite E. nra.
  - intro C. repeat split; try assumption; try lra; unfold pdot, pneg, pcross in *; cbn in *; lra.
Qed.

(** from two points b, c, with a beyond the origin along n *)
Lemma step3 n a b c : n <> origin -> pair_ok n b c -> 0 < pdot n a ->
  abc_ a b c <> 0 /\ pcross b c * pcross b c <= abc_ a b c * abc_ a b c /\
  (0 <= pdot (abp a b c) (pneg a) -> 0 <= pdot (psub b a) (pneg a) /\ pair_ok (abp a b c) a b) /\
  (0 <= pdot (acp a b c) (pneg a) -> pair_ok (acp a b c) a c) /\
  (pdot (abp a b c) (pneg a) < 0 -> pdot (acp a b c) (pneg a) < 0 ->
     0 <= abc_ a b c * pcross b c /\ 0 < abc_ a b c * pcross c a /\ 0 < abc_ a b c * pcross a b).
Proof.
  intros N OK T. pose proof (pair_ne _ _ _ OK) as NE. destruct OK as (E & Hb & D & Nb & Nc).
  pose proof (dot_pos n N) as P.
  assert (Kne : pcross n c - pcross n b <> 0).
  { intro Z. apply NE. apply (XY_eq 1 n); try assumption; unfold X, Y; lra. }
  destruct (sign_of _ Kne) as (sg & S & Ks).
  pose proof (fr_abc sg n a b c S E) as Fabc. pose proof (fr_ab sg n a b c S E) as Fab. pose proof (fr_ac sg n a b c S E) as Fac.
  pose proof (frame_dot sg n b c S) as Fbc. pose proof (frame_dot sg n a b S) as Fdab. pose proof (frame_dot sg n a c S) as Fdac.
  pose proof (frame_dot sg n b b S) as Fbb. pose proof (frame_dot sg n c c S) as Fcc. pose proof (frame_dot sg n a a S) as Faa.
  pose proof (frame_cross sg n b c S) as Cbc. pose proof (frame_cross sg n c a S) as Cca. pose proof (frame_cross sg n a b S) as Cab.
  pose proof (dot_pos b Nb) as Pb. pose proof (dot_pos c Nc) as Pc.
  set (xa := X sg n a) in *; set (xb := X sg n b) in *; set (xc := X sg n c) in * .
  assert (Kx : 0 < xc - xb) by (unfold xc, xb, X; lra).
  change (Y n a) with (pdot n a) in *; change (Y n b) with (pdot n b) in *; change (Y n c) with (pdot n c) in * .
  rewrite <- E in * . set (ya := pdot n a) in *; set (yb := pdot n b) in *; set (NN := pdot n n) in * .
  assert (W : 0 < ya - yb) by lra.
  assert (Q : 0 < (ya - yb) * (xc - xb)) by nra.
  assert (XX : xb * xc + yb * yb <= 0) by nra.
  assert (Xb : xb <= 0) by nra. assert (Xc : 0 <= xc) by nra.
  assert (Abc2 : (NN * abc_ a b c) * (NN * abc_ a b c) = ((ya - yb) * (xc - xb)) * ((ya - yb) * (xc - xb))).
  { rewrite Fabc. transitivity ((sg * sg) * (((ya - yb) * (xc - xb)) * ((ya - yb) * (xc - xb)))); [ring | rewrite S; ring]. }
  assert (Nabc : abc_ a b c <> 0). { intro Z. rewrite Z in Abc2. nra. }
  split; [exact Nabc|]. split; [|split; [|split]].
  - assert (B2 : (NN * pcross b c) * (NN * pcross b c) = (yb * (xc - xb)) * (yb * (xc - xb))).
    { rewrite Cbc. transitivity ((sg * sg) * ((yb * (xc - xb)) * (yb * (xc - xb)))); [ring | rewrite S; ring]. }
    assert (L : yb * yb <= (ya - yb) * (ya - yb)) by nra.
    assert (L2 : 0 <= (xc - xb) * (xc - xb)) by nra.
    apply Rmult_le_reg_l with (NN * NN); [nra|].
    replace (NN * NN * (pcross b c * pcross b c)) with ((NN * pcross b c) * (NN * pcross b c)) by ring.
    replace (NN * NN * (abc_ a b c * abc_ a b c)) with ((NN * abc_ a b c) * (NN * abc_ a b c)) by ring.
    rewrite B2, Abc2. nra.
  - intro H.
    assert (H1 : 0 <= ya * xb - xa * yb).
    { assert (0 <= NN * NN * pdot (abp a b c) (pneg a)) by (apply Rmult_le_pos; nra). rewrite Fab in H0.
      apply Rnot_lt_le. intro L. assert ((ya - yb) * (xc - xb) * (ya * xb - xa * yb) < 0) by nra. lra. }
    assert (Ab : pdot a b <= 0).
    { apply Rmult_le_reg_l with NN; [exact P|]. rewrite Fdab, Rmult_0_r. destruct (Req_dec yb 0) as [Z|Z].
      - exfalso. rewrite Z in * . assert (xb = 0) by nra. nra.
      - assert (0 <= xa) by nra. nra. }
    split; [rewrite pdot_neg_r, pdot_sub_l, (pdot_comm b a); pose proof (pdot_nonneg a); lra|].
    repeat split; try assumption; try (apply (beyond_ne n); assumption).
    + pose proof (abp_perp a b c) as R. rewrite pdot_sub_r in R. lra.
    + rewrite pdot_neg_r in H. lra.
  - intro H.
    assert (H1 : ya * xc - xa * yb <= 0).
    { assert (0 <= NN * NN * pdot (acp a b c) (pneg a)) by (apply Rmult_le_pos; nra). rewrite Fac in H0.
      apply Rnot_lt_le. intro L. assert (0 < (ya - yb) * (xc - xb) * (ya * xc - xa * yb)) by nra. lra. }
    assert (Ac : pdot a c <= 0).
    { apply Rmult_le_reg_l with NN; [exact P|]. rewrite Fdac, Rmult_0_r. destruct (Req_dec yb 0) as [Z|Z].
      - exfalso. rewrite Z in * . assert (xc = 0) by nra. nra.
      - assert (xa <= 0) by nra. nra. }
    repeat split; try assumption; try (apply (beyond_ne n); assumption).
    + pose proof (acp_perp a b c) as R. rewrite pdot_sub_r in R. lra.
    + rewrite pdot_neg_r in H. lra.
  - intros H1 H2.
    assert (P1 : NN * NN * pdot (abp a b c) (pneg a) < 0) by (assert (0 < NN * NN) by nra; nra).
    assert (P2 : NN * NN * pdot (acp a b c) (pneg a) < 0) by (assert (0 < NN * NN) by nra; nra).
    rewrite Fab in P1. rewrite Fac in P2.
    assert (L1 : ya * xb - xa * yb < 0) by nra. assert (L2 : 0 < ya * xc - xa * yb) by nra.
    assert (R : forall u v, NN * u = - sg * v -> forall w, NN * (abc_ a b c) = - sg * w -> NN * NN * (abc_ a b c * u) = w * v).
    { intros u v Hu w Hw. transitivity ((NN * abc_ a b c) * (NN * u)); [ring|]. rewrite Hu, Hw.
      transitivity ((sg * sg) * (w * v)); [ring | rewrite S; ring]. }
    assert (NN2 : 0 < NN * NN) by nra.
    split; [|split].
    + apply Rmult_le_reg_l with (NN * NN); [exact NN2|]. rewrite Rmult_0_r.
      rewrite (R (pcross b c) (- yb * (xc - xb)) ltac:(rewrite Cbc; ring) _ Fabc). apply Rmult_le_pos; nra.
    + apply Rmult_lt_reg_l with (NN * NN); [exact NN2|]. rewrite Rmult_0_r.
      rewrite (R (pcross c a) (ya * xc - xa * yb) ltac:(rewrite Cca; ring) _ Fabc). apply Rmult_lt_0_compat; nra.
    + apply Rmult_lt_reg_l with (NN * NN); [exact NN2|]. rewrite Rmult_0_r.
      rewrite (R (pcross a b) (xa * yb - ya * xb) ltac:(rewrite Cab; ring) _ Fabc). apply Rmult_lt_0_compat; nra.
Qed.
