(** * Analytic pairs: geometric exactness (proofs). *)
From Coq Require Import Reals Lra Psatz Bool.
From Verif Require Import Num NumXR Glam Transform2 Shapes2 Gjk Detect2 Spec SpecLink P_Base P_Transform P_Shapes P_Geo.
Local Open Scope R_scope.

Definition geo_sep (A : pset) c v := overlaps A (single c) /\ is_min_separation v A (single c).
Definition geo_con (A : pset) c v := ~ overlaps A (single c) /\ is_min_contact v A (single c).

Lemma mk_sep (A : pset) c v rho n : 0 < rho -> norm v = rho -> n <> origin ->
  (forall u, norm u <= rho -> A (psub c u)) -> (forall a, A a -> pdot n a <= pdot n (psub c v)) -> geo_sep A c v.
Proof.
  intros P E N B H. split; [exact (cert_ball_overlap A c rho P B) | exact (cert_separation A c v rho n E N B H)].
Qed.
Lemma mk_con (A : pset) c v n : n <> origin -> (forall a, A a -> pdot n a <= pdot n c) ->
  A (psub c v) -> (forall a, A a -> pdot v a <= pdot v (psub c v)) -> geo_con A c v.
Proof. intros N H I C. split; [exact (cert_not_overlap A c n N H) | exact (cert_contact A c v I C)]. Qed.

Lemma frac_bound d t x : 0 <= d / t -> t <> 0 -> x <= t -> d / t * x <= d.
Proof. intros H N L. replace d with (d / t * t) at 2 by (field; exact N). apply Rmult_le_compat_l; assumption. Qed.
Lemma rsign_sq x : rsign x * rsign x = 1.
Proof. destruct (rsign_cases x) as [[-> _]|[-> _]]; ring. Qed.
Lemma rsign_abs x : Rabs (rsign x) = 1.
Proof. destruct (rsign_cases x) as [[-> _]|[-> _]]; [apply Rabs_R1 | rewrite Rabs_left; lra]. Qed.
Lemma rsign_split x : x = rsign x * Rabs x.
Proof. rewrite <- rsign_mul. rewrite <- Rmult_assoc, rsign_sq. ring. Qed.
Lemma rsign_nz x : rsign x <> 0.
Proof. destruct (rsign_cases x) as [[-> _]|[-> _]]; lra. Qed.
Lemma rsign_bound x y : rsign x * y <= Rabs y.
Proof. destruct (rsign_cases x) as [[-> _]|[-> _]]; pose proof (Rle_abs y); pose proof (Rle_abs (- y)); rewrite Rabs_Ropp in *; lra. Qed.

(** Extent of a rounded rectangle in the axis directions and in general *)
Lemma rounded_x hx hy r a : rounded_rect hx hy r a -> Rabs (fst a) <= hx + r.
Proof.
  intros (q & Q & N). apply rect_abs in Q. destruct Q as [Q _].
  pose proof (norm_x (psub a q)). cbn in H.
  replace (fst a) with (fst q + (fst a - fst q)) by ring. pose proof (Rabs_triang (fst q) (fst a - fst q)). lra.
Qed.
Lemma rounded_y hx hy r a : rounded_rect hx hy r a -> Rabs (snd a) <= hy + r.
Proof.
  intros (q & Q & N). apply rect_abs in Q. destruct Q as [_ Q].
  pose proof (norm_y (psub a q)). cbn in H.
  replace (snd a) with (snd q + (snd a - snd q)) by ring. pose proof (Rabs_triang (snd q) (snd a - snd q)). lra.
Qed.

Section Rounded.
Variables (hx hy r : R) (c : pt).
Hypotheses (Hx : 0 <= hx) (Hy : 0 <= hy) (Hr : 0 <= r).
Let px := Rabs (fst c) - hx.
Let py := Rabs (snd c) - hy.
Let sx := rsign (fst c).
Let sy := rsign (snd c).
Let A := rounded_rect hx hy r.

Lemma nx : (sx, 0) <> origin.
Proof. intro E. injection E as E. apply (rsign_nz _ E). Qed.
Lemma ny : (0, sy) <> origin.
Proof. intro E. injection E as E. apply (rsign_nz _ E). Qed.
Lemma bound_x a : A a -> pdot (sx, 0) a <= hx + r.
Proof.
  intro HA. unfold pdot; cbn. pose proof (rounded_x _ _ _ _ HA). pose proof (rsign_bound (fst c) (fst a)). unfold sx. lra.
Qed.
Lemma bound_y a : A a -> pdot (0, sy) a <= hy + r.
Proof.
  intro HA. unfold pdot; cbn. pose proof (rounded_y _ _ _ _ HA). pose proof (rsign_bound (snd c) (snd a)). unfold sy. lra.
Qed.
Lemma cxs : fst c = sx * (px + hx). Proof. unfold sx, px. rewrite (rsign_split (fst c)) at 1. ring. Qed.
Lemma cys : snd c = sy * (py + hy). Proof. unfold sy, py. rewrite (rsign_split (snd c)) at 1. ring. Qed.
Lemma at_x k : pdot (sx, 0) (psub c (k * sx, 0)) = px + hx - k.
Proof. unfold pdot; cbn. rewrite cxs. pose proof (rsign_sq (fst c)) as Q. fold sx in Q. transitivity ((sx * sx) * (px + hx - k)); [ring | rewrite Q; ring]. Qed.
Lemma at_y k : pdot (0, sy) (psub c (0, k * sy)) = py + hy - k.
Proof. unfold pdot; cbn. rewrite cys. pose proof (rsign_sq (snd c)) as Q. fold sy in Q. transitivity ((sy * sy) * (py + hy - k)); [ring | rewrite Q; ring]. Qed.

(** centre in the core rectangle: a ball of radius r + d around it stays inside *)
Lemma inner_ball d : 0 <= d -> px <= - d -> py <= - d -> forall u, norm u <= d + r -> A (psub c u).
Proof.
  intros D P1 P2 u U. destruct (Req_dec (d + r) 0) as [Z|Z].
  - assert (norm u = 0) by (pose proof (norm_nonneg u); lra). apply norm_0 in H. subst u.
    exists c. split; [apply rect_abs; unfold px, py in *; split; lra|].
    replace (psub (psub c origin) c) with origin by (apply pt_eq; cbn; ring). rewrite norm_origin. exact Hr.
  - exists (psub c (pscale (d / (d + r)) u)).
    assert (0 <= d / (d + r)) by (apply Rmult_le_pos; [lra | left; apply Rinv_0_lt_compat; lra]).
    assert (0 <= r / (d + r)) by (apply Rmult_le_pos; [lra | left; apply Rinv_0_lt_compat; lra]).
    assert (N1 : norm (pscale (d / (d + r)) u) <= d).
    { rewrite norm_scale, Rabs_pos_eq by assumption. apply frac_bound; assumption. }
    split.
    + apply rect_abs. pose proof (norm_x (pscale (d / (d + r)) u)) as X. pose proof (norm_y (pscale (d / (d + r)) u)) as Y.
      cbn in X, Y. cbn [psub fst snd pscale]. unfold px, py in * .
      split.
      * pose proof (Rabs_triang (fst c) (- (d / (d + r) * fst u))) as T. rewrite Rabs_Ropp in T. unfold Rminus in * . lra.
      * pose proof (Rabs_triang (snd c) (- (d / (d + r) * snd u))) as T. rewrite Rabs_Ropp in T. unfold Rminus in * . lra.
    + replace (psub (psub c u) (psub c (pscale (d / (d + r)) u))) with (pneg (pscale (r / (d + r)) u)).
      2:{ apply pt_eq; cbn; field; lra. }
      rewrite norm_neg, norm_scale, Rabs_pos_eq by assumption.
      apply frac_bound; assumption.
Qed.
Lemma inside_x : px < 0 -> py <= px -> geo_sep A c ((px - r) * sx, 0).
Proof.
  intros P1 P2. apply mk_sep with (rho := - px + r) (n := (sx, 0)); [lra| |apply nx| |].
  - rewrite norm_xaxis, Rabs_mult. unfold sx. rewrite rsign_abs, Rmult_1_r, Rabs_left by lra. ring.
  - apply inner_ball; lra.
  - intros a HA. rewrite at_x. pose proof (bound_x a HA). lra.
Qed.
Lemma inside_y : py < 0 -> px <= py -> geo_sep A c (0, (py - r) * sy).
Proof.
  intros P1 P2. apply mk_sep with (rho := - py + r) (n := (0, sy)); [lra| |apply ny| |].
  - rewrite norm_yaxis, Rabs_mult. unfold sy. rewrite rsign_abs, Rmult_1_r, Rabs_left by lra. ring.
  - apply inner_ball; lra.
  - intros a HA. rewrite at_y. pose proof (bound_y a HA). lra.
Qed.
(** centre beyond a face *)
Lemma rsh x k : 0 <= k -> Rabs (rsign x * k) = k.
Proof. intro. rewrite Rabs_mult, rsign_abs, Rmult_1_l, Rabs_pos_eq; lra. Qed.
Lemma face_x_near u rho : 0 <= px -> py <= 0 -> norm u <= rho -> px + rho <= r -> A (psub c u).
Proof.
  intros P1 P2 U L. exists (sx * hx, snd c). split.
  - apply rect_abs; cbn. split; [unfold sx; rewrite rsh by assumption; lra | unfold py in P2; lra].
  - replace (psub (psub c u) (sx * hx, snd c)) with (psub (sx * px, 0) u).
    2:{ apply pt_eq; cbn; [rewrite cxs|]; ring. }
    pose proof (norm_triangle (sx * px, 0) (pneg u)) as T. rewrite norm_neg in T.
    replace (padd (sx * px, 0) (pneg u)) with (psub (sx * px, 0) u) in T by (apply pt_eq; cbn; ring).
    rewrite norm_xaxis in T. unfold sx in T at 2. rewrite rsh in T by assumption. lra.
Qed.
Lemma face_y_near u rho : 0 <= py -> px <= 0 -> norm u <= rho -> py + rho <= r -> A (psub c u).
Proof.
  intros P1 P2 U L. exists (fst c, sy * hy). split.
  - apply rect_abs; cbn. split; [unfold px in P2; lra | unfold sy; rewrite rsh by assumption; lra].
  - replace (psub (psub c u) (fst c, sy * hy)) with (psub (0, sy * py) u).
    2:{ apply pt_eq; cbn; [|rewrite cys]; ring. }
    pose proof (norm_triangle (0, sy * py) (pneg u)) as T. rewrite norm_neg in T.
    replace (padd (0, sy * py) (pneg u)) with (psub (0, sy * py) u) in T by (apply pt_eq; cbn; ring).
    rewrite norm_yaxis in T. unfold sy in T at 2. rewrite rsh in T by assumption. lra.
Qed.
Lemma face_x_in : 0 <= px -> py <= 0 -> px < r -> geo_sep A c ((px - r) * sx, 0).
Proof.
  intros P1 P2 L. apply mk_sep with (rho := r - px) (n := (sx, 0)); [lra| |apply nx| |].
  - rewrite norm_xaxis, Rabs_mult. unfold sx. rewrite rsign_abs, Rmult_1_r, Rabs_left by lra. ring.
  - intros u U. apply (face_x_near u (r - px)); lra.
  - intros a HA. rewrite at_x. pose proof (bound_x a HA). lra.
Qed.
Lemma face_y_in : 0 <= py -> px <= 0 -> py < r -> geo_sep A c (0, (py - r) * sy).
Proof.
  intros P1 P2 L. apply mk_sep with (rho := r - py) (n := (0, sy)); [lra| |apply ny| |].
  - rewrite norm_yaxis, Rabs_mult. unfold sy. rewrite rsign_abs, Rmult_1_r, Rabs_left by lra. ring.
  - intros u U. apply (face_y_near u (r - py)); lra.
  - intros a HA. rewrite at_y. pose proof (bound_y a HA). lra.
Qed.
Lemma face_x_out : 0 <= px -> py <= 0 -> r <= px -> geo_con A c ((px - r) * sx, 0).
Proof.
  intros P1 P2 L. apply mk_con with (n := (sx, 0)); [apply nx| | |].
  - intros a HA. pose proof (bound_x a HA). pose proof (at_x 0). replace (psub c (0 * sx, 0)) with c in H0 by (apply pt_eq; cbn; ring). lra.
  - exists (sx * hx, snd c). split.
    + apply rect_abs; cbn. split; [unfold sx; rewrite rsh by assumption; lra | unfold py in P2; lra].
    + replace (psub (psub c ((px - r) * sx, 0)) (sx * hx, snd c)) with (sx * r, 0).
      2:{ apply pt_eq; cbn; [rewrite cxs|]; ring. }
      rewrite norm_xaxis. unfold sx. rewrite rsh by assumption. lra.
  - intros a HA. pose proof (bound_x a HA) as B. pose proof (at_x (px - r)) as T.
    replace ((px - r) * sx, 0) with (pscale (px - r) (sx, 0)) at 1 2 by (apply pt_eq; cbn; ring).
    rewrite !(pdot_comm (pscale _ _)), !pdot_scale_r. rewrite !(pdot_comm _ (sx, 0)), T.
    apply Rmult_le_compat_l; lra.
Qed.
Lemma face_y_out : 0 <= py -> px <= 0 -> r <= py -> geo_con A c (0, (py - r) * sy).
Proof.
  intros P1 P2 L. apply mk_con with (n := (0, sy)); [apply ny| | |].
  - intros a HA. pose proof (bound_y a HA). pose proof (at_y 0). replace (psub c (0, 0 * sy)) with c in H0 by (apply pt_eq; cbn; ring). lra.
  - exists (fst c, sy * hy). split.
    + apply rect_abs; cbn. split; [unfold px in P2; lra | unfold sy; rewrite rsh by assumption; lra].
    + replace (psub (psub c (0, (py - r) * sy)) (fst c, sy * hy)) with (0, sy * r).
      2:{ apply pt_eq; cbn; [|rewrite cys]; ring. }
      rewrite norm_yaxis. unfold sy. rewrite rsh by assumption. lra.
  - intros a HA. pose proof (bound_y a HA) as B. pose proof (at_y (py - r)) as T.
    replace (0, (py - r) * sy) with (pscale (py - r) (0, sy)) at 1 2 by (apply pt_eq; cbn; ring).
    rewrite !(pdot_comm (pscale _ _)), !pdot_scale_r. rewrite !(pdot_comm _ (0, sy)), T.
    apply Rmult_le_compat_l; lra.
Qed.
(** centre beyond a corner *)
Let k : pt := (px * sx, py * sy).
Let L := norm k.
Let q : pt := (sx * hx, sy * hy).
Lemma c_corner : c = padd q k.
Proof. apply pt_eq; cbn; [rewrite cxs | rewrite cys]; ring. Qed.
Lemma corner_L : 0 < px -> 0 < py -> 0 < L.
Proof.
  intros P1 P2. apply norm_pos. intro E. injection E as E _. apply Rmult_integral in E. destruct E as [E|E]; [lra | apply (rsign_nz _ E)].
Qed.
Lemma corner_bound : 0 < px -> 0 < py -> forall a, A a -> pdot k a <= pdot k q + L * r.
Proof.
  intros P1 P2 a (b & B & N). apply rect_abs in B. destruct B as [B1 B2].
  replace a with (padd b (psub a b)) by (apply pt_eq; cbn; ring). rewrite pdot_add_r.
  pose proof (cauchy k (psub a b)) as C.
  assert (pdot k b <= pdot k q).
  { unfold pdot, k, q; cbn. pose proof (rsign_sq (fst c)) as Q1. pose proof (rsign_sq (snd c)) as Q2. fold sx in Q1. fold sy in Q2.
    replace (px * sx * (sx * hx)) with (px * hx * (sx * sx)) by ring.
    replace (py * sy * (sy * hy)) with (py * hy * (sy * sy)) by ring. rewrite Q1, Q2.
    pose proof (rsign_bound (fst c) (fst b)). pose proof (rsign_bound (snd c) (snd b)). fold sx in H. fold sy in H0. nra. }
  assert (norm k * norm (psub a b) <= L * r) by (apply Rmult_le_compat_l; [apply norm_nonneg | exact N]). lra.
Qed.
Lemma corner_in_rect : rect hx hy q.
Proof. apply rect_abs; cbn. unfold sx, sy. rewrite !rsh by assumption. lra. Qed.
Lemma corner_at : 0 < px -> 0 < py -> pdot k (psub c (pscale ((L - r) / L) k)) = pdot k q + L * r.
Proof.
  intros P1 P2. pose proof (corner_L P1 P2). rewrite c_corner, pdot_sub_r, pdot_add_r, pdot_scale_r, <- norm_sq. fold L. field. lra.
Qed.
Lemma corner_nz : 0 < px -> 0 < py -> k <> origin.
Proof. intros P1 P2 E. pose proof (corner_L P1 P2). unfold L in H. rewrite E, norm_origin in H. lra. Qed.
Lemma corner_in : 0 < px -> 0 < py -> L < r -> geo_sep A c (pscale ((L - r) / L) k).
Proof.
  intros P1 P2 LL. pose proof (corner_L P1 P2) as PL.
  apply mk_sep with (rho := r - L) (n := k); [lra| |apply corner_nz; assumption| |].
  - rewrite norm_scale. fold L. rewrite Rabs_left.
    + field. lra.
    + apply Rmult_lt_reg_r with L; [exact PL|]. replace ((L - r) / L * L) with (L - r) by (field; lra). lra.
  - intros u U. exists q. split; [apply corner_in_rect|].
    replace (psub (psub c u) q) with (padd k (pneg u)) by (rewrite c_corner; apply pt_eq; cbn; ring).
    pose proof (norm_triangle k (pneg u)). rewrite norm_neg in H. fold L in H. lra.
  - intros a HA. rewrite corner_at by assumption. apply corner_bound; assumption.
Qed.
Lemma corner_out : 0 < px -> 0 < py -> r <= L -> geo_con A c (pscale ((L - r) / L) k).
Proof.
  intros P1 P2 LL. pose proof (corner_L P1 P2) as PL.
  assert (K : 0 <= (L - r) / L) by (apply Rmult_le_pos; [lra | left; apply Rinv_0_lt_compat; exact PL]).
  apply mk_con with (n := k); [apply corner_nz; assumption| | |].
  - intros a HA. pose proof (corner_bound P1 P2 a HA).
    rewrite c_corner, pdot_add_r, <- norm_sq. fold L. nra.
  - exists q. split; [apply corner_in_rect|].
    replace (psub (psub c (pscale ((L - r) / L) k)) q) with (pscale (r / L) k).
    2:{ rewrite c_corner. apply pt_eq; cbn; field; lra. }
    rewrite norm_scale. fold L. rewrite Rabs_pos_eq; [right; field; lra|].
    apply Rmult_le_pos; [exact Hr | left; apply Rinv_0_lt_compat; exact PL].
  - intros a HA. pose proof (corner_bound P1 P2 a HA) as B. pose proof (corner_at P1 P2) as T.
    rewrite !(pdot_comm (pscale _ _)) , !pdot_scale_r, !(pdot_comm _ k). rewrite T.
    apply Rmult_le_compat_l; lra.
Qed.
End Rounded.

(** ** Discs *)
Lemma disc_in r c : 0 <= r -> norm c < r -> c <> origin -> geo_sep (disc r) c (pscale ((norm c - r) / norm c) c).
Proof.
  intros Hr L N. pose proof (norm_pos c N) as P.
  apply mk_sep with (rho := r - norm c) (n := c); [lra| |exact N| |].
  - rewrite norm_scale, Rabs_left.
    + field. lra.
    + apply Rmult_lt_reg_r with (norm c); [exact P|]. replace ((norm c - r) / norm c * norm c) with (norm c - r) by (field; lra). lra.
  - intros u U. unfold disc. pose proof (norm_triangle c (pneg u)). rewrite norm_neg in H.
    replace (padd c (pneg u)) with (psub c u) in H by (apply pt_eq; cbn; ring). lra.
  - intros a HA. pose proof (cauchy c a). unfold disc in HA. rewrite pdot_sub_r, pdot_scale_r, <- norm_sq.
    replace (norm c * norm c - (norm c - r) / norm c * (norm c * norm c)) with (norm c * r) by (field; lra).
    assert (norm c * norm a <= norm c * r) by (apply Rmult_le_compat_l; lra). lra.
Qed.
Lemma disc_centre r : 0 < r -> geo_sep (disc r) origin (r, 0).
Proof.
  intro Hr. apply mk_sep with (rho := r) (n := (-1, 0)); [lra| | | |].
  - rewrite norm_xaxis, Rabs_pos_eq; lra.
  - intro E. injection E. lra.
  - intros u U. unfold disc. replace (psub origin u) with (pneg u) by (apply pt_eq; cbn; ring). rewrite norm_neg. exact U.
  - intros a HA. unfold disc in HA. pose proof (norm_x a). unfold pdot; cbn.
    pose proof (Rle_abs (- fst a)). rewrite Rabs_Ropp in H0. lra.
Qed.
Lemma disc_out r c : 0 <= r -> r <= norm c -> c <> origin -> geo_con (disc r) c (pscale ((norm c - r) / norm c) c).
Proof.
  intros Hr L N. pose proof (norm_pos c N) as P.
  assert (K : 0 <= (norm c - r) / norm c) by (apply Rmult_le_pos; [lra | left; apply Rinv_0_lt_compat; exact P]).
  assert (T : pdot c (psub c (pscale ((norm c - r) / norm c) c)) = norm c * r).
  { rewrite pdot_sub_r, pdot_scale_r, <- norm_sq. field. lra. }
  assert (B : forall a, disc r a -> pdot c a <= norm c * r).
  { intros a HA. pose proof (cauchy c a). unfold disc in HA.
    assert (norm c * norm a <= norm c * r) by (apply Rmult_le_compat_l; lra). lra. }
  apply mk_con with (n := c); [exact N| | |].
  - intros a HA. specialize (B a HA). rewrite <- norm_sq. nra.
  - unfold disc. replace (psub c (pscale ((norm c - r) / norm c) c)) with (pscale (r / norm c) c) by (apply pt_eq; cbn; field; lra).
    rewrite norm_scale, Rabs_pos_eq; [right; field; lra|].
    apply Rmult_le_pos; [exact Hr | left; apply Rinv_0_lt_compat; exact P].
  - intros a HA. specialize (B a HA). rewrite !(pdot_comm (pscale _ _)), !pdot_scale_r, !(pdot_comm _ c), T.
    apply Rmult_le_compat_l; lra.
Qed.
Lemma disc0_not_overlap : ~ overlaps (disc 0) (single origin).
Proof.
  apply cert_not_overlap with (n := (1, 0)); [intro E; injection E; lra|].
  intros a HA. unfold disc in HA. assert (norm a = 0) by (pose proof (norm_nonneg a); lra). apply norm_0 in H. subst a. lra.
Qed.

(** ** From certificates to [answers_exact] *)
Section Answers.
Variable f : bool -> bool -> res (bool * vec2 XR).
Definition all_queries (A B : pset) : Prop :=
  answers_exact A B (rmap fst (f false false))
    (rmap (fun r : bool * vec2 XR => if fst r then Some (snd r) else None) (f true false))
    (rmap (fun r : bool * vec2 XR => if fst r then None else Some (snd r)) (f false true)) (f true true).
Lemma ans_sep A c v : geo_sep A c v -> (forall P D, exists w, f P D = Ok (true, w) /\ (P = true -> w = inj v)) ->
  all_queries A (single c).
Proof.
  intros [O S] H. left. split; [exact O|]. exists v. split; [exact S|].
  destruct (H false false) as (w1 & -> & _), (H true false) as (w2 & -> & E2), (H false true) as (w3 & -> & _), (H true true) as (w4 & -> & E4).
  rewrite E2, E4 by reflexivity. repeat split; reflexivity.
Qed.
Lemma ans_con A c v : geo_con A c v -> (forall P D, exists w, f P D = Ok (false, w) /\ (D = true -> w = inj v)) ->
  all_queries A (single c).
Proof.
  intros [O S] H. right. split; [exact O|]. exists v. split; [exact S|].
  destruct (H false false) as (w1 & -> & _), (H true false) as (w2 & -> & _), (H false true) as (w3 & -> & E3), (H true true) as (w4 & -> & E4).
  rewrite E3, E4 by reflexivity. repeat split; reflexivity.
Qed.
Lemma ans_same A B A' B' : same_set (minkowski_diff A B) (minkowski_diff A' B') -> all_queries A B -> all_queries A' B'.
Proof.
  intros H [[O (v & S & E)]|[O (v & S & E)]]; [left | right];
  (split; [rewrite <- (same_overlaps _ _ _ _ H); exact O | exists v; split; [|exact E]]).
  - apply (same_min_separation _ _ _ _ H), S.
  - apply (same_min_contact _ _ _ _ H), S.
Qed.
End Answers.

Section Pairs.
Context {T : Type} {TR : Transformation2d XR T}.
Implicit Types rel : T.

Lemma box_flag hx hy c rel : apply_origin rel = inj c ->
  fst (box_point_sdfv false false (pbox hx hy) rel) = Rltb (Rabs (fst c) - hx) 0 && Rltb (Rabs (snd c) - hy) 0.
Proof.
  intro E. unfold box_point_sdfv. rewrite E. cbn [inj vx vy halfsize pbox fst snd].
  cbn [fabs fsub fnegsign FloatXR xabs xsub xsgn].
  destruct (Rltb (Rabs (fst c) - hx) 0 && Rltb (Rabs (snd c) - hy) 0); reflexivity.
Qed.

Lemma rounded_exact hx hy r c rel : 0 <= hx -> 0 <= hy -> 0 <= r -> apply_origin rel = inj c ->
  ~ (Rabs (fst c) = hx /\ Rabs (snd c) < hy) ->
  all_queries (fun P D => Ok (rounded_point_sdfv P D (prounded hx hy r) rel)) (rounded_rect hx hy r) (single c).
Proof.
  intros Hx Hy Hr E NB.
  assert (F : forall P D, rounded_point_sdfv P D (prounded hx hy r) rel =
    let px := Rabs (fst c) - hx in let py := Rabs (snd c) - hy in
    let sx := rsign (fst c) in let sy := rsign (snd c) in
    let k := (px * sx, py * sy) in
    if Rltb px 0 && Rltb py 0 then
      if Rltb py px then (true, inj ((px - r) * sx, 0)) else (true, inj (0, (py - r) * sy))
    else if Rleb px 0 then (Rltb py r, inj (0, (py - r) * sy))
    else if Rleb py 0 then (Rltb px r, inj ((px - r) * sx, 0))
    else (Rltb (norm k) r, inj (pscale ((norm k - r) / norm k) k))).
  { intros P D. unfold rounded_point_sdfv. change (box_part (prounded hx hy r)) with (pbox hx hy). rewrite (box_flag hx hy c rel E). rewrite E.
    cbn [inj vx vy rb_halfsize rb_radius prounded fst snd]. rewrite !fsignum_fin.
    change (fabs (XFin (fst c))) with (XFin (Rabs (fst c))). change (fabs (XFin (snd c))) with (XFin (Rabs (snd c))).
    cbn [fsub fmul FloatXR xsub xmul fle flt xlt xle f0].
    fold (rsign (fst c)) (rsign (snd c)).
    set (px := Rabs (fst c) - hx). set (py := Rabs (snd c) - hy). cbv zeta.
    set (k := (px * rsign (fst c), py * rsign (snd c))).
    destruct (Rltb px 0 && Rltb py 0) eqn:Q; [destruct (Rltb py px); reflexivity|].
    destruct (Rleb_spec px 0); [reflexivity|]. destruct (Rleb_spec py 0); [reflexivity|].
    change (V2 (XFin (px * rsign (fst c))) (XFin (py * rsign (snd c)))) with (inj k).
    rewrite v2len_inj. cbn [xlt]. f_equal. unfold v2divs, v2muls.
    assert (N : norm k <> 0).
    { intro Z. apply norm_0 in Z. injection Z as Z _. apply Rmult_integral in Z. destruct Z as [Z|Z]; [lra | apply (rsign_nz _ Z)]. }
    cbn [inj vx vy fst snd xsub fmul FloatXR xmul fdiv]. rewrite !xdiv_fin by exact N.
    apply vec_ext; cbn; f_equal; field; exact N. }
  set (px := Rabs (fst c) - hx) in * . set (py := Rabs (snd c) - hy) in * . cbv zeta in F.
  destruct (Rltb_spec px 0) as [X|X]; [destruct (Rltb_spec py 0) as [Y|Y]|]; cbn [andb] in F.
  - destruct (Rltb_spec py px) as [W|W].
    + eapply ans_sep; [apply inside_x; try assumption; unfold px, py in *; lra|].
      intros P D. rewrite F. eexists; split; [reflexivity | intros _; reflexivity].
    + eapply ans_sep; [apply inside_y; try assumption; unfold px, py in *; lra|].
      intros P D. rewrite F. eexists; split; [reflexivity | intros _; reflexivity].
  - rewrite (Rleb_true px 0) in F by lra. destruct (Rltb_spec py r) as [W|W].
    + eapply ans_sep; [apply face_y_in; try assumption; unfold px, py in *; lra|].
      intros P D. rewrite F. eexists; split; [reflexivity | intros _; reflexivity].
    + eapply ans_con; [apply face_y_out; try assumption; unfold px, py in *; lra|].
      intros P D. rewrite F. eexists; split; [reflexivity | intros _; reflexivity].
  - destruct (Rleb_spec px 0) as [X'|X'].
    + assert (0 <= py). { apply Rnot_lt_le. intro. apply NB. unfold px, py in *; lra. }
      destruct (Rltb_spec py r) as [W|W].
      * eapply ans_sep; [apply face_y_in; try assumption; unfold px, py in *; lra|].
        intros P D. rewrite F. eexists; split; [reflexivity | intros _; reflexivity].
      * eapply ans_con; [apply face_y_out; try assumption; unfold px, py in *; lra|].
        intros P D. rewrite F. eexists; split; [reflexivity | intros _; reflexivity].
    + destruct (Rleb_spec py 0) as [Y'|Y'].
      * destruct (Rltb_spec px r) as [W|W].
        -- eapply ans_sep; [apply face_x_in; try assumption; unfold px, py in *; lra|].
           intros P D. rewrite F. eexists; split; [reflexivity | intros _; reflexivity].
        -- eapply ans_con; [apply face_x_out; try assumption; unfold px, py in *; lra|].
           intros P D. rewrite F. eexists; split; [reflexivity | intros _; reflexivity].
      * destruct (Rltb_spec (norm (px * rsign (fst c), py * rsign (snd c))) r) as [W|W].
        -- eapply ans_sep; [apply corner_in; try assumption; unfold px, py in *; lra|].
           intros P D. rewrite F. eexists; split; [reflexivity | intros _; reflexivity].
        -- eapply ans_con; [apply corner_out; try assumption; unfold px, py in *; try lra; apply Rnot_lt_le; exact W|].
           intros P D. rewrite F. eexists; split; [reflexivity | intros _; reflexivity].
Qed.

Lemma rounded_0 hx hy : same_set (rounded_rect hx hy 0) (rect hx hy).
Proof.
  intro p. split.
  - intros (q & Q & N). assert (norm (psub p q) = 0) by (pose proof (norm_nonneg (psub p q)); lra).
    apply norm_0 in H. replace p with q; [exact Q|].
    pose proof (f_equal fst H); pose proof (f_equal snd H); cbn in * . apply pt_eq; lra.
  - intro Q. exists p. split; [exact Q|]. replace (psub p p) with origin by (apply pt_eq; cbn; ring). rewrite norm_origin. lra.
Qed.
Lemma geo_sep_ext A A' c v : same_set A A' -> geo_sep A c v -> geo_sep A' c v.
Proof.
  intros H [O S]. pose proof (diff_ext A A' (single c) (single c) H (fun _ => iff_refl _)) as D.
  split; [apply (same_overlaps _ _ _ _ D), O | apply (same_min_separation _ _ _ _ D), S].
Qed.
Lemma geo_con_ext A A' c v : same_set A A' -> geo_con A c v -> geo_con A' c v.
Proof.
  intros H [O S]. pose proof (diff_ext A A' (single c) (single c) H (fun _ => iff_refl _)) as D.
  split; [rewrite <- (same_overlaps _ _ _ _ D); exact O | apply (same_min_contact _ _ _ _ D), S].
Qed.

Lemma box_point_eq hx hy c rel P D : apply_origin rel = inj c ->
  box_point_sdfv P D (pbox hx hy) rel =
    let px := Rabs (fst c) - hx in let py := Rabs (snd c) - hy in
    let sx := rsign (fst c) in let sy := rsign (snd c) in
    if Rltb px 0 && Rltb py 0 then
      (true, if P then if Rltb py px then inj (px * sx, 0) else inj (0, py * sy) else v2nan)
    else (false, if D then inj (Rmax px 0 * sx, Rmax py 0 * sy) else v2nan).
Proof.
  intro E. unfold box_point_sdfv. rewrite E. cbn [inj vx vy halfsize pbox fst snd]. rewrite !fsignum_fin.
  cbn [fabs fsub fnegsign FloatXR xabs xsub xsgn f0]. rewrite !fmax_fin. cbn [flt fmul FloatXR xlt xmul].
  fold (rsign (fst c)) (rsign (snd c)). cbv zeta. destruct (_ && _); reflexivity.
Qed.
Lemma box_point_exact hx hy c rel : 0 <= hx -> 0 <= hy -> apply_origin rel = inj c ->
  all_queries (fun P D => Ok (box_point_sdfv P D (pbox hx hy) rel)) (rect hx hy) (single c).
Proof.
  intros Hx Hy E.
  assert (F := fun P D => box_point_eq hx hy c rel P D E). cbv zeta in F.
  pose proof (rounded_0 hx hy) as R0. assert (Z : 0 <= 0) by lra.
  set (px := Rabs (fst c) - hx) in * . set (py := Rabs (snd c) - hy) in * .
  assert (M0 : forall x, x <= 0 -> Rmax x 0 = 0) by (intros; apply Rmax_right; lra).
  assert (M1 : forall x, 0 <= x -> Rmax x 0 = x) by (intros; apply Rmax_left; lra).
  assert (OUT_X : 0 <= px -> py <= 0 -> geo_con (rect hx hy) c (Rmax px 0 * rsign (fst c), Rmax py 0 * rsign (snd c))).
  { intros X Y. rewrite (M1 px X), (M0 py Y), Rmult_0_l. apply (geo_con_ext _ _ _ _ R0).
    replace (px * rsign (fst c)) with ((px - 0) * rsign (fst c)) by ring. apply face_x_out; assumption. }
  assert (OUT_Y : 0 <= py -> px <= 0 -> geo_con (rect hx hy) c (Rmax px 0 * rsign (fst c), Rmax py 0 * rsign (snd c))).
  { intros X Y. rewrite (M1 py X), (M0 px Y), Rmult_0_l. apply (geo_con_ext _ _ _ _ R0).
    replace (py * rsign (snd c)) with ((py - 0) * rsign (snd c)) by ring. apply face_y_out; assumption. }
  assert (OUT_C : 0 < px -> 0 < py -> geo_con (rect hx hy) c (Rmax px 0 * rsign (fst c), Rmax py 0 * rsign (snd c))).
  { intros X Y. rewrite (M1 px), (M1 py) by lra. apply (geo_con_ext _ _ _ _ R0).
    pose proof (corner_L hx hy c X Y) as PL. fold px py in PL.
    replace (px * rsign (fst c), py * rsign (snd c)) with
      (pscale ((norm (px * rsign (fst c), py * rsign (snd c)) - 0) / norm (px * rsign (fst c), py * rsign (snd c)))
        (px * rsign (fst c), py * rsign (snd c))).
    - apply corner_out; try assumption. left; exact PL.
    - apply pt_eq; cbn [pscale fst snd]; field; lra. }
  destruct (Rltb_spec px 0) as [X|X]; [destruct (Rltb_spec py 0) as [Y|Y]|]; cbn [andb] in F.
  - destruct (Rltb_spec py px) as [W|W].
    + eapply ans_sep with (v := (px * rsign (fst c), 0)).
      * apply (geo_sep_ext _ _ _ _ R0). replace (px * rsign (fst c)) with ((px - 0) * rsign (fst c)) by ring.
        apply inside_x; try assumption. unfold px, py in *; lra.
      * intros P D. rewrite F. eexists; split; [reflexivity | intros ->; reflexivity].
    + eapply ans_sep with (v := (0, py * rsign (snd c))).
      * apply (geo_sep_ext _ _ _ _ R0). replace (py * rsign (snd c)) with ((py - 0) * rsign (snd c)) by ring.
        apply inside_y; try assumption. unfold px, py in *; lra.
      * intros P D. rewrite F. eexists; split; [reflexivity | intros ->; reflexivity].
  - eapply ans_con; [apply OUT_Y; lra|]. intros P D. rewrite F. eexists; split; [reflexivity | intros ->; reflexivity].
  - destruct (Rlt_le_dec 0 py) as [Y|Y].
    + destruct (Rlt_le_dec 0 px) as [X'|X'].
      * eapply ans_con; [apply OUT_C; lra|]. intros P D. rewrite F. eexists; split; [reflexivity | intros ->; reflexivity].
      * eapply ans_con; [apply OUT_Y; lra|]. intros P D. rewrite F. eexists; split; [reflexivity | intros ->; reflexivity].
    + eapply ans_con; [apply OUT_X; lra|]. intros P D. rewrite F. eexists; split; [reflexivity | intros ->; reflexivity].
Qed.

Lemma ball_point_eq r c rel P D : apply_origin rel = inj c -> c <> origin ->
  ball_point_sdfv P D (pball r) rel = (Rltb (norm c) r, inj (pscale ((norm c - r) / norm c) c)).
Proof.
  intros E N. pose proof (norm_pos c N). unfold ball_point_sdfv. rewrite E, v2len_inj. cbn [flt FloatXR xlt f0 b_radius pball].
  rewrite Rltb_true by assumption. f_equal. cbn [fsub fdiv FloatXR xsub]. rewrite xdiv_fin by lra. apply v2muls_inj.
Qed.
Lemma ball_point_eq0 r rel P D : apply_origin rel = inj origin -> ball_point_sdfv P D (pball r) rel = (true, inj (r, 0)).
Proof.
  intro E. unfold ball_point_sdfv. rewrite E, v2len_inj, norm_origin. cbn [flt FloatXR xlt f0].
  rewrite Rltb_false by lra. f_equal. apply vec_ext; cbn; f_equal; ring.
Qed.
Lemma ball_point_exact r c rel : 0 <= r -> apply_origin rel = inj c -> 0 < r \/ c <> origin ->
  all_queries (fun P D => Ok (ball_point_sdfv P D (pball r) rel)) (disc r) (single c).
Proof.
  intros Hr E NZ. destruct (pt_eq_dec_origin c) as [->|N].
  - destruct NZ as [P0|N]; [|contradiction]. eapply ans_sep; [apply disc_centre, P0|].
    intros P D. rewrite (ball_point_eq0 r rel P D E). eexists; split; [reflexivity | intros _; reflexivity].
  - destruct (Rlt_le_dec (norm c) r) as [L|L].
    + eapply ans_sep; [apply disc_in; assumption|]. intros P D. rewrite (ball_point_eq r c rel P D E N), Rltb_true by assumption.
      eexists; split; [reflexivity | intros _; reflexivity].
    + eapply ans_con; [apply disc_out; assumption|]. intros P D. rewrite (ball_point_eq r c rel P D E N), Rltb_false by assumption.
      eexists; split; [reflexivity | intros _; reflexivity].
Qed.
Lemma ball_ball_is_point P D r1 r2 rel :
  ball_ball_sdfv P D (pball r1) (pball r2) rel = ball_point_sdfv P D (pball (r1 + r2)) rel.
Proof. reflexivity. Qed.

(** inflating by the other ball *)
Lemma place_psub v c s k p : psub (place v c s k k p) v = rotate c s (pscale k p).
Proof. apply pt_eq; cbn; ring. Qed.
Lemma diff_disc_disc r1 r2 v c s : 0 <= r1 -> 0 <= r2 -> c * c + s * s = 1 ->
  same_set (minkowski_diff (disc (r1 + r2)) (single v)) (minkowski_diff (disc r1) (image (place v c s 1 1) (disc r2))).
Proof.
  intros H1 H2 U p. split.
  - intros (a & b & HA & -> & ->). unfold disc in HA.
    destruct (Req_dec (r1 + r2) 0) as [Z|Z].
    { exists a, v. repeat split; [unfold disc; lra | exists origin; split; [unfold disc; rewrite norm_origin; exact H2 | apply pt_eq; cbn; ring]]. }
    set (m := padd v (pneg (pscale (r2 / (r1 + r2)) a))).
    exists (pscale (r1 / (r1 + r2)) a), m. 
    assert (0 <= r1 / (r1 + r2)) by (apply Rmult_le_pos; [lra | left; apply Rinv_0_lt_compat; lra]).
    assert (0 <= r2 / (r1 + r2)) by (apply Rmult_le_pos; [lra | left; apply Rinv_0_lt_compat; lra]).
    repeat split.
    + unfold disc. rewrite norm_scale, Rabs_pos_eq by assumption. apply frac_bound; assumption.
    + exists (unplace v c s 1 1 m). split.
      * unfold disc. rewrite <- (norm_rotate c s _ U).
        replace (rotate c s (unplace v c s 1 1 m)) with (psub (place v c s 1 1 (unplace v c s 1 1 m)) v) by (rewrite place_psub; apply pt_eq; cbn; ring).
        rewrite place_unplace by (exact U || lra). unfold m.
        replace (psub (padd v (pneg (pscale (r2 / (r1 + r2)) a))) v) with (pneg (pscale (r2 / (r1 + r2)) a)) by (apply pt_eq; cbn; ring).
        rewrite norm_neg, norm_scale, Rabs_pos_eq by assumption. apply frac_bound; assumption.
      * rewrite place_unplace by (exact U || lra). reflexivity.
    + unfold m. apply pt_eq; cbn; field; lra.
  - intros (a & b & HA & (q & Q & ->) & ->). unfold disc in HA, Q.
    exists (psub a (rotate c s q)), v. repeat split.
    + unfold disc. pose proof (norm_triangle a (pneg (rotate c s q))) as TT. rewrite norm_neg, norm_rotate in TT by exact U.
      replace (padd a (pneg (rotate c s q))) with (psub a (rotate c s q)) in TT by (apply pt_eq; cbn; ring). lra.
    + apply pt_eq; cbn; ring.
Qed.
Lemma diff_rect_disc hx hy r v c s : 0 <= r -> c * c + s * s = 1 ->
  same_set (minkowski_diff (rounded_rect hx hy r) (single v)) (minkowski_diff (rect hx hy) (image (place v c s 1 1) (disc r))).
Proof.
  intros H2 U p. split.
  - intros (a & b & (q & Q & N) & -> & ->).
    set (m := padd v (psub q a)). exists q, m. repeat split; [apply Q | apply Q | apply Q | apply Q | |].
    + exists (unplace v c s 1 1 m). split.
      * unfold disc. rewrite <- (norm_rotate c s _ U).
        replace (rotate c s (unplace v c s 1 1 m)) with (psub (place v c s 1 1 (unplace v c s 1 1 m)) v) by (rewrite place_psub; apply pt_eq; cbn; ring).
        rewrite place_unplace by (exact U || lra). unfold m.
        replace (psub (padd v (psub q a)) v) with (pneg (psub a q)) by (apply pt_eq; cbn; ring).
        rewrite norm_neg. exact N.
      * rewrite place_unplace by (exact U || lra). reflexivity.
    + unfold m. apply pt_eq; cbn; ring.
  - intros (a & b & HA & (q & Q & ->) & ->).
    exists (psub a (rotate c s q)), v. repeat split.
    + exists a. split; [exact HA|]. replace (psub (psub a (rotate c s q)) a) with (pneg (rotate c s q)) by (apply pt_eq; cbn; ring).
      rewrite norm_neg, norm_rotate by exact U. exact Q.
    + apply pt_eq; cbn; ring.
Qed.
End Pairs.
