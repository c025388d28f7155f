(** * EPA in exact arithmetic (proofs). *)
From Coq Require Import Reals Lra Psatz Bool List Lia Arith.
From Verif Require Import Num NumXR Glam Transform2 Shapes2 Gjk Spec SpecLink P_Base P_Transform P_Shapes P_Geo P_GjkShape SpecGjk P_Gjk P_Gjk2 P_Gjk3.
Import ListNotations.
Local Open Scope R_scope.

(** ** Distance from the origin to a segment *)
Definition clamp01 (t : R) : R := if Rltb t 0 then 0 else if Rltb 1 t then 1 else t.
Definition segt (a b : pt) : R := clamp01 (pdot (pneg a) (psub b a) / pdot (psub b a) (psub b a)).
Definition segp (a b : pt) : pt := padd a (pscale (segt a b) (psub b a)).
Definition segd (a b : pt) : R := pdot (segp a b) (segp a b).
Lemma sub_ne a b : a <> b -> psub b a <> origin.
Proof. intros N E. apply N. apply pt_eq; [apply (f_equal fst) in E | apply (f_equal snd) in E]; cbn in E; lra. Qed.
Lemma clamp01_range t : 0 <= clamp01 t <= 1.
Proof. unfold clamp01. destruct (Rltb_spec t 0); [lra|]. destruct (Rltb_spec 1 t); lra. Qed.
Lemma segd_eq a b : a <> b -> edge_dist_sq (inj a) (inj b) = XFin (segd a b).
Proof.
  intro N. pose proof (dot_pos _ (sub_ne a b N)) as P. unfold edge_dist_sq. rewrite v2sub_inj, v2neg_inj, !v2dot_inj.
  change (fdiv (XFin (pdot (pneg a) (psub b a))) (XFin (pdot (psub b a) (psub b a)))) with (xdiv (XFin (pdot (pneg a) (psub b a))) (XFin (pdot (psub b a) (psub b a)))).
  unfold xdiv. rewrite Reqb_false by lra. fold (segt a b).
  set (t := pdot (pneg a) (psub b a) / pdot (psub b a) (psub b a)).
  assert (C : fclamp (XFin t) f0 f1 = XFin (clamp01 t)).
  { unfold fclamp, clamp01. cbn. destruct (Rltb_spec t 0); cbn; [rewrite Rltb_false by lra; reflexivity|]. destruct (Rltb 1 t); reflexivity. }
  rewrite C, v2muls_inj, v2add_inj, v2lensq_inj. reflexivity.
Qed.
Lemma segd_min a b t : a <> b -> 0 <= t <= 1 -> segd a b <= pdot (padd a (pscale t (psub b a))) (padd a (pscale t (psub b a))).
Proof.
  intros N T. pose proof (dot_pos _ (sub_ne a b N)) as P. set (q := pdot (psub b a) (psub b a)) in * . set (m := pdot a (psub b a)).
  assert (Q : forall u, pdot (padd a (pscale u (psub b a))) (padd a (pscale u (psub b a))) = pdot a a + 2 * u * m + u * u * q).
  { intro u. unfold q, m, pdot, padd, pscale, psub; cbn. ring. }
  unfold segd, segp, segt. rewrite !Q. fold q. rewrite pdot_neg_l. fold m. set (z := - m / q).
  assert (Em : m = - (z * q)) by (unfold z; field; lra). rewrite Em. unfold clamp01.
  destruct (Rltb_spec z 0).
  { assert (0 <= q * (t * (t - 2 * z))) by (apply Rmult_le_pos; [lra | apply Rmult_le_pos; lra]). lra. }
  destruct (Rltb_spec 1 z).
  { assert (0 <= q * ((1 - t) * (2 * z - 1 - t))) by (apply Rmult_le_pos; [lra | apply Rmult_le_pos; lra]). lra. }
  assert (0 <= q * ((t - z) * (t - z))) by (apply Rmult_le_pos; [lra | apply Rle_0_sqr]). lra.
Qed.
(** the outward normal of an edge of a counter-clockwise polygon, and the cross product as support height *)
Definition nrm (a b : pt) : pt := (snd (psub b a), - fst (psub b a)).
Lemma nrm_inj a b : perp_right (v2sub (inj b) (inj a)) = inj (nrm a b).
Proof. reflexivity. Qed.
Lemma nrm_a a b : pdot (nrm a b) a = pcross a b.
Proof. unfold nrm, pdot, pcross, psub; cbn. ring. Qed.
Lemma nrm_b a b : pdot (nrm a b) b = pcross a b.
Proof. unfold nrm, pdot, pcross, psub; cbn. ring. Qed.
Lemma nrm_sq a b : pdot (nrm a b) (nrm a b) = pdot (psub b a) (psub b a).
Proof. unfold nrm, pdot; cbn. ring. Qed.
Lemma nrm_norm a b : norm (nrm a b) = norm (psub b a).
Proof. unfold norm. rewrite nrm_sq. reflexivity. Qed.
Lemma nrm_ne a b : a <> b -> nrm a b <> origin.
Proof. intros N E. pose proof (dot_pos _ (sub_ne a b N)) as P. rewrite <- nrm_sq, E in P. unfold pdot, origin in P; cbn in P. lra. Qed.
Lemma segd_line a b : pcross a b * pcross a b <= pdot (nrm a b) (nrm a b) * segd a b.
Proof.
  assert (E : pdot (nrm a b) (segp a b) = pcross a b).
  { unfold segp. rewrite pdot_add_r, pdot_scale_r, pdot_sub_r, nrm_a, nrm_b. ring. }
  rewrite <- E. apply cauchy_sq.
Qed.

(** ** Cones and the cover of the plane *)
Definition cone (p q u : pt) : Prop := exists x y, 0 <= x /\ 0 <= y /\ u = padd (pscale x p) (pscale y q).
Definition okedge (e : pt * pt) : Prop :=
  0 < pcross (fst e) (snd e) \/ (pcross (fst e) (snd e) = 0 /\ pdot (fst e) (snd e) < 0).
Definition sector (e : pt * pt) (u : pt) : Prop :=
  cone (fst e) (snd e) u \/ (pcross (fst e) (snd e) = 0 /\ 0 <= pcross (fst e) u).
Definition cover (E : list (pt * pt)) : Prop := forall u, exists e, In e E /\ sector e u.
Lemma okedge_ne e : okedge e -> fst e <> snd e.
Proof.
  destruct e as [p q]. unfold okedge; cbn. intros [H|[_ H]] E; subst q.
  - unfold pcross in H. lra.
  - pose proof (pdot_nonneg p). lra.
Qed.
Lemma okedge_nonneg p q : okedge (p, q) -> 0 <= pcross p q.
Proof. unfold okedge; cbn [fst snd]. intros [H|[H _]]; lra. Qed.
Lemma cone_cross p q u : 0 < pcross p q -> 0 <= pcross p u -> 0 <= pcross u q -> cone p q u.
Proof.
  intros P A B. exists (pcross u q / pcross p q), (pcross p u / pcross p q).
  split; [apply Rmult_le_pos; [exact B | apply Rlt_le, Rinv_0_lt_compat, P]|].
  split; [apply Rmult_le_pos; [exact A | apply Rlt_le, Rinv_0_lt_compat, P]|].
  unfold pcross in * . apply pt_eq; cbn; field; lra.
Qed.
Lemma cross_anti p q : pcross p q = - pcross q p.
Proof. unfold pcross; ring. Qed.
Lemma cross_comb p x q y r : pcross p (padd (pscale x q) (pscale y r)) = x * pcross p q + y * pcross p r.
Proof. unfold pcross; cbn; ring. Qed.
Lemma cross_comb_l p x q y r : pcross (padd (pscale x q) (pscale y r)) p = x * pcross q p + y * pcross r p.
Proof. unfold pcross; cbn; ring. Qed.
Lemma cross_self p : pcross p p = 0.
Proof. unfold pcross; ring. Qed.
(** three vectors of the plane are dependent *)
Lemma cross3 p q r u : pcross q r * pcross p u + pcross r p * pcross q u + pcross p q * pcross r u = 0.
Proof. unfold pcross; ring. Qed.

Lemma triangle_cover p q r : 0 < pcross p q -> 0 <= pcross q r -> 0 < pcross r p -> cover [(p, q); (q, r); (r, p)].
Proof.
  intros A B C u. pose proof (cross3 p q r u) as D.
  assert (S : 0 <= pcross q u -> 0 <= pcross u r -> sector (q, r) u).
  { intros X Y. destruct (Rle_lt_or_eq_dec _ _ B) as [P|P]; [left; apply cone_cross; assumption | right; cbn; split; [lra | exact X]]. }
  rewrite (cross_anti u r) in S.
  destruct (Rle_lt_dec 0 (pcross p u)) as [P|P].
  - destruct (Rle_lt_dec 0 (pcross u q)) as [Q|Q]; [exists (p, q); cbn; split; [auto | left; apply cone_cross; assumption]|].
    rewrite cross_anti in Q. destruct (Rle_lt_dec (pcross r u) 0) as [R|R]; [exists (q, r); cbn; split; [auto | apply S; lra]|].
    exfalso. assert (0 <= pcross q r * pcross p u) by (apply Rmult_le_pos; assumption).
    assert (0 < pcross r p * pcross q u) by (apply Rmult_lt_0_compat; lra). assert (0 < pcross p q * pcross r u) by (apply Rmult_lt_0_compat; lra). lra.
  - destruct (Rle_lt_dec 0 (pcross r u)) as [R|R].
    + exists (r, p); cbn; split; [auto|]. left. cbn [fst snd]. apply cone_cross; try assumption. rewrite cross_anti. lra.
    + destruct (Rle_lt_dec 0 (pcross q u)) as [Q|Q]; [exists (q, r); cbn; split; [auto | apply S; lra]|].
      exfalso. assert (pcross q r * pcross p u <= 0) by nra.
      assert (pcross r p * pcross q u < 0) by nra. assert (pcross p q * pcross r u < 0) by nra. lra.
Qed.

(** splitting the sector of an edge at a point strictly beyond it *)
Definition beyond_edge (p q x : pt) : Prop :=
  0 < pcross p x /\ 0 < pcross x q /\ pcross p q < pdot (nrm p q) x.
Lemma split_sector p q x : okedge (p, q) -> beyond_edge p q x ->
  okedge (p, x) /\ okedge (x, q) /\ (forall u, sector (p, q) u -> sector (p, x) u \/ sector (x, q) u).
Proof.
  intros OK (X1 & X2 & X3). split; [left; exact X1|]. split; [left; exact X2|].
  assert (H : forall u, 0 <= pcross p u -> 0 <= pcross u q -> sector (p, x) u \/ sector (x, q) u).
  { intros u U1 U2. destruct (Rle_lt_dec 0 (pcross u x)) as [L|L].
    - left. left. apply cone_cross; assumption.
    - right. left. cbn [fst snd]. apply cone_cross; try assumption. rewrite cross_anti. lra. }
  pose proof (okedge_nonneg p q OK) as NN.
  intros u [(a & b & Ha & Hb & ->)|[Z Hu]]; cbn [fst snd] in * .
  - apply H; [rewrite cross_comb, cross_self | rewrite cross_comb_l, cross_self].
    + assert (0 <= b * pcross p q) by (apply Rmult_le_pos; assumption). lra.
    + assert (0 <= a * pcross p q) by (apply Rmult_le_pos; assumption). lra.
  - apply H; [exact Hu|]. unfold okedge in OK; cbn [fst snd] in OK. destruct OK as [O|[_ O]]; [lra|].
    assert (Pp : p <> origin) by (intros ->; unfold pdot, origin in O; cbn in O; lra). pose proof (dot_pos p Pp) as D.
    assert (E : pdot p p * pcross u q = - pdot p q * pcross p u + pcross p q * pdot p u) by (unfold pdot, pcross; ring).
    rewrite Z in E. apply Rmult_le_reg_l with (pdot p p); [exact D|]. rewrite E.
    assert (0 <= - pdot p q * pcross p u) by (apply Rmult_le_pos; lra). lra.
Qed.

(** ** Cyclic edges of the polygon *)
Fixpoint path (p : pt) (l : list pt) (h : pt) : list (pt * pt) :=
  match l with [] => [(p, h)] | y :: l' => (p, y) :: path y l' h end.
Definition injE (e : pt * pt) : vec2 XR * vec2 XR := (inj (fst e), inj (snd e)).
Lemma path_combine l : forall p h, combine (map inj (p :: l)) (map inj l ++ [inj h]) = map injE (path p l h).
Proof. induction l as [|y l IH]; intros p h; [reflexivity|]. cbn [map path combine app]. f_equal. apply IH. Qed.
Lemma path_length l : forall p h, length (path p l h) = S (length l).
Proof. induction l as [|y l IH]; intros; cbn; [reflexivity | rewrite IH; reflexivity]. Qed.
Lemma edges_path p l : indexed_edges (map inj (p :: l)) = combine (seq 0 (length (path p l p))) (map injE (path p l p)).
Proof.
  unfold indexed_edges. cbn [map]. change (inj p :: map inj l) with (map inj (p :: l)).
  rewrite path_combine, map_length, path_length. reflexivity.
Qed.
Lemma path_insert x : forall i l p h a b, nth_error (path p l h) i = Some (a, b) ->
  exists E1 E2, path p l h = E1 ++ (a, b) :: E2 /\ path p (firstn i l ++ x :: skipn i l) h = E1 ++ (a, x) :: (x, b) :: E2.
Proof.
  induction i as [|i IH]; intros l p h a b H.
  - destruct l as [|y l]; cbn in H; injection H as <- <-; [exists [], []; split; reflexivity | exists [], (path y l h); split; reflexivity].
  - destruct l as [|y l]; cbn [path nth_error] in H; [destruct i; discriminate|].
    destruct (IH l y h a b H) as (E1 & E2 & A & B). exists ((p, y) :: E1), E2. cbn. rewrite A, B. split; reflexivity.
Qed.
Lemma insert_path i x p l : insert_after i (inj x) (map inj (p :: l)) = map inj (p :: firstn i l ++ x :: skipn i l).
Proof.
  unfold insert_after. rewrite firstn_map, skipn_map. cbn [firstn skipn map app]. rewrite !map_app. reflexivity.
Qed.

(** the closest edge *)
Lemma closest_fold : forall E k d0 e0, Forall (fun e => fst e <> snd e) E ->
  (fold_left edge_step (combine (seq k (length E)) (map injE E)) (XFin d0, e0) = (XFin d0, e0) /\ Forall (fun e => d0 <= segd (fst e) (snd e)) E) \/
  (exists i e, nth_error E i = Some e /\ fold_left edge_step (combine (seq k (length E)) (map injE E)) (XFin d0, e0) = (XFin (segd (fst e) (snd e)), ((k + i)%nat, injE e)) /\
     segd (fst e) (snd e) < d0 /\ Forall (fun e' => segd (fst e) (snd e) <= segd (fst e') (snd e')) E).
Proof.
  induction E as [|e E IH]; intros k d0 e0 F; [left; split; [reflexivity | constructor]|].
  inversion F as [|? ? Ne F']; subst. cbn [length seq map combine fold_left].
  assert (ST : edge_step (XFin d0, e0) (k, injE e) = if Rltb (segd (fst e) (snd e)) d0 then (XFin (segd (fst e) (snd e)), (k, injE e)) else (XFin d0, e0)).
  { unfold edge_step. cbn [fst snd injE]. rewrite segd_eq by exact Ne. cbn. destruct (Rltb _ _); reflexivity. }
  rewrite ST. destruct (Rltb_spec (segd (fst e) (snd e)) d0) as [L|L].
  - right. destruct (IH (S k) (segd (fst e) (snd e)) (k, injE e) F') as [[E1 FA]|(i & e1 & N1 & E1 & L1 & F1)].
    + exists 0%nat, e. rewrite E1, Nat.add_0_r. repeat split; auto. constructor; [lra | exact FA].
    + exists (S i), e1. rewrite E1. repeat split; auto; [do 2 f_equal; lia | lra | constructor; [lra | exact F1]].
  - destruct (IH (S k) d0 e0 F') as [[E1 FA]|(i & e1 & N1 & E1 & L1 & F1)].
    + left. split; [exact E1 | constructor; [lra | exact FA]].
    + right. exists (S i), e1. rewrite E1. repeat split; auto; [do 2 f_equal; lia | constructor; [lra | exact F1]].
Qed.
Lemma closest_spec p l : Forall (fun e => fst e <> snd e) (path p l p) ->
  exists i a b, nth_error (path p l p) i = Some (a, b) /\ find_closest_edge (map inj (p :: l)) = (i, (inj a, inj b)) /\
    Forall (fun e => segd a b <= segd (fst e) (snd e)) (path p l p).
Proof.
  intro F. unfold find_closest_edge. rewrite edges_path.
  destruct (path p l p) as [|e E] eqn:EP; [destruct l; discriminate|].
  inversion F as [|? ? Ne F']; subst. cbn [length seq map combine fold_left].
  assert (ST : edge_step (finf, (0%nat, (v2nan, v2nan))) (0%nat, injE e) = (XFin (segd (fst e) (snd e)), (0%nat, injE e))).
  { unfold edge_step. cbn [fst snd injE]. rewrite segd_eq by exact Ne. reflexivity. }
  rewrite ST. destruct (closest_fold E 1 (segd (fst e) (snd e)) (0%nat, injE e) F') as [[E1 FA]|(i & e1 & N1 & E1 & L1 & F1)].
  - exists 0%nat, (fst e), (snd e). rewrite E1. cbn. split; [destruct e; reflexivity|]. split; [reflexivity|]. constructor; [lra | exact FA].
  - exists (S i), (fst e1), (snd e1). rewrite E1. cbn. split; [rewrite N1; destruct e1; reflexivity|]. split; [reflexivity|]. constructor; [lra | exact F1].
Qed.

Section Epa.
Variables (M : pset) (s : pt -> pt) (sup : vec2 XR -> vec2 XR) (K rho : R).
Hypothesis Hsup : forall d, norm d <= K -> sup (inj d) = inj (s d).
Hypothesis Hfar : forall d, norm d <= K -> is_farthest M d (s d).
Hypothesis HM : forall m, M m -> norm m <= rho.
Hypothesis K1 : 2 * rho <= K.
Hypothesis HC : convex M.
Hypothesis HO : M origin.
Local Notation vert := (vert M s K).
Local Notation tri := (tri M s K).

Definition Poly (E : list (pt * pt)) : Prop :=
  Forall (fun e => vert (fst e) /\ vert (snd e) /\ okedge e) E /\ cover E.

(** the polygon contains the ball up to its closest edge *)
Lemma ball_inside E r : Poly E -> Forall (fun e => r <= segd (fst e) (snd e)) E -> forall u, pdot u u < r -> M u.
Proof.
  intros [F C] D u U. destruct (C u) as (e & I & Se). rewrite Forall_forall in F, D.
  destruct (F e I) as (V1 & V2 & OK). pose proof (D e I) as De. destruct e as [p q]; cbn [fst snd] in * .
  pose proof (okedge_ne _ OK) as NE. cbn in NE.
  destruct Se as [(x & y & Hx & Hy & Eu)|[Z Hu]]; cbn [fst snd] in * .
  - assert (L : x + y < 1).
    { apply Rnot_le_lt. intro G. pose proof (segd_min p q (y / (x + y)) NE) as Q.
      assert (T : 0 <= y / (x + y) <= 1).
      { split; [apply Rmult_le_pos; [lra | apply Rlt_le, Rinv_0_lt_compat; lra]|].
        apply Rmult_le_reg_r with (x + y); [lra|]. unfold Rdiv. rewrite Rmult_assoc, Rinv_l by lra. lra. }
      specialize (Q T).
      assert (E1 : pdot u u = (x + y) * (x + y) * pdot (padd p (pscale (y / (x + y)) (psub q p))) (padd p (pscale (y / (x + y)) (psub q p)))).
      { rewrite Eu. unfold pdot, padd, pscale, psub; cbn. field. lra. }
      set (z := pdot (padd p (pscale (y / (x + y)) (psub q p))) (padd p (pscale (y / (x + y)) (psub q p)))) in * .
      assert (0 <= z) by (apply pdot_nonneg). assert (1 <= (x + y) * (x + y)) by nra. nra. }
    pose proof (vert_M M s K p V1) as Mp. pose proof (vert_M M s K q V2) as Mq.
    destruct (Req_dec (x + y) 0) as [Z|Z].
    + assert (x = 0) by lra. assert (y = 0) by lra. subst x y. replace u with origin; [exact HO|]. rewrite Eu. apply pt_eq; cbn; ring.
    + assert (T : 0 <= y / (x + y) <= 1).
      { split; [apply Rmult_le_pos; [lra | apply Rlt_le, Rinv_0_lt_compat; lra]|].
        apply Rmult_le_reg_r with (x + y); [lra|]. unfold Rdiv. rewrite Rmult_assoc, Rinv_l by lra. lra. }
      pose proof (HC _ _ _ Mp Mq T) as Mz.
      assert (T2 : 0 <= x + y <= 1) by lra. pose proof (HC _ _ _ HO Mz T2) as Mu.
      replace u with (padd (pscale (1 - (x + y)) origin) (pscale (x + y) (padd (pscale (1 - y / (x + y)) p) (pscale (y / (x + y)) q)))); [exact Mu|].
      rewrite Eu. apply pt_eq; cbn; field; lra.
  - exfalso. unfold okedge in OK; cbn [fst snd] in OK. destruct OK as [OK|[_ OK]]; [lra|].
    (* the origin is on the segment, so its distance is zero *)
    assert (Pp : p <> origin) by (intros ->; unfold pdot, origin in OK; cbn in OK; lra). pose proof (dot_pos p Pp) as Dp.
    assert (Eq : pscale (pdot p p) q = pscale (pdot p q) p).
    { apply pt_eq; cbn; apply Rminus_diag_uniq.
      - transitivity (- snd p * pcross p q); [unfold pdot, pcross; ring | rewrite Z; ring].
      - transitivity (fst p * pcross p q); [unfold pdot, pcross; ring | rewrite Z; ring]. }
    set (t := pdot p p / (pdot p p - pdot p q)).
    assert (T : 0 <= t <= 1).
    { unfold t. split; [apply Rmult_le_pos; [lra | apply Rlt_le, Rinv_0_lt_compat; lra]|].
      apply Rmult_le_reg_r with (pdot p p - pdot p q); [lra|]. unfold Rdiv. rewrite Rmult_assoc, Rinv_l by lra. lra. }
    pose proof (segd_min p q t NE T) as Q.
    assert (Z0 : padd p (pscale t (psub q p)) = origin).
    { unfold t. apply pt_eq; [apply (f_equal fst) in Eq | apply (f_equal snd) in Eq]; cbn in *;
        apply Rmult_eq_reg_l with (pdot p p - pdot p q); try lra; rewrite Rmult_0_r; field_simplify; lra. }
    rewrite Z0 in Q. unfold pdot in Q at 1. cbn in Q. pose proof (pdot_nonneg u). 
    assert (pdot origin origin = 0) by (unfold pdot, origin; cbn; ring). lra.
Qed.

(** the support point in the normal direction of a polygon edge lies in the open cone of the edge, unless on the edge line *)
Lemma support_beyond p q : vert p -> vert q -> okedge (p, q) -> pcross p q < pdot (nrm p q) (s (nrm p q)) -> norm (nrm p q) <= K ->
  beyond_edge p q (s (nrm p q)).
Proof.
  intros Vp Vq OK L HK. set (x := s (nrm p q)) in * . pose proof (proj1 (Hfar _ HK) : M x) as Mx.
  assert (NX : pdot (nrm p q) x = pcross p x + pcross x q) by (unfold nrm, pdot, pcross, psub; cbn; ring).
  assert (HH : forall p q x, vert p -> M x -> M q -> 0 < pcross p q -> pcross p q < pcross p x + pcross x q -> 0 < pcross p x).
  { clear. intros p q x [(e & [_ He] & Pe) _] Mx Mq P L. apply Rnot_le_lt. intro C.
    (* p lies strictly inside the hull of x, q and the origin side *)
    pose proof (He x Mx) as Hx. pose proof (He q Mq) as Hq.
    assert (D : forall k, pcross p q * pdot k x = pcross x q * pdot k p + pcross p x * pdot k q) by (intro; unfold pcross, pdot; ring).
    pose proof (D e). assert (pdot e p * (pcross x q + pcross p x - pcross p q) <= 0) by nra. nra. }
  unfold okedge in OK; cbn [fst snd] in OK. destruct OK as [OK|[Z OK]].
  - split; [|split; [|exact L]].
    + apply (HH p q x Vp Mx (vert_M M s K q Vq) OK). lra.
    + destruct Vq as [(e & [_ He] & Pe) _]. apply Rnot_le_lt. intro C.
      pose proof (He x Mx) as Hx. pose proof (He p (vert_M M s K p Vp)) as Hp.
      assert (D : forall k, pcross p q * pdot k x = pcross x q * pdot k p + pcross p x * pdot k q) by (intro; unfold pcross, pdot; ring).
      pose proof (D e). assert (pdot e q * (pcross x q + pcross p x - pcross p q) <= 0) by nra. nra.
  - assert (Pp : p <> origin) by (intros ->; unfold pdot, origin in OK; cbn in OK; lra). pose proof (dot_pos p Pp) as D.
    assert (E : pdot p p * pcross x q = - pdot p q * pcross p x + pcross p q * pdot p x) by (unfold pdot, pcross; ring).
    rewrite Z in E. assert (P1 : 0 < pcross p x).
    { apply Rnot_le_lt. intro C. assert (pdot p p * (pcross p x + pcross x q) <= 0) by nra. nra. }
    split; [exact P1|]. split; [|lra]. apply Rmult_lt_reg_l with (pdot p p); [exact D|]. nra.
Qed.

(** what a returned vector satisfies *)
Definition good_vector (v : pt) : Prop :=
  (exists n, n <> origin /\ forall m, M m -> pdot n (padd m v) <= 0) /\
  (forall w, ~ (exists e, 0 < e /\ forall u, norm u < e -> M (psub u w)) -> norm v <= 101 / 100 * norm w).

Lemma path_verts p l : Poly (path p l p) -> Forall (fun e => fst e <> snd e) (path p l p).
Proof. intros [F _]. eapply Forall_impl; [|exact F]. intros e (_ & _ & OK). apply okedge_ne, OK. Qed.

Lemma epa_step_min n p l : Poly (path p l p) -> exists a b i,
  nth_error (path p l p) i = Some (a, b) /\ Forall (fun e => segd a b <= segd (fst e) (snd e)) (path p l p) /\
  ((pdot (nrm a b) (s (nrm a b)) <= 101 / 100 * pcross a b /\ exists v, good_vector v /\ epa_run sup (S n) (map inj (p :: l)) = Some (inj v)) \/
   (101 / 100 * pcross a b < pdot (nrm a b) (s (nrm a b)) /\ beyond_edge a b (s (nrm a b)) /\ norm (nrm a b) <= K /\
    epa_run sup (S n) (map inj (p :: l)) = epa_run sup n (map inj (p :: firstn i l ++ s (nrm a b) :: skipn i l)))).
Proof.
  intro P. destruct (closest_spec p l (path_verts p l P)) as (i & a & b & NE & EC & MIN). exists a, b, i. split; [exact NE|]. split; [exact MIN|].
  pose proof (nth_error_In _ _ NE) as I. pose proof P as [F CV]. rewrite Forall_forall in F. destruct (F _ I) as (Va & Vb & OK). cbn [fst snd] in Va, Vb.
  pose proof (okedge_ne _ OK) as Nab. cbn [fst snd] in Nab. pose proof (okedge_nonneg a b OK) as H0.
  assert (HK : norm (nrm a b) <= K).
  { rewrite nrm_norm. eapply Rle_trans; [apply (diff_bound M rho HM); apply (vert_M M s K); assumption | exact K1]. }
  set (nn := nrm a b) in * . pose proof (nrm_ne a b Nab) as Nn. fold nn in Nn. pose proof (dot_pos nn Nn) as Pn.
  set (x := s nn) in * . pose proof (Hfar nn HK) as [Mx Fx]. fold x in Mx, Fx.
  assert (F0 : 0 <= pdot nn x).
  { pose proof (Fx origin HO) as Q. replace (pdot nn origin) with 0 in Q by (unfold pdot, origin; cbn; ring). lra. }
  cbn [epa_run]. rewrite EC. rewrite nrm_inj. fold nn. rewrite (Hsup nn HK). fold x. rewrite !v2dot_inj, (pdot_comm x nn), (pdot_comm a nn).
  assert (NA : pdot nn a = pcross a b) by apply nrm_a. rewrite NA.
  assert (SB : sufficiently_better (XFin (pdot nn x)) (XFin (pcross a b)) fcent = (if Rltb 0 (pcross a b) then Rltb (pcross a b * (1 + 1 / 100)) (pdot nn x) else Rltb (pcross a b * (1 - 1 / 100)) (pdot nn x))).
  { unfold sufficiently_better. cbn. destruct (Rltb 0 (pcross a b)); reflexivity. }
  rewrite SB.
  assert (D : (pdot nn x <= 101 / 100 * pcross a b /\ (if Rltb 0 (pcross a b) then Rltb (pcross a b * (1 + 1 / 100)) (pdot nn x) else Rltb (pcross a b * (1 - 1 / 100)) (pdot nn x)) = false) \/
              (101 / 100 * pcross a b < pdot nn x /\ (if Rltb 0 (pcross a b) then Rltb (pcross a b * (1 + 1 / 100)) (pdot nn x) else Rltb (pcross a b * (1 - 1 / 100)) (pdot nn x)) = true)).
  { destruct (Rltb_spec 0 (pcross a b)) as [L|L].
    - destruct (Rltb_spec (pcross a b * (1 + 1 / 100)) (pdot nn x)); [right; split; [lra | reflexivity] | left; split; [lra | reflexivity]].
    - destruct (Rltb_spec (pcross a b * (1 - 1 / 100)) (pdot nn x)); [right; split; [lra | reflexivity] | left; split; [lra | reflexivity]]. }
  destruct D as [[D ->]|[D ->]]; cbn [negb].
  - left. split; [exact D|]. set (f := pdot nn x) in * . exists (pscale (- f / pdot nn nn) nn). split.
    + split.
      * exists nn. split; [exact Nn|]. intros m Hm. rewrite pdot_add_r, pdot_scale_r. pose proof (Fx m Hm) as Q. fold f in Q.
        replace (- f / pdot nn nn * pdot nn nn) with (- f) by (field; lra). lra.
      * intros w NO. assert (G : segd a b <= pdot w w).
        { apply Rnot_lt_le. intro L. apply NO. pose proof (pdot_nonneg w).
          assert (Sq : norm w < sqrt (segd a b)) by (unfold norm; apply sqrt_lt_1; lra).
          exists (sqrt (segd a b) - norm w). split; [lra|]. intros u U. apply (ball_inside _ (segd a b) P MIN).
          pose proof (norm_psub u w) as T. assert (T2 : norm (psub u w) < sqrt (segd a b)) by lra.
          rewrite <- norm_sq. rewrite <- (sqrt_sqrt (segd a b)) by lra. pose proof (norm_nonneg (psub u w)). apply Rmult_le_0_lt_compat; lra. }
        pose proof (segd_line a b) as SL. fold nn in SL.
        assert (Q : pdot (pscale (- f / pdot nn nn) nn) (pscale (- f / pdot nn nn) nn) <= (101/100 * norm w) * (101/100 * norm w)).
        { replace (pdot (pscale (- f / pdot nn nn) nn) (pscale (- f / pdot nn nn) nn)) with (f * f / pdot nn nn)
            by (rewrite pdot_scale_r, (pdot_comm (pscale _ _) nn), pdot_scale_r; field; apply Rgt_not_eq, Pn).
          replace (101 / 100 * norm w * (101 / 100 * norm w)) with (10201/10000 * pdot w w) by (rewrite <- norm_sq; field).
          apply Rmult_le_reg_r with (pdot nn nn); [exact Pn|]. unfold Rdiv at 1. rewrite Rmult_assoc, Rinv_l, Rmult_1_r by lra.
          assert (f * f <= (101/100 * pcross a b) * (101/100 * pcross a b)) by (apply Rmult_le_compat; lra).
          assert (pdot nn nn * segd a b <= pdot nn nn * pdot w w) by (apply Rmult_le_compat_l; lra). lra. }
        apply norm_le_sq; [pose proof (norm_nonneg w); lra | exact Q].
    + unfold f. cbn. rewrite Reqb_false by (apply Rgt_not_eq, Pn). f_equal. apply vec_ext; cbn; f_equal; ring.
  - right. split; [exact D|]. split; [apply support_beyond; try assumption; fold nn; fold x; lra|]. split; [exact HK|]. rewrite insert_path. reflexivity.
Qed.
Lemma epa_step n p l : Poly (path p l p) -> exists a b i,
  nth_error (path p l p) i = Some (a, b) /\
  ((exists v, good_vector v /\ epa_run sup (S n) (map inj (p :: l)) = Some (inj v)) \/
   (beyond_edge a b (s (nrm a b)) /\ norm (nrm a b) <= K /\
    epa_run sup (S n) (map inj (p :: l)) = epa_run sup n (map inj (p :: firstn i l ++ s (nrm a b) :: skipn i l)))).
Proof.
  intro P. destruct (epa_step_min n p l P) as (a & b & i & NE & _ & [[_ H]|(_ & H)]); exists a, b, i; auto.
Qed.

Lemma poly_insert p l i a b : Poly (path p l p) -> nth_error (path p l p) i = Some (a, b) -> norm (nrm a b) <= K ->
  beyond_edge a b (s (nrm a b)) -> vert (s (nrm a b)) ->
  exists E1 E2, path p l p = E1 ++ (a, b) :: E2 /\
    path p (firstn i l ++ s (nrm a b) :: skipn i l) p = E1 ++ (a, s (nrm a b)) :: (s (nrm a b), b) :: E2 /\
    Poly (path p (firstn i l ++ s (nrm a b) :: skipn i l) p).
Proof.
  intros P NE HK BE Vx. set (x := s (nrm a b)) in * .
  destruct (path_insert x i l p p a b NE) as (E1 & E2 & EP & EI). exists E1, E2. split; [exact EP|]. split; [exact EI|].
  destruct P as [F CV]. rewrite EP in F, CV. rewrite EI. apply Forall_app in F. destruct F as [F1 F2]. inversion F2 as [|? ? (Va & Vb & OK) F3]; subst. cbn [fst snd] in Va, Vb.
  destruct (split_sector a b x OK BE) as (O1 & O2 & SP). split.
  - apply Forall_app. split; [exact F1|]. constructor; [cbn; auto|]. constructor; [cbn; auto | exact F3].
  - intro u. destruct (CV u) as (e & I & Se). apply in_app_or in I. destruct I as [I|[<-|I]].
    + exists e. split; [apply in_or_app; auto | exact Se].
    + destruct (SP u Se) as [S1|S2]; [exists (a, x) | exists (x, b)]; (split; [apply in_or_app; right; cbn; auto | assumption]).
    + exists e. split; [apply in_or_app; right; cbn; auto | exact Se].
Qed.
Lemma new_vert a b : okedge (a, b) -> norm (nrm a b) <= K -> beyond_edge a b (s (nrm a b)) -> vert (s (nrm a b)).
Proof.
  intros OK HK (_ & _ & B3). pose proof (okedge_nonneg a b OK). split; [|exists (nrm a b); auto].
  exists (nrm a b). split; [apply Hfar, HK | lra].
Qed.
Lemma edge_ok p l i a b : Poly (path p l p) -> nth_error (path p l p) i = Some (a, b) -> okedge (a, b).
Proof. intros [F _] NE. rewrite Forall_forall in F. apply (F _ (nth_error_In _ _ NE)). Qed.

(** every vector EPA returns by convergence is good *)
Lemma epa_good n : forall p l r, Poly (path p l p) -> epa_run sup n (map inj (p :: l)) = Some r -> exists v, r = inj v /\ good_vector v.
Proof.
  induction n as [|n IH]; intros p l r P E; [discriminate|].
  destruct (epa_step n p l P) as (a & b & i & NE & [(v & G & E2)|(BE & HK & E2)]); rewrite E2 in E.
  - injection E as <-. exists v. auto.
  - apply (IH p _ r) with (2 := E). destruct (poly_insert p l i a b P NE HK BE) as (E1 & E2' & _ & _ & P'); [|exact P'].
    apply new_vert; try assumption. apply (edge_ok p l i a b P NE).
Qed.

(** ** Convergence by a classification of the edges: [adj k] needs at most k splits, [far] is never the closest *)
Section Scheme.
Variables (adj : nat -> pt * pt -> Prop) (far : pt * pt -> Prop).
Hypothesis Hfa : forall k e e', adj k e -> far e' -> segd (fst e) (snd e) < segd (fst e') (snd e').
Hypothesis Hstop : forall a b, adj 0 (a, b) -> pdot (nrm a b) (s (nrm a b)) <= 101 / 100 * pcross a b.
Hypothesis Hsplit : forall k a b, adj (S k) (a, b) -> norm (nrm a b) <= K ->
  (adj k (a, s (nrm a b)) /\ far (s (nrm a b), b)) \/ (far (a, s (nrm a b)) /\ adj k (s (nrm a b), b)).
Definition kind (e : pt * pt) (o : option nat) : Prop := match o with Some k => adj k e | None => far e end.
Definition weight (o : option nat) : nat := match o with Some k => k | None => 0%nat end.
Definition total (os : list (option nat)) : nat := fold_right (fun o n => (weight o + n)%nat) 0%nat os.
Lemma total_app x y : total (x ++ y) = (total x + total y)%nat.
Proof. induction x as [|o x IH]; [reflexivity|]. cbn [app]. change (weight o + total (x ++ y) = weight o + total x + total y)%nat. rewrite IH. lia. Qed.
Lemma epa_scheme n : forall p l os, Poly (path p l p) -> Forall2 kind (path p l p) os -> (exists k, In (Some k) os) -> (total os < n)%nat ->
  exists v, epa_run sup n (map inj (p :: l)) = Some (inj v) /\ good_vector v.
Proof.
  induction n as [|n IH]; intros p l os P F (k0 & I0) Lt; [lia|].
  destruct (epa_step_min n p l P) as (a & b & i & NE & MIN & [[_ (v & G & E2)]|(NS & BE & HK & E2)]); [eauto|].
  pose proof (edge_ok p l i a b P NE) as OK.
  destruct (poly_insert p l i a b P NE HK BE (new_vert a b OK HK BE)) as (E1 & E3 & EP & EI & P').
  rewrite E2. rewrite EP in F, MIN. apply Forall2_app_inv_l in F. destruct F as (o1 & o2' & F1 & F2 & ->).
  inversion F2 as [|? o ? o2 Fo F3]; subst.
  assert (Adj : exists k, o = Some k).
  { destruct o as [k|]; [eauto|]. exfalso. cbn in Fo. rewrite Forall_forall in MIN.
    assert (X : forall E os, Forall2 kind E os -> In (Some k0) os -> exists e, In e E /\ adj k0 e).
    { clear. induction 1 as [|e o E os H _ IHf]; intros I; [contradiction|]. destruct I as [->|I]; [exists e; split; [left; reflexivity | exact H]|].
      destruct (IHf I) as (e' & A & B). exists e'. split; [right; exact A | exact B]. }
    destruct (X (E1 ++ (a, b) :: E3) (o1 ++ None :: o2)) as (e & Ie & Ae); [apply Forall2_app; [exact F1 | constructor; assumption] | exact I0|].
    pose proof (MIN e Ie). pose proof (Hfa k0 e (a, b) Ae Fo). cbn [fst snd] in * . lra. }
  destruct Adj as (k & ->). cbn in Fo. rewrite total_app in Lt. cbn [total weight fold_right] in Lt. fold (total o2) in Lt.
  destruct k as [|k]; [exfalso; pose proof (Hstop a b Fo); lra|].
  assert (NK : exists x y, Forall2 kind [(a, s (nrm a b)); (s (nrm a b), b)] [x; y] /\ (exists k', In (Some k') [x; y]) /\ (weight x + weight y = k)%nat).
  { destruct (Hsplit k a b Fo HK) as [[X Y]|[X Y]].
    - exists (Some k), None. split; [repeat constructor; assumption|]. split; [exists k; left; reflexivity | cbn; lia].
    - exists None, (Some k). split; [repeat constructor; assumption|]. split; [exists k; right; left; reflexivity | cbn; lia]. }
  destruct NK as (x & y & Fxy & (k' & Ik) & W).
  apply (IH p _ (o1 ++ [x; y] ++ o2)).
  - exact P'.
  - rewrite EI. apply Forall2_app; [exact F1|]. change ((a, s (nrm a b)) :: (s (nrm a b), b) :: E3) with ([(a, s (nrm a b)); (s (nrm a b), b)] ++ E3).
    apply Forall2_app; assumption.
  - exists k'. apply in_or_app. right. apply in_or_app. left. exact Ik.
  - rewrite !total_app. cbn [total weight fold_right]. lia.
Qed.
End Scheme.

(** ** Convergence measure: support values strictly beyond an edge *)
Variable V : list pt.
Hypothesis HV : forall d, norm d <= K -> In (s d) V.
Hypothesis HVM : forall v, In v V -> M v.
Definition beyondb (e : pt * pt) (v : pt) : bool :=
  Rltb 0 (pcross (fst e) v) && Rltb 0 (pcross v (snd e)) && Rltb (pcross (fst e) (snd e)) (pdot (nrm (fst e) (snd e)) v).
Definition mu (E : list (pt * pt)) : nat := fold_right (fun e n => (length (filter (beyondb e) V) + n)%nat) 0%nat E.
Lemma beyondb_spec p q v : beyondb (p, q) v = true <-> beyond_edge p q v.
Proof.
  unfold beyondb, beyond_edge; cbn [fst snd]. rewrite !andb_true_iff.
  destruct (Rltb_spec 0 (pcross p v)), (Rltb_spec 0 (pcross v q)), (Rltb_spec (pcross p q) (pdot (nrm p q) v)); intuition (try discriminate; try lra).
Qed.


Lemma beyond_sub_l p q x v : okedge (p, q) -> beyond_edge p q x -> beyond_edge p x v -> beyond_edge p q v.
Proof.
  intros OK (X1 & X2 & X3) (V1 & V2 & V3). pose proof (okedge_nonneg p q OK) as H0.
  assert (NV : pdot (nrm p x) v = pcross p v + pcross v x) by (unfold nrm, pdot, pcross, psub; cbn; ring). rewrite NV in V3.
  assert (D1 : pcross p x * pcross v q = pcross v x * pcross p q + pcross p v * pcross x q) by (unfold pcross; ring).
  assert (D2 : pcross p x * pdot (nrm p q) v = pcross v x * pcross p q + pcross p v * pdot (nrm p q) x) by (unfold nrm, pdot, pcross, psub; cbn; ring).
  assert (0 <= pcross v x * pcross p q) by (apply Rmult_le_pos; lra).
  assert (0 < pcross p v * pcross x q) by (apply Rmult_lt_0_compat; lra).
  split; [exact V1|]. split.
  - apply Rmult_lt_reg_l with (pcross p x); [exact X1|]. rewrite Rmult_0_r. lra.
  - apply Rmult_lt_reg_l with (pcross p x); [exact X1|]. rewrite D2.
    assert (pcross p v * pcross p q < pcross p v * pdot (nrm p q) x) by (apply Rmult_lt_compat_l; lra).
    assert (pcross p x * pcross p q <= (pcross p v + pcross v x) * pcross p q) by (apply Rmult_le_compat_r; lra). lra.
Qed.
Lemma beyond_sub_r p q x v : okedge (p, q) -> beyond_edge p q x -> beyond_edge x q v -> beyond_edge p q v.
Proof.
  intros OK (X1 & X2 & X3) (V1 & V2 & V3). pose proof (okedge_nonneg p q OK) as H0.
  assert (NV : pdot (nrm x q) v = pcross x v + pcross v q) by (unfold nrm, pdot, pcross, psub; cbn; ring). rewrite NV in V3.
  assert (D1 : pcross x q * pcross p v = pcross v q * pcross p x + pcross x v * pcross p q) by (unfold pcross; ring).
  assert (D2 : pcross x q * pdot (nrm p q) v = pcross v q * pdot (nrm p q) x + pcross x v * pcross p q) by (unfold nrm, pdot, pcross, psub; cbn; ring).
  assert (0 <= pcross x v * pcross p q) by (apply Rmult_le_pos; lra).
  assert (0 < pcross v q * pcross p x) by (apply Rmult_lt_0_compat; lra).
  split; [|split; [exact V2|]].
  - apply Rmult_lt_reg_l with (pcross x q); [exact X2|]. rewrite Rmult_0_r. lra.
  - apply Rmult_lt_reg_l with (pcross x q); [exact X2|]. rewrite D2.
    assert (pcross v q * pcross p q < pcross v q * pdot (nrm p q) x) by (apply Rmult_lt_compat_l; lra).
    assert (pcross x q * pcross p q <= (pcross x v + pcross v q) * pcross p q) by (apply Rmult_le_compat_r; lra). lra.
Qed.
Lemma filter_two (f g h : pt -> bool) l : (forall v, In v l -> f v = true -> h v = true /\ g v = false) -> (forall v, In v l -> g v = true -> h v = true) ->
  (length (filter f l) + length (filter g l) <= length (filter h l))%nat.
Proof.
  induction l as [|v l IH]; intros H1 H2; cbn; [lia|].
  assert (I := IH (fun w W => H1 w (or_intror W)) (fun w W => H2 w (or_intror W))).
  pose proof (H1 v (or_introl eq_refl)) as A. pose proof (H2 v (or_introl eq_refl)) as B.
  destruct (f v); [destruct (A eq_refl) as [-> ->]; cbn; lia|]. destruct (g v); [rewrite (B eq_refl); cbn; lia|]. destruct (h v); cbn; lia.
Qed.
Lemma filter_two_lt (f g h : pt -> bool) l x : (forall v, In v l -> f v = true -> h v = true /\ g v = false) -> (forall v, In v l -> g v = true -> h v = true) ->
  In x l -> h x = true -> f x = false -> g x = false -> (length (filter f l) + length (filter g l) < length (filter h l))%nat.
Proof.
  induction l as [|v l IH]; intros H1 H2 I X1 X2 X3; [contradiction|]. cbn.
  destruct I as [->|I].
  - rewrite X1, X2, X3. cbn. pose proof (filter_two f g h l (fun w W => H1 w (or_intror W)) (fun w W => H2 w (or_intror W))). lia.
  - assert (J := IH (fun w W => H1 w (or_intror W)) (fun w W => H2 w (or_intror W)) I X1 X2 X3).
    pose proof (H1 v (or_introl eq_refl)) as A. pose proof (H2 v (or_introl eq_refl)) as B.
    destruct (f v); [destruct (A eq_refl) as [-> ->]; cbn; lia|]. destruct (g v); [rewrite (B eq_refl); cbn; lia|]. destruct (h v); cbn; lia.
Qed.
Lemma mu_app E1 E2 : mu (E1 ++ E2) = (mu E1 + mu E2)%nat.
Proof. unfold mu. induction E1 as [|e E1 IH]; cbn [app fold_right]; [reflexivity | rewrite IH; lia]. Qed.
Lemma mu_insert E1 E2 p q x : okedge (p, q) -> beyond_edge p q x -> In x V ->
  (mu (E1 ++ (p, x) :: (x, q) :: E2) < mu (E1 ++ (p, q) :: E2))%nat.
Proof.
  intros OK BE I. rewrite !mu_app. unfold mu at 2 4. cbn [fold_right]. fold (mu E2).
  assert (length (filter (beyondb (p, x)) V) + length (filter (beyondb (x, q)) V) < length (filter (beyondb (p, q)) V))%nat; [|lia].
  apply filter_two_lt with (x := x).
  - intros v _ H. apply beyondb_spec in H. split; [apply beyondb_spec, (beyond_sub_l p q x v OK BE H)|].
    destruct (beyondb (x, q) v) eqn:B; [|reflexivity]. apply beyondb_spec in B. destruct H as (_ & H & _). destruct B as (B & _). rewrite cross_anti in B. lra.
  - intros v _ H. apply beyondb_spec in H. apply beyondb_spec, (beyond_sub_r p q x v OK BE H).
  - exact I.
  - apply beyondb_spec, BE.
  - destruct (beyondb (p, x) x) eqn:B; [|reflexivity]. apply beyondb_spec in B. destruct B as (_ & B & _). rewrite cross_self in B. lra.
  - destruct (beyondb (x, q) x) eqn:B; [|reflexivity]. apply beyondb_spec in B. destruct B as (B & _). rewrite cross_self in B. lra.
Qed.
Lemma epa_converges n : forall p l, Poly (path p l p) -> (mu (path p l p) <= n)%nat -> exists v, epa_run sup (S n) (map inj (p :: l)) = Some (inj v) /\ good_vector v.
Proof.
  induction n as [|n IH]; intros p l P L.
  - destruct (epa_step 0 p l P) as (a & b & i & NE & [(v & G & E2)|(BE & HK & E2)]); [eauto|]. exfalso.
    pose proof (edge_ok p l i a b P NE) as OK.
    destruct (poly_insert p l i a b P NE HK BE (new_vert a b OK HK BE)) as (E1 & E3 & EP & EI & P').
    pose proof (mu_insert E1 E3 a b _ OK BE (HV _ HK)) as Q. rewrite <- EP in Q. lia.
  - destruct (epa_step (S n) p l P) as (a & b & i & NE & [(v & G & E2)|(BE & HK & E2)]); [eauto|]. rewrite E2.
    pose proof (edge_ok p l i a b P NE) as OK.
    destruct (poly_insert p l i a b P NE HK BE (new_vert a b OK HK BE)) as (E1 & E3 & EP & EI & P').
    apply IH; [exact P'|]. pose proof (mu_insert E1 E3 a b _ OK BE (HV _ HK)) as Q. rewrite <- EP, <- EI in Q. lia.
Qed.

(** ** The starting triangle *)
Definition ccw (p q r : pt) : Prop := vert p /\ vert q /\ vert r /\ 0 < pcross p q /\ 0 <= pcross q r /\ 0 < pcross r p.
Lemma vert_ne v : vert v -> v <> origin.
Proof. intros [(e & _ & P) _] ->. unfold pdot, origin in P; cbn in P. lra. Qed.
Lemma ccw_poly p q r : ccw p q r -> Poly (path p [q; r] p).
Proof.
  intros (Vp & Vq & Vr & A & B & C). cbn [path]. split; [|apply triangle_cover; assumption].
  apply Forall_cons; [split; [exact Vp | split; [exact Vq | left; exact A]]|].
  apply Forall_cons; [|apply Forall_cons; [split; [exact Vr | split; [exact Vp | left; exact C]] | apply Forall_nil]].
  split; [exact Vq | split; [exact Vr|]]. destruct (Rle_lt_or_eq_dec _ _ B) as [B'|B']; [left; exact B'|]. right. cbn [fst snd]. split; [lra|].
  pose proof (vert_ne q Vq) as Nq. pose proof (dot_pos q Nq) as Dq.
  assert (E : pdot q q * pcross r p = pdot q r * pcross q p - pcross q r * pdot q p) by (unfold pdot, pcross; ring).
  rewrite <- B', (cross_anti q p) in E. assert (0 < pdot q q * pcross r p) by (apply Rmult_lt_0_compat; assumption). nra.
Qed.
Lemma mu_triangle p q r : ccw p q r -> In p V -> (mu (path p [q; r] p) + 1 <= length V)%nat.
Proof.
  intros (Vp & Vq & Vr & A & B & C) I. unfold mu. cbn [path fold_right].
  assert (X : forall v x y z, beyondb (x, y) v = true -> beyondb (y, z) v = true -> False).
  { intros v x y z H1 H2. apply beyondb_spec in H1. apply beyondb_spec in H2. destruct H1 as (_ & H1 & _). destruct H2 as (H2 & _). rewrite cross_anti in H2. lra. }
  assert (P0 : forall x y, (x, y) = (p, q) \/ (x, y) = (q, r) \/ (x, y) = (r, p) -> beyondb (x, y) p = false).
  { intros x y H. destruct (beyondb (x, y) p) eqn:Q; [|reflexivity]. exfalso. apply beyondb_spec in Q. destruct Q as (Q1 & Q2 & _).
    destruct H as [H|[H|H]]; injection H as -> ->; rewrite ?cross_self in *; try lra. rewrite cross_anti in Q1. lra. }
  set (f := beyondb (p, q)) in *; set (g := beyondb (q, r)) in *; set (h := beyondb (r, p)) in * .
  assert (G : forall l, (length (filter f l) + (length (filter g l) + (length (filter h l) + 0)) <= length (filter (fun v => f v || g v || h v) l))%nat).
  { induction l as [|v l IH]; cbn; [lia|]. specialize (X v) as Xv. fold f g h in Xv.
    pose proof (Xv p q r) as X1. pose proof (Xv q r p) as X2. pose proof (Xv r p q) as X3. fold f g h in X1, X2, X3.
    destruct (f v), (g v), (h v); cbn; try (exfalso; auto; fail); lia. }
  specialize (G V). pose proof (filter_split (fun v => f v || g v || h v) V) as S.
  assert (J : In p (filter (fun v => negb (f v || g v || h v)) V)).
  { apply filter_In. split; [exact I|]. unfold f, g, h. rewrite (P0 p q), (P0 q r), (P0 r p) by auto. reflexivity. }
  destruct (filter (fun v => negb (f v || g v || h v)) V); [contradiction | cbn in S; lia].
Qed.
Lemma tri_ccw a b c : tri a b c -> exists p q r, enforce_ccw (map inj [a; b; c]) = Ok (map inj [p; q; r]) /\ ccw p q r.
Proof.
  intros (Va & Vb & Vc & N & P1 & P2 & P3). cbn [map enforce_ccw].
  assert (E : cross (v2sub (inj b) (inj a)) (v2sub (inj c) (inj a)) = XFin (abc_ a b c)) by reflexivity. rewrite E.
  change (flt f0 (XFin (abc_ a b c))) with (Rltb 0 (abc_ a b c)).
  destruct (Rltb_spec 0 (abc_ a b c)) as [L|L].
  - exists a, b, c. split; [reflexivity|]. repeat (split; [assumption|]). split; [nra|]. split; nra.
  - assert (L' : abc_ a b c < 0) by lra. exists a, c, b. split; [reflexivity|]. repeat (split; [assumption|]).
    rewrite (cross_anti a c), (cross_anti c b), (cross_anti b a). split; [nra|]. split; nra.
Qed.
Lemma epa_tri a b c pts : tri a b c -> enforce_ccw (map inj [a; b; c]) = Ok pts -> (length V <= 20)%nat ->
  exists v, epa sup 20 pts = inj v /\ good_vector v.
Proof.
  intros T3 E L. destruct (tri_ccw a b c T3) as (p & q & r & E2 & CC). rewrite E2 in E. injection E as <-.
  pose proof (ccw_poly p q r CC) as P. assert (I : In p V) by (destruct CC as ([_ (e & He & ->)] & _); apply HV, He).
  pose proof (mu_triangle p q r CC I) as Mu.
  destruct (epa_converges 19 p [q; r] P ltac:(lia)) as (v & Ev & G). exists v. split; [|exact G]. unfold epa. cbn [map] in * . rewrite Ev. reflexivity.
Qed.
End Epa.
