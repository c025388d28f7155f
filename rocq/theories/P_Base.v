(** * Basic facts: reals, norms, embedding. *)
From Coq Require Import Reals Lra Psatz Bool List.
From Verif Require Import Num NumXR Glam Spec SpecLink.
Import ListNotations.
Local Open Scope R_scope.

Lemma pt_eq (p q : pt) : fst p = fst q -> snd p = snd q -> p = q.
Proof. destruct p, q; cbn; congruence. Qed.

Lemma inj_inj p q : inj p = inj q -> p = q.
Proof. destruct p, q; unfold inj; cbn; congruence. Qed.

Lemma pdot_nonneg p : 0 <= pdot p p.
Proof. unfold pdot; nra. Qed.

Lemma norm_nonneg p : 0 <= norm p.
Proof. apply sqrt_pos. Qed.

Lemma norm_sq p : norm p * norm p = pdot p p.
Proof. apply sqrt_sqrt, pdot_nonneg. Qed.

Lemma norm_le_sq p r : 0 <= r -> (norm p <= r <-> pdot p p <= r * r).
Proof.
  intro Hr. pose proof (norm_nonneg p) as Hn. pose proof (norm_sq p) as Hs. split; intro H; nra.
Qed.
Lemma norm_lt_sq p r : 0 <= r -> (norm p < r <-> pdot p p < r * r).
Proof.
  intro Hr. pose proof (norm_nonneg p) as Hn. pose proof (norm_sq p) as Hs. split; intro H; nra.
Qed.
Lemma norm_le_norm p q : norm p <= norm q <-> pdot p p <= pdot q q.
Proof.
  rewrite (norm_le_sq p (norm q) (norm_nonneg q)), norm_sq. reflexivity.
Qed.
Lemma norm_eq p r : 0 <= r -> pdot p p = r * r -> norm p = r.
Proof.
  intros Hr H. unfold norm. rewrite H. apply sqrt_square, Hr.
Qed.
Lemma norm_0 p : norm p = 0 <-> p = origin.
Proof.
  split.
  - intro H. pose proof (norm_sq p) as Hs. rewrite H in Hs. unfold pdot in Hs.
    apply pt_eq; cbn; nra.
  - intros ->. apply norm_eq; cbn; unfold pdot, origin; cbn; lra.
Qed.
Lemma norm_neg p : norm (pneg p) = norm p.
Proof. unfold norm. f_equal. unfold pdot, pneg; cbn; ring. Qed.
Lemma norm_scale k p : norm (pscale k p) = Rabs k * norm p.
Proof.
  apply norm_eq.
  - apply Rmult_le_pos; [apply Rabs_pos | apply norm_nonneg].
  - replace (Rabs k * norm p * (Rabs k * norm p)) with ((Rabs k * Rabs k) * (norm p * norm p)) by ring.
    rewrite norm_sq. rewrite <- Rabs_mult, Rabs_pos_eq by nra. unfold pdot, pscale; cbn; ring.
Qed.

(** Cauchy-Schwarz *)
Lemma cauchy_sq p q : pdot p q * pdot p q <= pdot p p * pdot q q.
Proof. unfold pdot. destruct p as [a b], q as [c d]; cbn. pose proof (Rle_0_sqr (a * d - b * c)). unfold Rsqr in * . nra. Qed.
Lemma cauchy p q : pdot p q <= norm p * norm q.
Proof.
  destruct (Rle_dec (pdot p q) 0) as [H|H].
  - pose proof (norm_nonneg p); pose proof (norm_nonneg q); nra.
  - apply Rnot_le_lt in H.
    pose proof (cauchy_sq p q) as C. rewrite <- !norm_sq in C.
    pose proof (norm_nonneg p); pose proof (norm_nonneg q).
    assert (0 <= norm p * norm q) by nra.
    apply Rnot_lt_le; intro Hlt. nra.
Qed.
Lemma cauchy_abs p q : Rabs (pdot p q) <= norm p * norm q.
Proof.
  unfold Rabs; destruct (Rcase_abs _).
  - replace (- pdot p q) with (pdot (pneg p) q) by (unfold pdot, pneg; cbn; ring).
    rewrite <- (norm_neg p). apply cauchy.
  - apply cauchy.
Qed.
Lemma norm_triangle p q : norm (padd p q) <= norm p + norm q.
Proof.
  pose proof (norm_nonneg p); pose proof (norm_nonneg q).
  apply norm_le_sq; [lra|].
  pose proof (cauchy p q) as C. pose proof (norm_sq p); pose proof (norm_sq q).
  replace (pdot (padd p q) (padd p q)) with (pdot p p + 2 * pdot p q + pdot q q)
    by (unfold pdot, padd; cbn; ring). nra.
Qed.
Lemma norm_triangle_sub p q : norm p - norm q <= norm (psub p q).
Proof.
  assert (E : p = padd (psub p q) q) by (apply pt_eq; cbn; ring).
  pose proof (norm_triangle (psub p q) q) as T. rewrite <- E in T. lra.
Qed.
Lemma norm_x p : Rabs (fst p) <= norm p.
Proof.
  pose proof (norm_nonneg p); pose proof (norm_sq p) as S. unfold pdot in S.
  unfold Rabs; destruct (Rcase_abs _); nra.
Qed.
Lemma norm_y p : Rabs (snd p) <= norm p.
Proof.
  pose proof (norm_nonneg p); pose proof (norm_sq p) as S. unfold pdot in S.
  unfold Rabs; destruct (Rcase_abs _); nra.
Qed.
Lemma norm_xaxis a : norm (a, 0) = Rabs a.
Proof. apply norm_eq; [apply Rabs_pos|]. rewrite <- Rabs_mult, Rabs_pos_eq; unfold pdot; cbn; nra. Qed.
Lemma norm_yaxis a : norm (0, a) = Rabs a.
Proof. apply norm_eq; [apply Rabs_pos|]. rewrite <- Rabs_mult, Rabs_pos_eq; unfold pdot; cbn; nra. Qed.
Lemma norm_origin : norm origin = 0.
Proof. apply norm_0; reflexivity. Qed.

(** Case analysis on the boolean comparisons of reals, keeping a propositional fact. *)
Ltac rcase :=
  match goal with
  | |- context [Rltb ?a ?b] => destruct (Rltb_spec a b)
  | |- context [Rleb ?a ?b] => destruct (Rleb_spec a b)
  | |- context [Reqb ?a ?b] => destruct (Reqb_spec a b)
  end.
Ltac rcase_in H :=
  match type of H with
  | context [Rltb ?a ?b] => destruct (Rltb_spec a b)
  | context [Rleb ?a ?b] => destruct (Rleb_spec a b)
  | context [Reqb ?a ?b] => destruct (Reqb_spec a b)
  end.

(** Model vector operations on embedded points. *)
Lemma v2add_inj p q : v2add (inj p) (inj q) = inj (padd p q). Proof. reflexivity. Qed.
Lemma v2sub_inj p q : v2sub (inj p) (inj q) = inj (psub p q). Proof. reflexivity. Qed.
Lemma v2neg_inj p : v2neg (inj p) = inj (pneg p). Proof. reflexivity. Qed.
Lemma v2smul_inj k p : v2smul (XFin k) (inj p) = inj (pscale k p). Proof. reflexivity. Qed.
Lemma v2muls_inj k p : v2muls (inj p) (XFin k) = inj (pscale k p).
Proof. unfold v2muls, inj, pscale; cbn. do 2 f_equal; ring. Qed.
Lemma v2dot_inj p q : v2dot (inj p) (inj q) = XFin (pdot p q). Proof. reflexivity. Qed.
Lemma v2lensq_inj p : v2lensq (inj p) = XFin (pdot p p). Proof. reflexivity. Qed.
Lemma v2len_inj p : v2len (inj p) = XFin (norm p).
Proof.
  unfold v2len. rewrite v2dot_inj. cbn. rewrite Rltb_false by apply pdot_nonneg. reflexivity.
Qed.
Lemma v2zero_inj : v2zero (F:=XR) = inj origin. Proof. reflexivity. Qed.
Lemma v2eq_inj p q : v2eq (inj p) (inj q) = true <-> p = q.
Proof.
  unfold v2eq, inj; cbn. rewrite andb_true_iff. split.
  - intros [H1 H2]. rcase_in H1; [|discriminate]. rcase_in H2; [|discriminate]. apply pt_eq; assumption.
  - intros ->. rewrite !Reqb_true by reflexivity. split; reflexivity.
Qed.
Lemma fsignum_fin x : fsignum (XFin x) = XFin (if Rltb x 0 then -1 else 1).
Proof. unfold fsignum; cbn. rcase; reflexivity. Qed.
Lemma fmax_fin x y : fmax (XFin x) (XFin y) = XFin (Rmax x y).
Proof. unfold fmax; cbn. rcase; unfold Rmax; destruct (Rle_dec x y); try reflexivity; f_equal; lra. Qed.
Lemma fmin_fin x y : fmin (XFin x) (XFin y) = XFin (Rmin x y).
Proof. unfold fmin; cbn. rcase; unfold Rmin; destruct (Rle_dec x y); try reflexivity; f_equal; lra. Qed.
