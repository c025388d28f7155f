(** * Geometry of overlap, separation and contact (about Spec.v only). *)
From Coq Require Import Reals Lra Psatz.
From Verif Require Import Spec P_Base P_Transform P_Shapes.
Local Open Scope R_scope.

Lemma psub_0 p : psub p origin = p.
Proof. apply pt_eq; cbn; ring. Qed.
Lemma shift_0 A p : shift origin A p <-> A p.
Proof. unfold shift. rewrite psub_0. reflexivity. Qed.

(** Everything depends only on the Minkowski difference. *)
Lemma meets_diff A B w : meets (shift w A) B <-> minkowski_diff A B (pneg w).
Proof.
  unfold meets, shift, minkowski_diff. split.
  - intros (p & HA & HB). exists (psub p w), p. repeat split; try assumption. apply pt_eq; cbn; ring.
  - intros (a & b & HA & HB & E). exists b. split; [|exact HB].
    replace (psub b w) with a; [exact HA|].
    pose proof (f_equal fst E); pose proof (f_equal snd E); cbn in * . apply pt_eq; cbn; lra.
Qed.
Lemma shift_shift A v w p : shift w (shift v A) p <-> shift (padd v w) A p.
Proof. unfold shift. replace (psub (psub p w) v) with (psub p (padd v w)) by (apply pt_eq; cbn; ring). reflexivity. Qed.
Lemma meets_ext A A' B B' : same_set A A' -> same_set B B' -> (meets A B <-> meets A' B').
Proof. intros HA HB. unfold meets. split; intros (p & P & Q); exists p; split; apply HA || apply HB; assumption. Qed.
Lemma overlaps_diff A B v :
  overlaps (shift v A) B <-> exists eps, 0 < eps /\ forall u, norm u < eps -> minkowski_diff A B (psub u v).
Proof.
  assert (G : forall w, meets (shift w (shift v A)) B <-> minkowski_diff A B (psub (pneg w) v)).
  { intro w. rewrite (meets_ext _ (shift (padd v w) A) _ B); [|intro; apply shift_shift | intro; reflexivity].
    rewrite meets_diff. replace (pneg (padd v w)) with (psub (pneg w) v) by (apply pt_eq; cbn; ring). reflexivity. }
  unfold overlaps. split; intros (e & E & H); exists e; (split; [exact E|]).
  - intros u U. replace u with (pneg (pneg u)) by (apply pt_eq; cbn; ring). apply G, H. rewrite norm_neg. exact U.
  - intros w W. apply G, H. rewrite norm_neg. exact W.
Qed.
Lemma overlaps_0 A B : overlaps A B <-> overlaps (shift origin A) B.
Proof.
  unfold overlaps. split; intros (e & E & H); exists e; (split; [exact E|]); intros w W; specialize (H w W);
  (eapply meets_ext; [| |exact H]); try (intro; reflexivity); intro p; unfold shift; rewrite !psub_0; reflexivity.
Qed.

Section SameDiff.
Variables A B A' B' : pset.
Hypothesis H : same_set (minkowski_diff A B) (minkowski_diff A' B').
Lemma same_meets w : meets (shift w A) B <-> meets (shift w A') B'.
Proof. rewrite !meets_diff. apply H. Qed.
Lemma same_overlaps_shift v : overlaps (shift v A) B <-> overlaps (shift v A') B'.
Proof.
  rewrite !overlaps_diff. split; intros (e & E & K); exists e; (split; [exact E|]); intros u U; apply H, K, U.
Qed.
Lemma same_overlaps : overlaps A B <-> overlaps A' B'.
Proof. rewrite (overlaps_0 A B), (overlaps_0 A' B'). apply same_overlaps_shift. Qed.
Lemma same_separates v : separates v A B <-> separates v A' B'.
Proof. unfold separates. rewrite same_overlaps_shift. reflexivity. Qed.
Lemma same_min_separation v : is_min_separation v A B <-> is_min_separation v A' B'.
Proof.
  unfold is_min_separation. rewrite same_separates. split; intros [S M]; split; try exact S;
  intros w W; apply M, same_separates, W.
Qed.
Lemma same_min_contact v : is_min_contact v A B <-> is_min_contact v A' B'.
Proof.
  unfold is_min_contact. rewrite same_meets. split; intros [S M]; split; try exact S;
  intros w W; apply M, same_meets, W.
Qed.
Lemma same_signed_distance d : is_signed_distance d A B <-> is_signed_distance d A' B'.
Proof.
  unfold is_signed_distance. rewrite same_overlaps.
  split; (intros [[O (v & V & E)]|[O (v & V & E)]]; [left | right]; (split; [exact O|]); exists v; (split; [|exact E]));
  (apply same_min_separation; exact V) || (apply same_min_contact; exact V).
Qed.
End SameDiff.

(** ** Certificates, for a body A against a point c *)
Lemma meets_single (A : pset) c w : meets (shift w A) (single c) <-> A (psub c w).
Proof.
  unfold meets, shift, single. split.
  - intros (p & HA & ->). exact HA.
  - intro H. exists c. split; [exact H | reflexivity].
Qed.
Lemma overlaps_single (A : pset) c v :
  overlaps (shift v A) (single c) <-> exists eps, 0 < eps /\ forall u, norm u < eps -> A (psub (psub c v) u).
Proof.
  unfold overlaps. split; intros (e & E & H); exists e; (split; [exact E|]); intros u U; specialize (H u U).
  - apply meets_single in H. unfold shift in H. replace (psub (psub c v) u) with (psub (psub c u) v) by (apply pt_eq; cbn; ring). exact H.
  - apply meets_single. unfold shift. replace (psub (psub c u) v) with (psub (psub c v) u) by (apply pt_eq; cbn; ring). exact H.
Qed.
(** a ball around c inside A: no shorter translation separates, and A overlaps c *)
Lemma cert_ball (A : pset) c rho : (forall u, norm u <= rho -> A (psub c u)) ->
  forall w, separates w A (single c) -> rho <= norm w.
Proof.
  intros H w S. apply Rnot_lt_le. intro L. apply S. apply overlaps_single.
  exists (rho - norm w). split; [lra|]. intros u U.
  replace (psub (psub c w) u) with (psub c (padd w u)) by (apply pt_eq; cbn; ring).
  apply H. pose proof (norm_triangle w u). lra.
Qed.
Lemma cert_ball_overlap (A : pset) c rho : 0 < rho -> (forall u, norm u <= rho -> A (psub c u)) -> overlaps A (single c).
Proof.
  intros P H. apply overlaps_0, overlaps_single. exists rho. split; [exact P|]. intros u U.
  replace (psub (psub c origin) u) with (psub c u) by (apply pt_eq; cbn; ring). apply H. lra.
Qed.
(** a supporting half-plane at c - v: v separates *)
Lemma cert_halfplane (A : pset) c v n : n <> origin -> (forall a, A a -> pdot n a <= pdot n (psub c v)) -> separates v A (single c).
Proof.
  intros N H O. apply overlaps_single in O. destruct O as (e & E & O).
  pose proof (norm_pos n N) as P.
  set (u := pscale (- (e / (2 * norm n))) n).
  assert (Q : 0 < e / (2 * norm n)) by (apply Rmult_lt_0_compat; [lra | apply Rinv_0_lt_compat; lra]).
  assert (U : norm u < e).
  { unfold u. rewrite norm_scale, Rabs_Ropp, Rabs_pos_eq by lra.
    replace (e / (2 * norm n) * norm n) with (e / 2) by (field; lra). lra. }
  specialize (H _ (O u U)). rewrite (pdot_sub_r n (psub c v) u) in H. unfold u in H. rewrite pdot_scale_r, <- norm_sq in H.
  assert (0 < e / (2 * norm n) * (norm n * norm n)) by (apply Rmult_lt_0_compat; nra). lra.
Qed.
Lemma cert_not_overlap (A : pset) c n : n <> origin -> (forall a, A a -> pdot n a <= pdot n c) -> ~ overlaps A (single c).
Proof.
  intros N H O. apply (cert_halfplane A c origin n N); [|apply overlaps_0 in O; exact O].
  intros a HA. rewrite psub_0. apply H, HA.
Qed.
(** c - v in A, and A entirely behind the line through c - v with normal v: v is the shortest contact *)
Lemma cert_contact (A : pset) c v : A (psub c v) -> (forall a, A a -> pdot v a <= pdot v (psub c v)) -> is_min_contact v A (single c).
Proof.
  intros HA H. split; [apply meets_single, HA|]. intros w W. apply meets_single in W.
  pose proof (H _ W) as L. rewrite !pdot_sub_r in L.
  assert (K : pdot v v <= pdot v w) by lra. pose proof (cauchy v w). rewrite <- norm_sq in K.
  pose proof (norm_nonneg v). pose proof (norm_nonneg w).
  destruct H1 as [P|P]; [|lra]. apply Rmult_le_reg_l with (norm v); lra.
Qed.
Lemma cert_separation (A : pset) c v rho n : norm v = rho -> n <> origin ->
  (forall u, norm u <= rho -> A (psub c u)) -> (forall a, A a -> pdot n a <= pdot n (psub c v)) ->
  is_min_separation v A (single c).
Proof.
  intros E N B H. split; [apply (cert_halfplane A c v n N H)|]. intros w W. rewrite E. apply (cert_ball A c rho B w W).
Qed.

(** ** Exchanging the bodies and rigid motions *)
Lemma diff_swap A B p : minkowski_diff A B p <-> minkowski_diff B A (pneg p).
Proof.
  unfold minkowski_diff. split; intros (a & b & HA & HB & E); exists b, a; repeat split; try assumption.
  - rewrite E. apply pt_eq; cbn; ring.
  - apply pt_eq; apply (f_equal fst) in E as E1; apply (f_equal snd) in E as E2; cbn in *; lra.
Qed.
Lemma swap_meets A B w : meets (shift w A) B <-> meets (shift (pneg w) B) A.
Proof. rewrite !meets_diff. apply diff_swap. Qed.
Lemma swap_overlaps_shift A B v : overlaps (shift v A) B <-> overlaps (shift (pneg v) B) A.
Proof.
  rewrite !overlaps_diff. split; intros (e & E & K); exists e; (split; [exact E|]); intros u U.
  - apply diff_swap. replace (pneg (psub u (pneg v))) with (psub (pneg u) v) by (apply pt_eq; cbn; ring).
    apply K. rewrite norm_neg. exact U.
  - apply diff_swap. replace (pneg (psub u v)) with (psub (pneg u) (pneg v)) by (apply pt_eq; cbn; ring).
    apply K. rewrite norm_neg. exact U.
Qed.
Lemma pneg_pneg p : pneg (pneg p) = p.
Proof. apply pt_eq; cbn; ring. Qed.
Lemma pneg_origin : pneg origin = origin.
Proof. apply pt_eq; cbn; ring. Qed.
Lemma swap_overlaps A B : overlaps A B <-> overlaps B A.
Proof. rewrite (overlaps_0 A B), (overlaps_0 B A), swap_overlaps_shift, pneg_origin. reflexivity. Qed.
Lemma swap_min_separation A B v : is_min_separation v A B -> is_min_separation (pneg v) B A.
Proof.
  intros [S M]. split.
  - unfold separates in * . rewrite swap_overlaps_shift, pneg_pneg. exact S.
  - intros w W. rewrite norm_neg, <- (norm_neg w). apply M. unfold separates in * .
    rewrite swap_overlaps_shift, pneg_pneg. exact W.
Qed.
Lemma swap_min_contact A B v : is_min_contact v A B -> is_min_contact (pneg v) B A.
Proof.
  intros [S M]. split.
  - rewrite swap_meets, pneg_pneg. exact S.
  - intros w W. rewrite norm_neg, <- (norm_neg w). apply M. rewrite swap_meets, pneg_pneg. exact W.
Qed.

Section Rigid.
Variables (v : pt) (c s : R).
Hypothesis U : c * c + s * s = 1.
Let g := place v c s 1 1.
Lemma place_inj p q : g p = g q -> p = q.
Proof.
  intro E. unfold g in E. rewrite <- (unplace_place v c s 1 1 p), <- (unplace_place v c s 1 1 q) by lra. rewrite E. reflexivity.
Qed.
Lemma rotate_rotate_inv p : rotate c s (rotate c (- s) p) = p.
Proof.
  apply pt_eq; cbn.
  - transitivity ((c * c + s * s) * fst p); [ring | rewrite U; ring].
  - transitivity ((c * c + s * s) * snd p); [ring | rewrite U; ring].
Qed.
Lemma rotate_inv_rotate p : rotate c (- s) (rotate c s p) = p.
Proof.
  apply pt_eq; cbn.
  - transitivity ((c * c + s * s) * fst p); [ring | rewrite U; ring].
  - transitivity ((c * c + s * s) * snd p); [ring | rewrite U; ring].
Qed.
Lemma rigid_diff A B p : minkowski_diff (image g A) (image g B) (rotate c s p) <-> minkowski_diff A B p.
Proof.
  unfold minkowski_diff. split.
  - intros (x & y & (a & HA & ->) & (b & HB & ->) & E). exists a, b. repeat split; try assumption.
    assert (E2 : rotate c s p = rotate c s (psub a b)) by (rewrite E; unfold g; apply pt_eq; cbn; ring).
    rewrite <- (rotate_inv_rotate p), <- (rotate_inv_rotate (psub a b)), E2. reflexivity.
  - intros (a & b & HA & HB & ->). exists (g a), (g b). repeat split; [exists a; auto | exists b; auto |].
    unfold g; apply pt_eq; cbn; ring.
Qed.
Lemma rotate_neg p : rotate c s (pneg p) = pneg (rotate c s p).
Proof. apply pt_eq; cbn; ring. Qed.
Lemma rotate_sub p q : rotate c s (psub p q) = psub (rotate c s p) (rotate c s q).
Proof. apply pt_eq; cbn; ring. Qed.
Lemma rigid_meets A B w : meets (shift (rotate c s w) (image g A)) (image g B) <-> meets (shift w A) B.
Proof. rewrite !meets_diff, <- rotate_neg. apply rigid_diff. Qed.
Lemma rigid_overlaps_shift A B w : overlaps (shift (rotate c s w) (image g A)) (image g B) <-> overlaps (shift w A) B.
Proof.
  rewrite !overlaps_diff. split; intros (e & E & K); exists e; (split; [exact E|]); intros u Hu.
  - apply rigid_diff. rewrite rotate_sub. apply K. rewrite norm_rotate by exact U. exact Hu.
  - rewrite <- (rotate_rotate_inv u), <- rotate_sub. apply rigid_diff. apply K.
    rewrite norm_rotate by (apply unit_neg, U). exact Hu.
Qed.
Lemma rotate_origin : rotate c s origin = origin.
Proof. apply pt_eq; cbn; ring. Qed.
Lemma rigid_overlaps A B : overlaps (image g A) (image g B) <-> overlaps A B.
Proof. rewrite (overlaps_0 A B), (overlaps_0 (image g A)). rewrite <- rotate_origin at 1. apply rigid_overlaps_shift. Qed.
Lemma rigid_min_separation A B w :
  is_min_separation (rotate c s w) (image g A) (image g B) <-> is_min_separation w A B.
Proof.
  unfold is_min_separation, separates. rewrite rigid_overlaps_shift. split; intros [S M]; split; try exact S; intros x X.
  - rewrite <- (norm_rotate c s w U), <- (norm_rotate c s x U). apply M. rewrite rigid_overlaps_shift. exact X.
  - rewrite (norm_rotate c s w U). rewrite <- (rotate_rotate_inv x), rigid_overlaps_shift in X.
    rewrite <- (rotate_rotate_inv x), norm_rotate by exact U. apply M, X.
Qed.
Lemma rigid_min_contact A B w :
  is_min_contact (rotate c s w) (image g A) (image g B) <-> is_min_contact w A B.
Proof.
  unfold is_min_contact. rewrite rigid_meets. split; intros [S M]; split; try exact S; intros x X.
  - rewrite <- (norm_rotate c s w U), <- (norm_rotate c s x U). apply M. rewrite rigid_meets. exact X.
  - rewrite (norm_rotate c s w U). rewrite <- (rotate_rotate_inv x), rigid_meets in X.
    rewrite <- (rotate_rotate_inv x), norm_rotate by exact U. apply M, X.
Qed.
End Rigid.

(** set-extensionality of the notions *)
Lemma diff_ext A A' B B' : same_set A A' -> same_set B B' -> same_set (minkowski_diff A B) (minkowski_diff A' B').
Proof.
  intros HA HB p. unfold minkowski_diff. split; intros (a & b & Ha & Hb & E); exists a, b; repeat split;
  try (apply HA); try (apply HB); assumption.
Qed.

(** similarities *)
Section Similar.
Variables (v : pt) (c s k : R).
Hypothesis U : c * c + s * s = 1.
Hypothesis K : 0 < k.
Let g := place v c s k k.
Let h p := pscale k (rotate c s p).
Let h' p := rotate c (- s) (pscale (1 / k) p).
Lemma sim_hh p : h (h' p) = p.
Proof.
  unfold h, h'. apply pt_eq; cbn.
  - transitivity ((c * c + s * s) * fst p); [field; lra | rewrite U; ring].
  - transitivity ((c * c + s * s) * snd p); [field; lra | rewrite U; ring].
Qed.
Lemma sim_hh' p : h' (h p) = p.
Proof.
  unfold h, h'. apply pt_eq; cbn.
  - transitivity ((c * c + s * s) * fst p); [field; lra | rewrite U; ring].
  - transitivity ((c * c + s * s) * snd p); [field; lra | rewrite U; ring].
Qed.
Lemma sim_norm p : norm (h p) = k * norm p.
Proof. unfold h. rewrite norm_scale, norm_rotate by exact U. rewrite Rabs_pos_eq; lra. Qed.
Lemma sim_diff A B p : minkowski_diff (image g A) (image g B) (h p) <-> minkowski_diff A B p.
Proof.
  unfold minkowski_diff. split.
  - intros (x & y & (a & HA & ->) & (b & HB & ->) & E). exists a, b. repeat split; try assumption.
    rewrite <- (sim_hh' p), E. replace (psub (g a) (g b)) with (h (psub a b)) by (unfold h, g; apply pt_eq; cbn; ring).
    apply sim_hh'.
  - intros (a & b & HA & HB & ->). exists (g a), (g b). repeat split; [exists a; auto | exists b; auto |].
    unfold h, g; apply pt_eq; cbn; ring.
Qed.
Lemma sim_meets A B w : meets (shift (h w) (image g A)) (image g B) <-> meets (shift w A) B.
Proof.
  rewrite !meets_diff. replace (pneg (h w)) with (h (pneg w)) by (unfold h; apply pt_eq; cbn; ring). apply sim_diff.
Qed.
Lemma sim_overlaps_shift A B w : overlaps (shift (h w) (image g A)) (image g B) <-> overlaps (shift w A) B.
Proof.
  rewrite !overlaps_diff. split; intros (e & E & Q).
  - exists (e / k). split; [apply Rmult_lt_0_compat; [exact E | apply Rinv_0_lt_compat; exact K]|]. intros u Hu.
    apply sim_diff. replace (h (psub u w)) with (psub (h u) (h w)) by (unfold h; apply pt_eq; cbn; ring). apply Q.
    rewrite sim_norm. apply Rmult_lt_reg_r with (/ k); [apply Rinv_0_lt_compat; exact K|].
    replace (k * norm u * / k) with (norm u) by (field; lra). exact Hu.
  - exists (k * e). split; [apply Rmult_lt_0_compat; assumption|]. intros u Hu.
    rewrite <- (sim_hh u). replace (psub (h (h' u)) (h w)) with (h (psub (h' u) w)) by (unfold h; apply pt_eq; cbn; ring).
    apply sim_diff, Q. apply Rmult_lt_reg_l with k; [exact K|]. rewrite <- sim_norm, sim_hh. exact Hu.
Qed.
Lemma sim_overlaps A B : overlaps (image g A) (image g B) <-> overlaps A B.
Proof.
  rewrite (overlaps_0 A B), (overlaps_0 (image g A)). replace origin with (h origin) at 1 by (unfold h; apply pt_eq; cbn; ring).
  apply sim_overlaps_shift.
Qed.
Lemma sim_min_separation A B w : is_min_separation (h w) (image g A) (image g B) <-> is_min_separation w A B.
Proof.
  unfold is_min_separation, separates. rewrite sim_overlaps_shift. split; intros [S M]; split; try exact S; intros x X.
  - apply Rmult_le_reg_l with k; [exact K|]. rewrite <- !sim_norm. apply M. rewrite sim_overlaps_shift. exact X.
  - rewrite <- (sim_hh x), sim_overlaps_shift in X. rewrite <- (sim_hh x), !sim_norm.
    apply Rmult_le_compat_l; [lra|]. apply M, X.
Qed.
Lemma sim_min_contact A B w : is_min_contact (h w) (image g A) (image g B) <-> is_min_contact w A B.
Proof.
  unfold is_min_contact. rewrite sim_meets. split; intros [S M]; split; try exact S; intros x X.
  - apply Rmult_le_reg_l with k; [exact K|]. rewrite <- !sim_norm. apply M. rewrite sim_meets. exact X.
  - rewrite <- (sim_hh x), sim_meets in X. rewrite <- (sim_hh x), !sim_norm.
    apply Rmult_le_compat_l; [lra|]. apply M, X.
Qed.
End Similar.
