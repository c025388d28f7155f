(** * Property theorems C57: scaling_factor is the greatest stretch. *)
From Coq Require Import Reals Lra Psatz.
From Verif Require Import Num NumXR Glam Transform2 Angle Spec SpecLink P_Base P_Transform P_Geo3 P_3d Props_Bevy.
Local Open Scope R_scope.

(** f never moves two points farther apart than k times their distance, and some two different points exactly that far *)
Definition greatest_stretch (f : pt -> pt) (k : R) : Prop :=
  (forall p q, norm (psub (f p) (f q)) <= k * norm (psub p q)) /\
  exists p q, p <> q /\ norm (psub (f p) (f q)) = k * norm (psub p q).
(** t takes points to points by a map whose greatest stretch is what scaling_factor says *)
Definition scaling_right {T : Type} {TR : Transformation2d XR T} (t : T) : Prop :=
  exists f k, (forall p, apply t (inj p) = inj (f p)) /\ scaling_factor t = XFin k /\ greatest_stretch f k.

Lemma norm_axis x y : norm (x, 0) = Rabs x /\ norm (0, y) = Rabs y.
Proof.
  unfold norm, pdot; cbn. split; rewrite ?Rmult_0_l, ?Rplus_0_r, ?Rplus_0_l; apply sqrt_Rsqr_abs.
Qed.
Lemma norm_place v c s sx sy p q : c * c + s * s = 1 ->
  norm (psub (place v c s sx sy p) (place v c s sx sy q)) = norm (sx * (fst p - fst q), sy * (snd p - snd q)).
Proof.
  intro U. unfold norm. f_equal. unfold pdot, place, psub; cbn.
  set (a := fst p - fst q). set (b := snd p - snd q).
  transitivity ((c * c + s * s) * ((sx * a) * (sx * a) + (sy * b) * (sy * b))); [unfold a, b; ring | rewrite U; ring].
Qed.
Lemma norm_scaled sx sy k x y : 0 <= k -> sx * sx <= k * k -> sy * sy <= k * k -> norm (sx * x, sy * y) <= k * norm (x, y).
Proof.
  intros K X Y. unfold norm, pdot; cbn. rewrite <- (sqrt_square k) at 1 by exact K. rewrite <- sqrt_mult_alt by nra.
  apply sqrt_le_1_alt. pose proof (Rle_0_sqr x) as A. pose proof (Rle_0_sqr y) as B. unfold Rsqr in A, B.
  replace (sx * x * (sx * x) + sy * y * (sy * y)) with (sx * sx * (x * x) + sy * sy * (y * y)) by ring.
  rewrite Rmult_plus_distr_l. apply Rplus_le_compat; apply Rmult_le_compat_r; assumption.
Qed.
Lemma place_stretch v c s sx sy : c * c + s * s = 1 -> 0 <= sx -> 0 <= sy -> greatest_stretch (place v c s sx sy) (Rmax sx sy).
Proof.
  intros U X Y. pose proof (Rmax_l sx sy) as L. pose proof (Rmax_r sx sy) as R0. split.
  - intros p q. rewrite norm_place by exact U. unfold psub at 1. apply norm_scaled; [lra | |]; apply Rmult_le_compat; lra.
  - destruct (Rle_lt_dec sy sx) as [D|D].
    + rewrite Rmax_left by exact D. exists (1, 0), (0, 0). split; [intro E; apply (f_equal fst) in E; cbn in E; lra|].
      rewrite norm_place by exact U. unfold psub; cbn [fst snd].
      replace (sx * (1 - 0), sy * (0 - 0)) with (sx, 0) by (f_equal; ring). replace (1 - 0, 0 - 0) with (1, 0) by (f_equal; ring).
      destruct (norm_axis sx 0) as [-> _]. destruct (norm_axis 1 0) as [-> _]. rewrite Rabs_R1, Rabs_pos_eq by exact X. ring.
    + rewrite Rmax_right by lra. exists (0, 1), (0, 0). split; [intro E; apply (f_equal snd) in E; cbn in E; lra|].
      rewrite norm_place by exact U. unfold psub; cbn [fst snd].
      replace (sx * (0 - 0), sy * (1 - 0)) with (0, sy) by (f_equal; ring). replace (0 - 0, 1 - 0) with (0, 1) by (f_equal; ring).
      destruct (norm_axis 0 sy) as [_ ->]. destruct (norm_axis 0 1) as [_ ->]. rewrite Rabs_R1, Rabs_pos_eq by exact Y. ring.
Qed.
Lemma fmax_fin2 a b : fmax (XFin a) (XFin b) = XFin (Rmax a b).
Proof.
  unfold fmax; cbn. destruct (Rltb_spec a b).
  - f_equal. symmetry. apply Rmax_right. lra.
  - f_equal. symmetry. apply Rmax_left. lra.
Qed.
Lemma right_from_place {T : Type} {TR : Transformation2d XR T} (t : T) v c s sx sy :
  (forall p, apply t (inj p) = inj (place v c s sx sy p)) -> scaling_factor t = XFin (Rmax sx sy) -> c * c + s * s = 1 -> 0 <= sx -> 0 <= sy -> scaling_right t.
Proof. intros A S U X Y. exists (place v c s sx sy), (Rmax sx sy). split; [exact A|]. split; [exact S|]. apply place_stretch; assumption. Qed.

Theorem C57_scaling_factor : forall v c s sx sy k, c * c + s * s = 1 -> 0 <= sx -> 0 <= sy -> 0 <= k ->
  scaling_right IdT /\ scaling_right (inj v) /\ scaling_right (Translate2d (inj v)) /\ scaling_right (ax v k) /\
  scaling_right (t2 v c s sx sy) /\
  (forall d z w sz, z * z + w * w = 1 -> scaling_right (bevy (fst v, snd v, d) z w (sx, sy, sz))).
Proof.
  intros v c s sx sy k U X Y K.
  assert (ID : forall a, Rmax a a = a) by (intro a; apply Rmax_left; lra).
  split; [|split; [|split; [|split; [|split]]]].
  - apply (right_from_place _ (0, 0) 1 0 1 1); try lra; [intro p; apply vec_ext; cbn; f_equal; ring | rewrite ID; reflexivity].
  - apply (right_from_place _ v 1 0 1 1); try lra; [intro p; apply vec_ext; cbn; f_equal; ring | rewrite ID; reflexivity].
  - apply (right_from_place _ v 1 0 1 1); try lra; [intro p; apply vec_ext; cbn; f_equal; ring | rewrite ID; reflexivity].
  - apply (right_from_place _ v 1 0 k k); try lra; [intro p; apply vec_ext; cbn; f_equal; ring | rewrite ID; reflexivity].
  - apply (right_from_place _ v c s sx sy); try assumption; [apply apply_t2 | apply fmax_fin2].
  - intros d z w sz UQ. apply (right_from_place _ v (2 * w * w - 1) (2 * w * z) sx sy); [| | apply unit_rotor; exact UQ | exact X | exact Y].
    + intro p. change (apply (t2_of_bevy (bevy (fst v, snd v, d) z w (sx, sy, sz))) (inj p) = inj (place v (2 * w * w - 1) (2 * w * z) sx sy p)).
      rewrite t2_bevy by exact UQ. destruct v; apply apply_t2.
    + change (scaling_factor (t2_of_bevy (bevy (fst v, snd v, d) z w (sx, sy, sz))) = XFin (Rmax sx sy)). rewrite t2_bevy by exact UQ. apply fmax_fin2.
Qed.
Print Assumptions C57_scaling_factor.
Example C57_case : scaling_factor (t2 (1, 2) (3/5) (4/5) 2 5) = XFin 5 /\ scaling_right (t2 (1, 2) (3/5) (4/5) 2 5).
Proof.
  split; [change (fmax (XFin 2) (XFin 5) = XFin 5); rewrite fmax_fin2, Rmax_right by lra; reflexivity|].
  destruct (C57_scaling_factor (1, 2) (3/5) (4/5) 2 5 1 ltac:(lra) ltac:(lra) ltac:(lra) ltac:(lra)) as (_ & _ & _ & _ & H & _). exact H.
Qed.

(** A mirrored placement (a negative scale) is not stretched as scaling_factor says: AxisTransform2d even reports a negative
    factor, and Transform2d the greater of the two signed scales. *)
Theorem C57_mirrored_refuted : forall v c s k, c * c + s * s = 1 -> 0 < k ->
  scaling_factor (ax v (- k)) = XFin (- k) /\ ~ scaling_right (ax v (- k)) /\
  scaling_factor (t2 v c s (- 2 * k) k) = XFin k /\ ~ scaling_right (t2 v c s (- 2 * k) k).
Proof.
  intros v c s k U K.
  assert (M : forall (T : Type) (TR : Transformation2d XR T) (t : T) sx sy v c s, c * c + s * s = 1 -> sx < 0 ->
    (forall p, apply t (inj p) = inj (place v c s sx sy p)) -> forall m, m < - sx -> scaling_factor t = XFin m -> ~ scaling_right t).
  { clear. intros T TR t sx sy v c s U N A m L S (f & k & F & S' & G & _). rewrite S in S'. injection S' as <-.
    specialize (G (1, 0) (0, 0)).
    assert (EF : forall p, f p = place v c s sx sy p) by (intro p; apply inj_inj; rewrite <- F; apply A). rewrite !EF, norm_place in G by exact U.
    unfold psub in G; cbn [fst snd] in G.
    replace (sx * (1 - 0), sy * (0 - 0)) with (sx, 0) in G by (f_equal; ring). replace (1 - 0, 0 - 0) with (1, 0) in G by (f_equal; ring).
    destruct (norm_axis sx 0) as [E _]. destruct (norm_axis 1 0) as [E' _]. rewrite E, E', Rabs_R1, Rabs_left in G by exact N. lra. }
  split; [reflexivity|]. split.
  { apply (M _ _ _ (- k) (- k) v 1 0) with (m := - k); try lra; [intro p; apply vec_ext; cbn; f_equal; ring | reflexivity]. }
  assert (S : scaling_factor (t2 v c s (- 2 * k) k) = XFin k) by (change (fmax (XFin (- 2 * k)) (XFin k) = XFin k); rewrite fmax_fin2, Rmax_right by lra; reflexivity).
  split; [exact S|]. apply (M _ _ _ (- 2 * k) k v c s) with (m := k); [exact U | lra | apply apply_t2 | lra | exact S].
Qed.
Print Assumptions C57_mirrored_refuted.
