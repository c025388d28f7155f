(** * Box v box in binary32: sign and magnitude bookkeeping through the search (proofs). *)
From Coq Require Import Reals ZArith Bool Lra Lia List Psatz.
From Flocq Require Import IEEE754.BinarySingleNaN Core.
From Verif Require Import Num NumXR NumB32 Glam Transform2 Shapes2 Gjk Detect2 P_B32.
Import ListNotations.
Local Open Scope R_scope.

Definition sg (s : bool) : R := if s then 1 else -1.
Lemma sg_sq s : sg s * sg s = 1. Proof. destruct s; cbn; lra. Qed.
Lemma sg_neg s : sg (negb s) = - sg s. Proof. destruct s; cbn; lra. Qed.
Lemma sg_eqb s t : sg (eqb s t) = sg s * sg t. Proof. destruct s, t; cbn; lra. Qed.

(** x has the sign s and a magnitude between 2^l and 2^u; has not the opposite sign; is bounded; is a zero *)
Definition mg (s : bool) (l u : Z) (x : b32) : Prop := fin x /\ bpow radix2 l <= sg s * val x <= bpow radix2 u.
Definition nn (s : bool) (u : Z) (x : b32) : Prop := fin x /\ 0 <= sg s * val x <= bpow radix2 u.
Definition bd (u : Z) (x : b32) : Prop := fin x /\ Rabs (val x) <= bpow radix2 u.
Definition vz (x : b32) : Prop := fin x /\ val x = 0.

Lemma rnd_bpow k : (-149 <= k)%Z -> rnd (bpow radix2 k) = bpow radix2 k.
Proof. intro H. pose proof (rnd_dyadic 1 k ltac:(lia) H) as E. rewrite Rmult_1_l in E. exact E. Qed.
Lemma rnd_sg s r : rnd (sg s * r) = sg s * rnd r.
Proof. destruct s; unfold sg; [rewrite !Rmult_1_l; reflexivity|]. replace (-1 * r) with (- r) by ring. rewrite rnd_opp. ring. Qed.
Lemma rnd_lo k r : (-149 <= k)%Z -> bpow radix2 k <= r -> bpow radix2 k <= rnd r.
Proof. intros H L. rewrite <- (rnd_bpow k H). apply rnd_le, L. Qed.
Lemma rnd_hi k r : (-149 <= k)%Z -> r <= bpow radix2 k -> rnd r <= bpow radix2 k.
Proof. intros H L. rewrite <- (rnd_bpow k H). apply rnd_le, L. Qed.
Lemma rnd_nonneg r : 0 <= r -> 0 <= rnd r.
Proof. intro H. rewrite <- rnd_0. apply rnd_le, H. Qed.
Lemma rnd_abs_hi k r : (-149 <= k)%Z -> Rabs r <= bpow radix2 k -> Rabs (rnd r) <= bpow radix2 k.
Proof.
  intros H L. apply Rabs_le. assert (- bpow radix2 k <= r <= bpow radix2 k) by (revert L; unfold Rabs; destruct (Rcase_abs r); lra).
  split; [|apply rnd_hi; [exact H | lra]]. assert (rnd (- r) <= bpow radix2 k) as Q by (apply rnd_hi; [exact H | lra]). rewrite rnd_opp in Q. lra.
Qed.
Lemma bpow_big k : (k <= 127)%Z -> bpow radix2 k < big.
Proof. intro H. unfold big. apply bpow_lt. lia. Qed.
Lemma bpow_double k : bpow radix2 (k + 1) = 2 * bpow radix2 k.
Proof. rewrite bpow_plus. cbn. lra. Qed.

Lemma bd_sg s u x : bd u x -> - bpow radix2 u <= sg s * val x <= bpow radix2 u.
Proof. intros [_ H]. revert H. unfold Rabs, sg. destruct (Rcase_abs (val x)), s; intros; lra. Qed.
Lemma mg_nn s l u x : mg s l u x -> nn s u x.
Proof. intros [F [A B]]. pose proof (bpow_gt_0 radix2 l). split; [exact F | lra]. Qed.
Lemma nn_bd s u x : nn s u x -> bd u x.
Proof. intros [F [A B]]. split; [exact F|]. revert A B. unfold Rabs, sg. destruct (Rcase_abs (val x)), s; intros; lra. Qed.
Lemma vz_nn s u x : vz x -> nn s u x.
Proof. intros [F E]. split; [exact F|]. rewrite E, Rmult_0_r. pose proof (bpow_ge_0 radix2 u). lra. Qed.
Lemma bd_le u u' x : (u <= u')%Z -> bd u x -> bd u' x.
Proof. intros H [F B]. split; [exact F|]. eapply Rle_trans; [exact B | apply bpow_le, H]. Qed.
Lemma nn_le s u u' x : (u <= u')%Z -> nn s u x -> nn s u' x.
Proof. intros H [F B]. split; [exact F|]. pose proof (bpow_le radix2 _ _ H). lra. Qed.
Lemma mg_le s l u l' u' x : (l' <= l)%Z -> (u <= u')%Z -> mg s l u x -> mg s l' u' x.
Proof. intros H H' [F B]. split; [exact F|]. pose proof (bpow_le radix2 _ _ H). pose proof (bpow_le radix2 _ _ H'). lra. Qed.
Lemma mg_neg s l u x : mg s l u x -> mg (negb s) l u (fneg x).
Proof. intros [F B]. split; [apply fin_neg, F|]. rewrite val_neg, sg_neg. lra. Qed.
Lemma nn_neg s u x : nn s u x -> nn (negb s) u (fneg x).
Proof. intros [F B]. split; [apply fin_neg, F|]. rewrite val_neg, sg_neg. lra. Qed.
Lemma bd_neg u x : bd u x -> bd u (fneg x).
Proof. intros [F B]. split; [apply fin_neg, F|]. rewrite val_neg, Rabs_Ropp. exact B. Qed.
Lemma vz_neg x : vz x -> vz (fneg x).
Proof. intros [F B]. split; [apply fin_neg, F|]. rewrite val_neg, B. lra. Qed.

Lemma mul_bd u u' x y : bd u x -> bd u' y -> (-149 <= u + u' <= 127)%Z -> bd (u + u') (fmul x y) /\ val (fmul x y) = rnd (val x * val y).
Proof.
  intros [F B] [F' B'] H. assert (P : Rabs (val x * val y) <= bpow radix2 (u + u')).
  { rewrite Rabs_mult, bpow_plus. apply Rmult_le_compat; try apply Rabs_pos; assumption. }
  pose proof (rnd_abs_hi (u + u') _ (proj1 H) P) as Q.
  destruct (mul_ok x y F F' ltac:(pose proof (bpow_big (u + u') ltac:(lia)); lra)) as [K V]. split; [split; [exact K | rewrite V; exact Q] | exact V].
Qed.
Lemma add_bd u x y : bd u x -> bd u y -> (-149 <= u <= 126)%Z -> bd (u + 1) (fadd x y) /\ val (fadd x y) = rnd (val x + val y).
Proof.
  intros [F B] [F' B'] H. assert (P : Rabs (val x + val y) <= bpow radix2 (u + 1)).
  { eapply Rle_trans; [apply Rabs_triang|]. rewrite bpow_double. lra. }
  pose proof (rnd_abs_hi (u + 1) _ ltac:(lia) P) as Q.
  destruct (add_ok x y F F' ltac:(pose proof (bpow_big (u + 1) ltac:(lia)); lra)) as [K V]. split; [split; [exact K | rewrite V; exact Q] | exact V].
Qed.
Lemma sub_bd u x y : bd u x -> bd u y -> (-149 <= u <= 126)%Z -> bd (u + 1) (fsub x y) /\ val (fsub x y) = rnd (val x - val y).
Proof.
  intros [F B] [F' B'] H. assert (P : Rabs (val x - val y) <= bpow radix2 (u + 1)).
  { unfold Rminus. eapply Rle_trans; [apply Rabs_triang|]. rewrite Rabs_Ropp, bpow_double. lra. }
  pose proof (rnd_abs_hi (u + 1) _ ltac:(lia) P) as Q.
  destruct (sub_ok x y F F' ltac:(pose proof (bpow_big (u + 1) ltac:(lia)); lra)) as [K V]. split; [split; [exact K | rewrite V; exact Q] | exact V].
Qed.
Lemma mul_mg s t l u l' u' x y : mg s l u x -> mg t l' u' y -> (-149 <= l + l')%Z -> (-149 <= u + u' <= 127)%Z ->
  mg (eqb s t) (l + l') (u + u') (fmul x y).
Proof.
  intros H H' L U. destruct (mul_bd u u' x y (nn_bd _ _ _ (mg_nn _ _ _ _ H)) (nn_bd _ _ _ (mg_nn _ _ _ _ H')) U) as [[K _] V].
  split; [exact K|]. rewrite V, <- rnd_sg, sg_eqb. replace (sg s * sg t * (val x * val y)) with ((sg s * val x) * (sg t * val y)) by ring.
  destruct H as [_ H], H' as [_ H']. pose proof (bpow_gt_0 radix2 l). pose proof (bpow_gt_0 radix2 l'). split.
  - apply rnd_lo; [exact L|]. rewrite bpow_plus. apply Rmult_le_compat; lra.
  - apply rnd_hi; [lia|]. rewrite bpow_plus. apply Rmult_le_compat; lra.
Qed.
Lemma mul_nn s t u u' x y : nn s u x -> nn t u' y -> (-149 <= u + u' <= 127)%Z -> nn (eqb s t) (u + u') (fmul x y).
Proof.
  intros H H' U. destruct (mul_bd u u' x y (nn_bd _ _ _ H) (nn_bd _ _ _ H') U) as [[K _] V].
  split; [exact K|]. rewrite V, <- rnd_sg, sg_eqb. replace (sg s * sg t * (val x * val y)) with ((sg s * val x) * (sg t * val y)) by ring.
  destruct H as [_ H], H' as [_ H']. split.
  - apply rnd_nonneg. apply Rmult_le_pos; lra.
  - apply rnd_hi; [lia|]. rewrite bpow_plus. apply Rmult_le_compat; lra.
Qed.
Lemma mul_vz_l u x y : vz x -> bd u y -> (u <= 127)%Z -> vz (fmul x y).
Proof.
  intros [F E] [F' B] U. destruct (mul_ok x y F F') as [K V]; [rewrite E, Rmult_0_l, rnd_0, Rabs_R0; apply bpow_gt_0|].
  split; [exact K|]. rewrite V, E, Rmult_0_l. apply rnd_0.
Qed.
Lemma mul_vz_r u x y : bd u x -> vz y -> (u <= 127)%Z -> vz (fmul x y).
Proof.
  intros [F' B] [F E] U. destruct (mul_ok x y F' F) as [K V]; [rewrite E, Rmult_0_r, rnd_0, Rabs_R0; apply bpow_gt_0|].
  split; [exact K|]. rewrite V, E, Rmult_0_r. apply rnd_0.
Qed.
Lemma add_mg_l s l u x y : mg s l u x -> nn s u y -> (-149 <= l)%Z -> (-149 <= u <= 126)%Z -> mg s l (u + 1) (fadd x y).
Proof.
  intros H H' L U. destruct (add_bd u x y (nn_bd _ _ _ (mg_nn _ _ _ _ H)) (nn_bd _ _ _ H') U) as [[K _] V].
  split; [exact K|]. rewrite V, <- rnd_sg, Rmult_plus_distr_l. destruct H as [_ H], H' as [_ H']. split.
  - apply rnd_lo; [exact L | lra].
  - apply rnd_hi; [lia|]. rewrite bpow_double. lra.
Qed.
Lemma add_mg_r s l u x y : nn s u x -> mg s l u y -> (-149 <= l)%Z -> (-149 <= u <= 126)%Z -> mg s l (u + 1) (fadd x y).
Proof.
  intros H' H L U. destruct (add_bd u x y (nn_bd _ _ _ H') (nn_bd _ _ _ (mg_nn _ _ _ _ H)) U) as [[K _] V].
  split; [exact K|]. rewrite V, <- rnd_sg, Rmult_plus_distr_l. destruct H as [_ H], H' as [_ H']. split.
  - apply rnd_lo; [exact L | lra].
  - apply rnd_hi; [lia|]. rewrite bpow_double. lra.
Qed.
Lemma add_nn s u x y : nn s u x -> nn s u y -> (-149 <= u <= 126)%Z -> nn s (u + 1) (fadd x y).
Proof.
  intros H H' U. destruct (add_bd u x y (nn_bd _ _ _ H) (nn_bd _ _ _ H') U) as [[K _] V].
  split; [exact K|]. rewrite V, <- rnd_sg, Rmult_plus_distr_l. destruct H as [_ H], H' as [_ H']. split.
  - apply rnd_nonneg. lra.
  - apply rnd_hi; [lia|]. rewrite bpow_double. lra.
Qed.
Lemma sub_mg_l s l u x y : mg s l u x -> nn (negb s) u y -> (-149 <= l)%Z -> (-149 <= u <= 126)%Z -> mg s l (u + 1) (fsub x y).
Proof.
  intros H H' L U. destruct (sub_bd u x y (nn_bd _ _ _ (mg_nn _ _ _ _ H)) (nn_bd _ _ _ H') U) as [[K _] V].
  split; [exact K|]. rewrite V, <- rnd_sg, Rmult_minus_distr_l. destruct H as [_ H], H' as [_ H']. rewrite sg_neg in H'. split.
  - apply rnd_lo; [exact L | lra].
  - apply rnd_hi; [lia|]. rewrite bpow_double. lra.
Qed.
Lemma sub_mg_r s l u x y : nn (negb s) u x -> mg s l u y -> (-149 <= l)%Z -> (-149 <= u <= 126)%Z -> mg (negb s) l (u + 1) (fsub x y).
Proof.
  intros H' H L U. destruct (sub_bd u x y (nn_bd _ _ _ H') (nn_bd _ _ _ (mg_nn _ _ _ _ H)) U) as [[K _] V].
  split; [exact K|]. rewrite V, <- rnd_sg, Rmult_minus_distr_l. destruct H as [_ H], H' as [_ H']. rewrite sg_neg in * . split.
  - apply rnd_lo; [exact L | lra].
  - apply rnd_hi; [lia|]. rewrite bpow_double. lra.
Qed.
Lemma sub_self x : fin x -> vz (fsub x x).
Proof.
  intro F. destruct (sub_ok x x F F) as [K V]; [rewrite Rminus_diag_eq, rnd_0, Rabs_R0 by reflexivity; apply bpow_gt_0|].
  split; [exact K|]. rewrite V, Rminus_diag_eq by reflexivity. apply rnd_0.
Qed.
(** tests against zero *)
Lemma f0_fin : fin (@f0 b32 _) /\ val (@f0 b32 _) = 0. Proof. split; reflexivity. Qed.
Lemma mg_le0 s l u x : mg s l u x -> fle x f0 = negb s.
Proof.
  intros [F [A B]]. rewrite fle_fin by (try assumption; reflexivity). change (val f0) with 0. pose proof (bpow_gt_0 radix2 l).
  destruct s; cbn in *; [apply Rleb_false | apply Rleb_true]; lra.
Qed.
Lemma mg_ge0 s l u x : mg s l u x -> fle f0 x = s.
Proof.
  intros [F [A B]]. rewrite fle_fin by (try assumption; reflexivity). change (val f0) with 0. pose proof (bpow_gt_0 radix2 l).
  destruct s; cbn in *; [apply Rleb_true | apply Rleb_false]; lra.
Qed.
(** sign bits *)
Definition sb (s : bool) (x : b32) : Prop := fin x /\ fnegsign x = negb s.
Lemma sb_nn s u x : sb s x -> Rabs (val x) <= bpow radix2 u -> nn s u x.
Proof.
  intros [F S] B. split; [exact F|]. cbn in S. rewrite bsign_eq in S.
  assert (H : 0 <= sg s * val x).
  { unfold val. destruct x as [z|z| |z m e Hx]; cbn in *; try lra. subst z. unfold F2R; cbn.
    pose proof (bpow_gt_0 radix2 e). destruct s; cbn.
    - assert (0 <= IZR (Z.pos m)) by (apply IZR_le; lia). nra.
    - assert (IZR (Z.neg m) <= 0) by (apply IZR_le; lia). nra. }
  split; [exact H|]. revert B H. unfold Rabs, sg. destruct (Rcase_abs (val x)), s; intros; lra.
Qed.
Lemma mg_sb s l u x : mg s l u x -> sb s x.
Proof.
  intros [F [A _]]. split; [exact F|]. cbn. rewrite bsign_eq. pose proof (bpow_gt_0 radix2 l). unfold val in A.
  destruct x as [z|z| |z m e Hx]; cbn in *; try discriminate; try lra. unfold F2R in A; cbn in A. pose proof (bpow_gt_0 radix2 e).
  destruct s, z; cbn in *; try reflexivity; exfalso.
  - assert (IZR (Z.neg m) <= 0) by (apply IZR_le; lia). nra.
  - assert (0 <= IZR (Z.pos m)) by (apply IZR_le; lia). nra.
Qed.
Lemma sb_neg s x : sb s x -> sb (negb s) (fneg x).
Proof.
  intros [F S]. split; [apply fin_neg, F|]. cbn in * . rewrite negb_involutive.
  destruct x; cbn in *; unfold fin in F; try discriminate F; subst; destruct s; reflexivity.
Qed.
Lemma sb_mul s t u u' x y : sb s x -> sb t y -> Rabs (val x) <= bpow radix2 u -> Rabs (val y) <= bpow radix2 u' -> (-149 <= u + u' <= 127)%Z ->
  sb (eqb s t) (fmul x y).
Proof.
  intros [F S] [F' S'] B B' U. destruct (mul_bd u u' x y (conj F B) (conj F' B') U) as [[K _] V]. split; [exact K|].
  cbn in * . rewrite bsign_eq in * .
  pose proof (Bmult_correct 24 128 _ _ mode_NE x y) as C.
  rewrite Rlt_bool_true in C.
  - destruct C as (_ & _ & C). rewrite C; [|unfold fin in K; cbn in K; destruct (Bmult mode_NE x y); cbn in *; congruence].
    rewrite S, S'. destruct s, t; reflexivity.
  - pose proof (rnd_abs_hi (u + u') (val x * val y) ltac:(lia)) as Q. apply Rle_lt_trans with (bpow radix2 (u + u')); [|apply bpow_lt; lia].
    apply Q. rewrite Rabs_mult, bpow_plus. apply Rmult_le_compat; try apply Rabs_pos; assumption.
Qed.
Lemma sb_dec x : fin x -> sb (negb (fnegsign x)) x.
Proof. intro F. split; [exact F|]. rewrite negb_involutive. reflexivity. Qed.

(** ** The tolerance *)
Lemma eps_sq : fin (fmul (@feps b32 _) feps) /\ val (fmul (@feps b32 _) feps) = bpow radix2 (-46).
Proof.
  destruct (val_of 1 (-23) ltac:(lia) ltac:(lia)) as [F V]. change (b32_of 1 (-23)) with (@feps b32 _) in F, V.
  assert (E : val feps * val feps = bpow radix2 (-46)) by (rewrite V, Rmult_1_l, <- bpow_plus; reflexivity).
  destruct (mul_ok feps feps F F) as [K W].
  - rewrite E, rnd_bpow, Rabs_pos_eq by (try apply bpow_ge_0; lia). apply bpow_big. lia.
  - split; [exact K|]. rewrite W, E. apply rnd_bpow. lia.
Qed.
(** a direction both of whose components are below 2^-24 is too small *)
Lemma too_small d : bd (-24) (vx d) -> bd (-24) (vy d) -> direction_is_too_small d = true.
Proof.
  intros X Y. unfold direction_is_too_small, v2lensq, v2dot.
  destruct (mul_bd _ _ _ _ X X ltac:(lia)) as [XX _]. destruct (mul_bd _ _ _ _ Y Y ltac:(lia)) as [YY _].
  destruct (add_bd _ _ _ XX YY ltac:(lia)) as [[F B] _]. destruct eps_sq as [E V].
  rewrite flt_fin, V by assumption. apply Rltb_true. eapply Rle_lt_trans; [apply Rle_abs|].
  eapply Rle_lt_trans; [exact B|]. apply bpow_lt. lia.
Qed.
Definition somewhat (k : Z) (d : vec2 b32) : Prop := bpow radix2 k <= Rabs (val (vx d)) \/ bpow radix2 k <= Rabs (val (vy d)).
Lemma not_too_small d : fin (vx d) -> fin (vy d) -> direction_is_too_small d = false -> somewhat (-24) d.
Proof.
  intros X Y H. destruct (Rle_lt_dec (bpow radix2 (-24)) (Rabs (val (vx d)))) as [A|A]; [left; exact A|].
  destruct (Rle_lt_dec (bpow radix2 (-24)) (Rabs (val (vy d)))) as [B|B]; [right; exact B|].
  rewrite too_small in H; [discriminate | split; [exact X | lra] | split; [exact Y | lra]].
Qed.
(** a direction with a component of at least 2^-23 is not *)
Lemma big_enough s l u d : mg s l u (vx d) -> bd u (vy d) -> (-23 <= l)%Z -> (-74 <= u <= 63)%Z -> direction_is_too_small d = false.
Proof.
  intros X Y L U. unfold direction_is_too_small, v2lensq, v2dot.
  pose proof (mul_mg _ _ _ _ _ _ _ _ X X ltac:(lia) ltac:(lia)) as XX. rewrite eqb_reflx in XX.
  destruct (mul_bd _ _ _ _ Y Y ltac:(lia)) as [YY V]. destruct YY as [FY BY].
  assert (NY : nn true (u + u) (fmul (vy d) (vy d))).
  { split; [exact FY|]. unfold sg. rewrite Rmult_1_l. split; [rewrite V; apply rnd_nonneg; nra | eapply Rle_trans; [apply Rle_abs | exact BY]]. }
  destruct (add_mg_l _ _ _ _ _ XX NY ltac:(lia) ltac:(lia)) as [F [A _]]. destruct eps_sq as [E W].
  rewrite flt_fin, W by assumption. apply Rltb_false. unfold sg in A. rewrite Rmult_1_l in A. eapply Rle_trans; [|exact A]. apply bpow_le. lia.
Qed.

(** squares: finite and at least as large as expected, or overflowed to infinity *)
Definition ge_or_inf (r : R) (x : b32) : Prop := x = B754_infinity false \/ (fin x /\ r <= val x).
Lemma square_goi k x : fin x -> (-149 <= k + k)%Z -> bpow radix2 k <= Rabs (val x) -> ge_or_inf (bpow radix2 (k + k)) (fmul x x).
Proof.
  intros F K L. pose proof (Bmult_correct 24 128 _ _ mode_NE x x) as C.
  assert (Q : bpow radix2 (k + k) <= val x * val x).
  { rewrite bpow_plus. pose proof (bpow_ge_0 radix2 k). replace (val x * val x) with (Rabs (val x) * Rabs (val x)) by (rewrite <- Rabs_mult; apply Rabs_pos_eq; nra).
    apply Rmult_le_compat; assumption. }
  destruct (Rlt_bool_spec (Rabs (round radix2 (SpecFloat.fexp 24 128) (round_mode mode_NE) (B2R x * B2R x))) (bpow radix2 128)) as [H|H].
  - right. destruct (mul_ok x x F F H) as [G V]. split; [exact G|]. rewrite V. apply rnd_lo; assumption.
  - left. cbn. destruct (Bmult mode_NE x x); cbn in C; try discriminate. rewrite xorb_nilpotent in C. injection C as ->. reflexivity.
Qed.
Lemma square_goi0 x : fin x -> ge_or_inf 0 (fmul x x).
Proof.
  intros F. pose proof (Bmult_correct 24 128 _ _ mode_NE x x) as C.
  destruct (Rlt_bool_spec (Rabs (round radix2 (SpecFloat.fexp 24 128) (round_mode mode_NE) (B2R x * B2R x))) (bpow radix2 128)) as [H|H].
  - right. destruct (mul_ok x x F F H) as [G V]. split; [exact G|]. rewrite V. apply rnd_nonneg. nra.
  - left. cbn. destruct (Bmult mode_NE x x); cbn in C; try discriminate. rewrite xorb_nilpotent in C. injection C as ->. reflexivity.
Qed.
Lemma add_goi r q x y : 0 <= r -> 0 <= q -> rnd (r + q) = r + q -> ge_or_inf r x -> ge_or_inf q y -> ge_or_inf (r + q) (fadd x y).
Proof.
  intros Hr Hq E [-> |[F L]] [-> |[F' L']].
  - left. reflexivity.
  - left. destruct y; try discriminate; reflexivity.
  - left. destruct x; try discriminate; reflexivity.
  - pose proof (Bplus_correct 24 128 _ _ mode_NE x y F F') as C.
    destruct (Rlt_bool_spec (Rabs (round radix2 (SpecFloat.fexp 24 128) (round_mode mode_NE) (B2R x + B2R y))) (bpow radix2 128)) as [H|H].
    + right. destruct (add_ok x y F F' H) as [G V]. split; [exact G|]. rewrite V, <- E. apply rnd_le. lra.
    + left. destruct C as [C S]. cbn.
      assert (Sx : Bsign x = false).
      { clear C. unfold fin in F, F'. destruct (Bsign x) eqn:B; [exfalso|reflexivity]. cbn in S. symmetry in S. destruct y as [z|z| |z m e Hy]; cbn in S; try discriminate; subst z.
        - destruct x as [z|z| |z m e Hx]; cbn in B, F; try discriminate; subst z.
          + unfold val in * . cbn in H. rewrite Rplus_0_r, round_0, Rabs_R0 in H by (apply valid_rnd_N). pose proof (bpow_gt_0 radix2 128). lra.
          + unfold val in L. cbn in L. assert (F2R (Defs.Float radix2 (Z.neg m) e) < 0) by (apply F2R_lt_0; cbn; lia). lra.
        - unfold val in L'. cbn in L'. assert (F2R (Defs.Float radix2 (Z.neg m) e) < 0) by (apply F2R_lt_0; cbn; lia). lra. }
      rewrite Sx in C. destruct (Bplus mode_NE x y); cbn in C; try discriminate. injection C as ->. reflexivity.
Qed.
Lemma nsm d : fin (vx d) -> fin (vy d) -> somewhat (-23) d -> direction_is_too_small d = false.
Proof.
  intros FX FY S. unfold direction_is_too_small, v2lensq, v2dot.
  assert (G : ge_or_inf (bpow radix2 (-46)) (fadd (fmul (vx d) (vx d)) (fmul (vy d) (vy d)))).
  { pose proof (bpow_ge_0 radix2 (-46)). assert (B : rnd (bpow radix2 (-46)) = bpow radix2 (-46)) by (apply rnd_bpow; lia). destruct S as [S|S].
    - rewrite <- (Rplus_0_r (bpow radix2 (-46))). apply add_goi; try lra; [rewrite Rplus_0_r; exact B | apply (square_goi (-23)); [exact FX | lia | exact S] | apply square_goi0, FY].
    - rewrite <- (Rplus_0_l (bpow radix2 (-46))). apply add_goi; try lra; [rewrite Rplus_0_l; exact B | apply square_goi0, FX | apply (square_goi (-23)); [exact FY | lia | exact S]]. }
  destruct eps_sq as [E W]. destruct G as [-> |[F L]].
  - reflexivity.
  - rewrite flt_fin, W by assumption. apply Rltb_false. exact L.
Qed.

Lemma add1 (p : vec2 b32) : add_point [] p = Ok ([p], (false, v2neg p)).
Proof. reflexivity. Qed.

(** ** The search on a rectangle with corners (X sx, Y sy) *)
Section Rect.
Variables (X Y : bool -> b32) (sup : vec2 b32 -> vec2 b32).
Definition corner (sx sy : bool) : vec2 b32 := V2 (X sx) (Y sy).
Hypothesis Hsup : forall sx sy d, sb sx (vx d) -> sb sy (vy d) -> sup d = corner sx sy.

Section Inside.
(** the origin is inside, at least 2^-22 from the sides *)
Hypothesis HX : forall s, mg s (-22) 29 (X s).
Hypothesis HY : forall s, mg s (-22) 29 (Y s).

Lemma neg_sign s t l u x : mg s l u x -> t = negb s -> mg t l u (fneg x).
Proof. intros H ->. apply mg_neg, H. Qed.
Lemma diffX s : mg s (-22) 30 (fsub (X s) (X (negb s))).
Proof. apply (sub_mg_l s (-22) 29); try lia; [apply HX | apply (mg_nn _ (-22)), HX]. Qed.
Lemma diffY s : mg s (-22) 30 (fsub (Y s) (Y (negb s))).
Proof. apply (sub_mg_l s (-22) 29); try lia; [apply HY | apply (mg_nn _ (-22)), HY]. Qed.

Lemma fit sx sy d : sb sx (vx d) -> sb sy (vy d) -> Rabs (val (vx d)) <= bpow radix2 90 -> Rabs (val (vy d)) <= bpow radix2 90 -> somewhat (-24) d ->
  fle (v2dot (corner sx sy) d) f0 = false.
Proof.
  intros SX SY BX BY S. unfold v2dot, corner; cbn [vx vy].
  pose proof (sb_nn _ _ _ SX BX) as NX. pose proof (sb_nn _ _ _ SY BY) as NY.
  assert (TX : nn true 119 (fmul (X sx) (vx d))) by (rewrite <- (eqb_reflx sx); apply (mul_nn sx sx 29 90); try lia; [apply (mg_nn _ (-22)), HX | exact NX]).
  assert (TY : nn true 119 (fmul (Y sy) (vy d))) by (rewrite <- (eqb_reflx sy); apply (mul_nn sy sy 29 90); try lia; [apply (mg_nn _ (-22)), HY | exact NY]).
  assert (AB : forall s x, nn s 90 x -> bpow radix2 (-24) <= Rabs (val x) -> mg s (-24) 90 x).
  { intros s x [F [A B]] L. split; [exact F|]. split; [|exact B]. revert A L. unfold Rabs, sg. destruct (Rcase_abs (val x)), s; intros; lra. }
  destruct S as [S|S].
  - assert (PX : mg true (-46) 119 (fmul (X sx) (vx d))) by (rewrite <- (eqb_reflx sx); apply (mul_mg sx sx (-22) 29 (-24) 90); try lia; [apply HX | apply AB; assumption]).
    apply (mg_le0 true (-46) 120). apply (add_mg_l true (-46) 119); try lia; assumption.
  - assert (PY : mg true (-46) 119 (fmul (Y sy) (vy d))) by (rewrite <- (eqb_reflx sy); apply (mul_mg sy sy (-22) 29 (-24) 90); try lia; [apply HY | apply AB; assumption]).
    apply (mg_le0 true (-46) 120). apply (add_mg_r true (-46) 119); try lia; assumption.
Qed.

(** directions: sign bits, bound and size *)
Definition dir (sx sy : bool) (d : vec2 b32) : Prop :=
  sb sx (vx d) /\ sb sy (vy d) /\ Rabs (val (vx d)) <= bpow radix2 90 /\ Rabs (val (vy d)) <= bpow radix2 90 /\ somewhat (-24) d.
Lemma dir_fit sx sy d : dir sx sy d -> fle (v2dot (sup d) d) f0 = false /\ sup d = corner sx sy.
Proof. intros (A & B & C & D & E). rewrite (Hsup sx sy d A B). split; [apply fit; assumption | reflexivity]. Qed.
Lemma mg_abs s l u k x : mg s l u x -> (u <= k)%Z -> Rabs (val x) <= bpow radix2 k.
Proof. intros H L. apply (bd_le u k x L), (nn_bd s), (mg_nn s l), H. Qed.
Lemma mg_size s l u k x : mg s l u x -> (k <= l)%Z -> bpow radix2 k <= Rabs (val x).
Proof. intros [_ [A _]] L. pose proof (bpow_le radix2 _ _ L). pose proof (bpow_gt_0 radix2 k). revert A. unfold Rabs, sg. destruct (Rcase_abs (val x)), s; intros; lra. Qed.

Lemma first_dir sx sy : dir (negb sx) (negb sy) (v2neg (corner sx sy)) /\ direction_is_too_small (v2neg (corner sx sy)) = false.
Proof.
  pose proof (mg_neg _ _ _ _ (HX sx)) as PX. pose proof (mg_neg _ _ _ _ (HY sy)) as PY. unfold v2neg, corner; cbn [vx vy]. split.
  - split; [apply (mg_sb _ _ _ _ PX)|]. split; [apply (mg_sb _ _ _ _ PY)|]. split; [apply (mg_abs _ _ _ _ _ PX); lia|]. split; [apply (mg_abs _ _ _ _ _ PY); lia|].
    left. apply (mg_size _ _ _ _ _ PX). lia.
  - apply (big_enough (negb sx) (-22) 29); try lia; cbn [vx vy]; [exact PX | apply (nn_bd (negb sy)), (mg_nn _ (-22)), PY].
Qed.
Definition adjacent (sx sy tx ty : bool) : Prop := (tx = negb sx /\ ty = sy) \/ (tx = sx /\ ty = negb sy).
Definition d2 (sx sy : bool) : vec2 b32 :=
  cross_aba (v2sub (corner sx sy) (corner (negb sx) (negb sy))) (v2neg (corner (negb sx) (negb sy))).
Lemma second sx sy : add_point [corner sx sy] (corner (negb sx) (negb sy)) = Ok ([corner (negb sx) (negb sy); corner sx sy], (false, d2 sx sy)).
Proof.
  cbn [add_point]. replace (fle f0 (v2dot (v2sub (corner sx sy) (corner (negb sx) (negb sy))) (v2neg (corner (negb sx) (negb sy))))) with true; [reflexivity|].
  symmetry. unfold v2dot, v2sub, v2neg, corner; cbn [vx vy]. pose proof (diffX sx) as DX. pose proof (diffY sy) as DY.
  assert (NX : mg sx (-22) 29 (fneg (X (negb sx)))) by (apply (neg_sign (negb sx)); [apply HX | destruct sx; reflexivity]).
  assert (NY : mg sy (-22) 29 (fneg (Y (negb sy)))) by (apply (neg_sign (negb sy)); [apply HY | destruct sy; reflexivity]).
  pose proof (mul_mg _ _ _ _ _ _ _ _ DX NX ltac:(lia) ltac:(lia)) as PX. pose proof (mul_mg _ _ _ _ _ _ _ _ DY NY ltac:(lia) ltac:(lia)) as PY.
  rewrite eqb_reflx in PX, PY. apply (mg_ge0 true (-44) 60), (add_mg_l true (-44) 59); try lia; [exact PX | apply (mg_nn _ (-44)), PY].
Qed.
Lemma d2_dir sx sy : direction_is_too_small (d2 sx sy) = false -> exists tx ty, adjacent sx sy tx ty /\ dir tx ty (d2 sx sy).
Proof.
  intro S. unfold d2, cross_aba in * . set (c := cross _ _) in * .
  assert (NX : mg sx (-22) 29 (fneg (X (negb sx)))) by (apply (neg_sign (negb sx)); [apply HX | destruct sx; reflexivity]).
  assert (NY : mg sy (-22) 29 (fneg (Y (negb sy)))) by (apply (neg_sign (negb sy)); [apply HY | destruct sy; reflexivity]).
  pose proof (diffX sx) as DX. pose proof (diffY sy) as DY.
  assert (BC : bd 60 c).
  { unfold c, cross, v2sub, v2neg, corner; cbn [vx vy].
    apply (sub_bd 59); try lia; apply (mul_bd 30 29); try lia; eapply nn_bd, mg_nn; eassumption. }
  destruct BC as [FC BC]. pose proof (sb_dec c FC) as SC. set (z := negb (fnegsign c)) in * .
  unfold v2sub, corner in *; cbn [vx vy] in * .
  pose proof (mg_neg _ _ _ _ DY) as ND.
  assert (AX : sb (eqb (negb sy) z) (fmul (fneg (fsub (Y sy) (Y (negb sy)))) c)).
  { apply (sb_mul _ _ 30 60); try lia; [apply (mg_sb _ _ _ _ ND) | exact SC | apply (mg_abs _ _ _ _ _ ND); lia | exact BC]. }
  assert (AY : sb (eqb sx z) (fmul (fsub (X sx) (X (negb sx))) c)).
  { apply (sb_mul _ _ 30 60); try lia; [apply (mg_sb _ _ _ _ DX) | exact SC | apply (mg_abs _ _ _ _ _ DX); lia | exact BC]. }
  exists (eqb (negb sy) z), (eqb sx z). split; [unfold adjacent; destruct sx, sy, z; cbn; auto|].
  split; [exact AX|]. split; [exact AY|].
  split; [apply (mul_bd 30 60); try lia; [apply (nn_bd (negb sy)), (mg_nn _ (-22)), ND | split; assumption]|].
  split; [apply (mul_bd 30 60); try lia; [apply (nn_bd sx), (mg_nn _ (-22)), DX | split; assumption]|].
  apply not_too_small; [apply AX | apply AY | exact S].
Qed.
Lemma perp_dir sx sy : exists tx ty, adjacent sx sy tx ty /\ dir tx ty (v2perp (v2neg (corner sx sy))).
Proof.
  destruct (first_dir sx sy) as [(A & B & C & D & E) _]. exists sy, (negb sx). split; [unfold adjacent; destruct sx, sy; cbn; auto|].
  unfold dir, v2perp; cbn [vx vy]. split; [pose proof (sb_neg _ _ B) as B'; rewrite negb_involutive in B'; exact B'|]. split; [exact A|].
  split; [rewrite val_neg, Rabs_Ropp; exact D|]. split; [exact C|]. unfold somewhat in *; cbn [vx vy]. rewrite val_neg, Rabs_Ropp. tauto.
Qed.
Lemma third sx sy tx ty : adjacent sx sy tx ty ->
  add_point [corner (negb sx) (negb sy); corner sx sy] (corner tx ty) = Ok ([corner tx ty; corner (negb sx) (negb sy); corner sx sy], (true, v2nan)).
Proof.
  intro A. cbn [add_point]. set (a := corner tx ty). set (b := corner (negb sx) (negb sy)). set (c := corner sx sy).
  assert (T : same_direction (cross_f32 (v2sub b a) (cross (v2sub b a) (v2sub c a))) (v2neg a) = false /\
              same_direction (cross_sv (cross (v2sub b a) (v2sub c a)) (v2sub c a)) (v2neg a) = false); [|destruct T as [-> ->]; reflexivity].
  unfold same_direction, v2dot, cross_f32, cross_sv, cross, v2sub, v2neg, a, b, c, corner; cbn [vx vy].
  pose proof (fun s => proj1 (HX s)) as FX. pose proof (fun s => proj1 (HY s)) as FY.
  destruct A as [[-> ->]|[-> ->]].
  - (* a = (X ~sx, Y sy): b shares x, c shares y *)
    pose proof (sub_self _ (FX (negb sx))) as ZX. pose proof (sub_self _ (FY sy)) as ZY.
    pose proof (diffY (negb sy)) as DY. rewrite negb_involutive in DY. pose proof (diffX sx) as DX.
    pose proof (mg_neg _ _ _ _ (HX (negb sx))) as NX. pose proof (mg_neg _ _ _ _ (HY sy)) as NY. rewrite negb_involutive in NX.
    set (aby := fsub (Y (negb sy)) (Y sy)) in *; set (acx := fsub (X sx) (X (negb sx))) in *; set (zx := fsub (X (negb sx)) (X (negb sx))) in *; set (zy := fsub (Y sy) (Y sy)) in * .
    pose proof (mul_vz_l 30 zx zy ZX (nn_bd true _ _ (vz_nn _ _ _ ZY)) ltac:(lia)) as Z1.
    pose proof (mul_mg _ _ _ _ _ _ _ _ DY DX ltac:(lia) ltac:(lia)) as P1.
    assert (K : mg (negb (eqb (negb sy) sx)) (-44) 61 (fsub (fmul zx zy) (fmul aby acx))).
    { apply (sub_mg_r (eqb (negb sy) sx) (-44) 60); try lia; [apply vz_nn, Z1 | exact P1]. }
    set (k := fsub (fmul zx zy) (fmul aby acx)) in * . pose proof (nn_bd _ _ _ (mg_nn _ _ _ _ K)) as BK.
    split.
    + pose proof (mul_mg _ _ _ _ _ _ _ _ DY K ltac:(lia) ltac:(lia)) as P2. pose proof (mul_mg _ _ _ _ _ _ _ _ P2 NX ltac:(lia) ltac:(lia)) as P3.
      pose proof (mul_vz_l 61 (fneg zx) k (vz_neg _ ZX) BK ltac:(lia)) as Z2.
      pose proof (mul_vz_l 61 _ (fneg (Y sy)) Z2 (bd_le 29 61 _ ltac:(lia) (nn_bd _ _ _ (mg_nn _ _ _ _ NY))) ltac:(lia)) as Z3.
      apply (mg_ge0 false (-88) 121).
      replace false with (eqb (eqb (negb sy) (negb (eqb (negb sy) sx))) sx) by (destruct sx, sy; reflexivity).
      apply (add_mg_l _ (-88) 120); try lia; [exact P3 | apply vz_nn, Z3].
    + pose proof (mul_mg _ _ _ _ _ _ _ _ K DX ltac:(lia) ltac:(lia)) as P2. pose proof (mul_mg _ _ _ _ _ _ _ _ P2 NY ltac:(lia) ltac:(lia)) as P3.
      pose proof (mul_vz_r 61 (fneg k) zy (bd_neg _ _ BK) ZY ltac:(lia)) as Z2.
      pose proof (mul_vz_l 61 _ (fneg (X (negb sx))) Z2 (bd_le 29 61 _ ltac:(lia) (nn_bd _ _ _ (mg_nn _ _ _ _ NX))) ltac:(lia)) as Z3.
      apply (mg_ge0 false (-88) 121).
      replace false with (eqb (eqb (negb (eqb (negb sy) sx)) sx) (negb sy)) by (destruct sx, sy; reflexivity).
      apply (add_mg_r _ (-88) 120); try lia; [apply vz_nn, Z3 | exact P3].
  - (* a = (X sx, Y ~sy): b shares y, c shares x *)
    pose proof (sub_self _ (FX sx)) as ZX. pose proof (sub_self _ (FY (negb sy))) as ZY.
    pose proof (diffX (negb sx)) as DX. rewrite negb_involutive in DX. pose proof (diffY sy) as DY.
    pose proof (mg_neg _ _ _ _ (HX sx)) as NX. pose proof (mg_neg _ _ _ _ (HY (negb sy))) as NY. rewrite negb_involutive in NY.
    set (abx := fsub (X (negb sx)) (X sx)) in *; set (acy := fsub (Y sy) (Y (negb sy))) in *; set (zx := fsub (X sx) (X sx)) in *; set (zy := fsub (Y (negb sy)) (Y (negb sy))) in * .
    pose proof (mul_vz_l 30 zy zx ZY (nn_bd true _ _ (vz_nn _ _ _ ZX)) ltac:(lia)) as Z1.
    pose proof (mul_mg _ _ _ _ _ _ _ _ DX DY ltac:(lia) ltac:(lia)) as P1.
    assert (K : mg (eqb (negb sx) sy) (-44) 61 (fsub (fmul abx acy) (fmul zy zx))).
    { apply (sub_mg_l (eqb (negb sx) sy) (-44) 60); try lia; [exact P1 | apply vz_nn, Z1]. }
    set (k := fsub (fmul abx acy) (fmul zy zx)) in * . pose proof (nn_bd _ _ _ (mg_nn _ _ _ _ K)) as BK.
    split.
    + pose proof (mul_mg _ _ _ _ _ _ _ _ (mg_neg _ _ _ _ DX) K ltac:(lia) ltac:(lia)) as P2. pose proof (mul_mg _ _ _ _ _ _ _ _ P2 NY ltac:(lia) ltac:(lia)) as P3.
      pose proof (mul_vz_l 61 zy k ZY BK ltac:(lia)) as Z2.
      pose proof (mul_vz_l 61 _ (fneg (X sx)) Z2 (bd_le 29 61 _ ltac:(lia) (nn_bd _ _ _ (mg_nn _ _ _ _ NX))) ltac:(lia)) as Z3.
      apply (mg_ge0 false (-88) 121).
      replace false with (eqb (eqb (negb (negb sx)) (eqb (negb sx) sy)) sy) by (destruct sx, sy; reflexivity).
      apply (add_mg_r _ (-88) 120); try lia; [apply vz_nn, Z3 | exact P3].
    + pose proof (mul_mg _ _ _ _ _ _ _ _ (mg_neg _ _ _ _ K) DY ltac:(lia) ltac:(lia)) as P2. pose proof (mul_mg _ _ _ _ _ _ _ _ P2 NX ltac:(lia) ltac:(lia)) as P3.
      pose proof (mul_vz_r 61 k zx BK ZX ltac:(lia)) as Z2.
      pose proof (mul_vz_l 61 _ (fneg (Y (negb sy))) Z2 (bd_le 29 61 _ ltac:(lia) (nn_bd _ _ _ (mg_nn _ _ _ _ NY))) ltac:(lia)) as Z3.
      apply (mg_ge0 false (-88) 121).
      replace false with (eqb (eqb (negb (eqb (negb sx) sy)) sy) (negb sx)) by (destruct sx, sy; reflexivity).
      apply (add_mg_l _ (-88) 120); try lia; [exact P3 | apply vz_nn, Z3].
Qed.

(** *** All four variants capture the origin *)
Definition caught (o : outcome b32) : Prop := exists a b c, o = Captured [a; b; c].
Lemma ff_inside n sx sy d : dir sx sy d ->
  caught (run_ff sup (S (S (S n))) [] d) \/ exists s' d', run_ff sup (S (S (S n))) [] d = TooSmall s' d'.
Proof.
  intro D. destruct (dir_fit _ _ _ D) as [F E]. cbn [run_ff]. rewrite F, E, add1.
  destruct (first_dir sx sy) as [D1 S1]. rewrite S1. destruct (dir_fit _ _ _ D1) as [F1 E1]. rewrite F1, E1, second.
  destruct (direction_is_too_small (d2 sx sy)) eqn:S2; [right; eauto|].
  destruct (d2_dir sx sy S2) as (tx & ty & A & D2). destruct (dir_fit _ _ _ D2) as [F2 E2]. rewrite F2, E2, (third _ _ _ _ A).
  left. unfold caught; eauto.
Qed.
Definition next2 (sx sy : bool) : vec2 b32 := if direction_is_too_small (d2 sx sy) then v2perp (v2neg (corner sx sy)) else d2 sx sy.
Lemma next2_dir sx sy : exists tx ty, adjacent sx sy tx ty /\ dir tx ty (next2 sx sy).
Proof.
  unfold next2. destruct (direction_is_too_small (d2 sx sy)) eqn:S2; [apply perp_dir | apply d2_dir, S2].
Qed.
Lemma tf_second_inside n sx sy : caught (run_tf sup (S (S n)) [corner sx sy] (v2neg (corner sx sy))).
Proof.
  destruct (first_dir sx sy) as [D1 _]. destruct (dir_fit _ _ _ D1) as [F1 E1].
  cbn [run_tf]. rewrite F1, E1, second. fold (next2 sx sy).
  destruct (next2_dir sx sy) as (tx & ty & A & D2). destruct (dir_fit _ _ _ D2) as [F2 E2]. rewrite F2, E2, (third _ _ _ _ A).
  unfold caught; eauto.
Qed.
Lemma tf_inside n sx sy d : dir sx sy d -> caught (run_tf sup (S (S (S n))) [] d).
Proof.
  intro D. destruct (dir_fit _ _ _ D) as [F E].
  change (run_tf sup (S (S (S n))) [] d) with
   (if fle (v2dot (sup d) d) f0 then Separated [] d
    else match add_point [] (sup d) with
         | Panic p => Crashed p
         | Ok (s', (collides, new_dir)) =>
             let new_dir := if direction_is_too_small new_dir then v2perp d else new_dir in
             if collides then Captured s' else run_tf sup (S (S n)) s' new_dir
         end).
  rewrite F, E, add1. rewrite (proj2 (first_dir sx sy)). apply tf_second_inside.
Qed.
Lemma ft_second_inside n sx sy la : caught (run_ft sup (S (S n)) [corner sx sy] la (v2neg (corner sx sy))).
Proof.
  destruct (first_dir sx sy) as [D1 _]. destruct (dir_fit _ _ _ D1) as [F1 E1].
  cbn [run_ft]. rewrite F1, E1, second. cbn [andb]. fold (next2 sx sy).
  destruct (next2_dir sx sy) as (tx & ty & A & D2). destruct (dir_fit _ _ _ D2) as [F2 E2]. rewrite F2, E2, (third _ _ _ _ A).
  cbn [andb]. unfold caught; eauto.
Qed.
Lemma tt_second_inside n sx sy la : caught (run_tt sup (S (S n)) [corner sx sy] la (v2neg (corner sx sy)) true).
Proof.
  destruct (first_dir sx sy) as [D1 _]. destruct (dir_fit _ _ _ D1) as [F1 E1].
  cbn [run_tt]. rewrite F1, E1, second. cbn [andb]. fold (next2 sx sy).
  destruct (next2_dir sx sy) as (tx & ty & A & D2). destruct (dir_fit _ _ _ D2) as [F2 E2]. rewrite F2, E2, (third _ _ _ _ A).
  cbn [andb negb]. unfold caught; eauto.
Qed.
Lemma ft_inside sx sy d : dir sx sy d -> caught (start_ft sup d).
Proof. intro D. unfold start_ft. rewrite (proj2 (dir_fit _ _ _ D)), add1. apply (ft_second_inside 18). Qed.
Lemma tt_inside sx sy d : dir sx sy d -> caught (start_tt sup d).
Proof. intro D. unfold start_tt. rewrite (proj2 (dir_fit _ _ _ D)), add1. apply (tt_second_inside 18). Qed.
Lemma all_inside P D sx sy d : dir sx sy d -> exists v, gjk sup P D d = Ok (true, v).
Proof.
  intro H. destruct P, D; cbn [gjk].
  - unfold gjk_tt. destruct (tt_inside _ _ _ H) as (a & b & c & ->). cbn [enforce_ccw]. match goal with |- context [if ?x then _ else _] => destruct x end; eexists; reflexivity.
  - unfold gjk_tf. destruct (tf_inside 17 _ _ _ H) as (a & b & c & ->). cbn [enforce_ccw]. match goal with |- context [if ?x then _ else _] => destruct x end; eexists; reflexivity.
  - unfold gjk_ft. destruct (ft_inside _ _ _ H) as (a & b & c & ->). cbn. eexists; reflexivity.
  - unfold gjk_ff. destruct (ff_inside 17 _ _ _ H) as [(a & b & c & ->)|(s' & d' & ->)]; eexists; reflexivity.
Qed.
End Inside.

(** ** Runs that end in "no overlap": the newest point stays first in the simplex *)
Inductive apart : nat -> list (vec2 b32) -> vec2 b32 -> Prop :=
  | ap_end n a S d l : (length S <= 1)%nat -> mg false l 121 (v2dot (sup d) d) -> (-149 <= l)%Z ->
      fin (v2dot a d) -> val (v2dot (sup d) d) = val (v2dot a d) -> apart (Datatypes.S n) (a :: S) d
  | ap_step n a S d S' d' : (length S <= 1)%nat -> (length S' <= 1)%nat ->
      add_point (a :: S) (sup d) = Ok (sup d :: S', (false, d')) -> direction_is_too_small d' = false ->
      apart n (sup d :: S') d' -> apart (Datatypes.S n) (a :: S) d.
Definition separated (o : outcome b32) : Prop := exists a S d, o = Separated (a :: S) d /\ (length S <= 1)%nat.
Lemma apart_ff n S d : apart n S d -> separated (run_ff sup n S d).
Proof.
  induction 1 as [n a S d l LS M _ _ _|n a S d S' d' LS LS' E SM _ IH]; cbn [run_ff].
  - rewrite (mg_le0 _ _ _ _ M). exists a, S, d. auto.
  - destruct (fle _ _); [exists a, S, d; auto|]. rewrite E, SM. exact IH.
Qed.
Lemma apart_tf n S d : apart n S d -> separated (run_tf sup n S d).
Proof.
  induction 1 as [n a S d l LS M _ _ _|n a S d S' d' LS LS' E SM _ IH]; cbn [run_tf].
  - rewrite (mg_le0 _ _ _ _ M). exists a, S, d. auto.
  - destruct (fle _ _); [exists a, S, d; auto|]. rewrite E, SM. exact IH.
Qed.
Lemma apart_ft n S d : apart n S d -> forall a R, S = a :: R -> separated (run_ft sup n S a d).
Proof.
  induction 1 as [n a S d l LS M _ F V|n a S d S' d' LS LS' E SM _ IH]; intros a' R0 Q; injection Q as <- <-; cbn [run_ft].
  - rewrite (mg_le0 _ _ _ _ M), fle_fin, V, Rleb_true by (try assumption; try apply M; apply Rle_refl). exists a, S, d. auto.
  - match goal with |- context [if ?x then _ else _] => destruct x end; [exists a, S, d; auto|]. rewrite E, SM. apply (IH _ _ eq_refl).
Qed.
Definition keep99 : b32 := fsub f1 fcent.
Lemma keep99_bounds : fin keep99 /\ 0 < val keep99 < 1.
Proof.
  assert (E : B2SF keep99 = SpecFloat.S754_finite false 16609444 (-24)) by (vm_compute; reflexivity).
  split; [unfold fin; rewrite <- is_finite_SF_B2SF, E; reflexivity|]. rewrite (val_sf _ _ _ _ E). cbn. lra.
Qed.
Lemma not_better f l la : mg false l 121 f -> fin la -> val f = val la -> sufficiently_better f la fcent = false.
Proof.
  intros [F [A B]] FL V. unfold sufficiently_better. fold keep99. pose proof (bpow_gt_0 radix2 l) as G. unfold sg in A, B.
  rewrite (flt_fin f0 la) by (try assumption; reflexivity). change (val f0) with 0. rewrite Rltb_false by lra.
  destruct keep99_bounds as [FK [K1 K2]].
  assert (P : Rabs (val la * val keep99) <= bpow radix2 121).
  { rewrite Rabs_mult, (Rabs_pos_eq (val keep99)) by lra. assert (Rabs (val la) <= bpow radix2 121) by (rewrite <- V; unfold Rabs; destruct (Rcase_abs (val f)); lra).
    pose proof (Rabs_pos (val la)). nra. }
  destruct (mul_ok la keep99 FL FK) as [FM VM]. { pose proof (rnd_abs_hi 121 _ ltac:(lia) P). pose proof (bpow_big 121 ltac:(lia)). lra. }
  rewrite flt_fin, VM, V by assumption. apply Rltb_false. rewrite <- (rnd_exact la) at 1. apply rnd_le. nra.
Qed.
Lemma apart_tt n S d : apart n S d -> forall a R ps, S = a :: R -> separated (run_tt sup n S a d ps).
Proof.
  induction 1 as [n a S d l LS M _ F V|n a S d S' d' LS LS' E SM _ IH]; intros a' R0 ps Q; injection Q as <- <-; cbn [run_tt].
  - rewrite (mg_le0 _ _ _ _ M), (not_better _ _ _ M F V). exists a, S, d. auto.
  - match goal with |- context [if ?x then _ else _] => destruct x end; [exists a, S, d; auto|]. rewrite E, SM. cbn [andb]. apply (IH _ _ _ eq_refl).
Qed.
Lemma separated_distance a (S : list (vec2 b32)) : (length S <= 1)%nat -> exists v, distance_to_origin (a :: S) = Ok v.
Proof.
  intro L. destruct S as [|b [|c S]]; cbn in L; try lia; [eexists; reflexivity|]. cbn [distance_to_origin].
  destruct (fle _ _); [eexists; reflexivity|]. destruct (fle _ _); eexists; reflexivity.
Qed.
(** from the start, when every first corner leads apart *)
Lemma all_apart n P D sx sy d : (n <= 19)%nat -> sb sx (vx d) -> sb sy (vy d) ->
  (forall m, (n <= m)%nat -> apart m [corner sx sy] (v2neg (corner sx sy))) -> direction_is_too_small (v2neg (corner sx sy)) = false ->
  exists v, gjk sup P D d = Ok (false, v).
Proof.
  intros L SX SY H SM. pose proof (Hsup sx sy d SX SY) as E. destruct P, D; cbn [gjk].
  - unfold gjk_tt, start_tt. rewrite E, add1. destruct (apart_tt _ _ _ (H 20%nat ltac:(lia)) _ _ true eq_refl) as (a & S & d' & -> & LS).
    destruct (separated_distance a S LS) as (v & ->). exists v. reflexivity.
  - unfold gjk_tf. 
    change (run_tf sup 20 [] d) with
   (if fle (v2dot (sup d) d) f0 then Separated [] d
    else match add_point [] (sup d) with
         | Panic p => Crashed p
         | Ok (s', (collides, new_dir)) =>
             let new_dir := if direction_is_too_small new_dir then v2perp d else new_dir in
             if collides then Captured s' else run_tf sup 19 s' new_dir
         end).
    destruct (fle _ _); [eexists; reflexivity|]. rewrite E, add1, SM. cbv zeta.
    destruct (apart_tf _ _ _ (H 19%nat L)) as (a & S & d' & -> & LS). eexists; reflexivity.
  - unfold gjk_ft, start_ft. rewrite E, add1. destruct (apart_ft _ _ _ (H 20%nat ltac:(lia)) _ _ eq_refl) as (a & S & d' & -> & LS).
    destruct (separated_distance a S LS) as (v & ->). exists v. reflexivity.
  - unfold gjk_ff.
    change (run_ff sup 20 [] d) with
   (if fle (v2dot (sup d) d) f0 then Separated [] d
    else match add_point [] (sup d) with
         | Panic p => Crashed p
         | Ok (s', (collides, new_dir)) =>
             if collides then Captured s' else if direction_is_too_small new_dir then TooSmall s' new_dir else run_ff sup 19 s' new_dir
         end).
    destruct (fle _ _); [eexists; reflexivity|]. rewrite E, add1, SM.
    destruct (apart_ff _ _ _ (H 19%nat L)) as (a & S & d' & -> & LS). eexists; reflexivity.
Qed.
Lemma sb_unique s t x : sb s x -> sb t x -> s = t.
Proof. intros [_ A] [_ B]. rewrite A in B. destruct s, t; cbn in B; congruence. Qed.


(** ** The origin is outside, on the x axis: every corner has the sign g *)
Section ApartX.
Variables (g : bool) (lx lw ld : Z).
Let ng := negb g.
Hypothesis HX : forall s, mg g lx 29 (X s).
Hypothesis BY : forall s, bd 29 (Y s).
Hypothesis HW : mg g lw 30 (fsub (X g) (X ng)).
Hypothesis HD : forall s, mg s ld 30 (fsub (Y s) (Y (negb s))).
Hypothesis L1 : (-23 <= lx <= 29)%Z.
Hypothesis L2 : (-23 <= lw <= 30)%Z.
Hypothesis L3 : (-23 <= ld <= 30)%Z.
Hypothesis L4 : (-23 <= 2 * ld + lx)%Z.
Hypothesis L5 : (-23 <= 2 * ld + lw)%Z.

Lemma x_ng : eqb g ng = false. Proof. unfold ng; destruct g; reflexivity. Qed.
(** the direction straight back to the origin *)
Definition axis_x (d : vec2 b32) : Prop := mg ng (-23) 91 (vx d) /\ vz (vy d).
Lemma axis_x_end d : axis_x d -> direction_is_too_small d = false /\ exists t, sup d = corner ng t.
Proof.
  intros [M Z]. split.
  - apply nsm; [apply M | apply Z | left; apply (mg_size _ _ _ _ _ M); lia].
  - eexists. apply Hsup; [apply (mg_sb _ _ _ _ M) | apply sb_dec, Z].
Qed.
Lemma axis_x_dot d t : axis_x d -> mg false (-46) 121 (v2dot (corner ng t) d) /\ val (v2dot (corner ng t) d) = val (fmul (X ng) (vx d)).
Proof.
  intros [M Z]. unfold v2dot, corner; cbn [vx vy].
  pose proof (mul_mg _ _ _ _ _ _ _ _ (HX ng) M ltac:(lia) ltac:(lia)) as P. rewrite x_ng in P.
  pose proof (mul_vz_r 29 _ _ (BY t) Z ltac:(lia)) as Q.
  split.
  - apply (mg_le _ (lx + -23) 121); try lia. apply (add_mg_l _ (lx + -23) 120); try lia; [exact P | apply vz_nn, Q].
  - destruct (add_bd 120 _ _ (nn_bd _ _ _ (mg_nn _ _ _ _ P)) (nn_bd true _ _ (vz_nn _ _ _ Q)) ltac:(lia)) as [_ V]. rewrite V.
    destruct Q as [_ Q]. rewrite Q, Rplus_0_r. apply rnd_exact.
Qed.

(** the second point *)
Lemma x_first sx sy : exists t, sup (v2neg (corner sx sy)) = corner ng t /\ sb t (fneg (Y sy)).
Proof.
  exists (negb (fnegsign (fneg (Y sy)))). assert (S : sb (negb (fnegsign (fneg (Y sy)))) (fneg (Y sy))) by (apply sb_dec, fin_neg, BY).
  split; [|exact S]. apply Hsup; [|exact S]. unfold v2neg, corner; cbn [vx vy]. apply (mg_sb _ lx 29), mg_neg, HX.
Qed.
Lemma x_neg_small sx sy : direction_is_too_small (v2neg (corner sx sy)) = false.
Proof.
  pose proof (mg_neg _ _ _ _ (HX sx)) as N. apply nsm; unfold v2neg, corner, somewhat; cbn [vx vy]; [apply N | apply fin_neg, BY | left; apply (mg_size _ _ _ _ _ N); lia].
Qed.
(** facing the side: the edge between the two near corners *)
Lemma x_side sy : exists d, axis_x d /\
  (add_point [corner ng sy] (corner ng (negb sy)) = Ok ([corner ng (negb sy); corner ng sy], (false, d)) \/
   add_point [corner ng sy] (corner ng (negb sy)) = Ok ([corner ng (negb sy); corner ng sy], (false, v2neg (corner ng (negb sy)))) /\
   fle f0 (fmul (fsub (Y sy) (Y (negb sy))) (fneg (Y (negb sy)))) = false).
Proof.
  set (a := corner ng (negb sy)). set (b := corner ng sy). exists (cross_aba (v2sub b a) (v2neg a)).
  assert (N : mg ng lx 29 (fneg (X ng))) by (apply (neg_sign g); [apply HX | reflexivity]).
  pose proof (sub_self (X ng) (proj1 (HX ng))) as Z. pose proof (bd_neg _ _ (BY (negb sy))) as NY. pose proof (HD sy) as D.
  split.
  - unfold cross_aba, cross, v2sub, v2neg, a, b, corner, axis_x; cbn [vx vy].
    pose proof (mul_vz_l 29 _ _ Z NY ltac:(lia)) as Z1. pose proof (mul_mg _ _ _ _ _ _ _ _ D N ltac:(lia) ltac:(lia)) as P.
    set (zx := fsub (X ng) (X ng)) in *; set (D' := fsub (Y sy) (Y (negb sy))) in * .
    assert (C : mg (negb (eqb sy ng)) (ld + lx) 60 (fsub (fmul zx (fneg (Y (negb sy)))) (fmul D' (fneg (X ng))))).
    { apply (sub_mg_r _ _ 59); try lia; [apply vz_nn, Z1 | exact P]. }
    pose proof (mul_mg _ _ _ _ _ _ _ _ (mg_neg _ _ _ _ D) C ltac:(lia) ltac:(lia)) as Q.
    assert (EQ : eqb (negb sy) (negb (eqb sy ng)) = ng) by (unfold ng; destruct sy, g; reflexivity). rewrite EQ in Q. split.
    + apply (mg_le _ (ld + (ld + lx)) (30 + 60)); try lia. exact Q.
    + apply (mul_vz_l 60); try lia; [exact Z | apply (nn_bd _ _ _ (mg_nn _ _ _ _ C))].
  - cbn [add_point]. destruct (fle f0 (v2dot (v2sub b a) (v2neg a))) eqn:T; [left; reflexivity|]. right. split; [reflexivity|].
    revert T. unfold v2dot, v2sub, v2neg, a, b, corner; cbn [vx vy].
    pose proof (mul_vz_l 29 _ _ Z (nn_bd _ _ _ (mg_nn _ _ _ _ N)) ltac:(lia)) as Z1.
    destruct (mul_bd 30 29 _ _ (nn_bd _ _ _ (mg_nn _ _ _ _ D)) NY ltac:(lia)) as [B _].
    destruct (add_bd 59 _ _ (nn_bd true _ _ (vz_nn _ _ _ Z1)) B ltac:(lia)) as [[F _] V].
    rewrite !fle_fin by (try reflexivity; try assumption; apply B). change (val f0) with 0. rewrite V, (proj2 Z1), Rplus_0_l, rnd_exact. auto.
Qed.
(** the diagonal: whatever branch is taken, the next corner completes the near side *)
Lemma x_diag sy : sb sy (fneg (Y (negb sy))) -> exists d, sb ng (vx d) /\ sb sy (vy d) /\ direction_is_too_small d = false /\
  add_point [corner g sy] (corner ng (negb sy)) = Ok ([corner ng (negb sy); corner g sy], (false, d)).
Proof.
  intro S. set (a := corner ng (negb sy)). set (b := corner g sy).
  assert (N : mg ng lx 29 (fneg (X ng))) by (apply (neg_sign g); [apply HX | reflexivity]).
  pose proof (bd_neg _ _ (BY (negb sy))) as NY. pose proof (HD sy) as D. pose proof (sb_nn _ _ _ S (proj2 NY)) as PY.
  cbn [add_point]. destruct (fle f0 (v2dot (v2sub b a) (v2neg a))) eqn:T.
  2:{ exists (v2neg a). split; [apply (mg_sb _ _ _ _ N)|]. split; [exact S|]. split; [apply x_neg_small | reflexivity]. }
  exists (cross_aba (v2sub b a) (v2neg a)).
  assert (C : mg (eqb g sy) (ld + lx) 60 (cross (v2sub b a) (v2neg a))).
  { unfold cross, v2sub, v2neg, a, b, corner; cbn [vx vy]. pose proof (mul_mg _ _ _ _ _ _ _ _ D N ltac:(lia) ltac:(lia)) as P.
    pose proof (mul_nn _ _ _ _ _ _ (mg_nn _ _ _ _ HW) PY ltac:(lia)) as Q.
    replace (eqb g sy) with (negb (eqb sy ng)) by (unfold ng; destruct sy, g; reflexivity).
    apply (sub_mg_r _ _ 59); try lia; [|exact P]. replace (negb (eqb sy ng)) with (eqb g sy) by (unfold ng; destruct sy, g; reflexivity). exact Q. }
  unfold cross_aba. match type of C with mg _ _ _ ?e => set (c := e) in * end. unfold v2sub, a, b, corner; cbn [vx vy].
  pose proof (mul_mg _ _ _ _ _ _ _ _ (mg_neg _ _ _ _ D) C ltac:(lia) ltac:(lia)) as DX.
  assert (EX : eqb (negb sy) (eqb g sy) = ng) by (unfold ng; destruct sy, g; reflexivity). rewrite EX in DX.
  assert (DY : sb sy (fmul (fsub (X g) (X ng)) c)).
  { replace sy with (eqb g (eqb g sy)) at 1 by (destruct g, sy; reflexivity).
    apply (sb_mul _ _ 30 60); try lia; [apply (mg_sb _ _ _ _ HW) | apply (mg_sb _ _ _ _ C) | apply (mg_abs _ _ _ _ _ HW); lia | apply (mg_abs _ _ _ _ _ C); lia]. }
  split; [apply (mg_sb _ _ _ _ DX)|]. split; [exact DY|]. split; [|reflexivity].
  apply nsm; cbn [vx vy]; [apply DX | apply DY | left; apply (mg_size _ _ _ _ _ DX); lia].
Qed.
Lemma x_third sy : sb sy (Y sy) -> exists d, axis_x d /\
  add_point [corner ng (negb sy); corner g sy] (corner ng sy) = Ok ([corner ng sy; corner ng (negb sy)], (false, d)).
Proof.
  intro S. set (a := corner ng sy). set (b := corner ng (negb sy)). set (c := corner g sy).
  assert (N : mg ng lx 29 (fneg (X ng))) by (apply (neg_sign g); [apply HX | reflexivity]).
  pose proof (sub_self (X ng) (proj1 (HX ng))) as ZX. pose proof (sub_self (Y sy) (proj1 (BY sy))) as ZY.
  pose proof (HD (negb sy)) as D. rewrite negb_involutive in D.
  pose proof (sb_neg _ _ S) as SN. pose proof (sb_nn _ _ _ SN (proj2 (bd_neg _ _ (BY sy)))) as NY.
  exists (cross_f32 (v2sub b a) (cross (v2sub b a) (v2sub c a))).
  assert (K : mg (eqb sy g) (ld + lw) 61 (cross (v2sub b a) (v2sub c a))).
  { unfold cross, v2sub, a, b, c, corner; cbn [vx vy].
    pose proof (mul_vz_l 30 _ _ ZX (nn_bd true _ _ (vz_nn _ _ _ ZY)) ltac:(lia)) as Z1. pose proof (mul_mg _ _ _ _ _ _ _ _ D HW ltac:(lia) ltac:(lia)) as P.
    replace (eqb sy g) with (negb (eqb (negb sy) g)) by (destruct sy, g; reflexivity). apply (sub_mg_r _ _ 60); try lia; [apply vz_nn, Z1 | exact P]. }
  set (k := cross (v2sub b a) (v2sub c a)) in * . pose proof (nn_bd _ _ _ (mg_nn _ _ _ _ K)) as BK.
  assert (A : axis_x (cross_f32 (v2sub b a) k)).
  { unfold axis_x, cross_f32, v2sub, a, b, corner; cbn [vx vy]. split.
    - pose proof (mul_mg _ _ _ _ _ _ _ _ D K ltac:(lia) ltac:(lia)) as P.
      assert (EQ : eqb (negb sy) (eqb sy g) = ng) by (unfold ng; destruct sy, g; reflexivity). rewrite EQ in P.
      apply (mg_le _ (ld + (ld + lw)) (30 + 61)); try lia. exact P.
    - apply (mul_vz_l 61); try lia; [apply vz_neg, ZX | exact BK]. }
  split; [exact A|]. cbn [add_point]. fold k.
  assert (T1 : same_direction (cross_f32 (v2sub b a) k) (v2neg a) = true).
  { unfold same_direction, v2dot. destruct A as [AX AY]. change (vx (v2neg a)) with (fneg (X ng)). change (vy (v2neg a)) with (fneg (Y sy)).
    pose proof (mul_mg _ _ _ _ _ _ _ _ AX N ltac:(lia) ltac:(lia)) as P. rewrite eqb_reflx in P.
    pose proof (mul_vz_l 29 _ _ AY (bd_neg _ _ (BY sy)) ltac:(lia)) as Q.
    apply (mg_ge0 true (-23 + lx) 121), (add_mg_l _ _ 120); try lia; [exact P | apply vz_nn, Q]. }
  assert (T2 : same_direction (v2sub b a) (v2neg a) = true).
  { unfold same_direction, v2dot, v2sub, v2neg, a, b, corner; cbn [vx vy].
    pose proof (mul_vz_l 29 _ _ ZX (nn_bd _ _ _ (mg_nn _ _ _ _ N)) ltac:(lia)) as Z1.
    pose proof (mul_nn _ _ _ _ _ _ (mg_nn _ _ _ _ D) NY ltac:(lia)) as P. rewrite eqb_reflx in P.
    destruct (add_nn true 59 _ _ (vz_nn _ _ _ Z1) P ltac:(lia)) as [F [B _]]. rewrite fle_fin by (try assumption; reflexivity). change (val f0) with 0.
    apply Rleb_true. unfold sg in B. lra. }
  rewrite T1, T2. reflexivity.
Qed.
(** the same corner again: the run ends *)
Lemma x_self a t : mg false (-46) 60 (v2dot (corner a t) (v2neg (corner a t))).
Proof.
  unfold v2dot, v2neg, corner; cbn [vx vy]. pose proof (HX a) as HA. pose proof (mul_mg _ _ _ _ _ _ _ _ HA (mg_neg _ _ _ _ HA) ltac:(lia) ltac:(lia)) as P.
  replace (eqb g (negb g)) with false in P by (destruct g; reflexivity).
  apply (mg_le _ (lx + lx) 59 (-46) 60); try lia. apply (add_mg_l _ _ 58); try lia; [exact P|].
  pose proof (sb_dec _ (proj1 (BY t))) as S. pose proof (sb_nn _ _ _ S (proj2 (BY t))) as N. pose proof (mul_nn _ _ _ _ _ _ N (nn_neg _ _ _ N) ltac:(lia)) as Q.
  match type of Q with nn (eqb ?z _) _ _ => replace (eqb z (negb z)) with false in Q by (destruct z; reflexivity) end. exact Q.
Qed.
Lemma x_again n a t S : (length S <= 1)%nat -> sup (v2neg (corner a t)) = corner a t -> apart (Datatypes.S n) (corner a t :: S) (v2neg (corner a t)).
Proof.
  intros L E. pose proof (x_self a t) as M. apply (ap_end n _ _ _ (-46)); try lia.
  - rewrite E. apply (mg_le _ (-46) 60); try lia. exact M.
  - apply M.
  - rewrite E. reflexivity.
Qed.
Lemma x_axis_end n t S d : (length S <= 1)%nat -> axis_x d -> apart (Datatypes.S n) (corner ng t :: S) d.
Proof.
  intros L A. destruct (axis_x_end d A) as [_ [t' E]]. destruct (axis_x_dot d t A) as [M1 V1]. destruct (axis_x_dot d t' A) as [M2 V2].
  apply (ap_end n _ _ _ (-46)); try lia; try assumption.
  - rewrite E. exact M2.
  - apply M1.
  - rewrite E, V1, V2. reflexivity.
Qed.
Lemma x_back_again n t S : (length S <= 1)%nat -> sb t (fneg (Y t)) -> apart (Datatypes.S n) (corner ng t :: S) (v2neg (corner ng t)).
Proof.
  intros L B. apply x_again; [exact L|]. destruct (x_first ng t) as (t' & E & B'). rewrite E, (sb_unique _ _ _ B B'). reflexivity.
Qed.
Lemma x_apart sx sy n : (4 <= n)%nat -> apart n [corner sx sy] (v2neg (corner sx sy)).
Proof.
  intro H4. destruct n as [|[|[|[|n]]]]; try lia.
  destruct (x_first sx sy) as (t & E & B).
  assert (NX : mg ng lx 29 (fneg (X ng))) by (apply (neg_sign g); [apply HX | reflexivity]).
  destruct (bool_dec t sy) as [-> |Nt]; destruct (bool_dec sx ng) as [-> |Nx].
  - (* the nearest corner *) apply x_back_again; [cbn; lia | exact B].
  - (* straight behind the nearest corner *)
    assert (sx = g) as -> by (unfold ng in Nx; destruct sx, g; cbn in Nx; congruence).
    apply (ap_step _ _ _ _ [corner g sy] (v2neg (corner ng sy))); try (cbn; lia).
    + rewrite E. cbn [add_point]. replace (fle f0 _) with false; [reflexivity|]. symmetry. unfold v2dot, v2sub, v2neg, corner; cbn [vx vy].
      pose proof (mul_mg _ _ _ _ _ _ _ _ HW NX ltac:(lia) ltac:(lia)) as P. rewrite x_ng in P.
      pose proof (mul_vz_l 29 _ _ (sub_self (Y sy) (proj1 (BY sy))) (bd_neg _ _ (BY sy)) ltac:(lia)) as Q.
      apply (mg_ge0 false (lw + lx) 60), (add_mg_l _ _ 59); try lia; [exact P | apply vz_nn, Q].
    + apply x_neg_small.
    + rewrite E. apply x_back_again; [cbn; lia | exact B].
  - (* the near side *)
    assert (t = negb sy) as -> by (destruct t, sy; cbn in *; congruence). destruct (x_side sy) as (d & A & [EA|[EA T]]).
    + apply (ap_step _ _ _ _ [corner ng sy] d); try (cbn; lia); [rewrite E; exact EA | apply (axis_x_end d A) | rewrite E; apply x_axis_end; [cbn; lia | exact A]].
    + apply (ap_step _ _ _ _ [corner ng sy] (v2neg (corner ng (negb sy)))); try (cbn; lia); [rewrite E; exact EA | apply x_neg_small | rewrite E; apply x_back_again; [cbn; lia|]].
      pose proof (sb_dec _ (proj1 (bd_neg _ _ (BY (negb sy))))) as SD. set (z := negb (fnegsign (fneg (Y (negb sy))))) in * .
      destruct (bool_dec z sy) as [Ez|Nz]; [|replace (negb sy) with z at 1 by (destruct z, sy; cbn in *; congruence); exact SD]. exfalso.
      rewrite Ez in SD. pose proof (sb_nn _ _ _ SD (proj2 (bd_neg _ _ (BY (negb sy))))) as N.
      pose proof (mul_nn _ _ _ _ _ _ (mg_nn _ _ _ _ (HD sy)) N ltac:(lia)) as P. rewrite eqb_reflx in P. destruct P as [F [P _]].
      rewrite fle_fin, Rleb_true in T by (try assumption; try reflexivity; change (val f0) with 0; unfold sg in P; lra). discriminate.
  - (* the diagonal *)
    assert (sx = g) as -> by (unfold ng in Nx; destruct sx, g; cbn in Nx; congruence).
    assert (t = negb sy) as -> by (destruct t, sy; cbn in *; congruence).
    assert (SY : sb sy (Y sy)). { pose proof (sb_neg _ _ B) as Q. rewrite negb_involutive in Q. cbn in Q. rewrite Bopp_involutive in Q. exact Q. }
    pose proof (sb_dec _ (proj1 (bd_neg _ _ (BY (negb sy))))) as SD. set (z := negb (fnegsign (fneg (Y (negb sy))))) in * .
    destruct (bool_dec z sy) as [Ez|Nz].
    + rewrite Ez in SD. destruct (x_diag sy SD) as (d & DX & DY & SM & EA). pose proof (Hsup _ _ _ DX DY) as Ed.
      destruct (x_third sy SY) as (d' & A & E3).
      apply (ap_step _ _ _ _ [corner g sy] d); try (cbn; lia); [rewrite E; exact EA | exact SM|]. rewrite E.
      apply (ap_step _ _ _ _ [corner ng (negb sy)] d'); try (cbn; lia); [rewrite Ed; exact E3 | apply (axis_x_end d' A)|]. rewrite Ed.
      apply x_axis_end; [cbn; lia | exact A].
    + assert (z = negb sy) as Ez by (destruct z, sy; cbn in *; congruence). rewrite Ez in SD.
      apply (ap_step _ _ _ _ [corner g sy] (v2neg (corner ng (negb sy)))); try (cbn; lia).
      * rewrite E. cbn [add_point]. replace (fle f0 _) with false; [reflexivity|]. symmetry. unfold v2dot, v2sub, v2neg, corner; cbn [vx vy].
        pose proof (mul_mg _ _ _ _ _ _ _ _ HW NX ltac:(lia) ltac:(lia)) as P. rewrite x_ng in P.
        pose proof (sb_nn _ _ _ SD (proj2 (bd_neg _ _ (BY (negb sy))))) as N.
        pose proof (mul_nn _ _ _ _ _ _ (mg_nn _ _ _ _ (HD sy)) N ltac:(lia)) as Q. replace (eqb sy (negb sy)) with false in Q by (destruct sy; reflexivity).
        apply (mg_ge0 false (lw + lx) 60), (add_mg_l _ _ 59); try lia; [exact P | exact Q].
      * apply x_neg_small.
      * rewrite E. apply x_back_again; [cbn; lia | exact SD].
Qed.
Lemma x_all_apart P D d : fin (vx d) -> fin (vy d) -> exists v, gjk sup P D d = Ok (false, v).
Proof.
  intros FX FY. apply (all_apart 4 P D _ _ d ltac:(lia) (sb_dec _ FX) (sb_dec _ FY)); [intros; apply x_apart; assumption | apply x_neg_small].
Qed.
End ApartX.
(** ** The origin is outside, on the y axis: every corner has the sign g *)
Section ApartY.
Variables (g : bool) (ly lw ld : Z).
Let ng := negb g.
Hypothesis HY : forall s, mg g ly 29 (Y s).
Hypothesis BX : forall s, bd 29 (X s).
Hypothesis HW : mg g lw 30 (fsub (Y g) (Y ng)).
Hypothesis HD : forall s, mg s ld 30 (fsub (X s) (X (negb s))).
Hypothesis L1 : (-23 <= ly <= 29)%Z.
Hypothesis L2 : (-23 <= lw <= 30)%Z.
Hypothesis L3 : (-23 <= ld <= 30)%Z.
Hypothesis L4 : (-23 <= 2 * ld + ly)%Z.
Hypothesis L5 : (-23 <= 2 * ld + lw)%Z.

Lemma y_ng : eqb g ng = false. Proof. unfold ng; destruct g; reflexivity. Qed.
(** the direction straight back to the origin *)
Definition axis_y (d : vec2 b32) : Prop := mg ng (-23) 91 (vy d) /\ vz (vx d).
Lemma axis_y_end d : axis_y d -> direction_is_too_small d = false /\ exists t, sup d = corner t ng.
Proof.
  intros [M Z]. split.
  - apply nsm; [apply Z | apply M | right; apply (mg_size _ _ _ _ _ M); lia].
  - eexists. apply Hsup; [apply sb_dec, Z | apply (mg_sb _ _ _ _ M)].
Qed.
Lemma axis_y_dot d t : axis_y d -> mg false (-46) 121 (v2dot (corner t ng) d) /\ val (v2dot (corner t ng) d) = val (fmul (Y ng) (vy d)).
Proof.
  intros [M Z]. unfold v2dot, corner; cbn [vy vx].
  pose proof (mul_mg _ _ _ _ _ _ _ _ (HY ng) M ltac:(lia) ltac:(lia)) as P. rewrite y_ng in P.
  pose proof (mul_vz_r 29 _ _ (BX t) Z ltac:(lia)) as Q.
  split.
  - apply (mg_le _ (ly + -23) 121); try lia. apply (add_mg_r _ (ly + -23) 120); try lia; [apply vz_nn, Q | exact P].
  - destruct (add_bd 120 _ _ (nn_bd true _ _ (vz_nn _ _ _ Q)) (nn_bd _ _ _ (mg_nn _ _ _ _ P)) ltac:(lia)) as [_ V]. rewrite V.
    destruct Q as [_ Q]. rewrite Q, Rplus_0_l. apply rnd_exact.
Qed.

(** the second point *)
Lemma y_first sy sx : exists t, sup (v2neg (corner sx sy)) = corner t ng /\ sb t (fneg (X sx)).
Proof.
  exists (negb (fnegsign (fneg (X sx)))). assert (S : sb (negb (fnegsign (fneg (X sx)))) (fneg (X sx))) by (apply sb_dec, fin_neg, BX).
  split; [|exact S]. apply Hsup; [exact S|]. unfold v2neg, corner; cbn [vy vx]. apply (mg_sb _ ly 29), mg_neg, HY.
Qed.
Lemma y_neg_small sy sx : direction_is_too_small (v2neg (corner sx sy)) = false.
Proof.
  pose proof (mg_neg _ _ _ _ (HY sy)) as N. apply nsm; unfold v2neg, corner, somewhat; cbn [vy vx]; [apply fin_neg, BX | apply N | right; apply (mg_size _ _ _ _ _ N); lia].
Qed.
(** facing the side: the edge between the two near corners *)
Lemma y_side sx : exists d, axis_y d /\
  (add_point [corner sx ng] (corner (negb sx) ng) = Ok ([corner (negb sx) ng; corner sx ng], (false, d)) \/
   add_point [corner sx ng] (corner (negb sx) ng) = Ok ([corner (negb sx) ng; corner sx ng], (false, v2neg (corner (negb sx) ng))) /\
   fle f0 (fmul (fsub (X sx) (X (negb sx))) (fneg (X (negb sx)))) = false).
Proof.
  set (a := corner (negb sx) ng). set (b := corner sx ng). exists (cross_aba (v2sub b a) (v2neg a)).
  assert (N : mg ng ly 29 (fneg (Y ng))) by (apply (neg_sign g); [apply HY | reflexivity]).
  pose proof (sub_self (Y ng) (proj1 (HY ng))) as Z. pose proof (bd_neg _ _ (BX (negb sx))) as NY. pose proof (HD sx) as D.
  split.
  - unfold cross_aba, cross, v2sub, v2neg, a, b, corner, axis_y; cbn [vy vx].
    pose proof (mul_vz_l 29 _ _ Z NY ltac:(lia)) as Z1. pose proof (mul_mg _ _ _ _ _ _ _ _ D N ltac:(lia) ltac:(lia)) as P.
    set (zx := fsub (Y ng) (Y ng)) in *; set (D' := fsub (X sx) (X (negb sx))) in * .
    assert (C : mg (eqb sx ng) (ld + ly) 60 (fsub (fmul D' (fneg (Y ng))) (fmul zx (fneg (X (negb sx)))))).
    { apply (sub_mg_l _ _ 59); try lia; [exact P | apply vz_nn, Z1]. }
    pose proof (mul_mg _ _ _ _ _ _ _ _ D C ltac:(lia) ltac:(lia)) as Q.
    assert (EQ : eqb sx (eqb sx ng) = ng) by (unfold ng; destruct sx, g; reflexivity). rewrite EQ in Q. split.
    + apply (mg_le _ (ld + (ld + ly)) (30 + 60)); try lia. exact Q.
    + apply (mul_vz_l 60); try lia; [apply vz_neg, Z | apply (nn_bd _ _ _ (mg_nn _ _ _ _ C))].
  - cbn [add_point]. destruct (fle f0 (v2dot (v2sub b a) (v2neg a))) eqn:T; [left; reflexivity|]. right. split; [reflexivity|].
    revert T. unfold v2dot, v2sub, v2neg, a, b, corner; cbn [vy vx].
    pose proof (mul_vz_l 29 _ _ Z (nn_bd _ _ _ (mg_nn _ _ _ _ N)) ltac:(lia)) as Z1.
    destruct (mul_bd 30 29 _ _ (nn_bd _ _ _ (mg_nn _ _ _ _ D)) NY ltac:(lia)) as [B _].
    destruct (add_bd 59 _ _ B (nn_bd true _ _ (vz_nn _ _ _ Z1)) ltac:(lia)) as [[F _] V].
    rewrite !fle_fin by (try reflexivity; try assumption; apply B). change (val f0) with 0. rewrite V, (proj2 Z1), Rplus_0_r, rnd_exact. auto.
Qed.
(** the diagonal: whatever branch is taken, the next corner completes the near side *)
Lemma y_diag sx : sb sx (fneg (X (negb sx))) -> exists d, sb ng (vy d) /\ sb sx (vx d) /\ direction_is_too_small d = false /\
  add_point [corner sx g] (corner (negb sx) ng) = Ok ([corner (negb sx) ng; corner sx g], (false, d)).
Proof.
  intro S. set (a := corner (negb sx) ng). set (b := corner sx g).
  assert (N : mg ng ly 29 (fneg (Y ng))) by (apply (neg_sign g); [apply HY | reflexivity]).
  pose proof (bd_neg _ _ (BX (negb sx))) as NY. pose proof (HD sx) as D. pose proof (sb_nn _ _ _ S (proj2 NY)) as PY.
  cbn [add_point]. destruct (fle f0 (v2dot (v2sub b a) (v2neg a))) eqn:T.
  2:{ exists (v2neg a). split; [apply (mg_sb _ _ _ _ N)|]. split; [exact S|]. split; [apply y_neg_small | reflexivity]. }
  exists (cross_aba (v2sub b a) (v2neg a)).
  assert (C : mg (eqb sx ng) (ld + ly) 60 (cross (v2sub b a) (v2neg a))).
  { unfold cross, v2sub, v2neg, a, b, corner; cbn [vy vx]. pose proof (mul_mg _ _ _ _ _ _ _ _ D N ltac:(lia) ltac:(lia)) as P.
    pose proof (mul_nn _ _ _ _ _ _ (mg_nn _ _ _ _ HW) PY ltac:(lia)) as Q.
    apply (sub_mg_l _ _ 59); try lia; [exact P|]. replace (negb (eqb sx ng)) with (eqb g sx) by (unfold ng; destruct sx, g; reflexivity). exact Q. }
  unfold cross_aba. match type of C with mg _ _ _ ?e => set (c := e) in * end. unfold v2sub, a, b, corner; cbn [vy vx].
  pose proof (mul_mg _ _ _ _ _ _ _ _ D C ltac:(lia) ltac:(lia)) as DX.
  assert (EX : eqb sx (eqb sx ng) = ng) by (unfold ng; destruct sx, g; reflexivity). rewrite EX in DX.
  pose proof (mg_neg _ _ _ _ HW) as HWn.
  assert (DY : sb sx (fmul (fneg (fsub (Y g) (Y ng))) c)).
  { replace sx with (eqb (negb g) (eqb sx ng)) at 1 by (unfold ng; destruct g, sx; reflexivity).
    apply (sb_mul _ _ 30 60); try lia; [apply (mg_sb _ _ _ _ HWn) | apply (mg_sb _ _ _ _ C) | apply (mg_abs _ _ _ _ _ HWn); lia | apply (mg_abs _ _ _ _ _ C); lia]. }
  split; [apply (mg_sb _ _ _ _ DX)|]. split; [exact DY|]. split; [|reflexivity].
  apply nsm; cbn [vy vx]; [apply DY | apply DX | right; apply (mg_size _ _ _ _ _ DX); lia].
Qed.
Lemma y_third sx : sb sx (X sx) -> exists d, axis_y d /\
  add_point [corner (negb sx) ng; corner sx g] (corner sx ng) = Ok ([corner sx ng; corner (negb sx) ng], (false, d)).
Proof.
  intro S. set (a := corner sx ng). set (b := corner (negb sx) ng). set (c := corner sx g).
  assert (N : mg ng ly 29 (fneg (Y ng))) by (apply (neg_sign g); [apply HY | reflexivity]).
  pose proof (sub_self (Y ng) (proj1 (HY ng))) as ZX. pose proof (sub_self (X sx) (proj1 (BX sx))) as ZY.
  pose proof (HD (negb sx)) as D. rewrite negb_involutive in D.
  pose proof (sb_neg _ _ S) as SN. pose proof (sb_nn _ _ _ SN (proj2 (bd_neg _ _ (BX sx)))) as NY.
  exists (cross_f32 (v2sub b a) (cross (v2sub b a) (v2sub c a))).
  assert (K : mg (eqb (negb sx) g) (ld + lw) 61 (cross (v2sub b a) (v2sub c a))).
  { unfold cross, v2sub, a, b, c, corner; cbn [vy vx].
    pose proof (mul_vz_l 30 _ _ ZX (nn_bd true _ _ (vz_nn _ _ _ ZY)) ltac:(lia)) as Z1. pose proof (mul_mg _ _ _ _ _ _ _ _ D HW ltac:(lia) ltac:(lia)) as P.
    apply (sub_mg_l _ _ 60); try lia; [exact P | apply vz_nn, Z1]. }
  set (k := cross (v2sub b a) (v2sub c a)) in * . pose proof (nn_bd _ _ _ (mg_nn _ _ _ _ K)) as BK.
  assert (A : axis_y (cross_f32 (v2sub b a) k)).
  { unfold axis_y, cross_f32, v2sub, a, b, corner; cbn [vy vx]. split.
    - pose proof (mul_mg _ _ _ _ _ _ _ _ (mg_neg _ _ _ _ D) K ltac:(lia) ltac:(lia)) as P.
      assert (EQ : eqb (negb (negb sx)) (eqb (negb sx) g) = ng) by (unfold ng; destruct sx, g; reflexivity). rewrite EQ in P.
      apply (mg_le _ (ld + (ld + lw)) (30 + 61)); try lia. exact P.
    - apply (mul_vz_l 61); try lia; [exact ZX | exact BK]. }
  split; [exact A|]. cbn [add_point]. fold k.
  assert (T1 : same_direction (cross_f32 (v2sub b a) k) (v2neg a) = true).
  { unfold same_direction, v2dot. destruct A as [AX AY]. change (vy (v2neg a)) with (fneg (Y ng)). change (vx (v2neg a)) with (fneg (X sx)).
    pose proof (mul_mg _ _ _ _ _ _ _ _ AX N ltac:(lia) ltac:(lia)) as P. rewrite eqb_reflx in P.
    pose proof (mul_vz_l 29 _ _ AY (bd_neg _ _ (BX sx)) ltac:(lia)) as Q.
    apply (mg_ge0 true (-23 + ly) 121), (add_mg_r _ _ 120); try lia; [apply vz_nn, Q | exact P]. }
  assert (T2 : same_direction (v2sub b a) (v2neg a) = true).
  { unfold same_direction, v2dot, v2sub, v2neg, a, b, corner; cbn [vy vx].
    pose proof (mul_vz_l 29 _ _ ZX (nn_bd _ _ _ (mg_nn _ _ _ _ N)) ltac:(lia)) as Z1.
    pose proof (mul_nn _ _ _ _ _ _ (mg_nn _ _ _ _ D) NY ltac:(lia)) as P. rewrite eqb_reflx in P.
    destruct (add_nn true 59 _ _ P (vz_nn _ _ _ Z1) ltac:(lia)) as [F [B _]]. rewrite fle_fin by (try assumption; reflexivity). change (val f0) with 0.
    apply Rleb_true. unfold sg in B. lra. }
  rewrite T1, T2. reflexivity.
Qed.
(** the same corner again: the run ends *)
Lemma y_self a t : mg false (-46) 60 (v2dot (corner t a) (v2neg (corner t a))).
Proof.
  unfold v2dot, v2neg, corner; cbn [vy vx]. pose proof (HY a) as HA. pose proof (mul_mg _ _ _ _ _ _ _ _ HA (mg_neg _ _ _ _ HA) ltac:(lia) ltac:(lia)) as P.
  replace (eqb g (negb g)) with false in P by (destruct g; reflexivity).
  apply (mg_le _ (ly + ly) 59 (-46) 60); try lia. apply (add_mg_r _ _ 58); try lia; [|exact P].
  pose proof (sb_dec _ (proj1 (BX t))) as S. pose proof (sb_nn _ _ _ S (proj2 (BX t))) as N. pose proof (mul_nn _ _ _ _ _ _ N (nn_neg _ _ _ N) ltac:(lia)) as Q.
  match type of Q with nn (eqb ?z _) _ _ => replace (eqb z (negb z)) with false in Q by (destruct z; reflexivity) end. exact Q.
Qed.
Lemma y_again n a t S : (length S <= 1)%nat -> sup (v2neg (corner t a)) = corner t a -> apart (Datatypes.S n) (corner t a :: S) (v2neg (corner t a)).
Proof.
  intros L E. pose proof (y_self a t) as M. apply (ap_end n _ _ _ (-46)); try lia.
  - rewrite E. apply (mg_le _ (-46) 60); try lia. exact M.
  - apply M.
  - rewrite E. reflexivity.
Qed.
Lemma y_axis_end n t S d : (length S <= 1)%nat -> axis_y d -> apart (Datatypes.S n) (corner t ng :: S) d.
Proof.
  intros L A. destruct (axis_y_end d A) as [_ [t' E]]. destruct (axis_y_dot d t A) as [M1 V1]. destruct (axis_y_dot d t' A) as [M2 V2].
  apply (ap_end n _ _ _ (-46)); try lia; try assumption.
  - rewrite E. exact M2.
  - apply M1.
  - rewrite E, V1, V2. reflexivity.
Qed.
Lemma y_back_again n t S : (length S <= 1)%nat -> sb t (fneg (X t)) -> apart (Datatypes.S n) (corner t ng :: S) (v2neg (corner t ng)).
Proof.
  intros L B. apply y_again; [exact L|]. destruct (y_first ng t) as (t' & E & B'). rewrite E, (sb_unique _ _ _ B B'). reflexivity.
Qed.
Lemma y_apart sy sx n : (4 <= n)%nat -> apart n [corner sx sy] (v2neg (corner sx sy)).
Proof.
  intro H4. destruct n as [|[|[|[|n]]]]; try lia.
  destruct (y_first sy sx) as (t & E & B).
  assert (NX : mg ng ly 29 (fneg (Y ng))) by (apply (neg_sign g); [apply HY | reflexivity]).
  destruct (bool_dec t sx) as [-> |Nt]; destruct (bool_dec sy ng) as [-> |Nx].
  - (* the nearest corner *) apply y_back_again; [cbn; lia | exact B].
  - (* straight behind the nearest corner *)
    assert (sy = g) as -> by (unfold ng in Nx; destruct sy, g; cbn in Nx; congruence).
    apply (ap_step _ _ _ _ [corner sx g] (v2neg (corner sx ng))); try (cbn; lia).
    + rewrite E. cbn [add_point]. replace (fle f0 _) with false; [reflexivity|]. symmetry. unfold v2dot, v2sub, v2neg, corner; cbn [vy vx].
      pose proof (mul_mg _ _ _ _ _ _ _ _ HW NX ltac:(lia) ltac:(lia)) as P. rewrite y_ng in P.
      pose proof (mul_vz_l 29 _ _ (sub_self (X sx) (proj1 (BX sx))) (bd_neg _ _ (BX sx)) ltac:(lia)) as Q.
      apply (mg_ge0 false (lw + ly) 60), (add_mg_r _ _ 59); try lia; [apply vz_nn, Q | exact P].
    + apply y_neg_small.
    + rewrite E. apply y_back_again; [cbn; lia | exact B].
  - (* the near side *)
    assert (t = negb sx) as -> by (destruct t, sx; cbn in *; congruence). destruct (y_side sx) as (d & A & [EA|[EA T]]).
    + apply (ap_step _ _ _ _ [corner sx ng] d); try (cbn; lia); [rewrite E; exact EA | apply (axis_y_end d A) | rewrite E; apply y_axis_end; [cbn; lia | exact A]].
    + apply (ap_step _ _ _ _ [corner sx ng] (v2neg (corner (negb sx) ng))); try (cbn; lia); [rewrite E; exact EA | apply y_neg_small | rewrite E; apply y_back_again; [cbn; lia|]].
      pose proof (sb_dec _ (proj1 (bd_neg _ _ (BX (negb sx))))) as SD. set (z := negb (fnegsign (fneg (X (negb sx))))) in * .
      destruct (bool_dec z sx) as [Ez|Nz]; [|replace (negb sx) with z at 1 by (destruct z, sx; cbn in *; congruence); exact SD]. exfalso.
      rewrite Ez in SD. pose proof (sb_nn _ _ _ SD (proj2 (bd_neg _ _ (BX (negb sx))))) as N.
      pose proof (mul_nn _ _ _ _ _ _ (mg_nn _ _ _ _ (HD sx)) N ltac:(lia)) as P. rewrite eqb_reflx in P. destruct P as [F [P _]].
      rewrite fle_fin, Rleb_true in T by (try assumption; try reflexivity; change (val f0) with 0; unfold sg in P; lra). discriminate.
  - (* the diagonal *)
    assert (sy = g) as -> by (unfold ng in Nx; destruct sy, g; cbn in Nx; congruence).
    assert (t = negb sx) as -> by (destruct t, sx; cbn in *; congruence).
    assert (SY : sb sx (X sx)). { pose proof (sb_neg _ _ B) as Q. rewrite negb_involutive in Q. cbn in Q. rewrite Bopp_involutive in Q. exact Q. }
    pose proof (sb_dec _ (proj1 (bd_neg _ _ (BX (negb sx))))) as SD. set (z := negb (fnegsign (fneg (X (negb sx))))) in * .
    destruct (bool_dec z sx) as [Ez|Nz].
    + rewrite Ez in SD. destruct (y_diag sx SD) as (d & DX & DY & SM & EA). pose proof (Hsup _ _ _ DY DX) as Ed.
      destruct (y_third sx SY) as (d' & A & E3).
      apply (ap_step _ _ _ _ [corner sx g] d); try (cbn; lia); [rewrite E; exact EA | exact SM|]. rewrite E.
      apply (ap_step _ _ _ _ [corner (negb sx) ng] d'); try (cbn; lia); [rewrite Ed; exact E3 | apply (axis_y_end d' A)|]. rewrite Ed.
      apply y_axis_end; [cbn; lia | exact A].
    + assert (z = negb sx) as Ez by (destruct z, sx; cbn in *; congruence). rewrite Ez in SD.
      apply (ap_step _ _ _ _ [corner sx g] (v2neg (corner (negb sx) ng))); try (cbn; lia).
      * rewrite E. cbn [add_point]. replace (fle f0 _) with false; [reflexivity|]. symmetry. unfold v2dot, v2sub, v2neg, corner; cbn [vy vx].
        pose proof (mul_mg _ _ _ _ _ _ _ _ HW NX ltac:(lia) ltac:(lia)) as P. rewrite y_ng in P.
        pose proof (sb_nn _ _ _ SD (proj2 (bd_neg _ _ (BX (negb sx))))) as N.
        pose proof (mul_nn _ _ _ _ _ _ (mg_nn _ _ _ _ (HD sx)) N ltac:(lia)) as Q. replace (eqb sx (negb sx)) with false in Q by (destruct sx; reflexivity).
        apply (mg_ge0 false (lw + ly) 60), (add_mg_r _ _ 59); try lia; [exact Q | exact P].
      * apply y_neg_small.
      * rewrite E. apply y_back_again; [cbn; lia | exact SD].
Qed.
Lemma y_all_apart P D d : fin (vy d) -> fin (vx d) -> exists v, gjk sup P D d = Ok (false, v).
Proof.
  intros FY FX. apply (all_apart 4 P D _ _ d ltac:(lia) (sb_dec _ FX) (sb_dec _ FY)); [intros; apply y_apart; assumption | apply y_neg_small].
Qed.
End ApartY.
End Rect.

(** ** One axis of the difference of two boxes *)
Definition one (s : bool) : b32 := if s then f1 else fneg f1.
Lemma fin_f1 : fin (@f1 b32 _) /\ val (@f1 b32 _) = 1.
Proof. destruct (val_of 1 0 ltac:(lia) ltac:(lia)) as [F V]. change (b32_of 1 0) with (@f1 b32 _) in F, V. split; [exact F|]. rewrite V. cbn. lra. Qed.
Lemma one_ok s : fin (one s) /\ val (one s) = sg s.
Proof. destruct fin_f1 as [F V]. destruct s; cbn [one sg]; [split; assumption|]. split; [apply fin_neg, F | rewrite val_neg, V; ring]. Qed.
Lemma one_mul s h : fin h -> fin (fmul (one s) h) /\ val (fmul (one s) h) = sg s * val h.
Proof.
  intro F. destruct (one_ok s) as [G V].
  assert (E : rnd (val (one s) * val h) = sg s * val h) by (rewrite V, rnd_sg, rnd_exact; reflexivity).
  destruct (mul_ok (one s) h G F) as [K W].
  - rewrite E, Rabs_mult. replace (Rabs (sg s)) with 1 by (destruct s; unfold sg; [rewrite Rabs_R1 | replace (-1) with (-(1)) by ring; rewrite Rabs_Ropp, Rabs_R1]; reflexivity).
    rewrite Rmult_1_l. apply val_big.
  - split; [exact K | rewrite W; exact E].
Qed.
Lemma sb_signum s x : sb s x -> fsignum x = one s.
Proof. intros [F S]. unfold fsignum. rewrite (fin_nan x F), S. destruct s; reflexivity. Qed.

(** absolute error of rounding *)
Lemma rnd_near r : Rabs (rnd r - r) <= u32 * Rabs r + tiny.
Proof.
  destruct (rnd_error r) as (e & t & E & T & ->). replace (r * (1 + e) + t - r) with (e * r + t) by ring.
  eapply Rle_trans; [apply Rabs_triang|]. rewrite Rabs_mult. pose proof (Rabs_pos r). pose proof (Rmult_le_compat_r _ _ _ H E). lra.
Qed.
Lemma u32_pow : u32 = bpow radix2 (-24). Proof. reflexivity. Qed.
Lemma Rabs_split r m : Rabs r <= m -> - m <= r <= m.
Proof. unfold Rabs. destruct (Rcase_abs r); lra. Qed.

Section Axis.
Variables (h h' r : b32) (k : R) (q : b32 -> b32).
Hypothesis Fh : fin h. Hypothesis Fh' : fin h'.
Hypothesis Hh : 0 <= val h. Hypothesis Hh' : 0 <= k * val h'.
Let S := val h + k * val h'.
Hypothesis HS : S <= bpow radix2 27.
Hypothesis Hr : Rabs (val r) <= bpow radix2 27.
Hypothesis Hq : forall x, fin x -> Rabs (k * val x) <= bpow radix2 27 -> fin (q x) /\ val (q x) = rnd (val r + rnd (k * val x)).
Definition axisX (s : bool) : b32 := fsub (fmul (one s) h) (q (fmul (one (negb s)) h')).
Let E := rnd (k * val h').

Lemma Eb : 0 <= E <= bpow radix2 27.
Proof. unfold E. split; [apply rnd_nonneg, Hh' | apply rnd_hi; [lia | unfold S in HS; lra]]. Qed.
Lemma axisX_val s : fin (axisX s) /\ sg s * val (axisX s) = rnd (val h + rnd (E - sg s * val r)) /\ Rabs (val (axisX s)) <= bpow radix2 29.
Proof.
  destruct (one_mul s h Fh) as [F1 V1]. destruct (one_mul (negb s) h' Fh') as [F2 V2].
  assert (KB : Rabs (k * val (fmul (one (negb s)) h')) <= bpow radix2 27).
  { rewrite V2, sg_neg. replace (k * (- sg s * val h')) with (- (sg s * (k * val h'))) by ring. rewrite Rabs_Ropp, Rabs_mult.
    replace (Rabs (sg s)) with 1 by (destruct s; unfold sg, Rabs; destruct Rcase_abs; lra). rewrite Rmult_1_l, Rabs_pos_eq by exact Hh'. unfold S in HS. lra. }
  destruct (Hq _ F2 KB) as [F3 V3].
  assert (V4 : val (q (fmul (one (negb s)) h')) = - (sg s * rnd (E - sg s * val r))).
  { rewrite V3, V2, sg_neg. replace (k * (- sg s * val h')) with (- (sg s * (k * val h'))) by ring. rewrite rnd_opp, rnd_sg. fold E.
    replace (val r + - (sg s * E)) with (- (sg s * (E - sg s * val r))). 2:{ pose proof (sg_sq s). replace (- (sg s * (E - sg s * val r))) with ((sg s * sg s) * val r + - (sg s * E)) by ring. rewrite H. ring. }
    rewrite rnd_opp, rnd_sg. reflexivity. }
  pose proof Eb as [E0 E1]. apply Rabs_split in Hr.
  assert (ZB : Rabs (rnd (E - sg s * val r)) <= bpow radix2 28).
  { apply rnd_abs_hi; [lia|]. apply Rabs_le. change 28%Z with (27 + 1)%Z. rewrite bpow_double. destruct s; unfold sg; lra. }
  assert (HB : val h <= bpow radix2 28). { change 28%Z with (27 + 1)%Z. rewrite bpow_double. unfold S in HS. pose proof (bpow_ge_0 radix2 27). lra. }
  destruct (sub_bd 28 (fmul (one s) h) (q (fmul (one (negb s)) h'))) as [[F5 B5] V5]; try lia.
  - split; [exact F1|]. rewrite V1. apply Rabs_le. destruct s; unfold sg; lra.
  - split; [exact F3|]. rewrite V4, Rabs_Ropp, Rabs_mult. replace (Rabs (sg s)) with 1 by (destruct s; unfold sg, Rabs; destruct Rcase_abs; lra). rewrite Rmult_1_l. exact ZB.
  - split; [exact F5|]. split; [|exact B5]. unfold axisX. rewrite V5, V1, V4, <- rnd_sg. f_equal. pose proof (sg_sq s).
    replace (sg s * (sg s * val h - - (sg s * rnd (E - sg s * val r)))) with ((sg s * sg s) * (val h + rnd (E - sg s * val r))) by ring. rewrite H. ring.
Qed.
(** the computed coordinate is close to the exact one *)
Lemma axisX_err s : Rabs (sg s * val (axisX s) - (S - sg s * val r)) <= bpow radix2 (-22) * (S + Rabs (val r)) + bpow radix2 (-140).
Proof.
  destruct (axisX_val s) as (_ & -> & _). set (Z := rnd (E - sg s * val r)).
  pose proof (rnd_near (k * val h')) as N1. fold E in N1. rewrite (Rabs_pos_eq _ Hh') in N1. apply Rabs_split in N1.
  pose proof (rnd_near (E - sg s * val r)) as N2. fold Z in N2.
  pose proof (rnd_near (val h + Z)) as N3.
  assert (A2 : Rabs (E - sg s * val r) <= E + Rabs (val r)).
  { pose proof Eb. unfold Rabs. destruct (Rcase_abs (val r)), s; unfold sg in *; destruct Rcase_abs; lra. }
  pose proof (Rabs_pos (val r)) as Pr.
  assert (U0 : 0 < u32) by (rewrite u32_pow; apply bpow_gt_0). assert (U1 : u32 <= / 1000) by (unfold u32; apply Rinv_le; [lra | apply IZR_le; lia]).
  assert (T0 : 0 < tiny) by apply bpow_gt_0.
  assert (T1 : 4 * tiny <= bpow radix2 (-140)). { unfold tiny. change (-140)%Z with (10 + -150)%Z. rewrite bpow_plus. pose proof (bpow_gt_0 radix2 (-150)). change (bpow radix2 10) with 1024. nra. }
  assert (U4 : bpow radix2 (-22) = 4 * u32) by (rewrite u32_pow; change (-22)%Z with (2 + -24)%Z; rewrite bpow_plus; change (bpow radix2 2) with 4; reflexivity).
  rewrite U4. set (K := k * val h') in *; set (m := Rabs (val r)) in * . unfold S.
  assert (TU : tiny <= / 1000). { unfold tiny. apply Rle_trans with (bpow radix2 (-10)); [apply bpow_le; lia | cbn; lra]. }
  assert (uK : u32 * K <= K / 1000) by nra.
  assert (B1 : u32 * E <= u32 * (1001 / 1000 * K + tiny)) by (apply Rmult_le_compat_l; lra).
  assert (B2 : u32 * Rabs (E - sg s * val r) <= u32 * (E + m)) by (apply Rmult_le_compat_l; lra).
  assert (ut : u32 * tiny <= tiny / 1000) by nra.
  apply Rabs_split in N2.
  assert (um : u32 * m <= m / 1000) by nra.
  assert (ZB : Rabs Z <= 1003 / 1000 * K + 1002 / 1000 * m + 3 * tiny).
  { apply Rabs_le. apply Rabs_split in A2. lra. }
  assert (B3 : u32 * Rabs (val h + Z) <= u32 * (val h + (1003 / 1000 * K + 1002 / 1000 * m + 3 * tiny))).
  { apply Rmult_le_compat_l; [lra|]. eapply Rle_trans; [apply Rabs_triang|]. rewrite (Rabs_pos_eq _ Hh). lra. }
  apply Rabs_split in N3.
  assert (uh : 0 <= u32 * val h) by nra. assert (0 <= u32 * K) by nra. assert (0 <= u32 * m) by nra.
  rewrite !Rmult_plus_distr_l in * .
  apply Rabs_le. split; lra.
Qed.
(** overlapping on this axis: both coordinates have their own sign *)
Lemma axis_overlap : Rabs (val r) + bpow radix2 (-20) * (1 + S) <= S -> forall s, mg s (-22) 29 (axisX s).
Proof.
  intros G s. destruct (axisX_val s) as (F & _ & B). split; [exact F|]. pose proof (bd_sg s 29 _ (conj F B)) as U. split; [|apply U].
  pose proof (axisX_err s) as Er. apply Rabs_split in Er.
  assert (C : bpow radix2 (-20) = 4 * bpow radix2 (-22)) by (change (-20)%Z with (2 + -22)%Z; rewrite bpow_plus; reflexivity).
  assert (D : bpow radix2 (-140) <= bpow radix2 (-22)) by (apply bpow_le; lia).
  rewrite C in G. pose proof (bpow_gt_0 radix2 (-22)). set (e := bpow radix2 (-22)) in *; clearbody e.
  pose proof (Rabs_pos (val r)). assert (SR : sg s * val r <= Rabs (val r)) by (unfold Rabs, sg; destruct (Rcase_abs (val r)), s; lra).
  assert (0 <= S) by (unfold S; lra). assert (Rabs (val r) <= S) by nra. assert (e * Rabs (val r) <= e * S) by (apply Rmult_le_compat_l; lra).
  assert (0 <= e * S) by nra. rewrite !Rmult_plus_distr_l in * . lra.
Qed.
(** apart on this axis: both coordinates have the sign opposite to r's *)
Lemma axis_gap j g : (0 <= j <= 7)%Z -> S + bpow radix2 (-20) * (bpow radix2 (2 * j) + Rabs (val r)) <= - (sg g * val r) ->
  forall s, mg g (2 * j - 21) 29 (axisX s).
Proof.
  intros J G s. destruct (axisX_val s) as (F & _ & B). split; [exact F|]. pose proof (bd_sg g 29 _ (conj F B)) as U. split; [|apply U].
  pose proof (axisX_err s) as Er. apply Rabs_split in Er.
  assert (C : bpow radix2 (-20) = 4 * bpow radix2 (-22)) by (change (-20)%Z with (2 + -22)%Z; rewrite bpow_plus; reflexivity).
  assert (L : bpow radix2 (2 * j - 21) = 2 * (bpow radix2 (-22) * bpow radix2 (2 * j))) by (rewrite <- bpow_plus, <- bpow_double; f_equal; lia).
  assert (D : bpow radix2 (-140) <= bpow radix2 (-22) * bpow radix2 (2 * j)) by (rewrite <- bpow_plus; apply bpow_le; lia).
  rewrite L. rewrite C in G. pose proof (bpow_gt_0 radix2 (-22)). pose proof (bpow_gt_0 radix2 (2 * j)).
  set (e := bpow radix2 (-22)) in *; set (w := bpow radix2 (2 * j)) in *; clearbody e w.
  pose proof (Rabs_pos (val r)). assert (0 <= S) by (unfold S; lra).
  assert (SR : - (sg g * val r) <= Rabs (val r)) by (unfold Rabs, sg; destruct (Rcase_abs (val r)), g; lra).
  assert (0 <= e * w) by nra. assert (0 <= e * Rabs (val r)) by nra.
  assert (S <= Rabs (val r)) by nra. assert (e * S <= e * Rabs (val r)) by (apply Rmult_le_compat_l; lra).
  rewrite !Rmult_plus_distr_l in * . destruct s, g; unfold sg in *; lra.
Qed.
Lemma axis_width j : (0 <= j <= 7)%Z -> bpow radix2 (- j) + bpow radix2 (-20) * Rabs (val r) <= S ->
  forall s, mg s (- j) 30 (fsub (axisX s) (axisX (negb s))).
Proof.
  intros J G s. destruct (axisX_val s) as (F & _ & B). destruct (axisX_val (negb s)) as (F' & _ & B').
  destruct (sub_bd 29 _ _ (conj F B) (conj F' B') ltac:(lia)) as [[K KB] V]. split; [exact K|].
  pose proof (bd_sg s 30 _ (conj K KB)) as U. split; [|apply U]. rewrite V, <- rnd_sg. apply rnd_lo; [lia|]. rewrite Rmult_minus_distr_l.
  pose proof (axisX_err s) as E1. pose proof (axisX_err (negb s)) as E2. rewrite sg_neg in E2. apply Rabs_split in E1. apply Rabs_split in E2.
  assert (C : bpow radix2 (-20) = 4 * bpow radix2 (-22)) by (change (-20)%Z with (2 + -22)%Z; rewrite bpow_plus; reflexivity).
  assert (D : 2 * (2 * bpow radix2 (-140)) <= bpow radix2 (- j)) by (rewrite <- !bpow_double; apply bpow_le; lia).
  rewrite C in G. pose proof (bpow_gt_0 radix2 (-22)). pose proof (bpow_gt_0 radix2 (- j)). assert (e4 : 4 * bpow radix2 (-22) <= / 1000) by (cbn; lra).
  set (e := bpow radix2 (-22)) in *; set (w := bpow radix2 (- j)) in *; clearbody e w.
  pose proof (Rabs_pos (val r)). assert (0 <= S) by (unfold S; lra). assert (0 <= e * Rabs (val r)) by nra. assert (e * S <= S / 4000) by nra.
  rewrite !Rmult_plus_distr_l in * . lra.
Qed.
End Axis.
