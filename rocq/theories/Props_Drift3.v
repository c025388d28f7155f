(** * C70: long chains of 3D placements in f32 drift slowly *)
From Coq Require Import Reals ZArith Lra Lia Psatz Bool.
From Flocq Require Import Core BinarySingleNaN.
From Verif Require Import Num NumXR NumB32 Glam Transform2 Shapes2 Gjk Detect2 Col3 Spec SpecLink P_Base P_Geo P_Geo3 P_3d P_B32 Props_F32 Props_F32Gjk Props_Lerp P_F32Box P_Drift Spec32 P_Closed32 Props_Closed32 Props_Approx Spec32s P_Space32 Props_Space32 P_Quat32 Props_Quat32 P_Drift3.
Local Open Scope R_scope.

(** ** What a program does: it is given placements without scale and composes and inverts them in any order *)
Inductive chain3 : Type :=
  | Given3 (pos : vec3 b32) (rot : quat b32)
  | Then3 (a b : chain3)       (** a.compose(b) *)
  | Back3 (a : chain3).        (** a.inverse() *)
(** the same program written with each of the three kinds of placement *)
Fixpoint build_iso (m : chain3) : isotropic3d b32 := match m with Given3 p q => as_iso p q f1 | Then3 a b => compose (build_iso a) (build_iso b) | Back3 a => inverse (build_iso a) end.
Fixpoint build_t3 (m : chain3) : transform3d b32 := match m with Given3 p q => as_t3 p q f1 | Then3 a b => compose (build_t3 a) (build_t3 b) | Back3 a => inverse (build_t3 a) end.
Fixpoint build_bevy (m : chain3) : bevy_transform b32 := match m with Given3 p q => as_bevy p q f1 | Then3 a b => compose (build_bevy a) (build_bevy b) | Back3 a => inverse (build_bevy a) end.
(** the number of operations and given placements; how many inversions one inside the other *)
Fixpoint steps3 (m : chain3) : nat := match m with Given3 _ _ => 1 | Then3 a b => S (steps3 a + steps3 b) | Back3 a => S (steps3 a) end.
Fixpoint nesting3 (m : chain3) : nat := match m with Given3 _ _ => 0 | Then3 a b => Nat.max (nesting3 a) (nesting3 b) | Back3 a => S (nesting3 a) end.
Definition weight3 (m : chain3) : nat := S (nesting3 m) * steps3 m.
(** the translations added up (2^-60 each to cover underflow) *)
Fixpoint reach3 (m : chain3) : R := match m with Given3 p _ => norm3 (rval3 p) + bpow radix2 (-60) | Then3 a b => reach3 a + reach3 b | Back3 a => reach3 a end.
(** distance of an f32 quaternion from the exact one for the rotation by t about u *)
Definition off (q : quat b32) (u : pt3) (t : R) : R :=
  let dx := val (qx q) - sin (t / 2) * x3 u in let dy := val (qy q) - sin (t / 2) * y3 u in let dz := val (qz q) - sin (t / 2) * z3 u in let dw := val (qw q) - cos (t / 2) in
  sqrt (dx * dx + dy * dy + dz * dz + dw * dw).
(** [moves3 d m f]: every given quaternion is within d of an exact rotation, and f is the motion of space the chain stands for when nothing is rounded *)
Inductive moves3 (d : R) : chain3 -> (pt3 -> pt3) -> Prop :=
  | moves3_given p q u t : fin3 p -> finq q -> dot3 u u = 1 -> off q u t <= d -> moves3 d (Given3 p q) (fun x => add3 (rotate3 u t x) (rval3 p))
  | moves3_then a b f g : moves3 d a f -> moves3 d b g -> moves3 d (Then3 a b) (fun x => f (g x))
  | moves3_back a f g : moves3 d a f -> (forall x, f (g x) = x) -> moves3 d (Back3 a) g.
(** growth of the error per step: twice the inaccuracy of the given quaternions and 80 roundings *)
Definition step3 (d : R) : R := (1 + d) * (1 + 40 * u32).
Definition growth3 (d : R) : R := step3 d * step3 d.

(** ** The invariant *)
Lemma step3_ge d : 0 <= d -> 1 + 40 * u32 <= step3 d /\ 1 + d <= step3 d /\ 1 <= step3 d /\ 1 + 80 * u32 <= growth3 d /\ 1 <= growth3 d /\ step3 d <= growth3 d.
Proof.
  intro H. pose proof u32_pos. assert (0 <= d * (40 * u32)) by (apply Rmult_le_pos; lra). assert (A : 1 + 40 * u32 <= step3 d) by (unfold step3; lra). assert (B : 1 + d <= step3 d) by (unfold step3; lra).
  assert (C : (1 + 40 * u32) * (1 + 40 * u32) <= growth3 d) by (unfold growth3; apply Rmult_le_compat; lra). assert (0 <= u32 * u32) by (apply Rmult_le_pos; lra).
  assert (D : step3 d * 1 <= growth3 d) by (unfold growth3; apply Rmult_le_compat_l; lra). repeat split; lra.
Qed.
Lemma growth3_pow d n : growth3 d ^ n = step3 d ^ n * step3 d ^ n.
Proof. unfold growth3. apply Rpow_mult_distr. Qed.
Lemma pow_up K i j : 1 <= K -> (i <= j)%nat -> K ^ i <= K ^ j. Proof. apply Rle_pow. Qed.
Lemma reach3_bot m : bot3 <= reach3 m.
Proof. pose proof bot3_pos. induction m; cbn [reach3]; [pose proof (norm3_nonneg (rval3 pos)); unfold bot3 in *; lra | lra | assumption]. Qed.
Lemma steps3_weight m : (steps3 m <= weight3 m)%nat. Proof. unfold weight3. nia. Qed.
Definition exact4 (u : pt3) (t : R) : pt4 := (scale3 (sin (t / 2)) u, cos (t / 2)).
Lemma exact4_unit u t : dot3 u u = 1 -> norm4 (exact4 u t) = 1.
Proof.
  intro U. unfold norm4. replace (dot4 (exact4 u t) (exact4 u t)) with 1; [apply sqrt_1|]. pose proof (sin2_cos2 (t / 2)) as SC. unfold Rsqr in SC. symmetry.
  transitivity (sin (t / 2) * sin (t / 2) * dot3 u u + cos (t / 2) * cos (t / 2)); [unfold dot4, exact4; cbn [fst snd]; unfold dot3, scale3, x3, y3, z3; cbn [fst snd]; ring|]. rewrite U, Rmult_1_r. exact SC.
Qed.
Lemma exact4_rotate u t p : dot3 u u = 1 -> rq4 (exact4 u t) p = rotate3 u t p.
Proof. intro U. rewrite <- (rq_rodrigues u t p U). reflexivity. Qed.
Lemma off_norm4 q u t : off q u t = norm4 (sub4 (r4 q) (exact4 u t)).
Proof. reflexivity. Qed.
Definition tracks3 (d : R) (m : chain3) (f : pt3 -> pt3) : Prop := exists Q P,
  (forall p, f p = add3 (rq4 Q p) P) /\ near4 (iso_rot (build_iso m)) Q (step3 d ^ steps3 m) /\ near3 (iso_pos (build_iso m)) P (reach3 m) (growth3 d ^ weight3 m) /\ iso_scale (build_iso m) = f1.
Lemma one_times_one : @fmul b32 _ f1 f1 = f1. Proof. apply B2SF_inj; vm_compute; reflexivity. Qed.
Lemma one_over_one : @fdiv b32 _ f1 f1 = f1. Proof. apply B2SF_inj; vm_compute; reflexivity. Qed.
Lemma hundred_ninety : 16 * bpow radix2 90 <= bpow radix2 100.
Proof. change 100%Z with (10 + 90)%Z. rewrite bpow_plus. pose proof (bpow_gt_0 radix2 90). assert (16 <= bpow radix2 10) by (cbn; lra). apply Rmult_le_compat_r; lra. Qed.

Lemma tracks3_all d : 0 <= d -> forall m f, moves3 d m f -> growth3 d ^ weight3 m <= 101 / 100 -> reach3 m <= bpow radix2 90 -> tracks3 d m f.
Proof.
  intros Hd m f M. destruct (step3_ge d Hd) as (G40 & Gd & G1 & K80 & K1 & GK). pose proof (growth3_pow d) as KP. set (K := growth3 d) in * . set (g := step3 d) in * . pose proof u32_pos as Hu. pose proof u32_small as Hus. pose proof hundred_ninety as B100. pose proof (bpow_gt_0 radix2 90) as B90.
  induction M as [p q u t Fp Fq U Er | a b f g' Ma IHa Mb IHb | a f g' Ma IHa Inv]; intros W Rc.
  - exists (exact4 u t), (rval3 p). split; [intro x; rewrite exact4_rotate by exact U; reflexivity|].
    cbn [build_iso steps3]. change (weight3 (Given3 p q)) with 1%nat. fold g K. rewrite !pow_1. split; [|split; [|reflexivity]].
    + split; [exact Fq|]. split; [rewrite off_norm4 in Er; cbn [as_iso iso_rot]; lra | apply exact4_unit, U].
    + cbn [reach3 as_iso iso_pos]. eapply near3_weaken; [apply near3_self, Fp | exact K1].
  - cbn [reach3] in Rc. pose proof (reach3_bot a) as Ba. pose proof (reach3_bot b) as Bb. pose proof bot3_pos as Pb.
    set (e := (S (nesting3 (Then3 a b)) * (steps3 a + steps3 b))%nat).
    assert (We : (S e <= weight3 (Then3 a b))%nat) by (unfold e, weight3; cbn [steps3]; nia).
    assert (Wa : (weight3 a <= e)%nat) by (unfold e, weight3; cbn [nesting3]; pose proof (Nat.le_max_l (nesting3 a) (nesting3 b)); nia).
    assert (Wb : (steps3 a + weight3 b <= e)%nat) by (unfold e, weight3; cbn [nesting3]; pose proof (Nat.le_max_r (nesting3 a) (nesting3 b)); nia).
    assert (P2 : forall i, (i <= e)%nat -> 1 <= K ^ i <= 101 / 100).
    { intros i Hi. split; [apply pow_R1_Rle, K1|]. eapply Rle_trans; [apply (pow_up K i (weight3 (Then3 a b))); [exact K1 | lia] | exact W]. }
    assert (G2 : forall i, (i <= e)%nat -> 1 <= g ^ i /\ g ^ i * g ^ i <= 101 / 100). { intros i Hi. split; [apply pow_R1_Rle, G1|]. rewrite <- KP. apply P2, Hi. }
    destruct IHa as (Qa & Pa & Fa & HQa & HPa & Sa); [apply P2; lia | lra|]. destruct IHb as (Qb & Pb' & Fb & HQb & HPb & Sb); [apply P2; lia | lra|]. fold g K in HQa, HPa, HQb, HPb.
    pose proof (P2 (weight3 b) ltac:(lia)) as Kwb. pose proof (P2 e ltac:(lia)) as Ke. destruct (G2 (steps3 a) ltac:(lia)) as (Ga1 & Ga2). destruct (G2 (steps3 b) ltac:(pose proof (steps3_weight b); lia)) as (Gb1 & Gb2).
    exists (qm Qa Qb), (add3 (rq4 Qa Pb') Pa). split; [intro p; rewrite Fa, Fb, rq4_add, rq4_mul; apply pt3_eq; unfold add3, x3, y3, z3; cbn [fst snd]; ring|].
    cbn [build_iso steps3]. split; [|split].
    + change (near4 (qmul (iso_rot (build_iso a)) (iso_rot (build_iso b))) (qm Qa Qb) (g ^ S (steps3 a + steps3 b))). eapply near4_weaken; [apply near4_mul; eassumption|].
      cbn [pow]. rewrite pow_add. assert (0 <= g ^ steps3 a * g ^ steps3 b) by (apply Rmult_le_pos; lra). rewrite (Rmult_comm g). apply Rmult_le_compat_l; lra.
    + change (near3 (v3add (qrot (iso_rot (build_iso a)) (v3smul (iso_scale (build_iso a)) (iso_pos (build_iso b)))) (iso_pos (build_iso a))) (add3 (rq4 Qa Pb') Pa) (reach3 (Then3 a b)) (K ^ weight3 (Then3 a b))).
      rewrite Sa. cbn [reach3]. rewrite (Rplus_comm (reach3 a)). assert (KR : K ^ e * (reach3 b + reach3 a) <= 2 * bpow radix2 90) by (apply Rmult_le_compat; lra).
      eapply near3_weaken; [apply (near3_add _ _ _ _ _ _ (K ^ e * (1 + 72 * u32)))|].
      * eapply near3_weaken; [eapply near3_rot; [exact HQa | apply near3_mul_one, HPb | exact Ga1 | exact Ga2 | apply Kwb | | exact Bb]|].
        -- assert (K ^ weight3 b * reach3 b <= 2 * bpow radix2 90) by (apply Rmult_le_compat; lra). lra.
        -- rewrite <- KP, <- pow_add. apply Rmult_le_compat_r; [lra | apply pow_up; [exact K1 | exact Wb]].
      * eapply near3_weaken; [exact HPa|]. apply Rle_trans with (K ^ e); [apply pow_up; assumption|]. assert (0 <= K ^ e * (72 * u32)) by (apply Rmult_le_pos; lra). lra.
      * assert (0 <= K ^ e * (72 * u32)) by (apply Rmult_le_pos; lra). lra.
      * set (x := K ^ e * (reach3 b + reach3 a)) in * . replace (K ^ e * (1 + 72 * u32) * (reach3 b + reach3 a)) with ((1 + 72 * u32) * x) by (unfold x; ring). assert (0 <= x) by (unfold x; apply Rmult_le_pos; lra).
        apply Rle_trans with (2 * x); [apply Rmult_le_compat_r; lra | lra].
      * apply Rle_trans with (K ^ S e); [|apply pow_up; [exact K1 | exact We]]. cbn [pow]. rewrite Rmult_assoc, Rmult_comm. apply Rmult_le_compat_r; [lra|]. assert (u32 * u32 <= u32 * (1 / 16777216)) by (apply Rmult_le_compat_l; lra). lra.
    + change (iso_scale (compose (build_iso a) (build_iso b))) with (fmul (iso_scale (build_iso a)) (iso_scale (build_iso b))). rewrite Sa, Sb. apply one_times_one.
  - cbn [reach3] in Rc. pose proof (reach3_bot a) as Ba. pose proof bot3_pos as Pb.
    assert (Wa : (steps3 a + weight3 a + 1 <= weight3 (Back3 a))%nat) by (unfold weight3; cbn [nesting3 steps3]; nia).
    assert (P2 : forall i, (i <= weight3 (Back3 a))%nat -> 1 <= K ^ i <= 101 / 100).
    { intros i Hi. split; [apply pow_R1_Rle, K1|]. eapply Rle_trans; [apply (pow_up K i (weight3 (Back3 a))); [exact K1 | exact Hi] | exact W]. }
    assert (G2 : 1 <= g ^ steps3 a /\ g ^ steps3 a * g ^ steps3 a <= 101 / 100). { split; [apply pow_R1_Rle, G1|]. rewrite <- KP. apply P2. lia. }
    destruct IHa as (Q & P & F & HQ & HP & Sa); [apply P2; lia | exact Rc|]. fold g K in HQ, HP. pose proof (P2 (weight3 a) ltac:(lia)) as Kw. pose proof (P2 (steps3 a) ltac:(lia)) as Ks.
    exists (conj4 Q), (rq4 (conj4 Q) (neg3 P)). split; [|split; [|split]].
    + intro p. pose proof (Inv p) as E. rewrite F in E. set (y := g' p) in * . rewrite <- E. rewrite rq4_add, rq4_conj by apply HQ. replace (neg3 P) with (sub3 (0, 0, 0) P) by (apply pt3_eq; v3; ring). rewrite rq4_sub.
      apply pt3_eq; v4; ring.
    + cbn [build_iso steps3]. change (iso_rot (inverse (build_iso a))) with (qinv (iso_rot (build_iso a))). apply near4_conj. fold g. eapply near4_weaken; [exact HQ | apply pow_up; [exact G1 | lia]].
    + cbn [build_iso reach3]. change (iso_pos (inverse (build_iso a))) with (v3divs (qrot (qinv (iso_rot (build_iso a))) (v3sub v3zero (iso_pos (build_iso a)))) (iso_scale (build_iso a))).
      rewrite Sa. apply near3_div_one. eapply near3_weaken; [eapply near3_rot; [apply near4_conj, HQ | apply near3_zero_sub, HP | apply G2 | apply G2 | apply Kw | | exact Ba]|].
      * assert (K ^ weight3 a * reach3 a <= 2 * bpow radix2 90) by (apply Rmult_le_compat; lra). lra.
      * fold K. rewrite <- KP. apply Rle_trans with (K ^ (steps3 a + weight3 a + 1)); [|apply pow_up; [exact K1 | exact Wa]]. rewrite !pow_add, pow_1.
        apply Rmult_le_compat_l; [|lra]. apply Rmult_le_pos; lra.
    + cbn [build_iso]. change (iso_scale (inverse (build_iso a))) with (fdiv f1 (iso_scale (build_iso a))). rewrite Sa. apply one_over_one.
Qed.

(** ** The three kinds of placement compute the same *)
Definition same_iso (i : isotropic3d b32) (t : transform3d b32) (b : bevy_transform b32) : Prop :=
  iso_scale i = f1 /\ t = as_t3 (iso_pos i) (iso_rot i) f1 /\ b = as_bevy (iso_pos i) (iso_rot i) f1.
Lemma same_all m : same_iso (build_iso m) (build_t3 m) (build_bevy m).
Proof.
  induction m as [p q | a (Sa & Ta & Ba) b (Sb & Tb & Bb) | a (Sa & Ta & Ba)]; cbn [build_iso build_t3 build_bevy].
  - repeat split.
  - rewrite Ta, Tb, Ba, Bb. destruct (build_iso a) as [pa qa ka], (build_iso b) as [pb qb kb]. cbn [iso_scale iso_pos iso_rot] in * . subst ka kb. split; [apply one_times_one|]. split.
    + unfold as_t3, compose, Comp_Transform3d, Comp_Isotropic3d. cbn [iso_pos iso_rot t3_pos t3_rot t3_scale]. f_equal. unfold v3mul. cbn [wx wy wz]. rewrite one_times_one. reflexivity.
    + unfold as_bevy, compose, Comp_Bevy, Comp_Isotropic3d. cbn [iso_pos iso_rot bt_tr bt_rot bt_scale]. f_equal. unfold v3mul. cbn [wx wy wz]. rewrite one_times_one. reflexivity.
  - rewrite Ta, Ba. destruct (build_iso a) as [pa qa ka]. cbn [iso_scale iso_pos iso_rot] in * . subst ka. split; [apply one_over_one|]. split.
    + unfold as_t3, inverse, Inv_Transform3d, Inv_Isotropic3d. cbn [iso_pos iso_rot t3_pos t3_rot t3_scale]. f_equal. unfold v3sdiv. cbn [wx wy wz]. rewrite one_over_one. reflexivity.
    + unfold as_bevy, inverse, Inv_Bevy, Inv_Isotropic3d. cbn [iso_pos iso_rot bt_tr bt_rot bt_scale]. f_equal. unfold v3sdiv. cbn [wx wy wz]. rewrite one_over_one. reflexivity.
Qed.
Lemma same_apply m p : apply3 (build_t3 m) p = apply3 (build_iso m) p /\ apply3 (build_bevy m) p = apply3 (build_iso m) p /\ unapply3 (build_t3 m) p = unapply3 (build_iso m) p /\ unapply3 (build_bevy m) p = unapply3 (build_iso m) p.
Proof.
  destruct (same_all m) as (S & T & B). rewrite T, B. destruct (build_iso m) as [pa qa ka]. cbn [iso_scale iso_pos iso_rot] in * . subst ka. repeat split.
Qed.

(** ** The theorems *)
Definition about (v : vec3 b32) (y : pt3) (e : R) : Prop := fin3 v /\ norm3 (sub3 (rval3 v) y) <= e.
Theorem C70_apply : forall d m f, 0 <= d -> moves3 d m f -> growth3 d ^ weight3 m <= 101 / 100 -> reach3 m <= bpow radix2 90 ->
  forall p, fin3 p -> norm3 (rval3 p) <= bpow radix2 90 -> let e := (growth3 d ^ S (weight3 m) - 1) * (reach3 m + norm3 (rval3 p) + bpow radix2 (-60)) in
  about (apply3 (build_iso m) p) (f (rval3 p)) e /\ about (apply3 (build_t3 m) p) (f (rval3 p)) e /\ about (apply3 (build_bevy m) p) (f (rval3 p)) e.
Proof.
  intros d m f Hd M W Rc p Fp Np. destruct (same_apply m p) as (-> & -> & _). cbv zeta. enough (H : about (apply3 (build_iso m) p) (f (rval3 p)) ((growth3 d ^ S (weight3 m) - 1) * (reach3 m + norm3 (rval3 p) + bpow radix2 (-60)))) by (split; [|split]; exact H).
  destruct (tracks3_all d Hd m f M W Rc) as (Q & P & F & HQ & HP & Sc). destruct (step3_ge d Hd) as (G40 & Gd & G1 & K80 & K1 & GK). pose proof (growth3_pow d) as KP. set (K := growth3 d) in * . set (g := step3 d) in * .
  pose proof u32_pos as Hu. pose proof u32_small as Hus. pose proof hundred_ninety as B100. pose proof (bpow_gt_0 radix2 90) as B90. pose proof bot3_pos as Pb. pose proof (reach3_bot m) as Br. pose proof (norm3_nonneg (rval3 p)) as NN.
  assert (Kw : 1 <= K ^ weight3 m) by (apply pow_R1_Rle, K1). assert (Ks : K ^ steps3 m <= K ^ weight3 m) by (apply pow_up; [exact K1 | apply steps3_weight]).
  assert (B60 : bot3 <= bpow radix2 90) by (apply bpow_le; lia).
  assert (H : near3 (apply3 (build_iso m) p) (f (rval3 p)) (norm3 (rval3 p) + bot3 + reach3 m) (K ^ S (weight3 m))).
  { rewrite F. cbn [apply3 Tr3_Isotropic3d]. rewrite Sc. eapply near3_weaken; [apply (near3_add _ _ _ _ _ _ (K ^ weight3 m * (1 + 72 * u32)))|].
    - eapply near3_weaken; [eapply near3_rot; [exact HQ | apply near3_mul_one, near3_self, Fp | apply pow_R1_Rle, G1 | rewrite <- KP; lra | lra | lra | lra]|].
      rewrite <- KP, Rmult_1_r. apply Rmult_le_compat_r; lra.
    - eapply near3_weaken; [exact HP|]. assert (0 <= K ^ weight3 m * (72 * u32)) by (apply Rmult_le_pos; lra). lra.
    - assert (0 <= K ^ weight3 m * (72 * u32)) by (apply Rmult_le_pos; lra). lra.
    - assert (K ^ weight3 m * (1 + 72 * u32) <= 2 * 2) by (apply Rmult_le_compat; lra). assert (K ^ weight3 m * (1 + 72 * u32) * (norm3 (rval3 p) + bot3 + reach3 m) <= 2 * 2 * (3 * bpow radix2 90)) by (apply Rmult_le_compat; try lra; apply Rmult_le_pos; lra). lra.
    - cbn [pow]. rewrite Rmult_assoc, Rmult_comm. apply Rmult_le_compat_r; [lra|]. assert (u32 * u32 <= u32 * (1 / 16777216)) by (apply Rmult_le_compat_l; lra). lra. }
  destruct H as (Q1 & Q2 & _). split; [exact Q1|]. eapply Rle_trans; [exact Q2|]. unfold bot3. right. ring.
Qed.
Print Assumptions C70_apply.
Theorem C70_unapply : forall d m f g, 0 <= d -> moves3 d m f -> (forall x, f (g x) = x) -> growth3 d ^ weight3 m <= 101 / 100 -> reach3 m <= bpow radix2 90 ->
  forall p, fin3 p -> norm3 (rval3 p) <= bpow radix2 90 -> let e := (growth3 d ^ S (steps3 m + weight3 m) - 1) * (reach3 m + norm3 (rval3 p) + bpow radix2 (-60)) in
  about (unapply3 (build_iso m) p) (g (rval3 p)) e /\ about (unapply3 (build_t3 m) p) (g (rval3 p)) e /\ about (unapply3 (build_bevy m) p) (g (rval3 p)) e.
Proof.
  intros d m f g' Hd M Inv W Rc p Fp Np. destruct (same_apply m p) as (_ & _ & -> & ->). cbv zeta. enough (H : about (unapply3 (build_iso m) p) (g' (rval3 p)) ((growth3 d ^ S (steps3 m + weight3 m) - 1) * (reach3 m + norm3 (rval3 p) + bpow radix2 (-60)))) by (split; [|split]; exact H).
  destruct (tracks3_all d Hd m f M W Rc) as (Q & P & F & HQ & HP & Sc). destruct (step3_ge d Hd) as (G40 & Gd & G1 & K80 & K1 & GK). pose proof (growth3_pow d) as KP. set (K := growth3 d) in * . set (g := step3 d) in * .
  pose proof u32_pos as Hu. pose proof u32_small as Hus. pose proof hundred_ninety as B100. pose proof (bpow_gt_0 radix2 90) as B90. pose proof bot3_pos as Pb. pose proof (reach3_bot m) as Br. pose proof (norm3_nonneg (rval3 p)) as NN.
  assert (Kw : 1 <= K ^ weight3 m) by (apply pow_R1_Rle, K1). assert (Ks : K ^ steps3 m <= K ^ weight3 m) by (apply pow_up; [exact K1 | apply steps3_weight]). assert (Ks1 : 1 <= K ^ steps3 m) by (apply pow_R1_Rle, K1).
  assert (B60 : bot3 <= bpow radix2 90) by (apply bpow_le; lia).
  assert (Eg : g' (rval3 p) = rq4 (conj4 Q) (sub3 (rval3 p) P)).
  { pose proof (Inv (rval3 p)) as E. rewrite F in E. set (y := g' (rval3 p)) in * . rewrite <- E. replace (sub3 (add3 (rq4 Q y) P) P) with (rq4 Q y) by (apply pt3_eq; unfold add3, sub3, x3, y3, z3; cbn [fst snd]; ring). symmetry. apply rq4_conj, HQ. }
  assert (KD : K ^ weight3 m * (norm3 (rval3 p) + bot3 + reach3 m) <= 2 * (3 * bpow radix2 90)) by (apply Rmult_le_compat; lra).
  assert (KD2 : K ^ weight3 m * (1 + u32) * (norm3 (rval3 p) + bot3 + reach3 m) <= bpow radix2 100).
  { set (x := K ^ weight3 m * (norm3 (rval3 p) + bot3 + reach3 m)) in * . replace (K ^ weight3 m * (1 + u32) * (norm3 (rval3 p) + bot3 + reach3 m)) with ((1 + u32) * x) by (unfold x; ring).
    assert (0 <= x) by (unfold x; apply Rmult_le_pos; lra). apply Rle_trans with (2 * x); [apply Rmult_le_compat_r; lra | lra]. }
  assert (H : near3 (unapply3 (build_iso m) p) (g' (rval3 p)) (norm3 (rval3 p) + bot3 + reach3 m) (K ^ S (steps3 m + weight3 m))).
  { rewrite Eg. cbn [unapply3 Tr3_Isotropic3d]. rewrite Sc. apply near3_div_one. eapply near3_weaken.
    - eapply (near3_rot _ _ _ _ _ (g ^ steps3 m) (K ^ weight3 m * (1 + u32))); [apply near4_conj, HQ | apply near3_sub; [eapply near3_weaken; [apply near3_self, Fp | exact Kw] | exact HP | exact Kw | lra] | apply pow_R1_Rle, G1 | rewrite <- KP; lra | | exact KD2 | lra].
      assert (0 <= K ^ weight3 m * u32) by (apply Rmult_le_pos; lra). lra.
    - rewrite <- KP. cbn [pow]. rewrite pow_add. assert (0 <= K ^ steps3 m * K ^ weight3 m) by (apply Rmult_le_pos; lra).
      replace (K ^ steps3 m * (K ^ weight3 m * (1 + u32)) * (1 + 72 * u32)) with (((1 + u32) * (1 + 72 * u32)) * (K ^ steps3 m * K ^ weight3 m)) by ring.
      apply Rmult_le_compat_r; [assumption|]. assert (u32 * u32 <= u32 * (1 / 16777216)) by (apply Rmult_le_compat_l; lra). lra. }
  destruct H as (Q1 & Q2 & _). split; [exact Q1|]. eapply Rle_trans; [exact Q2|]. unfold bot3. right. ring.
Qed.
Print Assumptions C70_unapply.
(** the quaternion stays nearly a unit one, the scale stays exactly 1 *)
Theorem C70_length : forall d m f, 0 <= d -> moves3 d m f -> growth3 d ^ weight3 m <= 101 / 100 -> reach3 m <= bpow radix2 90 ->
  let q := iso_rot (build_iso m) in
  finq q /\ length_error q <= growth3 d ^ steps3 m - 1 /\
  iso_scale (build_iso m) = f1 /\ t3_rot (build_t3 m) = q /\ t3_scale (build_t3 m) = V3 f1 f1 f1 /\ bt_rot (build_bevy m) = q /\ bt_scale (build_bevy m) = V3 f1 f1 f1.
Proof.
  intros d m f Hd M W Rc q. destruct (tracks3_all d Hd m f M W Rc) as (Q & P & F & HQ & HP & Sc). destruct (step3_ge d Hd) as (_ & _ & G1 & _). destruct (same_all m) as (_ & T & B).
  split; [apply HQ|]. split; [|rewrite T, B; repeat split; exact Sc].
  rewrite length_size, sizeq_norm4. fold q in HQ. rewrite growth3_pow. set (k := step3 d ^ steps3 m) in * . assert (K1 : 1 <= k) by (apply pow_R1_Rle, G1).
  pose proof (near4_norm _ _ _ HQ) as N1. destruct HQ as (_ & N2 & N3). pose proof (norm4_split Q (r4 q)) as N4. rewrite norm4_sub_sym, N3 in N4. pose proof (norm4_nonneg (r4 q)) as N0. set (n := norm4 (r4 q)) in * .
  assert (2 - k <= n) by lra. assert (A : n * n <= k * k) by (apply Rmult_le_compat; lra). apply Rabs_le. split; [|lra].
  destruct (Rle_or_lt k 2) as [L|L].
  - assert ((2 - k) * (2 - k) <= n * n) by (apply Rmult_le_compat; lra). assert (0 <= (k - 1) * (k - 1)) by (apply Rmult_le_pos; lra). lra.
  - assert (0 <= n * n) by (apply Rmult_le_pos; lra). assert (k * 2 <= k * k) by (apply Rmult_le_compat_l; lra). lra.
Qed.
Print Assumptions C70_length.
(** every f32 quaternion that is nearly of length one is within that error of an exact rotation *)
Theorem C70_given : forall q, finq q -> length_error q <= 1 / 100 -> exists u t, stands_for q u t /\ dot3 u u = 1 /\ off q u t <= length_error q.
Proof.
  intros q F L. pose proof (size_hi q L) as S. destruct (C68_every_quaternion q F) as (u & t & St); [unfold sizeq in S; lra|].
  exists u, t. split; [exact St|]. destruct St as (U & l & L0 & X & Y & Z & W). split; [exact U|].
  assert (E : off q u t = Rabs (l - 1)).
  { unfold off. rewrite X, Y, Z, W. cbv zeta. rewrite <- sqrt_Rsqr_abs. f_equal. unfold Rsqr. pose proof (sin2_cos2 (t / 2)) as SC. unfold Rsqr in SC. set (s := sin (t / 2)) in * . set (c := cos (t / 2)) in * .
    transitivity ((l - 1) * (l - 1) * (s * s * dot3 u u + c * c)); [unfold dot3; ring|]. rewrite U, Rmult_1_r, SC. ring. }
  assert (E2 : sizeq q = l * l).
  { unfold sizeq. rewrite X, Y, Z, W. pose proof (sin2_cos2 (t / 2)) as SC. unfold Rsqr in SC. set (s := sin (t / 2)) in * . set (c := cos (t / 2)) in * .
    transitivity (l * l * (s * s * dot3 u u + c * c)); [unfold dot3; ring|]. rewrite U, Rmult_1_r, SC. ring. }
  rewrite E, length_size, E2. replace (l * l - 1) with ((l - 1) * (l + 1)) by ring. rewrite Rabs_mult. rewrite (Rabs_pos_eq (l + 1)) by lra. pose proof (Rabs_pos (l - 1)).
  rewrite <- (Rmult_1_r (Rabs (l - 1))) at 1. apply Rmult_le_compat_l; lra.
Qed.
Print Assumptions C70_given.

(** In plain numbers: quaternions good to 2^-22, up to 1024 for the number of steps times (1 + inversions inside each other). *)
Lemma growth3_linear d n : 0 <= d <= / 2 ^ 22 -> (n <= 1025)%nat -> growth3 d ^ n - 1 <= INR n / 2 ^ 17 /\ growth3 d ^ n <= 101 / 100.
Proof.
  intros [D0 D1] Hn. set (x := 4 / 5 * / 2 ^ 17).
  assert (S : step3 d <= 1 + x / 2). { unfold step3, x, u32. cbn in D1 |- * . assert (0 <= d * (40 * / 16777216) <= / 4194304 * (40 * / 16777216)) by (split; [apply Rmult_le_pos | apply Rmult_le_compat_r]; lra). lra. }
  destruct (step3_ge d D0) as (_ & _ & G1 & _ & K1 & _).
  assert (S' : step3 d <= 1 + 9 / 10 * (x / 2)). { unfold step3, x, u32. cbn in D1 |- * . assert (0 <= d * (40 * / 16777216) <= / 4194304 * (40 * / 16777216)) by (split; [apply Rmult_le_pos | apply Rmult_le_compat_r]; lra). lra. }
  assert (X : 0 < x <= 1 / 100) by (unfold x; cbn; lra).
  assert (G : 0 <= growth3 d <= 1 + x).
  { split; [lra|]. unfold growth3. apply Rle_trans with ((1 + 9 / 10 * (x / 2)) * (1 + 9 / 10 * (x / 2))); [apply Rmult_le_compat; lra|]. assert (x * x <= 1 / 100 * x) by (apply Rmult_le_compat_r; lra). lra. }
  assert (NX : INR n * x <= 1 / 150).
  { assert (L : INR n <= 1025) by (replace 1025 with (INR 1025) by (rewrite INR_IZR_INZ; reflexivity); apply le_INR, Hn). apply Rle_trans with (1025 * x); [apply Rmult_le_compat_r; lra|]. unfold x. cbn. lra. }
  assert (B : (1 - x) ^ n >= 1 - INR n * x).
  { assert (x <= 1) by lra. clear - X H. induction n as [|n IH]; [cbn; lra|]. rewrite S_INR. cbn [pow].
    assert (0 <= INR n) by apply pos_INR. apply Rge_le in IH. assert ((1 - x) * (1 - INR n * x) <= (1 - x) * (1 - x) ^ n) by (apply Rmult_le_compat_l; lra). assert (0 <= INR n * x * x) by (apply Rmult_le_pos; [apply Rmult_le_pos|]; lra). lra. }
  assert (P : growth3 d ^ n * (1 - x) ^ n <= 1).
  { rewrite <- Rpow_mult_distr. apply Rle_trans with (1 ^ n); [|rewrite pow1; lra]. apply pow_incr. split; [apply Rmult_le_pos; lra|]. apply Rle_trans with ((1 + x) * (1 - x)); [apply Rmult_le_compat_r; lra|]. assert (0 <= x * x) by (apply Rmult_le_pos; lra). lra. }
  assert (GN : 0 <= growth3 d ^ n) by (apply pow_le; lra).
  assert (Q : growth3 d ^ n * (1 - INR n * x) <= 1) by (apply Rge_le in B; eapply Rle_trans; [apply Rmult_le_compat_l; [exact GN | exact B] | exact P]).
  assert (I0 : 0 <= INR n) by apply pos_INR. set (y := INR n * x) in * . set (gn := growth3 d ^ n) in * . assert (Y0 : 0 <= y) by (unfold y; apply Rmult_le_pos; lra).
  assert (H : gn <= 101 / 100). { assert (gn * (1 - 1 / 150) <= gn * (1 - y)) by (apply Rmult_le_compat_l; lra). lra. }
  split; [|exact H]. assert (gn * y <= 101 / 100 * y) by (apply Rmult_le_compat_r; lra). assert (y = INR n * (4 / 5) / 2 ^ 17) by (unfold y, x; field; cbn; lra). assert (0 <= INR n / 2 ^ 17) by (apply Rmult_le_pos; [exact I0 | cbn; lra]). lra.
Qed.
Theorem C70_plain : forall m f g, moves3 (/ 2 ^ 22) m f -> (forall x, f (g x) = x) -> (steps3 m + weight3 m <= 1024)%nat -> reach3 m <= bpow radix2 90 ->
  forall p, fin3 p -> norm3 (rval3 p) <= bpow radix2 90 -> let s := reach3 m + norm3 (rval3 p) + bpow radix2 (-60) in
  about (apply3 (build_iso m) p) (f (rval3 p)) (INR (S (weight3 m)) / 2 ^ 17 * s) /\
  about (unapply3 (build_iso m) p) (g (rval3 p)) (INR (S (steps3 m + weight3 m)) / 2 ^ 17 * s) /\
  length_error (iso_rot (build_iso m)) <= INR (steps3 m) / 2 ^ 17.
Proof.
  intros m f g M Inv Hn Rc p Fp Np s. assert (D : 0 <= / 2 ^ 22 <= / 2 ^ 22) by (split; [cbn; lra | apply Rle_refl]).
  destruct (growth3_linear _ (weight3 m) D ltac:(lia)) as [_ W]. destruct (growth3_linear _ (S (weight3 m)) D ltac:(lia)) as [L1 _].
  destruct (growth3_linear _ (S (steps3 m + weight3 m)) D ltac:(lia)) as [L2 _]. destruct (growth3_linear _ (steps3 m) D ltac:(lia)) as [L3 _].
  pose proof (C70_apply _ m f (proj1 D) M W Rc p Fp Np) as ((A1 & A2) & _). pose proof (C70_unapply _ m f g (proj1 D) M Inv W Rc p Fp Np) as ((B1 & B2) & _).
  pose proof (C70_length _ m f (proj1 D) M W Rc) as (_ & C & _).
  assert (X : 0 <= s) by (unfold s; pose proof (reach3_bot m); pose proof bot3_pos; pose proof (norm3_nonneg (rval3 p)); unfold bot3 in *; lra).
  split; [split; [exact A1|]; eapply Rle_trans; [exact A2|]; apply Rmult_le_compat_r; assumption|]. split; [split; [exact B1|]; eapply Rle_trans; [exact B2|]; apply Rmult_le_compat_r; assumption|].
  eapply Rle_trans; [exact C | exact L3].
Qed.
Print Assumptions C70_plain.

(** ** Queries between bodies placed by long chains: c is where the exact motions put b's origin seen from a *)
Theorem C70_queries : forall d a b f f' g, 0 <= d -> moves3 d a f -> (forall x, f (f' x) = x) -> moves3 d b g ->
  let m := Then3 (Back3 a) b in growth3 d ^ weight3 m <= 101 / 100 -> reach3 a + reach3 b <= bpow radix2 50 ->
  let c := f' (g (0, 0, 0)) in let e := (growth3 d ^ weight3 m - 1) * (reach3 a + reach3 b) in
  (forall h, half3_ok h -> box_right h (build_iso a) (build_iso b) c e /\ box_right h (build_t3 a) (build_t3 b) c e /\ box_right h (build_bevy a) (build_bevy b) c e) /\
  (forall r, fat_radius r -> ball_right r (build_iso a) (build_iso b) c e /\ ball_right r (build_t3 a) (build_t3 b) c e /\ ball_right r (build_bevy a) (build_bevy b) c e).
Proof.
  intros d a b f f' g Hd Ma Inv Mb m W Rc c e.
  assert (M : moves3 d m (fun x => f' (g x))) by (apply (moves3_then d (Back3 a) b f' g); [apply (moves3_back d a f f'); assumption | exact Mb]).
  assert (R90 : bpow radix2 50 <= bpow radix2 90) by (apply bpow_le; lia).
  destruct (tracks3_all d Hd m _ M W) as (Q & P & F & HQ & (F3 & N3 & L3) & Sc); [unfold m; cbn [reach3]; lra|].
  assert (Ec : c = P). { unfold c. pose proof (F (0, 0, 0)) as E0; cbv beta in E0; rewrite E0. apply pt3_eq; v4; ring. }
  change (reach3 m) with (reach3 a + reach3 b) in N3, L3. rewrite <- Ec in N3, L3. fold e in N3.
  pose proof (bpow_gt_0 radix2 50) as B50. assert (S : small3 (iso_pos (build_iso m)) 59).
  { apply small_of_norm; [exact F3|]. destruct (near_norm _ _ _ N3) as (N & _). assert (E : e <= 1 / 100 * bpow radix2 50) by (unfold e; pose proof (reach3_bot a); pose proof (reach3_bot b); pose proof bot3_pos; apply Rle_trans with (1 / 100 * (reach3 a + reach3 b)); [apply Rmult_le_compat_r; lra | lra]).
    apply Rle_trans with (bpow radix2 1 * bpow radix2 50); [change (bpow radix2 1) with 2; lra|]. rewrite <- bpow_plus. apply bpow_le. lia. }
  destruct (same_all m) as (_ & T & B).
  assert (Di : apply_origin3 (delta_transform (build_iso a) (build_iso b)) = iso_pos (build_iso m)) by reflexivity.
  assert (Dt : apply_origin3 (delta_transform (build_t3 a) (build_t3 b)) = iso_pos (build_iso m)). { change (delta_transform (build_t3 a) (build_t3 b)) with (build_t3 m). rewrite T. reflexivity. }
  assert (Db : apply_origin3 (delta_transform (build_bevy a) (build_bevy b)) = iso_pos (build_iso m)). { change (delta_transform (build_bevy a) (build_bevy b)) with (build_bevy m). rewrite B. reflexivity. }
  split; [intros h H | intros r H]; (split; [|split]); (apply box_right_of || apply ball_right_of); try exact H; rewrite ?Di, ?Dt, ?Db; (exact S || exact N3).
Qed.
Print Assumptions C70_queries.

(** ** Chains of pure translations (Vec3 and Translate3d) *)
Inductive vchain3 : Type := VGiven3 (v : vec3 b32) | VThen3 (a b : vchain3) | VBack3 (a : vchain3).
Fixpoint vbuild3 (m : vchain3) : vec3 b32 := match m with VGiven3 v => v | VThen3 a b => compose (vbuild3 a) (vbuild3 b) | VBack3 a => inverse (vbuild3 a) end.
Fixpoint tbuild3 (m : vchain3) : translate3d b32 := match m with VGiven3 v => Translate3d v | VThen3 a b => compose (tbuild3 a) (tbuild3 b) | VBack3 a => inverse (tbuild3 a) end.
(** the exact translation *)
Fixpoint total_shift3 (m : vchain3) : pt3 := match m with VGiven3 v => rval3 v | VThen3 a b => add3 (total_shift3 a) (total_shift3 b) | VBack3 a => neg3 (total_shift3 a) end.
Fixpoint additions3 (m : vchain3) : nat := match m with VGiven3 _ => 0 | VThen3 a b => S (additions3 a + additions3 b) | VBack3 a => additions3 a end.
Fixpoint lengths3 (m : vchain3) : R := match m with VGiven3 v => norm3 (rval3 v) | VThen3 a b => lengths3 a + lengths3 b | VBack3 a => lengths3 a end.
Fixpoint all_fin3 (m : vchain3) : Prop := match m with VGiven3 v => fin3 v | VThen3 a b => all_fin3 a /\ all_fin3 b | VBack3 a => all_fin3 a end.
Lemma lengths3_nonneg m : 0 <= lengths3 m. Proof. induction m; cbn; [apply norm3_nonneg | lra | assumption]. Qed.
Lemma vnear3 m : all_fin3 m -> (1 + u32) ^ additions3 m <= 2 -> lengths3 m <= bpow radix2 90 -> near3 (vbuild3 m) (total_shift3 m) (lengths3 m) ((1 + u32) ^ additions3 m).
Proof.
  pose proof u32_pos as Hu. set (K := 1 + u32). assert (K1 : 1 <= K) by (unfold K; lra). pose proof hundred_ninety as B100. pose proof (bpow_gt_0 radix2 90) as B90.
  induction m as [v | a IHa b IHb | a IHa]; cbn [all_fin3 additions3 lengths3 vbuild3 total_shift3]; intros F W L.
  - split; [exact F|]. split; [|lra]. replace (sub3 (rval3 v) (rval3 v)) with (scale3 0 (0, 0, 0)) by (apply pt3_eq; v3; ring). rewrite norm3_scale, Rabs_R0. cbn. lra.
  - destruct F as [Fa Fb]. pose proof (lengths3_nonneg a). pose proof (lengths3_nonneg b).
    set (e := (additions3 a + additions3 b)%nat) in * . assert (We : 1 <= K ^ e <= 2). { split; [apply pow_R1_Rle, K1|]. eapply Rle_trans; [apply (pow_up K e (S e)); [exact K1 | lia] | exact W]. }
    assert (Pa : K ^ additions3 a <= K ^ e) by (apply pow_up; [exact K1 | lia]). assert (Pb : K ^ additions3 b <= K ^ e) by (apply pow_up; [exact K1 | lia]).
    specialize (IHa Fa ltac:(lra) ltac:(lra)). specialize (IHb Fb ltac:(lra) ltac:(lra)).
    change (near3 (v3add (vbuild3 b) (vbuild3 a)) (add3 (total_shift3 a) (total_shift3 b)) (lengths3 a + lengths3 b) (K ^ S e)).
    replace (add3 (total_shift3 a) (total_shift3 b)) with (add3 (total_shift3 b) (total_shift3 a)) by (apply pt3_eq; v3; ring).
    rewrite (Rplus_comm (lengths3 a)). replace (K ^ S e) with (K ^ e * (1 + u32)) by (cbn [pow]; unfold K; ring).
    apply near3_add; [eapply near3_weaken; eassumption | eapply near3_weaken; eassumption | lra |].
    assert (K ^ e * (lengths3 b + lengths3 a) <= 2 * bpow radix2 90) by (apply Rmult_le_compat; lra). lra.
  - destruct (IHa F W L) as ((F1 & F2 & F3) & E & N). split; [repeat split; apply fin_neg; assumption|]. rewrite norm3_neg. split; [|exact N].
    replace (sub3 (rval3 (inverse (vbuild3 a))) (neg3 (total_shift3 a))) with (neg3 (sub3 (rval3 (vbuild3 a)) (total_shift3 a))); [rewrite norm3_neg; exact E|].
    change (inverse (vbuild3 a)) with (v3neg (vbuild3 a)). unfold rval3, v3neg. cbn [wx wy wz]. rewrite !val_neg. apply pt3_eq; v3; ring.
Qed.
Theorem C70_translations : forall m, all_fin3 m -> (1 + u32) ^ additions3 m <= 2 -> lengths3 m <= bpow radix2 90 ->
  tr3_pos (tbuild3 m) = vbuild3 m /\ about (vbuild3 m) (total_shift3 m) (((1 + u32) ^ additions3 m - 1) * lengths3 m).
Proof.
  intros m F W L. split; [clear F W L; induction m as [v | a IHa b IHb | a IHa]; cbn [tbuild3 vbuild3]; [reflexivity | |]|].
  - change (apply3 (tbuild3 a) (tr3_pos (tbuild3 b)) = apply3 (vbuild3 a) (vbuild3 b)). rewrite IHb. cbn [apply3 Tr3_Translate3d Tr3_Vec3]. rewrite IHa. reflexivity.
  - change (v3neg (tr3_pos (tbuild3 a)) = v3neg (vbuild3 a)). rewrite IHa. reflexivity.
  - destruct (vnear3 m F W L) as (A & B & _). split; assumption.
Qed.
Print Assumptions C70_translations.

(** ** A case that meets the hypotheses: the rotation with cosine 0.8 of the half angle about z, moving by (3,4,0), composed with the inverse of its square *)
Definition case5_p : vec3 b32 := V3 (b32_of 3 0) (b32_of 4 0) (b32_of 0 0).
Definition case5_g : chain3 := Given3 case5_p case4_q.
Definition case5_m : chain3 := Then3 case5_g (Back3 (Then3 case5_g case5_g)).
Lemma turn_back u t p : dot3 u u = 1 -> rotate3 u t (rotate3 u (- t) p) = p.
Proof.
  intro U. rewrite <- (rq_rodrigues u t _ U), <- (rq_rodrigues u (- t) p U). replace (- t / 2) with (- (t / 2)) by field. rewrite sin_neg, cos_neg.
  pose proof (sin2_cos2 (t / 2)) as SC. unfold Rsqr in SC. set (s := sin (t / 2)) in * . set (w := cos (t / 2)) in * .
  replace (- s * x3 u) with (- (s * x3 u)) by ring. replace (- s * y3 u) with (- (s * y3 u)) by ring. replace (- s * z3 u) with (- (s * z3 u)) by ring.
  apply rq_inv. transitivity (s * s * dot3 u u + w * w); [unfold dot3; ring|]. rewrite U, Rmult_1_r. exact SC.
Qed.
Lemma case5_moves : exists h k, moves3 (/ 2 ^ 22) case5_g h /\ (forall p, h (k p) = p) /\ (forall p, k (h p) = p).
Proof.
  destruct (val_of 0 0 ltac:(lia) ltac:(lia)) as (F0 & V0). destruct (val_of 10066330 (-24) ltac:(lia) ltac:(lia)) as (F1 & V1). destruct (val_of 13421773 (-24) ltac:(lia) ltac:(lia)) as (F2 & V2).
  destruct case4_quat as ((Fq & L) & _). destruct (C70_given _ Fq L) as (u & t & _ & U & O).
  assert (LE : length_error case4_q <= / 2 ^ 22). { unfold length_error, case4_q; cbn [qx qy qz qw]. rewrite V0, V1, V2. cbn [bpow radix2 radix_val Z.pow_pos]. apply Rabs_le. cbn. lra. }
  assert (P : fin3 case5_p) by (apply (case4_spot 3 4 0); lia).
  exists (fun x => add3 (rotate3 u t x) (rval3 case5_p)), (fun x => rotate3 u (- t) (sub3 x (rval3 case5_p))). split; [|split].
  - apply moves3_given; [exact P | exact Fq | exact U | lra].
  - intro p. rewrite turn_back by exact U. apply pt3_eq; v3; ring.
  - intro p. replace (sub3 (add3 (rotate3 u t p) (rval3 case5_p)) (rval3 case5_p)) with (rotate3 u t p) by (apply pt3_eq; unfold add3, sub3, x3, y3, z3; cbn [fst snd]; ring).
    pose proof (turn_back u (- t) p U) as E. rewrite Ropp_involutive in E. exact E.
Qed.
Lemma case5_reach : reach3 case5_g <= 6.
Proof.
  destruct (val_of 0 0 ltac:(lia) ltac:(lia)) as (F0 & V0). destruct (val_of 3 0 ltac:(lia) ltac:(lia)) as (F1 & V1). destruct (val_of 4 0 ltac:(lia) ltac:(lia)) as (F2 & V2). change (bpow radix2 0) with 1 in V0, V1, V2.
  cbn [reach3 case5_g]. assert (N : norm3 (rval3 case5_p) = 5).
  { unfold norm3, dot3, rval3, case5_p, x3, y3, z3. cbn [fst snd wx wy wz]. rewrite V0, V1, V2. replace (3 * 1 * (3 * 1) + 4 * 1 * (4 * 1) + 0 * 1 * (0 * 1)) with (5 * 5) by ring. apply sqrt_square. lra. }
  rewrite N. assert (bpow radix2 (-60) <= bpow radix2 0) by (apply bpow_le; lia). change (bpow radix2 0) with 1 in H. lra.
Qed.
Example C70_case : exists h k f g, moves3 (/ 2 ^ 22) case5_g h /\ (forall x, h (k x) = x) /\ moves3 (/ 2 ^ 22) case5_m f /\ (forall x, f (g x) = x) /\
  steps3 case5_m = 6%nat /\ weight3 case5_m = 12%nat /\ weight3 (Then3 (Back3 case5_g) case5_m) = 18%nat /\ reach3 case5_m <= 18 /\ growth3 (/ 2 ^ 22) ^ 18 <= 101 / 100 /\
  collides3 (Ball (b32_of 4 0)) (build_iso case5_g) PointS (build_iso case5_m) = false /\ collides3 (Ball (b32_of 9 0)) (build_t3 case5_g) PointS (build_t3 case5_m) = true.
Proof.
  destruct case5_moves as (h & k & M & HK & KH). exists h, k, (fun x => h (k (k x))), (fun x => h (h (k x))).
  split; [exact M|]. split; [exact HK|]. split.
  { apply (moves3_then _ _ _ h (fun p => k (k p))); [exact M|]. apply (moves3_back _ _ (fun p => h (h p)) (fun p => k (k p))); [apply (moves3_then _ _ _ h h); exact M|]. intro p. rewrite (HK (k p)). apply HK. }
  split; [intro p; rewrite KH, KH; apply HK|]. split; [reflexivity|]. split; [reflexivity|]. split; [reflexivity|].
  split; [unfold case5_m; cbn [reach3]; pose proof case5_reach; lra|].
  split; [apply growth3_linear; [split; [cbn; lra | apply Rle_refl] | lia]|].
  split; vm_compute; reflexivity.
Qed.
