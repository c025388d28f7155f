(** * C60: long chains of Transform2d compositions and inversions in binary32 drift slowly. *)
From Coq Require Import Reals ZArith Bool Lra Lia Psatz.
From Flocq Require Import IEEE754.BinarySingleNaN Core Relative.
From Verif Require Import Num NumXR NumB32 Glam Transform2 Shapes2 Gjk Detect2 Spec SpecLink P_Base P_Geo P_B32 Props_F32 Props_F32Gjk P_Drift.
Local Open Scope R_scope.

(** ** What a program does: it is given some transforms and composes and inverts them in any order *)
Inductive chain : Type :=
  | Given (t : transform2d b32)
  | Then (a b : chain)         (** a.compose(b) *)
  | Back (a : chain).          (** a.inverse() *)
Fixpoint build (m : chain) : transform2d b32 :=
  match m with Given t => t | Then a b => compose (build a) (build b) | Back a => inverse (build a) end.
(** the number of operations and given transforms *)
Fixpoint steps (m : chain) : nat := match m with Given _ => 1 | Then a b => S (steps a + steps b) | Back a => S (steps a) end.
(** how many inversions one inside the other *)
Fixpoint nesting (m : chain) : nat := match m with Given _ => 0 | Then a b => Nat.max (nesting a) (nesting b) | Back a => S (nesting a) end.
Definition weight (m : chain) : nat := S (nesting m) * steps m.
(** the translations added up (2^-100 each to cover underflow) *)
Fixpoint reach (m : chain) : R :=
  match m with Given t => norm (rval (t_pos t)) + bpow radix2 (-100) | Then a b => reach a + reach b | Back a => reach a end.
(** [moves d m f]: every given transform has scale one and a rotor within [d] of a true rotation, and [f] is the motion of the plane the
    chain stands for when nothing is rounded *)
Inductive moves (d : R) : chain -> (pt -> pt) -> Prop :=
  | moves_given t angle : fin2 (t_pos t) -> fin2 (ra (t_rot t)) -> t_scale t = v2one ->
      norm (psub (rval (ra (t_rot t))) (cos angle, sin angle)) <= d ->
      moves d (Given t) (fun p => padd (rotate (cos angle) (sin angle) p) (rval (t_pos t)))
  | moves_then a b f g : moves d a f -> moves d b g -> moves d (Then a b) (fun p => f (g p))
  | moves_back a f g : moves d a f -> (forall p, f (g p) = p) -> moves d (Back a) g.
(** growth of the error per step: the inaccuracy of the given rotors and 2^-21 *)
Definition growth (d : R) : R := (1 + d) * (1 + 8 * u32).

(** ** Values near a vector *)
Definition near (x : vec2 b32) (y : pt) (D K : R) : Prop := fin2 x /\ norm (psub (rval x) y) <= (K - 1) * D /\ norm y <= D.
Lemma norm_sub_add a b : norm a <= norm (psub a b) + norm b.
Proof. pose proof (norm_triangle (psub a b) b) as T. replace (padd (psub a b) b) with a in T; [exact T|]. apply pt_eq; cbn; ring. Qed.
Lemma near_norm x y D K : near x y D K -> norm (rval x) <= K * D.
Proof. intros (_ & E & N). pose proof (norm_sub_add (rval x) y). lra. Qed.
Lemma near_nonneg x y D K : near x y D K -> 0 <= D.
Proof. intros (_ & _ & N). eapply Rle_trans; [apply norm_nonneg | exact N]. Qed.
Lemma near_weaken x y D K K' : near x y D K -> K <= K' -> near x y D K'.
Proof. intros H L. pose proof (near_nonneg _ _ _ _ H). destruct H as (F & E & N). split; [exact F|]. split; [|exact N]. eapply Rle_trans; [exact E|]. apply Rmult_le_compat_r; lra. Qed.
Lemma near_wider x y D D' K : near x y D K -> 1 <= K -> D <= D' -> near x y D' K.
Proof. intros (F & E & N) HK L. split; [exact F|]. split; [|lra]. eapply Rle_trans; [exact E|]. apply Rmult_le_compat_l; lra. Qed.
Definition bot : R := bpow radix2 (-100).
Lemma bot_pos : 0 < bot. Proof. apply bpow_gt_0. Qed.
Lemma bot_tiny : 3 * tiny <= u32 * bot.
Proof.
  unfold bot, tiny. replace u32 with (bpow radix2 (-24)) by (unfold u32; cbn; lra). rewrite <- bpow_plus. change (-24 + -100)%Z with (26 + -150)%Z. rewrite bpow_plus.
  pose proof (bpow_gt_0 radix2 (-150)). assert (3 <= bpow radix2 26) by (cbn; lra). nra.
Qed.
Lemma near_rot r R v V D K L : near r R 1 K -> near v V D L -> 1 <= K -> 1 <= L -> K <= 4 -> L * D <= bpow radix2 110 -> bot <= D ->
  near (rotor_rot (Rotor r) v) (cmul R V) D (K * L * (1 + 4 * u32)).
Proof.
  intros HR HV K1 L1 K4 LD BD. pose proof (near_norm _ _ _ _ HR) as NR. pose proof (near_norm _ _ _ _ HV) as NV. pose proof (near_nonneg _ _ _ _ HV) as PD.
  destruct HR as (Fr & Er & Nr), HV as (Fv & Ev & Nv). rewrite Rmult_1_r in NR, Er.
  destruct (rot_ok r v Fr Fv ltac:(lra) ltac:(lra)) as [F E]. pose proof u32_pos as Hu. pose proof bot_tiny as Ht.
  split; [exact F|]. split.
  - set (x := rval (rotor_rot (Rotor r) v)) in * .
    assert (T : norm (psub x (cmul R V)) <= norm (psub x (cmul (rval r) (rval v))) + (norm (rval r) * norm (psub (rval v) V) + norm (psub (rval r) R) * norm V)).
    { replace (psub x (cmul R V)) with (padd (psub x (cmul (rval r) (rval v))) (padd (cmul (rval r) (psub (rval v) V)) (cmul (psub (rval r) R) V))).
      - eapply Rle_trans; [apply norm_triangle|]. apply Rplus_le_compat_l. eapply Rle_trans; [apply norm_triangle|]. rewrite !norm_cmul. lra.
      - apply pt_eq; unfold padd, psub, cmul; cbn [fst snd]; ring. }
    pose proof (norm_nonneg (rval r)) as P1. pose proof (norm_nonneg (rval v)) as P2. pose proof (norm_nonneg V) as P3.
    assert (A1 : norm (rval r) * norm (psub (rval v) V) <= K * ((L - 1) * D)) by (apply Rmult_le_compat; try assumption; apply norm_nonneg).
    assert (A2 : norm (psub (rval r) R) * norm V <= (K - 1) * D) by (apply Rmult_le_compat; try assumption; apply norm_nonneg).
    assert (A3 : norm (rval r) * norm (rval v) <= K * (L * D)) by (apply Rmult_le_compat; assumption).
    assert (A4 : 3 * u32 * (norm (rval r) * norm (rval v)) <= 3 * u32 * (K * (L * D))) by (apply Rmult_le_compat_l; lra).
    assert (A5 : u32 * bot <= u32 * D) by (apply Rmult_le_compat_l; lra).
    assert (KL : 1 <= K * L) by nra. assert (A6 : u32 * D <= u32 * (K * (L * D))) by (apply Rmult_le_compat_l; [lra|]; nra).
    replace ((K * L * (1 + 4 * u32) - 1) * D) with (K * ((L - 1) * D) + (K - 1) * D + 4 * (u32 * (K * (L * D)))) by ring. lra.
  - rewrite norm_cmul. replace D with (1 * D) by ring. apply Rmult_le_compat; try assumption; apply norm_nonneg.
Qed.
Lemma near_add a x D b y D' K : near a x D K -> near b y D' K -> 1 <= K -> K * (D + D') <= bpow radix2 126 -> near (v2add a b) (padd x y) (D + D') (K * (1 + u32)).
Proof.
  intros HA HB K1 KD. pose proof (near_norm _ _ _ _ HA) as NA. pose proof (near_norm _ _ _ _ HB) as NB. destruct HA as (Fa & Ea & Na), HB as (Fb & Eb & Nb).
  pose proof (norm_triangle (rval a) (rval b)) as T. destruct (vadd_ok a b Fa Fb ltac:(lra)) as [F E]. pose proof u32_pos as Hu.
  split; [exact F|]. split; [|pose proof (norm_triangle x y); lra].
  replace (psub (rval (v2add a b)) (padd x y)) with (padd (psub (rval (v2add a b)) (padd (rval a) (rval b))) (padd (psub (rval a) x) (psub (rval b) y))) by (apply pt_eq; unfold padd, psub; cbn [fst snd]; ring).
  eapply Rle_trans; [apply norm_triangle|]. pose proof (norm_triangle (psub (rval a) x) (psub (rval b) y)).
  assert (u32 * norm (padd (rval a) (rval b)) <= u32 * (K * D + K * D')) by (apply Rmult_le_compat_l; lra). lra.
Qed.
Lemma near_sub a x D b y D' K : near a x D K -> near b y D' K -> 1 <= K -> K * (D + D') <= bpow radix2 126 -> near (v2sub a b) (psub x y) (D + D') (K * (1 + u32)).
Proof.
  intros HA HB K1 KD. pose proof (near_norm _ _ _ _ HA) as NA. pose proof (near_norm _ _ _ _ HB) as NB. destruct HA as (Fa & Ea & Na), HB as (Fb & Eb & Nb).
  assert (TS : forall p q, norm (psub p q) <= norm p + norm q).
  { intros p q. replace (psub p q) with (padd p (pscale (-1) q)) by (apply pt_eq; unfold padd, psub, pscale; cbn [fst snd]; ring).
    eapply Rle_trans; [apply norm_triangle|]. rewrite norm_scale. replace (-1) with (-(1)) by ring. rewrite Rabs_Ropp, Rabs_R1. lra. }
  pose proof (TS (rval a) (rval b)) as T. destruct (vsub_ok a b Fa Fb ltac:(lra)) as [F E]. pose proof u32_pos as Hu.
  split; [exact F|]. split; [|pose proof (TS x y); lra].
  replace (psub (rval (v2sub a b)) (psub x y)) with (padd (psub (rval (v2sub a b)) (psub (rval a) (rval b))) (psub (psub (rval a) x) (psub (rval b) y))) by (apply pt_eq; unfold padd, psub; cbn [fst snd]; ring).
  eapply Rle_trans; [apply norm_triangle|]. pose proof (TS (psub (rval a) x) (psub (rval b) y)).
  assert (u32 * norm (psub (rval a) (rval b)) <= u32 * (K * D + K * D')) by (apply Rmult_le_compat_l; lra). lra.
Qed.
Definition conj2 (p : pt) : pt := (fst p, - snd p).
Lemma norm_conj p : norm (conj2 p) = norm p. Proof. unfold norm, conj2, pdot. cbn [fst snd]. f_equal. ring. Qed.
Lemma near_conj r R D K : near r R D K -> near (ra (rotor_inverse (Rotor r))) (conj2 R) D K.
Proof.
  intros ([F1 F2] & E & N). split; [split; [exact F1 | apply fin_neg; exact F2]|]. rewrite norm_conj. split; [|exact N].
  replace (psub (rval (ra (rotor_inverse (Rotor r)))) (conj2 R)) with (conj2 (psub (rval r) R)); [rewrite norm_conj; exact E|].
  apply pt_eq; unfold conj2, psub, rval, rotor_inverse; cbn [fst snd ra vx vy]; rewrite ?val_neg; ring.
Qed.
Lemma near_zero_sub p P D K : near p P D K -> near (v2sub v2zero p) (pneg P) D K.
Proof.
  intros ([F1 F2] & E & N). assert (Z : fin (f0 : b32) /\ val (f0 : b32) = 0) by (split; reflexivity). destruct Z as [Fz Ez].
  assert (A : forall x : b32, fin x -> fin (fsub f0 x) /\ val (fsub f0 x) = - val x).
  { intros x Fx. assert (Q : rnd (val f0 - val x) = - val x) by (rewrite Ez, Rminus_0_l, rnd_opp, rnd_exact; reflexivity).
    destruct (sub_ok f0 x Fz Fx) as [G1 G2]; [rewrite Q, Rabs_Ropp; apply val_big|]. split; [exact G1 | rewrite G2; exact Q]. }
  destruct (A _ F1) as [A1 A2], (A _ F2) as [B1 B2]. split; [split; assumption|].
  assert (NN : forall p, norm (pneg p) = norm p) by (intro q; unfold norm, pneg, pdot; cbn [fst snd]; f_equal; ring). rewrite NN. split; [|exact N].
  replace (psub (rval (v2sub v2zero p)) (pneg P)) with (pneg (psub (rval p) P)); [rewrite NN; exact E|].
  unfold rval, v2sub, v2zero. cbn [vx vy]. rewrite A2, B2. apply pt_eq; unfold pneg, psub; cbn [fst snd]; ring.
Qed.
Lemma near_div_one x y D K : near x y D K -> near (v2div x v2one) y D K.
Proof. intros (F & E & N). destruct (div_one x F) as [G V]. split; [exact G|]. rewrite V. split; assumption. Qed.
Lemma near_mul_one x y D K : near x y D K -> near (v2mul v2one x) y D K.
Proof. intros (F & E & N). destruct (mul_one x F) as [G V]. split; [exact G|]. rewrite V. split; assumption. Qed.

(** ** The invariant *)
Lemma growth_ge d : 0 <= d -> 1 + 8 * u32 <= growth d /\ 1 + d <= growth d /\ 1 <= growth d.
Proof. intro H. unfold growth. pose proof u32_pos. assert (0 <= d * (8 * u32)) by (apply Rmult_le_pos; lra). repeat split; nra. Qed.
Lemma pow_mono K i j : 1 <= K -> (i <= j)%nat -> K ^ i <= K ^ j. Proof. apply Rle_pow. Qed.
Lemma reach_bot m : bot <= reach m.
Proof. pose proof bot_pos. induction m; cbn [reach]; [pose proof (norm_nonneg (rval (t_pos t))); unfold bot in *; lra | lra | assumption]. Qed.
Lemma steps_weight m : (steps m <= weight m)%nat. Proof. unfold weight. nia. Qed.
Definition tracks (d : R) (m : chain) (f : pt -> pt) : Prop := exists R0 P,
  (forall p, f p = padd (cmul R0 p) P) /\ norm R0 = 1 /\ near (ra (t_rot (build m))) R0 1 (growth d ^ steps m) /\
  near (t_pos (build m)) P (reach m) (growth d ^ weight m) /\ t_scale (build m) = v2one.
Lemma rotor_eta (r : rotor2d b32) : Rotor (ra r) = r. Proof. destruct r; reflexivity. Qed.

Lemma tracks_all d : 0 <= d -> forall m f, moves d m f -> growth d ^ weight m <= 2 -> reach m <= bpow radix2 100 -> tracks d m f.
Proof.
  intros Hd m f M. set (K := growth d). destruct (growth_ge d Hd) as (G8 & Gd & G1). fold K in G8, Gd, G1. pose proof u32_pos as Hu. pose proof u32_small as Hus.
  assert (B126 : 4 * bpow radix2 100 <= bpow radix2 110 /\ bpow radix2 110 <= bpow radix2 126).
  { split; [change 110%Z with (10 + 100)%Z; rewrite bpow_plus; pose proof (bpow_gt_0 radix2 100); assert (4 <= bpow radix2 10) by (cbn; lra); nra | apply bpow_le; lia]. }
  destruct B126 as [B1 B2].
  induction M as [t angle Fp Fr Sc Er | a b f g Ma IHa Mb IHb | a f g Ma IHa Inv]; intros W Rc.
  - exists (cos angle, sin angle), (rval (t_pos t)). split; [intro p; apply pt_eq; unfold padd, cmul, rotate; cbn [fst snd]; ring|].
    split; [unfold norm, pdot; cbn [fst snd]; rewrite <- sqrt_1; f_equal; pose proof (sin2_cos2 angle) as Q; unfold Rsqr in Q; lra|].
    cbn [build steps weight nesting reach Nat.mul Nat.add]. change (weight (Given t)) with 1%nat. fold K. rewrite pow_1. split; [|split; [|exact Sc]].
    + split; [exact Fr|]. split; [lra|]. right. unfold norm, pdot; cbn [fst snd]; rewrite <- sqrt_1; f_equal; pose proof (sin2_cos2 angle) as Q; unfold Rsqr in Q; lra.
    + pose proof bot_pos. unfold bot in * . pose proof (norm_nonneg (rval (t_pos t))) as NN. split; [exact Fp|]. split; [|lra].
      replace (psub (rval (t_pos t)) (rval (t_pos t))) with (pscale 0 (0, 0)) by (apply pt_eq; unfold psub, pscale; cbn [fst snd]; ring).
      rewrite norm_scale, Rabs_R0, Rmult_0_l. apply Rmult_le_pos; lra.
  - cbn [reach] in Rc. pose proof (reach_bot a) as Ba. pose proof (reach_bot b) as Bb. pose proof bot_pos as Pb.
    set (e := (S (nesting (Then a b)) * (steps a + steps b))%nat).
    assert (We : (S e <= weight (Then a b))%nat) by (unfold e, weight; cbn [steps]; nia).
    assert (Wa : (weight a <= e)%nat) by (unfold e, weight; cbn [nesting]; pose proof (Nat.le_max_l (nesting a) (nesting b)); nia).
    assert (Wb : (steps a + weight b <= e)%nat) by (unfold e, weight; cbn [nesting]; pose proof (Nat.le_max_r (nesting a) (nesting b)); nia).
    assert (Pe : K ^ e <= 2) by (eapply Rle_trans; [apply (pow_mono K e (weight (Then a b))); [exact G1 | lia] | exact W]).
    destruct IHa as (Ra & Pa & Fa & Na & HRa & HPa & Sa); [eapply Rle_trans; [apply (pow_mono K (weight a) e); [exact G1 | lia] | exact Pe] | lra|].
    destruct IHb as (Rb & Pb' & Fb & Nb & HRb & HPb & Sb); [eapply Rle_trans; [apply (pow_mono K (weight b) e); [exact G1 | lia] | exact Pe] | lra|].
    fold K in HRa, HPa, HRb, HPb.
    assert (Ksa : 1 <= K ^ steps a <= 2). { split; [apply pow_R1_Rle, G1|]. eapply Rle_trans; [apply (pow_mono K _ e); [exact G1 | lia] | exact Pe]. }
    assert (Ksb : 1 <= K ^ steps b <= 2). { split; [apply pow_R1_Rle, G1|]. eapply Rle_trans; [apply (pow_mono K _ e); [exact G1 | pose proof (steps_weight b); lia] | exact Pe]. }
    assert (Kwb : 1 <= K ^ weight b <= 2). { split; [apply pow_R1_Rle, G1|]. eapply Rle_trans; [apply (pow_mono K _ e); [exact G1 | lia] | exact Pe]. }
    assert (Ke : 1 <= K ^ e) by (apply pow_R1_Rle, G1).
    assert (E8 : (1 + 4 * u32) * (1 + u32) <= K) by nra.
    exists (cmul Ra Rb), (padd (cmul Ra Pb') Pa). split; [intro p; rewrite Fa, Fb; apply pt_eq; unfold padd, cmul; cbn [fst snd]; ring|].
    split; [rewrite norm_cmul, Na, Nb; ring|]. cbn [build steps].
    split; [|split].
    + change (near (rotor_rot (t_rot (build a)) (ra (t_rot (build b)))) (cmul Ra Rb) 1 (K ^ S (steps a + steps b))).
      rewrite <- (rotor_eta (t_rot (build a))). eapply near_weaken.
      * apply near_rot with (K := K ^ steps a) (L := K ^ steps b); try eassumption; try lra.
        -- pose proof (bpow_ge_0 radix2 100). assert (4 <= bpow radix2 110) by (change 4 with (bpow radix2 2); apply bpow_le; lia). lra.
        -- unfold bot. change 1 with (bpow radix2 0). apply bpow_le; lia.
      * cbn [pow]. rewrite pow_add. assert (0 <= K ^ steps a * K ^ steps b) by nra. nra.
    + cbn [compose Comp_Transform2d t_pos apply Tr_Transform2d]. rewrite Sa. fold K. cbn [reach]. rewrite (Rplus_comm (reach a)).
      eapply near_weaken.
      * apply (near_add _ _ _ _ _ _ (K ^ e * (1 + 4 * u32))).
        -- rewrite <- (rotor_eta (t_rot (build a))). eapply near_weaken.
           ++ apply near_rot with (K := K ^ steps a) (L := K ^ weight b); [exact HRa | apply near_mul_one; exact HPb | lra | lra | lra | | exact Bb].
              assert (K ^ weight b * reach b <= 2 * bpow radix2 100) by (apply Rmult_le_compat; lra). lra.
           ++ apply Rmult_le_compat_r; [lra|]. rewrite <- pow_add. apply pow_mono; [exact G1 | lia].
        -- eapply near_weaken; [exact HPa|]. apply Rle_trans with (K ^ e); [apply pow_mono; [exact G1 | lia]|]. nra.
        -- nra.
        -- assert (K ^ e * (1 + 4 * u32) * (reach b + reach a) <= 4 * bpow radix2 100) by (apply Rmult_le_compat; try lra; nra). lra.
      * apply Rle_trans with (K ^ S e); [|apply pow_mono; [exact G1 | exact We]]. cbn [pow]. nra.
    + cbn [compose Comp_Transform2d t_scale]. rewrite Sa, Sb. apply one_one.
  - cbn [reach] in Rc. pose proof (reach_bot a) as Ba. pose proof bot_pos as Pb.
    assert (Wa : (steps a + weight a + 1 <= weight (Back a))%nat) by (unfold weight; cbn [nesting steps]; nia).
    assert (P2 : forall i, (i <= weight (Back a))%nat -> 1 <= K ^ i <= 2).
    { intros i Hi. split; [apply pow_R1_Rle, G1|]. eapply Rle_trans; [apply (pow_mono K i (weight (Back a))); [exact G1 | exact Hi] | exact W]. }
    destruct IHa as (R1 & P & F & N & HR & HP & Sa); [apply P2; lia | exact Rc|]. fold K in HR, HP.
    pose proof (P2 (steps a) ltac:(lia)) as Ks. pose proof (P2 (weight a) ltac:(lia)) as Kw.
    exists (conj2 R1), (cmul (conj2 R1) (pneg P)).
    assert (U : fst R1 * fst R1 + snd R1 * snd R1 = 1).
    { assert (Q : norm R1 * norm R1 = pdot R1 R1) by (unfold norm; apply sqrt_sqrt; unfold pdot; nra). rewrite N in Q. unfold pdot in Q. lra. }
    split; [|split; [|split; [|split]]].
    + intro p. pose proof (Inv p) as E. rewrite F in E. set (q := g p) in * . rewrite <- E.
      assert (Q1 : (fst R1 * fst R1 + snd R1 * snd R1) * fst q = fst q) by (rewrite U; ring). assert (Q2 : (fst R1 * fst R1 + snd R1 * snd R1) * snd q = snd q) by (rewrite U; ring).
      apply pt_eq; unfold padd, cmul, conj2, pneg; cbn [fst snd]; [rewrite <- Q1 at 1 | rewrite <- Q2 at 1]; ring.
    + rewrite norm_conj. exact N.
    + cbn [build steps]. change (t_rot (inverse (build a))) with (rotor_inverse (t_rot (build a))). rewrite <- (rotor_eta (t_rot (build a))). apply near_conj.
      fold K. eapply near_weaken; [exact HR|]. apply pow_mono; [exact G1 | lia].
    + cbn [build reach]. change (t_pos (inverse (build a))) with (v2div (rotor_rot (rotor_inverse (t_rot (build a))) (v2sub v2zero (t_pos (build a)))) (t_scale (build a))).
      rewrite Sa. apply near_div_one. rewrite <- (rotor_eta (t_rot (build a))). eapply near_weaken.
      * apply (near_rot _ _ _ _ _ (K ^ steps a) (K ^ weight a)); [apply near_conj, HR | apply near_zero_sub, HP | lra | lra | lra | | exact Ba].
        assert (K ^ weight a * reach a <= 2 * bpow radix2 100) by (apply Rmult_le_compat; lra). lra.
      * fold K. apply Rle_trans with (K ^ (steps a + weight a + 1)); [|apply pow_mono; [exact G1 | exact Wa]]. rewrite !pow_add, pow_1.
        apply Rmult_le_compat_l; [|lra]. apply Rmult_le_pos; lra.
    + cbn [build]. change (t_scale (inverse (build a))) with (v2sdiv f1 (t_scale (build a))). rewrite Sa. apply one_one.
Qed.

(** ** The theorems *)
Lemma near_self p : fin2 p -> near p (rval p) (norm (rval p) + bot) 1.
Proof.
  intro F. pose proof bot_pos. split; [exact F|]. split; [|lra].
  replace (psub (rval p) (rval p)) with (pscale 0 (0, 0)) by (apply pt_eq; unfold psub, pscale; cbn [fst snd]; ring).
  rewrite norm_scale, Rabs_R0. lra.
Qed.
(** Points: apply after any chain is the exact motion up to the accumulated relative error. *)
Theorem C60_apply : forall d m f, 0 <= d -> moves d m f -> growth d ^ weight m <= 2 -> reach m <= bpow radix2 100 ->
  forall p, fin2 p -> norm (rval p) <= bpow radix2 100 ->
  fin2 (apply (build m) p) /\
  norm (psub (rval (apply (build m) p)) (f (rval p))) <= (growth d ^ S (weight m) - 1) * (reach m + norm (rval p) + bpow radix2 (-100)).
Proof.
  intros d m f Hd M W Rc p Fp Np. destruct (tracks_all d Hd m f M W Rc) as (R0 & P & F & N & HR & HP & Sc).
  destruct (growth_ge d Hd) as (G8 & Gd & G1). set (K := growth d) in * . pose proof u32_pos as Hu. pose proof u32_small as Hus. pose proof bot_pos as Pb. pose proof (reach_bot m) as Br.
  pose proof (norm_nonneg (rval p)) as NN. assert (Kw : 1 <= K ^ weight m) by (apply pow_R1_Rle, G1).
  assert (Ks : 1 <= K ^ steps m <= 2). { split; [apply pow_R1_Rle, G1|]. eapply Rle_trans; [apply (pow_mono K _ (weight m)); [exact G1 | apply steps_weight] | exact W]. }
  assert (B100 : bot <= bpow radix2 100) by (apply bpow_le; lia).
  assert (B126 : 16 * bpow radix2 100 <= bpow radix2 110 /\ bpow radix2 110 <= bpow radix2 126).
  { split; [change 110%Z with (10 + 100)%Z; rewrite bpow_plus; pose proof (bpow_gt_0 radix2 100); assert (16 <= bpow radix2 10) by (cbn; lra); nra | apply bpow_le; lia]. }
  assert (Q : near (apply (build m) p) (f (rval p)) (norm (rval p) + bot + reach m) (K ^ S (weight m))).
  { rewrite F. cbn [apply Tr_Transform2d]. rewrite Sc. rewrite <- (rotor_eta (t_rot (build m))). eapply near_weaken.
    - apply (near_add _ _ _ _ _ _ (K ^ weight m * (1 + 4 * u32))).
      + eapply near_weaken; [apply (near_rot _ _ _ _ _ (K ^ steps m) 1); [exact HR | apply near_mul_one, near_self, Fp | lra | lra | lra | lra | lra]|].
        rewrite Rmult_1_r. apply Rmult_le_compat_r; [lra|]. apply pow_mono; [exact G1 | apply steps_weight].
      + eapply near_weaken; [exact HP | nra].
      + nra.
      + assert (K ^ weight m * (1 + 4 * u32) * (norm (rval p) + bot + reach m) <= 4 * (3 * bpow radix2 100)) by (apply Rmult_le_compat; try lra; nra). lra.
    - cbn [pow]. nra. }
  destruct Q as (Q1 & Q2 & _). split; [exact Q1|]. eapply Rle_trans; [exact Q2|]. unfold bot. right. ring.
Qed.
Print Assumptions C60_apply.
(** unapply after any chain is the exact inverse motion. *)
Theorem C60_unapply : forall d m f g, 0 <= d -> moves d m f -> (forall p, f (g p) = p) -> growth d ^ weight m <= 2 -> reach m <= bpow radix2 100 ->
  forall p, fin2 p -> norm (rval p) <= bpow radix2 100 ->
  fin2 (unapply (build m) p) /\
  norm (psub (rval (unapply (build m) p)) (g (rval p))) <= (growth d ^ S (steps m + weight m) - 1) * (reach m + norm (rval p) + bpow radix2 (-100)).
Proof.
  intros d m f g Hd M Inv W Rc p Fp Np. destruct (tracks_all d Hd m f M W Rc) as (R0 & P & F & N & HR & HP & Sc).
  destruct (growth_ge d Hd) as (G8 & Gd & G1). set (K := growth d) in * . pose proof u32_pos as Hu. pose proof u32_small as Hus. pose proof bot_pos as Pb. pose proof (reach_bot m) as Br.
  pose proof (norm_nonneg (rval p)) as NN. assert (Kw : 1 <= K ^ weight m) by (apply pow_R1_Rle, G1).
  assert (Ks : 1 <= K ^ steps m <= 2). { split; [apply pow_R1_Rle, G1|]. eapply Rle_trans; [apply (pow_mono K _ (weight m)); [exact G1 | apply steps_weight] | exact W]. }
  assert (B100 : bot <= bpow radix2 100) by (apply bpow_le; lia).
  assert (B126 : 16 * bpow radix2 100 <= bpow radix2 110 /\ bpow radix2 110 <= bpow radix2 126).
  { split; [change 110%Z with (10 + 100)%Z; rewrite bpow_plus; pose proof (bpow_gt_0 radix2 100); assert (16 <= bpow radix2 10) by (cbn; lra); nra | apply bpow_le; lia]. }
  assert (U : fst R0 * fst R0 + snd R0 * snd R0 = 1).
  { assert (Q : norm R0 * norm R0 = pdot R0 R0) by (unfold norm; apply sqrt_sqrt; unfold pdot; nra). rewrite N in Q. unfold pdot in Q. lra. }
  assert (Eg : g (rval p) = cmul (conj2 R0) (psub (rval p) P)).
  { pose proof (Inv (rval p)) as E. rewrite F in E. set (q := g (rval p)) in * . rewrite <- E.
    assert (Q1 : (fst R0 * fst R0 + snd R0 * snd R0) * fst q = fst q) by (rewrite U; ring). assert (Q2 : (fst R0 * fst R0 + snd R0 * snd R0) * snd q = snd q) by (rewrite U; ring).
    apply pt_eq; unfold padd, psub, cmul, conj2; cbn [fst snd]; [rewrite <- Q1 at 1 | rewrite <- Q2 at 1]; ring. }
  assert (KD : K ^ weight m * (norm (rval p) + bot + reach m) <= 2 * (3 * bpow radix2 100)) by (apply Rmult_le_compat; lra).
  assert (Q : near (unapply (build m) p) (g (rval p)) (norm (rval p) + bot + reach m) (K ^ S (steps m + weight m))).
  { rewrite Eg. cbn [unapply Tr_Transform2d]. rewrite Sc. apply near_div_one. rewrite <- (rotor_eta (t_rot (build m))). eapply near_weaken.
    - apply (near_rot _ _ _ _ _ (K ^ steps m) (K ^ weight m * (1 + u32))).
      + apply near_conj, HR.
      + apply near_sub; [eapply near_weaken; [apply near_self, Fp | exact Kw] | exact HP | exact Kw | lra].
      + lra.
      + nra.
      + lra.
      + apply Rle_trans with (2 * (K ^ weight m * (norm (rval p) + bot + reach m))); [|lra].
        set (x := K ^ weight m * (norm (rval p) + bot + reach m)) in * . replace (K ^ weight m * (1 + u32) * (norm (rval p) + bot + reach m)) with ((1 + u32) * x) by (unfold x; ring).
        apply Rmult_le_compat_r; [|lra]. unfold x. apply Rmult_le_pos; lra.
      + lra.
    - cbn [pow]. rewrite pow_add. assert (0 <= K ^ steps m * K ^ weight m) by (apply Rmult_le_pos; lra).
      replace (K ^ steps m * (K ^ weight m * (1 + u32)) * (1 + 4 * u32)) with (((1 + u32) * (1 + 4 * u32)) * (K ^ steps m * K ^ weight m)) by ring.
      apply Rmult_le_compat_r; [assumption | nra]. }
  destruct Q as (Q1 & Q2 & _). split; [exact Q1|]. eapply Rle_trans; [exact Q2|]. unfold bot. right. ring.
Qed.
Print Assumptions C60_unapply.
(** Directions: apply_normal turns by the total angle, and the rotor stays near the unit circle. *)
Theorem C60_directions : forall d m f, 0 <= d -> moves d m f -> growth d ^ weight m <= 2 -> reach m <= bpow radix2 100 ->
  (forall n, fin2 n -> norm (rval n) <= bpow radix2 100 ->
    fin2 (apply_normal (build m) n) /\
    norm (psub (rval (apply_normal (build m) n)) (psub (f (rval n)) (f origin))) <= (growth d ^ S (steps m) - 1) * (norm (rval n) + bpow radix2 (-100))) /\
  fin2 (ra (t_rot (build m))) /\ Rabs (norm (rval (ra (t_rot (build m)))) - 1) <= growth d ^ steps m - 1 /\ t_scale (build m) = v2one.
Proof.
  intros d m f Hd M W Rc. destruct (tracks_all d Hd m f M W Rc) as (R0 & P & F & N & HR & HP & Sc).
  destruct (growth_ge d Hd) as (G8 & Gd & G1). set (K := growth d) in * . pose proof u32_pos as Hu. pose proof u32_small as Hus. pose proof bot_pos as Pb.
  assert (Ks : 1 <= K ^ steps m <= 2). { split; [apply pow_R1_Rle, G1|]. eapply Rle_trans; [apply (pow_mono K _ (weight m)); [exact G1 | apply steps_weight] | exact W]. }
  assert (B100 : bot <= bpow radix2 100) by (apply bpow_le; lia).
  assert (B110 : 16 * bpow radix2 100 <= bpow radix2 110).
  { change 110%Z with (10 + 100)%Z; rewrite bpow_plus; pose proof (bpow_gt_0 radix2 100); assert (16 <= bpow radix2 10) by (cbn; lra); nra. }
  split; [|split; [|split; [|exact Sc]]].
  - intros n Fn Nn. pose proof (norm_nonneg (rval n)) as NN.
    assert (Q : near (apply_normal (build m) n) (psub (f (rval n)) (f origin)) (norm (rval n) + bot) (K ^ S (steps m))).
    { replace (psub (f (rval n)) (f origin)) with (cmul R0 (rval n)) by (rewrite !F; apply pt_eq; unfold padd, psub, cmul, origin; cbn [fst snd]; ring).
      cbn [apply_normal Tr_Transform2d]. rewrite <- (rotor_eta (t_rot (build m))).
      eapply near_weaken; [apply (near_rot _ _ _ _ _ (K ^ steps m) 1); [exact HR | apply near_self, Fn | lra | lra | lra | lra | lra]|]. cbn [pow]. nra. }
    destruct Q as (Q1 & Q2 & _). split; [exact Q1|]. exact Q2.
  - exact (proj1 HR).
  - destruct HR as (_ & E & _). rewrite Rmult_1_r in E. apply Rabs_le.
    pose proof (norm_sub_add (rval (ra (t_rot (build m)))) R0) as T1. pose proof (norm_triangle_sub R0 (rval (ra (t_rot (build m))))) as T2.
    replace (norm (psub R0 (rval (ra (t_rot (build m)))))) with (norm (psub (rval (ra (t_rot (build m)))) R0)) in T2; [lra|].
    unfold norm, pdot, psub. cbn [fst snd]. f_equal. ring.
Qed.
Print Assumptions C60_directions.

(** In plain numbers: rotors good to 2^-22, up to 2^17 = 131072 for the number of steps times (1 + inversions inside each other). *)
Lemma growth_linear d n : 0 <= d <= / 2 ^ 22 -> (n <= 2 ^ 17 + 1)%nat -> growth d ^ n - 1 <= INR n / 2 ^ 20 /\ growth d ^ n <= 2.
Proof.
  intros [D0 D1] Hn. set (x := 4 / 5 * / 2 ^ 20).
  assert (G : 0 <= growth d <= 1 + x).
  { destruct (growth_ge d D0) as (_ & _ & G1). split; [lra|]. unfold growth, x, u32. cbn in D1 |- * . nra. }
  assert (X : 0 < x) by (unfold x; cbn; lra). assert (NX : INR n * x <= 1 / 5).
  { assert (L : INR n <= 2 ^ 17 + 1). { apply le_INR in Hn. rewrite plus_INR, pow_INR in Hn. cbn in Hn |- * . lra. }
    apply Rle_trans with ((2 ^ 17 + 1) * x); [apply Rmult_le_compat_r; lra|]. unfold x. cbn. lra. }
  assert (B : (1 - x) ^ n >= 1 - INR n * x).
  { assert (x <= 1) by (unfold x; cbn; lra). clear - X H. induction n as [|n IH]; [cbn; lra|]. rewrite S_INR. cbn [pow].
    assert (0 <= INR n) by apply pos_INR. apply Rge_le in IH. assert ((1 - x) * (1 - INR n * x) <= (1 - x) * (1 - x) ^ n) by (apply Rmult_le_compat_l; lra). nra. }
  assert (P : growth d ^ n * (1 - x) ^ n <= 1).
  { rewrite <- Rpow_mult_distr. apply Rle_trans with (1 ^ n); [|rewrite pow1; lra]. apply pow_incr. split; [|nra]. apply Rmult_le_pos; [lra|]. unfold x; cbn; lra. }
  assert (GN : 0 <= growth d ^ n) by (apply pow_le; lra).
  assert (Q : growth d ^ n * (1 - INR n * x) <= 1) by (apply Rge_le in B; eapply Rle_trans; [apply Rmult_le_compat_l; [exact GN | exact B] | exact P]).
  assert (I0 : 0 <= INR n) by apply pos_INR. split; [|nra].
  assert (growth d ^ n - 1 <= 5 / 4 * (INR n * x)).
  { set (y := INR n * x) in * . assert (0 <= y) by (apply Rmult_le_pos; lra). nra. }
  replace (INR n / 2 ^ 20) with (5 / 4 * (INR n * x)) by (unfold x; field). assumption.
Qed.
Theorem C60_plain : forall m f g, moves (/ 2 ^ 22) m f -> (forall p, f (g p) = p) -> (steps m + weight m <= 2 ^ 17)%nat -> reach m <= bpow radix2 100 ->
  forall p, fin2 p -> norm (rval p) <= bpow radix2 100 ->
  norm (psub (rval (apply (build m) p)) (f (rval p))) <= INR (S (weight m)) / 2 ^ 20 * (reach m + norm (rval p) + bpow radix2 (-100)) /\
  norm (psub (rval (unapply (build m) p)) (g (rval p))) <= INR (S (steps m + weight m)) / 2 ^ 20 * (reach m + norm (rval p) + bpow radix2 (-100)) /\
  Rabs (norm (rval (ra (t_rot (build m)))) - 1) <= INR (steps m) / 2 ^ 20.
Proof.
  intros m f g M Inv Hn Rc p Fp Np. assert (D : 0 <= / 2 ^ 22 <= / 2 ^ 22) by (split; [cbn; lra | apply Rle_refl]).
  destruct (growth_linear _ (weight m) D ltac:(lia)) as [_ W]. destruct (growth_linear _ (S (weight m)) D ltac:(lia)) as [L1 _].
  destruct (growth_linear _ (S (steps m + weight m)) D ltac:(lia)) as [L2 _]. destruct (growth_linear _ (steps m) D ltac:(lia)) as [L3 _].
  destruct (C60_apply _ m f (proj1 D) M W Rc p Fp Np) as [_ A]. destruct (C60_unapply _ m f g (proj1 D) M Inv W Rc p Fp Np) as [_ B].
  destruct (C60_directions _ m f (proj1 D) M W Rc) as (_ & _ & C & _).
  assert (X : 0 <= reach m + norm (rval p) + bpow radix2 (-100)) by (pose proof (reach_bot m); pose proof bot_pos; pose proof (norm_nonneg (rval p)); unfold bot in *; lra).
  split; [eapply Rle_trans; [exact A|]; apply Rmult_le_compat_r; assumption|]. split; [eapply Rle_trans; [exact B|]; apply Rmult_le_compat_r; assumption|].
  eapply Rle_trans; [exact C | exact L3].
Qed.
Print Assumptions C60_plain.

(** A case that meets the hypotheses: two transforms, one turning by the angle with cosine 3/5 (its rotor rounded to binary32) and moving by
    (3,4), composed with the inverse of the other. *)
Definition case_t : transform2d b32 := Transform2d (V2 (b32_of 3 0) (b32_of 4 0)) (Rotor (V2 (b32_of 10066330 (-24)) (b32_of 13421773 (-24)))) v2one.
Definition case_m : chain := Then (Given case_t) (Back (Then (Given case_t) (Given case_t))).
Example C60_case : exists f g, moves (/ 2 ^ 22) case_m f /\ (forall p, f (g p) = p) /\ steps case_m = 6%nat /\ weight case_m = 12%nat /\ reach case_m <= 16.
Proof.
  set (a := asin (4 / 5)). assert (Sa : sin a = 4 / 5) by (apply sin_asin; lra).
  assert (Ca : cos a = 3 / 5). { unfold a. rewrite cos_asin by lra. replace (1 - (4 / 5)²) with ((3 / 5) * (3 / 5)) by (unfold Rsqr; field). apply sqrt_square; lra. }
  assert (V : forall m e, (Z.abs m <= 2 ^ 24)%Z -> (-149 <= e <= 103)%Z -> fin (b32_of m e) /\ val (b32_of m e) = IZR m * bpow radix2 e) by (intros; apply val_of; assumption).
  destruct (V 3%Z 0%Z ltac:(lia) ltac:(lia)) as [F3 V3]. destruct (V 4%Z 0%Z ltac:(lia) ltac:(lia)) as [F4 V4].
  destruct (V 10066330%Z (-24)%Z ltac:(lia) ltac:(lia)) as [Fc Vc]. destruct (V 13421773%Z (-24)%Z ltac:(lia) ltac:(lia)) as [Fs Vs].
  cbn [bpow radix_val radix2 Z.pow_pos Pos.iter Z.mul Pos.mul] in V3, V4, Vc, Vs.
  set (h := fun p => padd (rotate (cos a) (sin a) p) (rval (t_pos case_t))).
  assert (M1 : moves (/ 2 ^ 22) (Given case_t) h).
  { apply moves_given; [split; assumption | split; assumption | reflexivity|]. eapply Rle_trans; [apply (norm_box _ (/ 2 ^ 24))|].
    - cbn [psub fst snd rval ra t_rot case_t vx vy]. rewrite Vc, Ca. cbn. apply Rabs_le. lra.
    - cbn [psub fst snd rval ra t_rot case_t vx vy]. rewrite Vs, Sa. cbn. apply Rabs_le. lra.
    - cbn. lra. }
  set (k := fun p => rotate (cos a) (- sin a) (psub p (rval (t_pos case_t)))).
  assert (HK : forall p, h (k p) = p /\ k (h p) = p).
  { intros [x y]. unfold h, k. rewrite Ca, Sa. split; apply pt_eq; unfold padd, psub, rotate; cbn [fst snd]; field. }
  exists (fun p => h (k (k p))), (fun p => h (h (k p))). split; [|split; [|split; [|split]]].
  - apply (moves_then _ _ _ h (fun p => k (k p))); [exact M1|]. apply (moves_back _ _ (fun p => h (h p)) (fun p => k (k p))).
    + apply (moves_then _ _ _ h h); exact M1.
    + intro p. rewrite (proj1 (HK (k p))). apply HK.
  - intro p. rewrite (proj2 (HK (h (k p)))), (proj2 (HK (k p))). apply HK.
  - reflexivity.
  - reflexivity.
  - cbn [reach case_m case_t t_pos]. assert (N : norm (rval (V2 (b32_of 3 0) (b32_of 4 0))) = 5).
    { unfold norm, pdot, rval. cbn [fst snd vx vy]. rewrite V3, V4. replace (3 * 1 * (3 * 1) + 4 * 1 * (4 * 1)) with (5 * 5) by ring. apply sqrt_square. lra. }
    rewrite N. assert (bpow radix2 (-100) <= bpow radix2 (-4)) by (apply bpow_le; lia). assert (bpow radix2 (-4) = / 16) by (cbn; lra). lra.
Qed.

(** ** Chains of pure translations (Vec2 and Translate2d) *)
Inductive vchain : Type := VGiven (v : vec2 b32) | VThen (a b : vchain) | VBack (a : vchain).
Fixpoint vbuild (m : vchain) : vec2 b32 := match m with VGiven v => v | VThen a b => compose (vbuild a) (vbuild b) | VBack a => inverse (vbuild a) end.
Fixpoint tbuild (m : vchain) : translate2d b32 :=
  match m with VGiven v => Translate2d v | VThen a b => compose (tbuild a) (tbuild b) | VBack a => inverse (tbuild a) end.
(** the exact translation *)
Fixpoint total_shift (m : vchain) : pt := match m with VGiven v => rval v | VThen a b => padd (total_shift a) (total_shift b) | VBack a => pneg (total_shift a) end.
Fixpoint additions (m : vchain) : nat := match m with VGiven _ => 0 | VThen a b => S (additions a + additions b) | VBack a => additions a end.
Fixpoint lengths (m : vchain) : R := match m with VGiven v => norm (rval v) | VThen a b => lengths a + lengths b | VBack a => lengths a end.
Fixpoint all_fin (m : vchain) : Prop := match m with VGiven v => fin2 v | VThen a b => all_fin a /\ all_fin b | VBack a => all_fin a end.
Lemma lengths_nonneg m : 0 <= lengths m. Proof. induction m; cbn; [apply norm_nonneg | lra | assumption]. Qed.
Lemma vnear m : all_fin m -> (1 + u32) ^ additions m <= 2 -> lengths m <= bpow radix2 100 -> near (vbuild m) (total_shift m) (lengths m) ((1 + u32) ^ additions m).
Proof.
  pose proof u32_pos as Hu. set (K := 1 + u32). assert (K1 : 1 <= K) by (unfold K; lra).
  assert (B : 2 * bpow radix2 100 <= bpow radix2 126). { change 126%Z with (26 + 100)%Z. rewrite bpow_plus. pose proof (bpow_gt_0 radix2 100). assert (2 <= bpow radix2 26) by (cbn; lra). nra. }
  induction m as [v | a IHa b IHb | a IHa]; cbn [all_fin additions lengths vbuild total_shift]; intros F W L.
  - split; [exact F|]. split; [|lra]. replace (psub (rval v) (rval v)) with (pscale 0 (0, 0)) by (apply pt_eq; unfold psub, pscale; cbn [fst snd]; ring). rewrite norm_scale, Rabs_R0. cbn. lra.
  - destruct F as [Fa Fb]. pose proof (lengths_nonneg a). pose proof (lengths_nonneg b).
    set (e := (additions a + additions b)%nat) in * . assert (We : 1 <= K ^ e <= 2). { split; [apply pow_R1_Rle, K1|]. eapply Rle_trans; [apply (pow_mono K e (S e)); [exact K1 | lia] | exact W]. }
    assert (Pa : K ^ additions a <= K ^ e) by (apply pow_mono; [exact K1 | lia]). assert (Pb : K ^ additions b <= K ^ e) by (apply pow_mono; [exact K1 | lia]).
    specialize (IHa Fa ltac:(lra) ltac:(lra)). specialize (IHb Fb ltac:(lra) ltac:(lra)).
    cbn [compose Comp_Vec2 apply Tr_Vec2]. replace (padd (total_shift a) (total_shift b)) with (padd (total_shift b) (total_shift a)) by (apply pt_eq; cbn; ring).
    rewrite (Rplus_comm (lengths a)). replace (K ^ S e) with (K ^ e * (1 + u32)) by (cbn [pow]; unfold K; ring).
    apply near_add; [eapply near_weaken; eassumption | eapply near_weaken; eassumption | lra |].
    assert (K ^ e * (lengths b + lengths a) <= 2 * bpow radix2 100) by (apply Rmult_le_compat; lra). lra.
  - destruct (IHa F W L) as ([F1 F2] & E & N). split; [split; apply fin_neg; assumption|].
    assert (NN : forall p, norm (pneg p) = norm p) by (intro q; unfold norm, pneg, pdot; cbn [fst snd]; f_equal; ring). rewrite NN. split; [|exact N].
    replace (psub (rval (inverse (vbuild a))) (pneg (total_shift a))) with (pneg (psub (rval (vbuild a)) (total_shift a))); [rewrite NN; exact E|].
    apply pt_eq; unfold pneg, psub, rval; cbn [fst snd inverse Inv_Vec2 v2neg vx vy]; rewrite val_neg; ring.
Qed.
Theorem C60_translations : forall m, all_fin m -> (1 + u32) ^ additions m <= 2 -> lengths m <= bpow radix2 100 ->
  tr_pos (tbuild m) = vbuild m /\ fin2 (vbuild m) /\ norm (psub (rval (vbuild m)) (total_shift m)) <= ((1 + u32) ^ additions m - 1) * lengths m.
Proof.
  intros m F W L. split; [clear F W L; induction m as [v | a IHa b IHb | a IHa]; cbn [tbuild vbuild]; [reflexivity | |]|].
  - cbn [compose Comp_Translate2d tr_pos apply Tr_Translate2d Comp_Vec2 Tr_Vec2]. rewrite IHa, IHb. reflexivity.
  - cbn [inverse Inv_Translate2d tr_pos Inv_Vec2]. rewrite IHa. reflexivity.
  - destruct (vnear m F W L) as (A & B & _). split; assumption.
Qed.
Print Assumptions C60_translations.
