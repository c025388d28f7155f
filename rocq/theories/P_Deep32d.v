(** * GJK in binary32 on bodies that overlap deeply, continued (proofs for C62): the first two points and the four loops *)
From Coq Require Import Reals ZArith Bool Lra Lia List Psatz.
From Flocq Require Import IEEE754.BinarySingleNaN Core Relative.
From Verif Require Import Num NumXR NumB32 Glam Transform2 Shapes2 Gjk Spec SpecLink P_Base P_Transform P_Shapes P_Geo P_Gjk P_B32 Props_F32 Props_F32Gjk P_F32Box P_Drift P_Deep P_Deep32 P_Deep32b P_Deep32c.
Import ListNotations.
Local Open Scope R_scope.

Lemma sign_of' x : x <> 0 -> exists sg, sg * sg = 1 /\ 0 < sg * x.
Proof. intro N. destruct (Rlt_or_le 0 x). { exists 1. lra. } exists (-1). lra. Qed.
Section Search.
Variable dl : R.
Hypotheses (Hlo : bpow radix2 (-20) <= dl) (Hhi : dl <= bpow radix2 12).
Local Notation okp := (okp dl).
Variable sup : vec2 b32 -> vec2 b32.
Variables (D : R) (Vis : pt -> Prop).
Hypothesis Hsup : forall d, dir_ok d -> fin2 (sup d) /\ norm (rval (sup d)) <= D /\ dl * norm (rval d) <= pdot (rval d) (rval (sup d)) /\ Vis (rval (sup d)).
Hypothesis HD : D <= 64 * dl.
Hypothesis Hfew : D <= 8 * dl \/ forall P, NoDup P -> Forall Vis P -> (length P <= 19)%nat.
Local Notation Good := (Good dl D Vis).

Lemma neg_dir b : okp b -> dir_ok (v2neg b).
Proof.
  intros B. destruct (neg32 b (proj1 B)) as [F E]. split; [exact F|]. rewrite E, norm_neg. split.
  - destruct B as [_ [B _]]. apply Rle_trans with (bpow radix2 (-20)); [apply bpow_le; lia | lra].
  - eapply Rle_trans; [apply (okp_small dl Hlo Hhi b B) | apply bpow_le; lia].
Qed.
(** the doubled area spanned by the origin and the segment *)
Lemma seg_cross a b : okp a -> okp b -> let w := v2sub b a in let q := cross w (v2neg a) in
  fin q /\ small (val q) 39 /\ Rabs (val q - pcross (rval a) (rval b)) <= 5 * u32 * (norm (psub (rval b) (rval a)) * norm (rval a)) + 3 * tiny.
Proof.
  intros A B w q. destruct (sub32 dl Hlo Hhi b a B A) as (Fw & Ew & Lw & Nw). fold w in Fw, Ew, Nw. destruct (neg32 a (proj1 A)) as [Fa Ea]. pose proof (okp_small dl Hlo Hhi a A) as Na.
  assert (Na' : norm (rval (v2neg a)) <= bpow radix2 18) by (rewrite Ea, norm_neg; exact Na).
  destruct (cross32 _ _ 20 18 ltac:(lia) ltac:(lia) Fw Fa Nw Na') as [F E]. fold q in F, E. rewrite Ea, norm_neg in E. split; [exact F|].
  pose proof (norm_sub_le _ _ Ew) as Nw'. set (W := psub (rval b) (rval a)) in * . pose proof u32_pos. pose proof u32_small. pose proof (dl_num dl Hlo Hhi) as DN. pose proof tiny_pos.
  pose proof (norm_nonneg W) as PW. pose proof (norm_nonneg (rval w)) as Pw. pose proof (norm_nonneg (rval a)) as Pa. set (na := norm (rval a)) in * .
  assert (G : Rabs (pcross (rval w) (pneg (rval a)) - pcross (rval a) (rval b)) <= u32 * norm W * na).
  { replace (pcross (rval w) (pneg (rval a)) - pcross (rval a) (rval b)) with (pcross (psub (rval w) W) (pneg (rval a))) by (unfold W, pcross, psub, pneg; cbn; ring).
    eapply Rle_trans; [apply cross_bound|]. rewrite norm_neg. apply Rmult_le_compat_r; [exact Pa | exact Ew]. }
  assert (Z : norm (rval w) * na <= (1 + u32) * norm W * na) by (apply Rmult_le_compat_r; assumption). assert (PX : 0 <= norm W * na) by (apply Rmult_le_pos; assumption).
  assert (Z2 : 3 * u32 * (norm (rval w) * na) <= 3 * u32 * (101 / 100 * (norm W * na))). { apply Rmult_le_compat_l; [lra|]. assert (u32 * (norm W * na) <= 1 / 100 * (norm W * na)) by (apply Rmult_le_compat_r; lra). lra. }
  assert (PU : 0 <= u32 * (norm W * na)) by (apply Rmult_le_pos; lra).
  assert (M : Rabs (val q - pcross (rval a) (rval b)) <= 5 * u32 * (norm W * na) + 3 * tiny).
  { replace (val q - pcross (rval a) (rval b)) with ((val q - pcross (rval w) (pneg (rval a))) + (pcross (rval w) (pneg (rval a)) - pcross (rval a) (rval b))) by ring. eapply Rle_trans; [apply Rabs_triang|]. lra. }
  split; [|exact M]. unfold small. rewrite bp39. pose proof (Rabs_triang (val q - pcross (rval a) (rval b)) (pcross (rval a) (rval b))) as TR. replace (val q - pcross (rval a) (rval b) + pcross (rval a) (rval b)) with (val q) in TR by ring.
  assert (pcross (rval a) (rval b) = - pcross W (rval a)) by (unfold W, pcross, psub; cbn; ring). rewrite H2, Rabs_Ropp in TR. pose proof (cross_bound W (rval a)) as CB. fold na in CB. rewrite <- H2 in TR.
  assert (na <= 64 * dl) by apply A. assert (XX : norm W * na <= 128 * 4096 * (64 * 4096)) by (apply Rmult_le_compat; lra).
  assert (5 * u32 * (norm W * na) <= 1 * (norm W * na)) by (apply Rmult_le_compat_r; lra).
  assert (tiny <= 1) by (unfold tiny; apply (bpow_le radix2 (-150) 0); lia). lra.
Qed.
Lemma seg_dir a b : okp a -> okp b -> let w := v2sub b a in let q := cross w (v2neg a) in let r := cross_aba w (v2neg a) in
  let X := Rabs (val q) * norm (psub (rval b) (rval a)) in
  fin2 r /\ norm (rval r) <= bpow radix2 59 /\ norm (rval r) <= 15 / 10 * X + 2 * tiny /\
  (bpow radix2 (-70) <= X -> 99 / 100 * X <= norm (rval r) /\ forall sg, sg * sg = 1 -> 0 < sg * val q -> dirn (3 * u32) (rval r) sg (rval a) (rval b)).
Proof.
  intros A B w q r X. destruct (seg_cross a b A B) as (Fq & Sq & _). fold w q in Fq, Sq. destruct (sub_small dl Hlo Hhi b a B A) as (F1 & F2 & S1 & S2). fold w in F1, F2, S1, S2.
  destruct (mulneg1 _ q F2 Fq S2 Sq) as (_ & [Fx Ex] & _). destruct (mulneg1 _ q F1 Fq S1 Sq) as ([Fy Ey] & _). change (cross_aba w (v2neg a)) with (V2 (fmul (fneg (vy w)) q) (fmul (vx w) q)) in r.
  assert (Fr : fin2 r) by (split; assumption). split; [exact Fr|].
  assert (NB : norm (rval r) <= 15 / 10 * X + 2 * tiny).
  { destruct (sub32 dl Hlo Hhi b a B A) as (_ & Ew & Lw & _). fold w in Ew. pose proof (norm_sub_le _ _ Ew) as Nw. destruct (coord_le_norm (rval w)) as [Cx Cy]. cbn [rval fst snd] in Cx, Cy. change (val (vx w), val (vy w)) with (rval w) in Cx, Cy.
    pose proof u32_pos. pose proof u32_small. pose proof tiny_pos. pose proof (Rabs_pos (val q)) as Pq. pose proof (norm_nonneg (psub (rval b) (rval a))) as PW. set (W := psub (rval b) (rval a)) in * .
    assert (PX : 0 <= X) by (apply Rmult_le_pos; assumption).
    assert (BD : forall y z, Rabs y <= norm (rval w) -> (Rabs (z - y * val q) <= u32 * (Rabs y * Rabs (val q)) + tiny \/ Rabs (z + y * val q) <= u32 * (Rabs y * Rabs (val q)) + tiny) -> Rabs z <= 105 / 100 * X + tiny).
    { intros y z Hy Hz. assert (Q : Rabs y * Rabs (val q) <= 101 / 100 * X). { apply Rle_trans with ((1 + u32) * norm W * Rabs (val q)); [apply Rmult_le_compat_r; lra|]. replace ((1 + u32) * norm W * Rabs (val q)) with ((1 + u32) * X) by (unfold X; ring). apply Rmult_le_compat_r; lra. }
      assert (Q0 : 0 <= Rabs y * Rabs (val q)) by (apply Rmult_le_pos; apply Rabs_pos). assert (Q2 : u32 * (Rabs y * Rabs (val q)) <= 1 / 100 * (101 / 100 * X)) by (apply Rmult_le_compat; lra).
      assert (Q3 : Rabs (y * val q) = Rabs y * Rabs (val q)) by apply Rabs_mult.
      destruct Hz as [Hz|Hz]. { pose proof (Rabs_triang (z - y * val q) (y * val q)) as T. replace (z - y * val q + y * val q) with z in T by ring. lra. }
      pose proof (Rabs_triang (z + y * val q) (- (y * val q))) as T. rewrite Rabs_Ropp in T. replace (z + y * val q + - (y * val q)) with z in T by ring. lra. }
    eapply Rle_trans; [apply (norm_box (rval r) (105 / 100 * X + tiny)); cbn [r rval fst snd vx vy]|].
    - apply (BD (val (vy w))); [exact Cy | right; exact Ex].
    - apply (BD (val (vx w))); [exact Cx | left; exact Ey].
    - lra. }
  assert (PR : bpow radix2 (-70) <= X -> norm (psub (rval r) (pscale (1 * val q) (J (psub (rval b) (rval a))))) <= 3 * u32 * X /\ 99 / 100 * X <= norm (rval r) <= bpow radix2 59).
  { intro L. apply (perp32 dl Hlo Hhi a b r (val q) 1 A B ltac:(lra) L Sq); fold w; cbn [r vx vy]; rewrite Rmult_1_l; assumption. }
  split; [|split; [exact NB|]].
  - destruct (Rle_or_lt (bpow radix2 (-70)) X) as [L|L]; [apply (PR L)|]. eapply Rle_trans; [exact NB|]. assert (bpow radix2 (-70) <= 1) by (apply (bpow_le radix2 (-70) 0); lia). assert (tiny <= 1) by (unfold tiny; apply (bpow_le radix2 (-150) 0); lia). apply Rle_trans with 4; [lra|]. cbn. lra.
  - intro L. destruct (PR L) as (E & N1 & _). split; [exact N1|]. intros sg S P. replace sg with (1 * sg) by ring. apply (dirn_of _ (val q)); assumption.
Qed.
Lemma turned0 sg b c : sg * sg = 1 -> okp b -> okp c -> pdot (rval b) (rval c) <= 0 -> 0 <= sg * pcross (rval b) (rval c) -> Turned dl D 0 sg (rval b) (rval c).
Proof.
  intros S B C O X _. pose proof (dl0 dl Hlo) as Pd. assert (Pb : 0 < norm (rval b)) by (destruct B as [_ [B _]]; lra). assert (Pc : 0 < norm (rval c)) by (destruct C as [_ [C _]]; lra).
  destruct (angle_of sg _ _ S Pb Pc X) as (t & T1 & T2). exists t. split; [exact T1|]. split; [|exact T2]. cbn [INR]. rewrite Rmult_0_l, Rplus_0_r. apply Rnot_lt_le. intro K.
  assert (0 < cos t) by (apply cos_gt_0; lra). destruct T2 as [_ T2]. rewrite T2 in O. assert (0 < norm (rval b) * norm (rval c)) by (apply Rmult_lt_0_compat; assumption). assert (0 < norm (rval b) * norm (rval c) * cos t) by (apply Rmult_lt_0_compat; assumption). lra.
Qed.
(** the second point *)
Lemma seg_step b : okp b -> Vis (rval b) -> let a := sup (v2neg b) in exists r, add_point [b] a = Ok ([a; b], (false, r)) /\ fin2 r /\ norm (rval r) <= bpow radix2 59 /\
  (direction_is_too_small r = false -> Good 0 a b r) /\
  (direction_is_too_small r = true -> / 8 <= dl -> Good 0 a b (v2perp (v2neg b))).
Proof.
  intros B Vb a. pose proof (neg_dir b B) as Hok. pose proof (sup_ok dl sup D Vis Hsup HD _ Hok) as A. fold a in A. destruct (Hsup _ Hok) as (_ & Na & G & Va). fold a in Na, G, Va.
  destruct (neg32 b (proj1 B)) as [_ Eb]. rewrite Eb, norm_neg in G. assert (Eg : pdot (pneg (rval b)) (rval a) = - pdot (rval a) (rval b)) by (unfold pdot, pneg; cbn; ring). rewrite Eg in G. pose proof (dl0 dl Hlo) as Pd.
  assert (Pb : 0 < norm (rval b)) by (destruct B as [_ [B _]]; lra). assert (0 < dl * norm (rval b)) by (apply Rmult_lt_0_compat; assumption). assert (O : pdot (rval a) (rval b) <= 0) by lra.
  destruct (seg_dir a b A B) as (Fr & Ur & Br & Dr). destruct (seg_cross a b A B) as (Fq & Sq & Eq). set (w := v2sub b a) in * . set (q := cross w (v2neg a)) in * . set (r := cross_aba w (v2neg a)) in * .
  exists r. split. { cbn [add_point]. fold w. pose proof (toward32 dl Hlo Hhi a b A B O) as T. unfold same_direction in T. fold w in T. rewrite T. reflexivity. }
  split; [exact Fr|]. split; [exact Ur|]. destruct (too_small32 r Fr Ur) as [TS1 TS2]. set (W := psub (rval b) (rval a)) in * . set (X := Rabs (val q) * norm W) in * .
  pose proof (pair_apart dl Pd _ _ (proj2 A) (proj2 B) O) as LW. fold W in LW. pose proof u32_pos as U0. pose proof u32_small as U1. pose proof (dl_num dl Hlo Hhi) as DN. assert (P2 : 0 < dl * dl) by (apply Rmult_lt_0_compat; lra).
  assert (TT : tiny <= u32 / 100 * (dl * dl)).
  { apply tiny_100. replace (-100)%Z with (-50 + -50)%Z by reflexivity. rewrite bpow_plus. assert (bpow radix2 (-50) <= dl) by (apply Rle_trans with (bpow radix2 (-20)); [apply bpow_le; lia | exact Hlo]). apply Rmult_le_compat; try apply bpow_ge_0; assumption. }
  assert (UW : norm W <= 128 * dl) by (unfold W; pose proof (norm_psub (rval b) (rval a)); destruct A as [_ [_ A]], B as [_ [_ B]]; lra).
  assert (La : dl <= norm (rval a) <= 64 * dl) by apply A. assert (Lb : dl <= norm (rval b) <= 64 * dl) by apply B.
  split.
  - intro TS. specialize (TS2 TS). clear TS1. assert (LX : bpow radix2 (-70) <= X).
    { apply Rnot_lt_le. intro K. assert (tiny <= bpow radix2 (-70)) by (unfold tiny; apply bpow_le; lia). assert (bpow radix2 (-23) = 8 * bpow radix2 (-26)) by (change 8 with (bpow radix2 3); rewrite <- bpow_plus; reflexivity). assert (bpow radix2 (-70) <= bpow radix2 (-26)) by (apply bpow_le; lia). pose proof (bpow_gt_0 radix2 (-26)). lra. }
    destruct (Dr LX) as (NX & DX). assert (NQ : val q <> 0). { intro Z. unfold X in LX. rewrite Z, Rabs_R0, Rmult_0_l in LX. pose proof (bpow_gt_0 radix2 (-70)). lra. }
    destruct (sign_of' _ NQ) as (sg & S & PS). specialize (DX sg S PS).
    assert (E : Edge dl sg (3 * u32) a b r). { split; [exact A|]. split; [exact B|]. split; [exact O|]. split; [exact S|]. split; [apply u_kap|]. split; [exact DX|]. split; [exact Fr|]. split; [|exact Ur]. eapply Rle_trans; [|exact TS2]. replace (-23)%Z with (1 + -24)%Z by reflexivity. rewrite bpow_plus. change (bpow radix2 1) with 2. pose proof (bpow_gt_0 radix2 (-24)). lra. }
    destruct (Rle_or_lt 0 (sg * pcross (rval a) (rval b))) as [Y|Y].
    + left. exists sg, [rval a; rval b]. split; [exact E|]. split; [exact Y|]. split; [apply turned0; assumption|]. split.
      * split; [|split; [|reflexivity]].
        -- apply NoDup_cons; [|apply NoDup_cons; [intros [] | apply NoDup_nil]]. intros [I|[]]. pose proof (pdot_nonneg (rval b)) as PN. assert (pdot (rval a) (rval b) = pdot (rval b) (rval b)) by (rewrite I; reflexivity). lra.
        -- apply Forall_cons; [exact Va|]. apply Forall_cons; [exact Vb | constructor].
      * apply Forall_cons; [|apply Forall_cons; [|constructor]].
        -- split; [unfold pcross; lra | exact Y].
        -- split; [exact Y | unfold pcross; lra].
    + right. split; [lia|]. exists sg, (3 * u32). split; [exact E|].
      assert (Q1 : Rabs (sg * (val q - pcross (rval a) (rval b))) <= 5 * u32 * (norm W * norm (rval a)) + 3 * tiny) by (rewrite Rabs_mult, (abs_sig sg S), Rmult_1_l; exact Eq). apply abs_le2' in Q1.
      rewrite <- (Rmult_1_l (Rabs _)), <- (abs_sig sg S), <- Rabs_mult, Rabs_left by exact Y.
      assert (Z1 : norm W * norm (rval a) <= 128 * dl * (64 * dl)) by (apply Rmult_le_compat; lra). assert (0 <= norm W * norm (rval a)) by (apply Rmult_le_pos; lra).
      assert (5 * u32 * (norm W * norm (rval a)) <= 5 * (1 / 16777216) * (128 * dl * (64 * dl))) by (apply Rmult_le_compat; lra). assert (u32 / 100 * (dl * dl) <= 1 / 16777216 * (dl * dl)) by (apply Rmult_le_compat_r; lra). unfold mu. lra.
  - intros TS D8. specialize (TS1 TS). clear TS2. assert (B23 : bpow radix2 (-23) = / 8388608) by (cbn; lra). rewrite B23 in TS1.
    assert (UX : X <= 103 / 100 * / 8388608).
    { destruct (Rle_or_lt (bpow radix2 (-70)) X) as [L|L]; [destruct (Dr L) as [L2 _]; lra|]. assert (bpow radix2 (-70) <= / 8388608) by (rewrite <- B23; apply bpow_le; lia). lra. }
    set (C := Rabs (pcross (rval a) (rval b))).
    assert (HC : C <= Rabs (val q) + (5 * u32 * (norm W * norm (rval a)) + 3 * tiny)).
    { unfold C. pose proof (Rabs_triang (val q) (- (val q - pcross (rval a) (rval b)))) as T. rewrite Rabs_Ropp in T. replace (val q + - (val q - pcross (rval a) (rval b))) with (pcross (rval a) (rval b)) in T by ring. lra. }
    set (nb := norm (rval b)) in * . set (na := norm (rval a)) in * . set (n := norm W) in * .
    assert (PB : 0 < nb * n) by (apply Rmult_lt_0_compat; lra).
    assert (H1 : Rabs (val q) <= 34 / 1000000 * (nb * n)).
    { apply Rmult_le_reg_r with n; [lra|]. fold X. eapply Rle_trans; [exact UX|]. assert (M1 : / 8 * (141 / 800) <= nb * n) by (apply Rmult_le_compat; lra). assert (M2 : / 8 * (141 / 800) * (141 / 800) <= nb * n * n) by (apply Rmult_le_compat; lra). lra. }
    assert (H2 : 5 * u32 * (n * na) <= 320 * u32 * (nb * n)). { assert (5 * u32 * (n * na) <= 5 * u32 * (n * (64 * nb))) by (apply Rmult_le_compat_l; [lra|]; apply Rmult_le_compat_l; lra). lra. }
    assert (H3 : tiny <= u32 * (nb * n)). { assert (dl * (141 / 100 * dl) <= nb * n) by (apply Rmult_le_compat; lra). assert (u32 * (dl * dl) <= u32 * (nb * n)) by (apply Rmult_le_compat_l; lra). assert (0 <= u32 * (dl * dl)) by (apply Rmult_le_pos; lra). lra. }
    assert (H4 : u32 * (nb * n) <= 1 / 16777216 * (nb * n)) by (apply Rmult_le_compat_r; lra).
    assert (HC' : C <= 6 / 100000 * (nb * n)) by lra.
    (* b.w >= nb n - C *)
    assert (BW : pdot (rval b) W = nb * nb - pdot (rval a) (rval b)) by (unfold nb; rewrite norm_sq; unfold W, pdot, psub; cbn; ring).
    assert (PBW : 0 < pdot (rval b) W) by (rewrite BW; assert (0 < nb * nb) by (apply Rmult_lt_0_compat; lra); lra).
    assert (LG : C * C + pdot (rval b) W * pdot (rval b) W = (nb * n) * (nb * n)).
    { pose proof (lagrange_id (rval b) W) as L. rewrite <- !norm_sq in L. fold nb n in L. assert (E : pcross (rval b) W = pcross (rval a) (rval b)) by (unfold W, pcross, psub; cbn; ring). rewrite E in L. unfold C. replace (Rabs (pcross (rval a) (rval b)) * Rabs (pcross (rval a) (rval b))) with (pcross (rval a) (rval b) * pcross (rval a) (rval b)) by (rewrite <- Rabs_mult; symmetry; apply Rabs_pos_eq; nra). lra. }
    assert (PC : 0 <= C) by apply Rabs_pos.
    assert (BG : 99 / 100 * (nb * n) <= pdot (rval b) W). { apply Rnot_lt_le. intro K. assert (pdot (rval b) W * pdot (rval b) W <= (99 / 100 * (nb * n)) * (99 / 100 * (nb * n))) by (apply Rmult_le_compat; lra). assert (C * C <= (6 / 100000 * (nb * n)) * (6 / 100000 * (nb * n))) by (apply Rmult_le_compat; lra). assert (0 < (nb * n) * (nb * n)) by (apply Rmult_lt_0_compat; lra). lra. }
    right. split; [lia|]. exists (-1), kap. pose proof (neg_dir b B) as [_ NN]. rewrite Eb, norm_neg in NN. fold nb in NN.
    assert (EP : rval (v2perp (v2neg b)) = J (pneg (rval b))) by (unfold rval, v2perp, v2neg, J, pneg; cbn [vx vy fst snd]; rewrite !val_neg; reflexivity). split.
    + split; [exact A|]. split; [exact B|]. split; [exact O|]. split; [lra|]. split; [unfold kap; lra|]. split; [|split].
      * exists (pdot (rval b) W / (n * n)). assert (Pn : 0 < n) by lra. assert (Pnn : 0 < n * n) by (apply Rmult_lt_0_compat; lra). split; [apply Rdiv_lt_0_compat; assumption|]. fold W. rewrite EP.
        set (l := pdot (rval b) W / (n * n)). replace (psub (J (pneg (rval b))) (pscale (l * -1) (J W))) with (pneg (J (psub (rval b) (pscale l W)))) by (apply pt_eq; cbn; ring). rewrite norm_neg, J_norm. fold n.
        assert (EL : l * (n * n) = pdot (rval b) W) by (unfold l; field; lra).
        assert (EC : norm (psub (rval b) (pscale l W)) * n = C).
        { set (e := psub (rval b) (pscale l W)). assert (PE : 0 <= norm e) by apply norm_nonneg. assert (Hd : pdot e W = 0) by (unfold e; rewrite pdot_sub_l, (pdot_comm (pscale _ _)), pdot_scale_r, <- norm_sq; fold n; lra).
          assert (Hc : pcross e W = pcross (rval a) (rval b)) by (unfold e, W, pcross, psub, pscale; cbn; ring).
          pose proof (lagrange_id e W) as L. rewrite Hd, Hc, <- !norm_sq in L. fold n in L. apply Rsqr_inj; [apply Rmult_le_pos; lra | exact PC|]. unfold Rsqr. replace (C * C) with (pcross (rval a) (rval b) * pcross (rval a) (rval b)) by (unfold C; rewrite <- Rabs_mult; symmetry; apply Rabs_pos_eq; nra). lra. }
        apply Rmult_le_reg_r with n; [exact Pn|]. rewrite EC. replace (kap * (l * n) * n) with (kap * (l * (n * n))) by ring. rewrite EL. unfold kap. lra.
      * destruct (neg32 b (proj1 B)) as [[N1 N2] _]. split; cbn [v2perp vx vy]; [apply fin_neg; exact N2 | exact N1].
      * rewrite EP, J_norm, norm_neg. exact NN.
    + fold C. unfold mu. assert (M1 : C <= Rabs (val q) + (5 * u32 * (n * na) + 3 * tiny)) by exact HC.
      assert (M2 : n * na <= 128 * dl * (64 * dl)) by (apply Rmult_le_compat; lra). assert (M0 : 0 <= n * na) by (apply Rmult_le_pos; lra).
      assert (M3 : 5 * u32 * (n * na) <= 5 * (1 / 16777216) * (128 * dl * (64 * dl))) by (apply Rmult_le_compat; lra). assert (M4 : u32 / 100 * (dl * dl) <= 1 / 16777216 * (dl * dl)) by (apply Rmult_le_compat_r; lra).
      assert (M5 : Rabs (val q) <= 1 / 10000 * (dl * dl)).
      { apply Rmult_le_reg_r with n; [lra|]. fold X. eapply Rle_trans; [exact UX|]. assert (/ 8 * / 8 <= dl * dl) by (apply Rmult_le_compat; lra). assert (1 / 10000 * (/ 8 * / 8) * (141 / 800) <= 1 / 10000 * (dl * dl) * n) by (apply Rmult_le_compat; lra). lra. }
      lra.
Qed.
Local Notation Next := (Next dl D Vis).
Lemma good_dir n b c d : Good n b c d -> dir_ok d.
Proof. intros [(sg & P & (_ & _ & _ & _ & _ & _ & H) & _)|(_ & sg & k & (_ & _ & _ & _ & _ & _ & H) & _)]; exact H. Qed.
Lemma good_count n b c d : Good n b c d -> (n <= 17)%nat.
Proof. intros [E|[E _]]; [apply (exact_count dl D Vis Hfew _ _ _ _ E) | exact E]. Qed.
Lemma fit_dir d : dir_ok d -> fle (v2dot (sup d) d) f0 = false.
Proof. intro H. pose proof (sup_ok dl sup D Vis Hsup HD d H) as A. destruct (Hsup d H) as (_ & _ & G & _). apply (fit32 dl Hlo Hhi); try assumption; apply H. Qed.
Lemma big_dir d : fin2 d -> norm (rval d) <= bpow radix2 59 -> direction_is_too_small d = false -> bpow radix2 (-24) <= norm (rval d).
Proof. intros F U T. destruct (too_small32 d F U) as [_ H]. specialize (H T). eapply Rle_trans; [|exact H]. replace (-23)%Z with (1 + -24)%Z by reflexivity. rewrite bpow_plus. change (bpow radix2 1) with 2. pose proof (bpow_gt_0 radix2 (-24)). lra. Qed.
Lemma neg_not_small b : okp b -> direction_is_too_small (v2neg b) = false.
Proof.
  intro B. destruct (neg_dir b B) as (F & L & U). destruct (direction_is_too_small (v2neg b)) eqn:T; [|reflexivity]. exfalso. destruct (too_small32 _ F U) as [H _]. specialize (H T). destruct (neg32 b (proj1 B)) as [_ E]. rewrite E, norm_neg in H.
  destruct B as [_ [B _]]. assert (bpow radix2 (-20) = 8 * bpow radix2 (-23)) by (change 8 with (bpow radix2 3); rewrite <- bpow_plus; reflexivity). pose proof (bpow_gt_0 radix2 (-23)). lra.
Qed.
Definition hit (o : outcome b32) : Prop := exists s, o = Captured s /\ length s = 3%nat.
Lemma late_ff : forall fuel n s d, Next n s d -> (18 <= n + fuel)%nat -> hit (run_ff sup fuel s d) \/ exists s' d', run_ff sup fuel s d = TooSmall s' d'.
Proof.
  induction fuel as [|fuel IH]; intros n s d (b & c & -> & G) L; [pose proof (good_count _ _ _ _ G); lia|]. cbn [run_ff]. rewrite (fit_dir d (good_dir _ _ _ _ G)).
  destruct (tri_step dl Hlo Hhi sup D Vis Hsup HD Hfew n b c d G) as [(s' & E & L3)|(s' & d' & E & (F & U & _) & N)]; rewrite E.
  - left. exists s'. split; [reflexivity | exact L3].
  - destruct (direction_is_too_small d') eqn:T; [right; exists s', d'; reflexivity|]. apply (IH (S n)); [apply N, big_dir; assumption | lia].
Qed.
Lemma start_good d0 : dir_ok d0 -> let b := sup d0 in okp b /\ Vis (rval b) /\ add_point [] b = Ok ([b], (false, v2neg b)).
Proof. intros H b. split; [apply (sup_ok dl sup D Vis Hsup HD d0 H)|]. split; [apply (Hsup d0 H) | reflexivity]. Qed.
Lemma deep_ff d0 : dir_ok d0 -> exists v, gjk_ff sup d0 = Ok (true, v).
Proof.
  intro H. destruct (start_good d0 H) as (B & Vb & E0). set (b := sup d0) in * . pose proof (neg_dir b B) as Hn. destruct (seg_step b B Vb) as (r & E1 & Fr & Ur & G & _).
  unfold gjk_ff. pose (m := 18%nat). change 20%nat with (S (S m)). assert (HM : (18 <= m)%nat) by (unfold m; lia). clearbody m. cbn [run_ff]. rewrite (fit_dir d0 H). fold b. rewrite E0, (neg_not_small b B), (fit_dir _ Hn), E1.
  destruct (direction_is_too_small r) eqn:T; [eauto|]. destruct (late_ff m 0 [sup (v2neg b); b] r) as [(s & -> & _)|(s & d & ->)]; [exists (sup (v2neg b)), b; split; [reflexivity | apply G; reflexivity] | lia | eauto | eauto].
Qed.
Hypothesis H8 : / 8 <= dl.
Lemma late_dir d : LateDir dl d -> direction_is_too_small d = false /\ bpow radix2 (-24) <= norm (rval d).
Proof.
  intros (F & U & L). assert (/ 8 * / 8 <= dl * dl) by (apply Rmult_le_compat; lra). assert (/ 8 * / 8 * / 8 <= dl * dl * dl) by (apply Rmult_le_compat; lra). assert (B23 : bpow radix2 (-23) = / 8388608) by (cbn; lra). split.
  - destruct (direction_is_too_small d) eqn:T; [|reflexivity]. exfalso. destruct (too_small32 d F U) as [K _]. specialize (K T). lra.
  - apply Rle_trans with (bpow radix2 (-23)); [apply bpow_le; lia | lra].
Qed.
Lemma late_tf : forall fuel n s d, Next n s d -> (18 <= n + fuel)%nat -> hit (run_tf sup fuel s d).
Proof.
  induction fuel as [|fuel IH]; intros n s d (b & c & -> & G) L; [pose proof (good_count _ _ _ _ G); lia|]. cbn [run_tf]. rewrite (fit_dir d (good_dir _ _ _ _ G)).
  destruct (tri_step dl Hlo Hhi sup D Vis Hsup HD Hfew n b c d G) as [(s' & E & L3)|(s' & d' & E & LD & N)]; rewrite E.
  - exists s'. split; [reflexivity | exact L3].
  - destruct (late_dir d' LD) as [T BD]. rewrite T. apply (IH (S n)); [apply N, BD | lia].
Qed.
Lemma late_ft : forall fuel n s la d, Next n s d -> (18 <= n + fuel)%nat -> hit (run_ft sup fuel s la d).
Proof.
  induction fuel as [|fuel IH]; intros n s la d (b & c & -> & G) L; [pose proof (good_count _ _ _ _ G); lia|]. cbn [run_ft]. rewrite (fit_dir d (good_dir _ _ _ _ G)). cbn [andb].
  destruct (tri_step dl Hlo Hhi sup D Vis Hsup HD Hfew n b c d G) as [(s' & E & L3)|(s' & d' & E & LD & N)]; rewrite E.
  - exists s'. split; [reflexivity | exact L3].
  - destruct (late_dir d' LD) as [T BD]. rewrite T. apply (IH (S n)); [apply N, BD | lia].
Qed.
Lemma late_tt : forall fuel n s la d, Next n s d -> (18 <= n + fuel)%nat -> hit (run_tt sup fuel s la d true).
Proof.
  induction fuel as [|fuel IH]; intros n s la d (b & c & -> & G) L; [pose proof (good_count _ _ _ _ G); lia|]. cbn [run_tt]. rewrite (fit_dir d (good_dir _ _ _ _ G)). cbn [andb negb].
  destruct (tri_step dl Hlo Hhi sup D Vis Hsup HD Hfew n b c d G) as [(s' & E & L3)|(s' & d' & E & LD & N)]; rewrite E; cbn [andb negb].
  - exists s'. split; [reflexivity | exact L3].
  - destruct (late_dir d' LD) as [T BD]. rewrite T. apply (IH (S n)); [apply N, BD | lia].
Qed.
Lemma second b : okp b -> Vis (rval b) -> exists s r, add_point [b] (sup (v2neg b)) = Ok (s, (false, r)) /\ Next 0 s (if direction_is_too_small r then v2perp (v2neg b) else r).
Proof.
  intros B Vb. destruct (seg_step b B Vb) as (r & E1 & Fr & Ur & G1 & G2). exists [sup (v2neg b); b], r. split; [exact E1|]. exists (sup (v2neg b)), b. split; [reflexivity|].
  destruct (direction_is_too_small r); [apply G2; [reflexivity | exact H8] | apply G1; reflexivity].
Qed.
Lemma ccw_of s : length s = 3%nat -> exists t, enforce_ccw (F:=b32) s = Ok t.
Proof. destruct s as [|a [|b [|c [|? ?]]]]; try discriminate. intros _. cbn [enforce_ccw]. destruct (flt _ _); eauto. Qed.
Theorem deep_gjk P E d0 : dir_ok d0 -> exists v, gjk sup P E d0 = Ok (true, v).
Proof.
  intro H. destruct (start_good d0 H) as (B & Vb & E0). set (b := sup d0) in * . pose proof (neg_dir b B) as Hn. destruct (second b B Vb) as (s & r & E1 & N).
  destruct P, E; cbn [gjk].
  - unfold gjk_tt, start_tt. fold b. rewrite E0. pose (m := 19%nat). change 20%nat with (S m). assert (HM : (18 <= m)%nat) by (unfold m; lia). clearbody m. cbn [run_tt]. rewrite (fit_dir _ Hn), E1. cbn [andb negb].
    destruct (late_tt m 0 _ (sup (v2neg b)) _ N ltac:(lia)) as (s' & -> & L3). destruct (ccw_of s' L3) as (t & ->). cbn [rmap]. eauto.
  - unfold gjk_tf. pose (m := 18%nat). change 20%nat with (S (S m)). assert (HM : (18 <= m)%nat) by (unfold m; lia). clearbody m. cbn [run_tf]. rewrite (fit_dir d0 H). fold b. rewrite E0, (neg_not_small b B), (fit_dir _ Hn), E1.
    destruct (late_tf m 0 _ _ N ltac:(lia)) as (s' & -> & L3). destruct (ccw_of s' L3) as (t & ->). cbn [rmap]. eauto.
  - unfold gjk_ft, start_ft. fold b. rewrite E0. pose (m := 19%nat). change 20%nat with (S m). assert (HM : (18 <= m)%nat) by (unfold m; lia). clearbody m. cbn [run_ft]. rewrite (fit_dir _ Hn), E1. cbn [andb].
    destruct (late_ft m 0 _ (sup (v2neg b)) _ N ltac:(lia)) as (s' & -> & L3). rewrite L3. exists v2nan. reflexivity.
  - apply deep_ff. exact H.
Qed.
End Search.
