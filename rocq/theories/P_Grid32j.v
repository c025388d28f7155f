(** * Penetration and distance vectors of the f32 search on small grids, the support point depending on signs of zeros. *)
From Coq Require Import Reals ZArith Bool Lra Lia List Psatz.
From Flocq Require Import IEEE754.BinarySingleNaN Core Relative.
From Verif Require Import Num NumXR NumB32 Glam Transform2 Shapes2 Gjk Detect2 Spec SpecLink SpecGjk P_Base P_Transform P_Shapes P_Geo P_GjkShape P_Gjk P_Gjk2 P_Gjk3 P_Dist P_Scene P_Epa
  Props_Gjk Props_Dist Props_Epa P_B32 Props_F32 P_Grid32 P_Grid32b P_Grid32e P_Grid32f P_Grid32g P_Grid32h P_Grid32i.
Import ListNotations.
Local Open Scope R_scope.

Section RunW.
Variable e : Z.
Hypothesis He : (-7 <= e <= 14)%Z.
Local Notation u := (bpow radix2 e).
Local Notation pe := (pe e).
Variables (M : pset) (V : list pt) (K rho : R) (s0 : pt -> pt).
Local Notation W := (fun v => In v V).
Local Notation WW := (WW M W).
Hypothesis HM : forall m, M m -> norm m <= rho.
Hypothesis K0 : 2 * (2 * 10 ^ 19) <= K.
Hypothesis K1 : 2 * rho <= K.
Hypothesis HC : convex M.
Hypothesis Hs0 : forall d, norm d <= K -> is_farthest M d (s0 d) /\ In (s0 d) V.
Variable sup32 : vec2 b32 -> vec2 b32.
Hypothesis Hs : forall d, diri e d (inj (rv d)) -> exists w, pti e (sup32 d) (inj w) /\ is_farthest M (rv d) w /\ In w V.
Hypothesis HO : M origin.
Local Notation vertW := (vertW M V).

Definition PolyW (E : list (pt * pt)) : Prop := Forall (fun x => vertW (fst x) /\ vertW (snd x) /\ okedge x) E /\ cover E.
Definition ends (E : list (pt * pt)) : list pt := map fst E ++ map snd E.
Lemma ends_WW E : PolyW E -> Forall WW (ends E).
Proof.
  intros [F _]. unfold ends. apply Forall_app. split; apply Forall_forall; intros v I; apply in_map_iff in I; destruct I as (x & <- & I);
    rewrite Forall_forall in F; destruct (F x I) as (A & B & _); apply (vertW_WW M V); assumption.
Qed.
Lemma Poly_to s' E : PolyW E -> Forall (value s' K) (ends E) -> Poly M s' K E.
Proof.
  intros [F C] G. split; [|exact C]. unfold ends in G. apply Forall_app in G. destruct G as [G1 G2]. rewrite Forall_forall in * . intros x I. destruct (F x I) as (A & B & O).
  split; [split; [apply A | apply G1, in_map, I]|]. split; [split; [apply B | apply G2, in_map, I] | exact O].
Qed.
Lemma Poly_from s' E : (forall v, value s' K v -> WW v) -> Poly M s' K E -> PolyW E.
Proof.
  intros H [F C]. split; [|exact C]. eapply Forall_impl; [|exact F]. cbn beta. intros x (A & B & O).
  split; [apply (vert_from M V K s' _ H A)|]. split; [apply (vert_from M V K s' _ H B) | exact O].
Qed.
Lemma pathW_verts p l : PolyW (path p l p) -> Forall (fun x => fst x <> snd x) (path p l p).
Proof. intros [F _]. eapply Forall_impl; [|exact F]. intros x (_ & _ & OK). apply okedge_ne, OK. Qed.
Local Notation good_vector2 := (good_vector2 M).

Lemma stepW n p l P L : pe p P -> Forall2 pe l L -> PolyW (path P L P) ->
  (exists v w, epa_run sup32 (S n) (p :: l) = Some v /\ near e v w /\ good_vector2 w) \/
  (exists l' L', epa_run sup32 (S n) (p :: l) = epa_run sup32 n (p :: l') /\ Forall2 pe l' L' /\ PolyW (path P L' P) /\ (mu V (path P L' P) < mu V (path P L P))%nat).
Proof.
  intros Hp F PW. destruct (closest32 e He p l P L Hp F (pathW_verts P L PW)) as (i & a & b & A & B & EC & NE & Ha & Hb & MIN).
  assert (OK0 : okedge (A, B)) by (destruct PW as [FF _]; rewrite Forall_forall in FF; apply (FF _ (nth_error_In _ _ NE))).
  pose proof (dir_normal e He a b A B Ha Hb (okedge_ne _ OK0)) as DN. destruct (new32 e He M V K K0 sup32 Hs _ _ DN) as (X & PX & FX0 & IX).
  destruct (diri_inj e He K K0 _ _ DN) as (_ & NH & _).
  destruct (pick M W K s0 (K_pos K K0) Hs0 (ends (path P L P)) (nrm A B) X (ends_WW _ PW) NH FX0 (WW_new M V _ _ (nrm_ne A B (okedge_ne _ OK0)) FX0 IX)) as (s & Hfar & EX & VS & VW).
  pose proof (Poly_to s _ PW VS) as PO. pose proof (edge_ok M s K P L i A B PO NE) as OK. pose proof (okedge_ne _ OK) as N. cbn [fst snd] in N.
  pose proof (okedge_nonneg A B OK) as H0. pose proof (u_pos e) as U0. assert (UP : 0 < u * u) by (apply Rmult_lt_0_compat; lra).
  assert (VV : vert M s K A /\ vert M s K B) by (destruct PO as [FF _]; rewrite Forall_forall in FF; destruct (FF _ (nth_error_In _ _ NE)) as (V1 & V2 & _); split; assumption).
  destruct VV as [Va Vb].
  assert (HK : norm (nrm A B) <= K).
  { rewrite nrm_norm. eapply Rle_trans; [apply (diff_bound M rho HM); apply (vert_M M s K); assumption | exact K1]. }
  set (nn := nrm A B) in * . set (n32 := perp_right (v2sub b a)) in * . set (x := sup32 n32) in * .
  destruct FX0 as [MX FX].
  destruct (fit32 e He x X a b A B PX Ha Hb N) as (f & IF & EF & BF). fold nn n32 in IF, EF.
  destruct (fit32 e He a A a b A B Ha Ha Hb N) as (g & IG & EG & BG). fold nn n32 in IG, EG. rewrite EF in IF. rewrite EG in IG.
  assert (EG' : pcross A B = IZR g * (u * u)) by (rewrite <- EG; symmetry; apply nrm_a).
  assert (G0 : (0 <= g)%Z) by (apply le_IZR; rewrite EG' in H0; apply Rnot_lt_le; intro C; nra).
  cbn [epa_run]. rewrite EC. fold n32. fold x.
  pose proof (better32 e He _ _ f g IF IG G0 BG) as BT. destruct (sufficiently_better _ _ _); cbn [negb].
  - right. assert (FG : pcross A B < pdot nn X) by (rewrite EF, EG'; apply Rmult_lt_compat_r; [exact UP | apply IZR_lt; exact BT]).
    assert (BE : beyond_edge A B (s (nrm A B))) by (apply (support_beyond M s K Hfar); try assumption; fold nn; rewrite EX; exact FG).
    destruct (poly_insert M s K P L i A B PO NE HK BE (new_vert M s K Hfar A B OK HK BE)) as (E1 & E3 & EP & EI & P').
    fold nn in EI, P', BE. rewrite EX in EI, P', BE.
    exists (firstn i l ++ x :: skipn i l), (firstn i L ++ X :: skipn i L). split; [unfold insert_after; cbn [firstn skipn app]; reflexivity|].
    split; [apply Forall2_app; [apply F2_firstn, F | constructor; [exact PX | apply F2_skipn, F]]|].
    split; [apply (Poly_from s _ VW P')|]. rewrite EI, EP. apply (mu_insert V E1 E3 A B X OK BE IX).
  - left. destruct (normal32 e He a b A B Ha Hb N) as (m & k & d & IN & BN & Ed & Bd & DD & ID). fold nn n32 in IN, DD, ID.
    assert (RV : nn = (IZR m * u, IZR k * u) /\ rv n32 = (IZR m * u, IZR k * u) /\ fin2 n32).
    { destruct IN as [(F1 & V1 & W1) (F2 & V2 & W2)]. cbn [fst snd vx vy inj] in * . rewrite Z.mul_1_l in * .
      split; [apply pt_eq; cbn [fst snd]; congruence|]. split; [unfold rv; rewrite V1, V2; reflexivity | split; assumption]. }
    destruct RV as (RN & RV & FN).
    assert (XI : exists x1 x2, (Z.abs x1 <= 32 /\ Z.abs x2 <= 32 /\ f = x1 * m + x2 * k)%Z).
    { destruct PX as ([x1 x2] & [B1 B2] & [(_ & _ & W1) (_ & _ & W2)]). cbn [fst snd vx vy inj] in * . rewrite Z.mul_1_l in * . exists x1, x2. split; [exact B1|]. split; [exact B2|].
      apply eq_IZR. rewrite plus_IZR, !mult_IZR. apply Rmult_eq_reg_r with (u * u); [|lra]. rewrite <- EF, RN. unfold pdot; cbn [fst snd].
      assert (W1' : fst X = IZR x1 * u) by congruence. assert (W2' : snd X = IZR x2 * u) by congruence. rewrite W1', W2'. ring. }
    pose proof (scaled32 e He n32 m k d f _ _ BN Ed Bd BF XI FN RV IF ID) as NR. rewrite <- RN, <- EF, <- DD in NR.
    eexists _, _. split; [reflexivity|]. split; [exact NR|].
    set (ft := pdot nn X) in * . pose proof (nrm_ne A B N) as Nn. fold nn in Nn. pose proof (dot_pos nn Nn) as Pn.
    assert (F0 : 0 <= ft).
    { pose proof (FX origin HO) as Q. replace (pdot nn origin) with 0 in Q by (unfold pdot, origin; cbn; ring). lra. }
    split.
    + exists nn. split; [exact Nn|]. intros q Hq. rewrite pdot_add_r, pdot_scale_r. pose proof (FX q Hq) as Q.
      replace (- ft / pdot nn nn * pdot nn nn) with (- ft) by (field; lra). lra.
    + intros w NO. pose proof (norm_nonneg w) as W0.
      assert (VN : norm (pscale (- ft / pdot nn nn) nn) = ft / norm nn).
      { rewrite norm_scale. assert (P2 : 0 < norm nn) by (apply norm_pos, Nn). rewrite <- norm_sq. unfold Rdiv. rewrite Rabs_mult, Rabs_Ropp, (Rabs_pos_eq ft) by exact F0.
        rewrite Rabs_pos_eq by (apply Rlt_le, Rinv_0_lt_compat, Rmult_lt_0_compat; exact P2). field. lra. }
      rewrite VN. destruct BT as [[-> BT]|[G1 BT]].
      { assert (ft = 0). { apply Rle_antisym; [|exact F0]. rewrite EF. apply IZR_le in BT. nra. } replace (ft / norm nn) with 0 by (rewrite H; unfold Rdiv; ring). nra. }
      set (c := norm (segp A B)) in * . assert (P2 : 0 < norm nn) by (apply norm_pos, Nn).
      assert (SL : pcross A B <= norm nn * c).
      { pose proof (segd_line A B) as SL. fold nn in SL. unfold segd in SL. rewrite <- !norm_sq in SL. fold c in SL.
        apply Rsqr_incr_0; unfold Rsqr; [lra | exact H0 | apply Rmult_le_pos; [lra | apply norm_nonneg]]. }
      assert (N91 : norm nn <= 91 * u).
      { apply norm_le_sq; [lra|]. rewrite DD. assert (IZR d <= 8192) by (apply (IZR_le _ 8192); lia). nra. }
      assert (G1R : 1 <= IZR g) by (apply (IZR_le 1); exact G1).
      assert (C91 : u / 91 <= c). { assert (u * u <= 91 * u * c) by (apply Rle_trans with (norm nn * c); [rewrite EG' in SL; nra|]; apply Rmult_le_compat_r; [apply norm_nonneg | exact N91]).
        apply Rmult_le_reg_l with (91 * u); [lra|]. replace (91 * u * (u / 91)) with (u * u) by field. exact H. }
      assert (CW : 1000 * c <= 1007 * norm w).
      { apply Rnot_lt_le. intro C. apply NO. set (r := 1000 / 1007 * c) in * . assert (RW : norm w < r) by (unfold r; lra).
        exists (r - norm w). split; [lra|]. intros y Hy. apply (ball_inside M s K HC HO _ (r * r) PO).
        - apply Forall_forall. intros E I. pose proof (MIN E I C91) as Q. fold c in Q. unfold segd. rewrite <- norm_sq. assert (0 <= r) by lra. apply Rmult_le_compat; [lra | lra | unfold r; lra | unfold r; lra].
        - rewrite <- norm_sq. pose proof (norm_psub y w). pose proof (norm_nonneg (psub y w)). apply Rmult_le_0_lt_compat; lra. }
      apply Rmult_le_reg_r with (norm nn); [exact P2|]. unfold Rdiv. rewrite Rmult_assoc, Rinv_l, Rmult_1_r by lra.
      assert (FT : 10000 * ft <= 10101 * pcross A B). { rewrite EF, EG', <- !Rmult_assoc. apply Rmult_le_compat_r; [lra|]. apply Rmult_le_compat_r; [lra|]. rewrite <- !mult_IZR. apply IZR_le. exact BT. }
      assert (Q : norm nn * c <= norm nn * (1007 / 1000 * norm w)) by (apply Rmult_le_compat_l; lra). assert (0 <= norm nn * norm w) by (apply Rmult_le_pos; lra). lra.
Qed.

Lemma resultW n : forall p l P L v, pe p P -> Forall2 pe l L -> PolyW (path P L P) -> epa_run sup32 n (p :: l) = Some v -> exists w, near e v w /\ good_vector2 w.
Proof.
  induction n as [|n IH]; intros p l P L v Hp F PO E; [discriminate|].
  destruct (stepW n p l P L Hp F PO) as [(v' & w & E' & H)|(l' & L' & E' & F' & P' & _)]; rewrite E' in E.
  - injection E as <-. exists w. exact H.
  - apply (IH p l' P L' v Hp F' P' E).
Qed.
Lemma convergesW n : forall p l P L, pe p P -> Forall2 pe l L -> PolyW (path P L P) -> (mu V (path P L P) <= n)%nat ->
  exists v w, epa_run sup32 (S n) (p :: l) = Some v /\ near e v w /\ good_vector2 w.
Proof.
  induction n as [|n IH]; intros p l P L Hp F PO LE.
  - destruct (stepW 0 p l P L Hp F PO) as [H|(l' & L' & E' & F' & P' & Q)]; [exact H | lia].
  - destruct (stepW (S n) p l P L Hp F PO) as [H|(l' & L' & E' & F' & P' & Q)]; [exact H|]. rewrite E'. apply (IH p l' P L' Hp F' P'). lia.
Qed.
Lemma tri32W l x y z : Forall2 (pti e) l (map inj [x; y; z]) -> triW M V x y z -> (length V <= 20)%nat ->
  exists l' v w, enforce_ccw l = Ok l' /\ epa sup32 20 l' = v /\ near e v w /\ good_vector2 w.
Proof.
  intros F T3 L. apply F2_map in F. destruct (ccw32 e He l [x; y; z] F eq_refl) as (l' & S' & E1 & E2 & F').
  destruct T3 as (Vx & Vy & Vz & T3).
  assert (FW : Forall WW [x; y; z]) by (repeat apply Forall_cons; try apply Forall_nil; apply (vertW_WW M V); assumption).
  destruct (fine_base M W K s0 (K_pos K K0) Hs0) as (s1 & F1). pose proof (K_pos K K0) as KP.
  destruct (pick_list M W K KP [x; y; z] FW s1 0 F1 ltac:(lra)) as (s & Fs & _ & FA).
  assert (VS : Forall (value s K) [x; y; z]) by (eapply Forall_impl; [|exact FA]; cbn beta; intros v (q & Q & E); exists q; split; [lra | exact E]).
  assert (VW : forall v, value s K v -> WW v) by (intros v (q & Q & ->); apply Fs, Q).
  assert (TS : tri M s K x y z).
  { inversion VS as [|? ? Qx VS1]; subst. inversion VS1 as [|? ? Qy VS2]; subst. inversion VS2 as [|? ? Qz _]; subst.
    split; [split; [apply Vx | exact Qx]|]. split; [split; [apply Vy | exact Qy]|]. split; [split; [apply Vz | exact Qz] | exact T3]. }
  destruct (tri_ccw M s K x y z TS) as (p & q & r & E3 & CC). rewrite E2 in E3.
  assert (ES : S' = [p; q; r]). { assert (Q : map inj S' = map inj [p; q; r]) by congruence. clear - Q. destruct S' as [|a [|b [|c [|? ?]]]]; cbn in Q; try discriminate.
    assert (Qa : inj a = inj p) by (cbn; congruence). assert (Qb : inj b = inj q) by (cbn; congruence). assert (Qc : inj c = inj r) by (cbn; congruence).
    apply inj_inj in Qa. apply inj_inj in Qb. apply inj_inj in Qc. subst. reflexivity. }
  subst S'. pose proof (Poly_from s _ VW (ccw_poly M s K p q r CC)) as PO. assert (I : In p V) by (destruct CC as ([_ Q] & _); apply (VW p Q)).
  pose proof (mu_triangle M s K V p q r CC I) as Mu.
  inversion F' as [|a A l1 S1 Ha F1']; subst.
  destruct (convergesW 19 a l1 p [q; r] Ha F1' PO ltac:(lia)) as (v & w & Ev & H). exists (a :: l1), v, w. split; [reflexivity || exact E1|]. split; [|exact H].
  unfold epa. rewrite Ev. reflexivity.
Qed.

(** ** whole queries *)
Hypothesis K3 : 8 * (rho * rho * rho) <= K.
Hypothesis HVM : forall v, In v V -> M v.
Hypothesis Res : resolvable W.
Variables (dir32 : vec2 b32) (d0 : pt).
Hypothesis Hd : diri e dir32 (inj d0).
Hypothesis Hd0 : d0 <> origin.
Theorem vectorW D : ~ behind M -> (length V <= 20)%nat -> exists v w, gjk sup32 true D dir32 = Ok (true, v) /\ near e v w /\ good_vector2 w.
Proof.
  intros NB L. destruct D; cbn [gjk].
  - destruct (tt32_found e He M V K rho s0 HM K0 K1 K3 HC Hs0 HVM Res sup32 Hs NB dir32 d0 Hd Hd0 ltac:(lia)) as (l & x & y & z & E & F & T3). unfold gjk_tt. rewrite E.
    destruct (tri32W l x y z F T3 L) as (l' & v & w & E1 & <- & H). rewrite E1. eexists _, w. split; [reflexivity | exact H].
  - destruct (tf32_found e He M V K rho s0 HM K0 K1 K3 HC Hs0 HVM Res sup32 Hs NB dir32 d0 Hd Hd0 L) as (l & x & y & z & E & F & T3). unfold gjk_tf. rewrite E.
    destruct (tri32W l x y z F T3 L) as (l' & v & w & E1 & <- & H). rewrite E1. eexists _, w. split; [reflexivity | exact H].
Qed.
End RunW.

(** distance vectors *)
Section Far.
Variable e : Z.
Hypothesis He : (-7 <= e <= 14)%Z.
Variables (M : pset) (V : list pt) (K rho : R) (s0 : pt -> pt).
Local Notation W := (fun v => In v V).
Hypothesis HM : forall m, M m -> norm m <= rho.
Hypothesis K0 : 2 * (2 * 10 ^ 19) <= K.
Hypothesis K1 : 2 * rho <= K.
Hypothesis K3 : 8 * (rho * rho * rho) <= K.
Hypothesis HC : convex M.
Hypothesis Hs0 : forall d, norm d <= K -> is_farthest M d (s0 d) /\ In (s0 d) V.
Hypothesis HVM : forall v, In v V -> M v.
Hypothesis Res : resolvable W.
Variable sup32 : vec2 b32 -> vec2 b32.
Hypothesis Hs : forall d, diri e d (inj (rv d)) -> exists w, pti e (sup32 d) (inj w) /\ is_farthest M (rv d) w /\ In w V.
Variables (dir32 : vec2 b32) (d0 : pt).
Hypothesis Hd : diri e dir32 (inj d0).
Hypothesis Hd0 : d0 <> origin.
Lemma StW_near S n l : StW M V K S n -> Forall2 (pti e) l (map inj S) -> exists v w, distance_to_origin l = Ok v /\ near e v w /\ M (pneg w).
Proof.
  intros I F. apply F2_map in F. pose proof I as (FW & _). pose proof (K_pos K K0) as KP.
  destruct (fine_base M W K s0 KP Hs0) as (s1 & F1).
  destruct (pick_list M W K KP S FW s1 0 F1 ltac:(lra)) as (s & Fs & _ & FA).
  assert (VS : Forall (value s K) S) by (eapply Forall_impl; [|exact FA]; cbn beta; intros v (q & Q & E); exists q; split; [lra | exact E]).
  pose proof (StW_len M V K S n I) as LS.
  destruct (St_finite M s K S n (St_to M V K K0 HVM s S n I VS)) as (w & E).
  destruct (dto_near e He l S F LS w E) as (v & Ev & N). exists v, w. split; [exact Ev|]. split; [exact N|].
  apply (dto_in M S w HC); [|exact LS | exact E]. eapply Forall_impl; [|exact FW]. intros q [Q _]. apply HVM, Q.
Qed.
Theorem distanceW P v : gjk sup32 P true dir32 = Ok (false, v) -> exists w, near e v w /\ M (pneg w).
Proof.
  intro E. destruct P; cbn [gjk] in E.
  - pose proof (start_tt32 e He M V K rho s0 HM K0 K1 K3 HC Hs0 HVM Res sup32 Hs dir32 d0 Hd Hd0) as H.
    unfold gjk_tt in E. destruct (start_tt sup32 dir32) as [l d|l|l d|l|p]; cbn [goodW] in H; try contradiction.
    + destruct H as (S & n & F & I). destruct (StW_near S n l I F) as (v' & w & E' & H). rewrite E' in E. injection E as <-. exists w. exact H.
    + destruct (enforce_ccw l); discriminate.
    + destruct H as (S & n & F & I). destruct (StW_near S n l I F) as (v' & w & E' & H). rewrite E' in E. injection E as <-. exists w. exact H.
  - pose proof (start_ft32 e He M V K rho s0 HM K0 K1 K3 HC Hs0 HVM Res sup32 Hs dir32 d0 Hd Hd0) as H.
    unfold gjk_ft in E. destruct (start_ft sup32 dir32) as [l d|l|l d|l|p]; cbn [goodW] in H; try contradiction.
    + destruct H as (S & n & F & I). destruct (StW_near S n l I F) as (v' & w & E' & H). rewrite E' in E. injection E as <-. exists w. exact H.
    + destruct (Nat.eqb _ _); discriminate.
    + destruct H as (S & n & F & I). destruct (StW_near S n l I F) as (v' & w & E' & H). rewrite E' in E. injection E as <-. exists w. exact H.
Qed.
End Far.
