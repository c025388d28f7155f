(** * Penetration and distance vectors of the f32 search on small grids: whole queries. *)
From Coq Require Import Reals ZArith Bool Lra Lia List Psatz.
From Flocq Require Import IEEE754.BinarySingleNaN Core Relative.
From Verif Require Import Num NumXR NumB32 Glam Transform2 Shapes2 Gjk Detect2 Spec SpecLink SpecGjk P_Base P_Transform P_Shapes P_Geo P_GjkShape P_Gjk P_Gjk2 P_Gjk3 P_Dist P_Scene P_Epa
  Props_Gjk Props_Dist Props_Epa P_B32 Props_F32 P_Grid32 P_Grid32b P_Grid32e P_Grid32f P_Grid32g.
Import ListNotations.
Local Open Scope R_scope.

Section Run.
Variable e : Z.
Hypothesis He : (-7 <= e <= 14)%Z.
Local Notation u := (bpow radix2 e).
Local Notation pe := (pe e).
Variables (M : pset) (s : pt -> pt) (supX : vec2 XR -> vec2 XR) (K rho : R).
Hypothesis Hsup : forall d, norm d <= K -> supX (inj d) = inj (s d).
Hypothesis Hfar : forall d, norm d <= K -> is_farthest M d (s d).
Hypothesis HM : forall m, M m -> norm m <= rho.
Hypothesis K1 : 2 * rho <= K.
Hypothesis HC : convex M.
Hypothesis HO : M origin.
Variable sup32 : vec2 b32 -> vec2 b32.
Hypothesis Hs : forall d d', diri e d d' -> pti e (sup32 d) (supX d').
Local Notation Poly := (Poly M s K).

(** within 2%: the exact search stops within 1%, the rest is rounding *)
Definition good_vector2 (v : pt) : Prop :=
  (exists n, n <> origin /\ forall m, M m -> pdot n (padd m v) <= 0) /\
  (forall w, ~ (exists r, 0 < r /\ forall x, norm x < r -> M (psub x w)) -> norm v <= 102 / 100 * norm w).

Lemma step32 n p l P L : pe p P -> Forall2 pe l L -> Poly (path P L P) -> exists a b i,
  nth_error (path P L P) i = Some (a, b) /\
  ((exists v w, epa_run sup32 (S n) (p :: l) = Some v /\ near e v w /\ good_vector2 w) \/
   (beyond_edge a b (s (nrm a b)) /\ norm (nrm a b) <= K /\ exists l',
    epa_run sup32 (S n) (p :: l) = epa_run sup32 n (p :: l') /\ Forall2 pe l' (firstn i L ++ s (nrm a b) :: skipn i L))).
Proof.
  intros Hp F PO. destruct (closest32 e He p l P L Hp F (path_verts M s K P L PO)) as (i & a & b & A & B & EC & NE & Ha & Hb & MIN).
  exists A, B, i. split; [exact NE|]. pose proof (edge_ok M s K P L i A B PO NE) as OK. pose proof (okedge_ne _ OK) as N. cbn [fst snd] in N.
  pose proof (okedge_nonneg A B OK) as H0. pose proof (u_pos e) as U0. assert (UP : 0 < u * u) by (apply Rmult_lt_0_compat; lra).
  assert (VV : vert M s K A /\ vert M s K B) by (destruct PO as [FF _]; rewrite Forall_forall in FF; destruct (FF _ (nth_error_In _ _ NE)) as (V1 & V2 & _); split; assumption).
  destruct VV as [Va Vb].
  assert (HK : norm (nrm A B) <= K).
  { rewrite nrm_norm. eapply Rle_trans; [apply (diff_bound M rho HM); apply (vert_M M s K); assumption | exact K1]. }
  pose proof (dir_normal e He a b A B Ha Hb N) as DN. pose proof (Hs _ _ DN) as PX. rewrite (Hsup _ HK) in PX.
  set (nn := nrm A B) in * . set (X := s nn) in * . set (n32 := perp_right (v2sub b a)) in * . set (x := sup32 n32) in * .
  destruct (Hfar nn HK) as [MX FX]. fold X in MX, FX.
  destruct (fit32 e He x X a b A B PX Ha Hb N) as (f & IF & EF & BF). fold nn n32 in IF, EF.
  destruct (fit32 e He a A a b A B Ha Ha Hb N) as (g & IG & EG & BG). fold nn n32 in IG, EG. rewrite EF in IF. rewrite EG in IG.
  assert (EG' : pcross A B = IZR g * (u * u)) by (rewrite <- EG; symmetry; apply nrm_a).
  assert (G0 : (0 <= g)%Z) by (apply le_IZR; rewrite EG' in H0; apply Rnot_lt_le; intro C; nra).
  cbn [epa_run]. rewrite EC. fold n32. fold x.
  pose proof (better32 e He _ _ f g IF IG G0 BG) as BT. destruct (sufficiently_better _ _ _); cbn [negb].
  - right. assert (FG : pcross A B < pdot nn X) by (rewrite EF, EG'; apply Rmult_lt_compat_r; [exact UP | apply IZR_lt; exact BT]).
    split; [apply (support_beyond M s K Hfar); try assumption|]. split; [exact HK|].
    exists (firstn i l ++ x :: skipn i l). split; [unfold insert_after; cbn [firstn skipn app]; reflexivity|].
    apply Forall2_app; [apply F2_firstn, F | constructor; [exact PX | apply F2_skipn, F]].
  - left. destruct (normal32 e He a b A B Ha Hb N) as (m & k & d & IN & BN & Ed & Bd & DD & ID). fold nn n32 in IN, DD, ID.
    assert (RV : nn = (IZR m * u, IZR k * u) /\ rv n32 = (IZR m * u, IZR k * u) /\ fin2 n32).
    { destruct IN as [(F1 & V1 & W1) (F2 & V2 & W2)]. cbn [fst snd vx vy inj] in * . rewrite Z.mul_1_l in * .
      split; [apply pt_eq; cbn [fst snd]; congruence|]. split; [unfold rv; rewrite V1, V2; reflexivity | split; assumption]. }
    destruct RV as (RN & RV & FN).
    assert (XI : exists x1 x2, (Z.abs x1 <= 32 /\ Z.abs x2 <= 32 /\ f = x1 * m + x2 * k)%Z).
    { destruct PX as ([x1 x2] & [B1 B2] & [(_ & _ & W1) (_ & _ & W2)]). cbn [fst snd vx vy inj] in * . rewrite Z.mul_1_l in * . exists x1, x2. split; [exact B1|]. split; [exact B2|].
      apply eq_IZR. rewrite plus_IZR, !mult_IZR. apply Rmult_eq_reg_r with (u * u); [|lra]. rewrite <- EF, RN. unfold pdot; cbn [fst snd].
      assert (W1' : fst X = IZR x1 * u) by congruence. assert (W2' : snd X = IZR x2 * u) by congruence. rewrite W1', W2'. ring. }
    pose proof (scaled32 e He n32 m k d f _ _ BN Ed Bd BF XI FN RV IF ID) as NR. rewrite <- RN, <- EF, <- DD in NR.
    eexists _, _. split; [reflexivity|]. split; [exact NR|].
    set (ft := pdot nn X) in * . pose proof (nrm_ne A B N) as Nn. fold nn in Nn. pose proof (dot_pos nn Nn) as Pn.
    assert (F0 : 0 <= ft).
    { pose proof (FX origin HO) as Q. replace (pdot nn origin) with 0 in Q by (unfold pdot, origin; cbn; ring). lra. }
    split.
    + exists nn. split; [exact Nn|]. intros q Hq. rewrite pdot_add_r, pdot_scale_r. pose proof (FX q Hq) as Q.
      replace (- ft / pdot nn nn * pdot nn nn) with (- ft) by (field; lra). lra.
    + intros w NO. pose proof (norm_nonneg w) as W0.
      assert (VN : norm (pscale (- ft / pdot nn nn) nn) = ft / norm nn).
      { rewrite norm_scale. assert (P2 : 0 < norm nn) by (apply norm_pos, Nn). rewrite <- norm_sq. unfold Rdiv. rewrite Rabs_mult, Rabs_Ropp, (Rabs_pos_eq ft) by exact F0.
        rewrite Rabs_pos_eq by (apply Rlt_le, Rinv_0_lt_compat, Rmult_lt_0_compat; exact P2). field. lra. }
      rewrite VN. destruct BT as [[-> BT]|[G1 BT]].
      { assert (ft = 0). { apply Rle_antisym; [|exact F0]. rewrite EF. apply IZR_le in BT. nra. } replace (ft / norm nn) with 0 by (rewrite H; unfold Rdiv; ring). nra. }
      set (c := norm (segp A B)) in * . assert (P2 : 0 < norm nn) by (apply norm_pos, Nn).
      assert (SL : pcross A B <= norm nn * c).
      { pose proof (segd_line A B) as SL. fold nn in SL. unfold segd in SL. rewrite <- !norm_sq in SL. fold c in SL.
        apply Rsqr_incr_0; unfold Rsqr; [lra | exact H0 | apply Rmult_le_pos; [lra | apply norm_nonneg]]. }
      assert (N91 : norm nn <= 91 * u).
      { apply norm_le_sq; [lra|]. rewrite DD. assert (IZR d <= 8192) by (apply (IZR_le _ 8192); lia). nra. }
      assert (G1R : 1 <= IZR g) by (apply (IZR_le 1); exact G1).
      assert (C91 : u / 91 <= c). { assert (u * u <= 91 * u * c) by (apply Rle_trans with (norm nn * c); [rewrite EG' in SL; nra|]; apply Rmult_le_compat_r; [apply norm_nonneg | exact N91]).
        apply Rmult_le_reg_l with (91 * u); [lra|]. replace (91 * u * (u / 91)) with (u * u) by field. exact H. }
      assert (CW : 1000 * c <= 1007 * norm w).
      { apply Rnot_lt_le. intro C. apply NO. set (r := 1000 / 1007 * c) in * . assert (RW : norm w < r) by (unfold r; lra).
        exists (r - norm w). split; [lra|]. intros y Hy. apply (ball_inside M s K HC HO _ (r * r) PO).
        - apply Forall_forall. intros E I. pose proof (MIN E I C91) as Q. fold c in Q. unfold segd. rewrite <- norm_sq. assert (0 <= r) by lra. apply Rmult_le_compat; [lra | lra | unfold r; lra | unfold r; lra].
        - rewrite <- norm_sq. pose proof (norm_psub y w). pose proof (norm_nonneg (psub y w)). apply Rmult_le_0_lt_compat; lra. }
      apply Rmult_le_reg_r with (norm nn); [exact P2|]. unfold Rdiv. rewrite Rmult_assoc, Rinv_l, Rmult_1_r by lra.
      assert (FT : 10000 * ft <= 10101 * pcross A B). { rewrite EF, EG', <- !Rmult_assoc. apply Rmult_le_compat_r; [lra|]. apply Rmult_le_compat_r; [lra|]. rewrite <- !mult_IZR. apply IZR_le. exact BT. }
      assert (Q : norm nn * c <= norm nn * (1007 / 1000 * norm w)) by (apply Rmult_le_compat_l; lra). assert (0 <= norm nn * norm w) by (apply Rmult_le_pos; lra). lra.
Qed.
Lemma result32 n : forall p l P L v, pe p P -> Forall2 pe l L -> Poly (path P L P) -> epa_run sup32 n (p :: l) = Some v -> exists w, near e v w /\ good_vector2 w.
Proof.
  induction n as [|n IH]; intros p l P L v Hp F PO E; [discriminate|].
  destruct (step32 n p l P L Hp F PO) as (a & b & i & NE & [(v' & w & E' & H)|(BE & HK & l' & E' & F')]); rewrite E' in E.
  - injection E as <-. exists w. exact H.
  - pose proof (edge_ok M s K P L i a b PO NE) as OK.
    destruct (poly_insert M s K P L i a b PO NE HK BE (new_vert M s K Hfar a b OK HK BE)) as (E1 & E3 & EP & EI & P').
    apply (IH p l' P _ v Hp F' P' E).
Qed.
Variable V : list pt.
Hypothesis HV : forall d, norm d <= K -> In (s d) V.
Lemma converges32 n : forall p l P L, pe p P -> Forall2 pe l L -> Poly (path P L P) -> (mu V (path P L P) <= n)%nat ->
  exists v w, epa_run sup32 (S n) (p :: l) = Some v /\ near e v w /\ good_vector2 w.
Proof.
  induction n as [|n IH]; intros p l P L Hp F PO LE.
  - destruct (step32 0 p l P L Hp F PO) as (a & b & i & NE & [H|(BE & HK & l' & E' & F')]); [exact H|]. exfalso.
    pose proof (edge_ok M s K P L i a b PO NE) as OK.
    destruct (poly_insert M s K P L i a b PO NE HK BE (new_vert M s K Hfar a b OK HK BE)) as (E1 & E3 & EP & EI & P').
    pose proof (mu_insert V E1 E3 a b _ OK BE (HV _ HK)) as Q. rewrite <- EP in Q. lia.
  - destruct (step32 (S n) p l P L Hp F PO) as (a & b & i & NE & [H|(BE & HK & l' & E' & F')]); [exact H|]. rewrite E'.
    pose proof (edge_ok M s K P L i a b PO NE) as OK.
    destruct (poly_insert M s K P L i a b PO NE HK BE (new_vert M s K Hfar a b OK HK BE)) as (E1 & E3 & EP & EI & P').
    apply (IH p l' P _ Hp F' P'). pose proof (mu_insert V E1 E3 a b _ OK BE (HV _ HK)) as Q. rewrite <- EP, <- EI in Q. lia.
Qed.
(** orienting the captured triangle *)
Lemma ccw32 l S : Forall2 pe l S -> length S = 3%nat -> exists l' S', enforce_ccw l = Ok l' /\ enforce_ccw (map inj S) = Ok (map inj S') /\ Forall2 pe l' S'.
Proof.
  intros F L. destruct F as [|a A l S Ha F]; [discriminate|]. destruct F as [|b B l S Hb F]; [discriminate|]. destruct F as [|c C l S Hc F]; [discriminate|]. destruct F; [|discriminate].
  assert (CR : exists k n, is e k n (cross (v2sub b a) (v2sub c a)) (cross (v2sub (inj B) (inj A)) (v2sub (inj C) (inj A)))).
  { destruct Ha as ([ax ay] & [A1 A2] & IA). destruct Hb as ([bx by_] & [B1 B2] & IB). destruct Hc as ([cx cy] & [C1 C2] & IC). cbn [fst snd] in * .
    assert (IAB := iv_sub e He 1 _ _ _ _ _ _ IB IA ltac:(lia) ltac:(cbn [fst snd]; lia) ltac:(cbn [fst snd]; lia)).
    assert (IAC := iv_sub e He 1 _ _ _ _ _ _ IC IA ltac:(lia) ltac:(cbn [fst snd]; lia) ltac:(cbn [fst snd]; lia)). cbn [fst snd] in IAB, IAC.
    eexists (1 + 1)%Z, _. destruct IAB as [X Y], IAC as [X' Y']. apply is_sub; [exact He | apply is_mul; try eassumption; [lia|] | apply is_mul; try eassumption; [lia|] | lia |]; cbn [fst snd].
    - eapply Z.le_trans; [apply (abs_mul _ _ 64 64); lia | lia].
    - eapply Z.le_trans; [apply (abs_mul _ _ 64 64); lia | lia].
    - eapply Z.le_trans; [apply area_bound; assumption | lia]. }
  destruct CR as (k & n & CR). destruct (is_cmp e _ _ _ _ _ _ _ _ (is_zero e 0) CR) as [E _]. cbn [map enforce_ccw]. rewrite E.
  destruct (flt f0 (cross (v2sub (inj B) (inj A)) (v2sub (inj C) (inj A)))).
  - exists [a; b; c], [A; B; C]. split; [reflexivity|]. split; [reflexivity|]. auto.
  - exists [a; c; b], [A; C; B]. split; [reflexivity|]. split; [reflexivity|]. auto.
Qed.
Lemma F2_map l S : Forall2 (pti e) l (map inj S) <-> Forall2 pe l S.
Proof.
  split.
  - revert S. induction l as [|a l IH]; intros [|A S] F; inversion F; subst; constructor; auto.
  - induction 1; cbn; constructor; auto.
Qed.
Lemma tri32 l x y z : Forall2 (pti e) l (map inj [x; y; z]) -> tri M s K x y z -> (length V <= 20)%nat ->
  exists l' v w, enforce_ccw l = Ok l' /\ epa sup32 20 l' = v /\ near e v w /\ good_vector2 w.
Proof.
  intros F T3 L. apply F2_map in F. destruct (ccw32 l [x; y; z] F eq_refl) as (l' & S' & E1 & E2 & F').
  destruct (tri_ccw M s K x y z T3) as (p & q & r & E3 & CC). rewrite E2 in E3.
  assert (ES : S' = [p; q; r]). { assert (Q : map inj S' = map inj [p; q; r]) by congruence. clear - Q. destruct S' as [|a [|b [|c [|? ?]]]]; cbn in Q; try discriminate.
    assert (Qa : inj a = inj p) by (cbn; congruence). assert (Qb : inj b = inj q) by (cbn; congruence). assert (Qc : inj c = inj r) by (cbn; congruence).
    apply inj_inj in Qa. apply inj_inj in Qb. apply inj_inj in Qc. subst. reflexivity. }
  subst S'. pose proof (ccw_poly M s K p q r CC) as PO. assert (I : In p V) by (destruct CC as ([_ (d & Hd & ->)] & _); apply HV, Hd).
  pose proof (mu_triangle M s K V p q r CC I) as Mu.
  inversion F' as [|a A l1 S1 Ha F1]; subst.
  destruct (converges32 19 a l1 p [q; r] Ha F1 PO ltac:(lia)) as (v & w & Ev & H). exists (a :: l1), v, w. split; [reflexivity || exact E1|]. split; [|exact H].
  unfold epa. rewrite Ev. reflexivity.
Qed.
End Run.

(** ** a placed pair and its binary32 twin *)
Section Scene32v.
Variable e : Z.
Hypothesis He : (-7 <= e <= 14)%Z.
Context {T : Type} {TR : Transformation2d XR T}.
Variables (a b : shape2d XR) (t : T) (A B : pset).
Hypothesis SC : scene a b t A B.
Variables (sup32 : vec2 b32 -> vec2 b32) (dir32 : vec2 b32).
Local Notation supX := (lmd_extreme_point (F:=XR) a b t).
Local Notation dirX := (lmd_initial_direction (F:=XR) t).
Hypothesis Hs : forall d d', diri e d d' -> pti e (sup32 d) (supX d').
Hypothesis Hd : diri e dir32 dirX.
Hypothesis RS : resolved a b t.
Let M := minkowski_diff A B.
Let s := sreal a b t.

Definition near_min2 (v : pt) : Prop := separates v A B /\ forall w, separates w A B -> norm v <= 102 / 100 * norm w.
Lemma good2_separates v : good_vector2 M v -> near_min2 v.
Proof.
  intros [(n & N & H) L]. split.
  - apply behind_not_overlaps. exists n. split; [exact N|]. intros m (p & q & Hp & Hq & ->).
    replace (psub p q) with (padd (psub (psub p v) q) v) by (apply pt_eq; cbn; ring). apply H.
    exists (psub p v), q. auto.
  - intros w W. apply L. intro C. apply W. apply overlaps_diff. exact C.
Qed.
Theorem vector32 D : few_values a b t -> overlaps A B -> exists v w, gjk sup32 true D dir32 = Ok (true, v) /\ near e v w /\ near_min2 w.
Proof.
  intros FV O. destruct (scene_facts a b t A B SC) as (Hsup & Hfar & HM & HC & _). destruct (initial_real a b t A B SC) as (d0 & E0 & N0 & L0).
  pose proof (resolved_values a b t A B SC RS) as Rv. pose proof Hd as Hd'. rewrite E0 in Hd'.
  pose proof (overlaps_no_behind A B O) as NB. destruct (values_list a b t A B SC FV) as (V & L & HV & HVM).
  assert (Hr : forall d d', diri e d d' -> exists d1, d' = inj d1 /\ norm d1 <= reach) by (intros d d' Q; exists (rv d); exact (diri_rv e d d' He Q)).
  assert (fin_ : forall x y z l, tri M s reach x y z -> Forall2 (pti e) l (map inj [x; y; z]) -> exists v w, rmap (fun pts => (true, epa sup32 20 pts)) (enforce_ccw l) = Ok (true, v) /\ near e v w /\ near_min2 w).
  { intros x y z l T3 F. pose proof (tri_origin M s reach x y z HC T3) as HO.
    destruct (tri32 e He M s supX reach (3 * world) Hsup Hfar HM K1' HC HO sup32 Hs V HV l x y z F T3 L) as (l' & v & w & E1 & E2 & N & G).
    exists v, w. rewrite E1. cbn [rmap]. rewrite E2. split; [reflexivity|]. split; [exact N | apply good2_separates, G]. }
  destruct D.
  - assert (S0 : s d0 <> origin).
    { intro Z. apply NB. apply (far_behind _ s reach Hfar d0 L0 N0). rewrite Z. unfold pdot, origin; cbn. lra. }
    pose proof (start_tt_same e He M s supX reach Hsup Hfar sup32 Hs d0 dir32 L0 Hd' NB S0 Hr) as H.
    destruct (tt_found M s supX reach (3 * world) Hsup Hfar HM K1' K3' NB V HV HVM Rv d0 HC L0 N0 ltac:(lia)) as (x3 & y3 & z3 & E3 & T3).
    rewrite E3 in H. cbn [gjk]. unfold gjk_tt. destruct (start_tt sup32 dir32) as [l d|l|l d|l|p]; cbn [same_end] in H; try contradiction.
    apply (fin_ x3 y3 z3 l T3 (proj1 H)).
  - pose proof (tf_same e He sup32 supX Hs 20 [] [] dir32 dirX (Forall2_nil _) ltac:(cbn; lia) Hd) as H. rewrite E0 in H.
    destruct (tf_found M s supX reach (3 * world) Hsup Hfar HM K1' K3' NB V HV HVM Rv d0 L0 N0 L) as (x3 & y3 & z3 & E3 & T3).
    rewrite E3 in H. cbn [gjk]. unfold gjk_tf. destruct (run_tf sup32 20 [] dir32) as [l d|l|l d|l|p]; cbn [same_end] in H; try contradiction.
    apply (fin_ x3 y3 z3 l T3 (proj1 H)).
Qed.
(** a reported distance vector is within rounding of one that brings the shapes into contact *)
Lemma St_near S n l : St M s reach S n -> Forall2 (pti e) l (map inj S) -> exists v w, rmap (fun v => (false, v)) (distance_to_origin l) = Ok (false, v) /\ near e v w /\ meets (shift w A) B.
Proof.
  intros I F. destruct (scene_facts a b t A B SC) as (_ & _ & _ & HC & _). apply F2_map in F. destruct (St_finite M s reach S n I) as (w & E).
  assert (LS : (1 <= length S <= 2)%nat) by (destruct (St_len M s reach S n I); lia).
  destruct (dto_near e He l S F LS w E) as (v & Ev & N). exists v, w. rewrite Ev. split; [reflexivity|]. split; [exact N|].
  apply meets_diff. apply (dto_in M S w HC); [|exact LS | exact E]. destruct I as (FM & _). eapply Forall_impl; [|exact FM]. intros q Hq. exact (proj1 Hq).
Qed.
Theorem distance32 P v : gjk sup32 P true dir32 = Ok (false, v) -> exists w, near e v w /\ meets (shift w A) B.
Proof.
  destruct (scene_facts a b t A B SC) as (Hsup & Hfar & HM & HC & _). destruct (initial_real a b t A B SC) as (d0 & E0 & N0 & L0).
  pose proof (resolved_values a b t A B SC RS) as Rv. pose proof Hd as Hd'. rewrite E0 in Hd'. intro E. destruct P.
  - pose proof (start_tt_good32 e He M s supX reach (3 * world) Hsup Hfar HM K1' K3' HC Rv sup32 Hs d0 dir32 L0 Hd') as H.
    cbn [gjk] in E. unfold gjk_tt in E. destruct (start_tt sup32 dir32) as [l d|l|l d|l|p]; cbn [good32] in H; try contradiction.
    + destruct H as (S & n & F & I). destruct (St_near S n l I F) as (v' & w & E' & H). rewrite E' in E. injection E as <-. exists w. exact H.
    + destruct (enforce_ccw l); discriminate.
    + destruct H as (S & n & F & I). destruct (St_near S n l I F) as (v' & w & E' & H). rewrite E' in E. injection E as <-. exists w. exact H.
  - pose proof (start_ft_same e He sup32 supX Hs dir32 dirX Hd) as H.
    destruct (q_ft a b t A B SC RS) as (d1 & E1 & Q). rewrite E1 in H.
    cbn [gjk] in E. unfold gjk_ft in E.
    destruct (start_ft sup32 dir32) as [l d|l|l d|l|p], (start_ft supX (inj d1)) as [l' d'|l'|l' d'|l'|p']; cbn [same_end] in H; try contradiction.
    + destruct Q as (S & n & -> & _ & I & _). destruct (St_near S n l I (proj1 H)) as (v' & w & E' & HH). rewrite E' in E. injection E as <-. exists w. exact HH.
    + destruct (Nat.eqb _ _); discriminate.
    + destruct Q as (S & n & -> & I). destruct (St_near S n l I (proj1 H)) as (v' & w & E' & HH). rewrite E' in E. injection E as <-. exists w. exact HH.
Qed.
End Scene32v.
