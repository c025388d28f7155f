(** * Penetration vectors of the f32 search on small grids: the expanding polytope. *)
From Coq Require Import Reals ZArith Bool Lra Lia List Psatz.
From Flocq Require Import IEEE754.BinarySingleNaN Core Relative.
From Verif Require Import Num NumXR NumB32 Glam Transform2 Shapes2 Gjk Detect2 Spec SpecLink SpecGjk P_Base P_Transform P_Shapes P_Geo P_GjkShape P_Gjk P_Gjk2 P_Gjk3 P_Dist P_Scene P_Epa
  Props_Gjk Props_Dist P_B32 Props_F32 P_Grid32 P_Grid32b P_Grid32e P_Grid32f.
Import ListNotations.
Local Open Scope R_scope.

Lemma F2_firstn {X Y} (P : X -> Y -> Prop) l l' : Forall2 P l l' -> forall i, Forall2 P (firstn i l) (firstn i l').
Proof. induction 1; intros [|i]; cbn; constructor; auto. Qed.
Lemma F2_skipn {X Y} (P : X -> Y -> Prop) l l' : Forall2 P l l' -> forall i, Forall2 P (skipn i l) (skipn i l').
Proof. induction 1; intros [|i]; cbn; try constructor; auto. Qed.

Section Epa32.
Variable e : Z.
Hypothesis He : (-7 <= e <= 14)%Z.
Local Notation u := (bpow radix2 e).
Local Notation pe := (pe e).
Definition pe2 (x : vec2 b32 * vec2 b32) (y : pt * pt) : Prop := pe (fst x) (fst y) /\ pe (snd x) (snd y).
Lemma path32 l L : Forall2 pe l L -> forall p P h H, pe p P -> pe h H -> Forall2 pe2 (combine (p :: l) (l ++ [h])) (path P L H).
Proof.
  induction 1 as [|x X l L Hx F IH]; intros p P h H Hp Hh; cbn [app combine path].
  - constructor; [split; assumption | constructor].
  - constructor; [split; assumption|]. apply IH; assumption.
Qed.
Definition dist32 (x : vec2 b32 * vec2 b32) : b32 := edge_dist_sq (fst x) (snd x).
Lemma fold32 : forall E E', Forall2 pe2 E E' -> Forall (fun x => fst x <> snd x) E' -> forall k d0 acc, fin d0 ->
  (fold_left edge_step (combine (seq k (length E)) E) (d0, acc) = (d0, acc) /\ Forall (fun x => val d0 <= val (dist32 x)) E) \/
  (exists i x, nth_error E i = Some x /\ fold_left edge_step (combine (seq k (length E)) E) (d0, acc) = (dist32 x, ((k + i)%nat, x)) /\ fin (dist32 x) /\
     val (dist32 x) < val d0 /\ Forall (fun y => val (dist32 x) <= val (dist32 y)) E).
Proof.
  induction 1 as [|x X E E' Hx F IH]; intros FN k d0 acc Fd; [left; split; [reflexivity | constructor]|].
  apply Forall_cons_iff in FN. destruct FN as [Nx FN]. specialize (IH FN). cbn [length seq combine fold_left].
  assert (FX : fin (dist32 x)) by (destruct x as [a b], X as [P Q], Hx as [H1 H2]; destruct (seg32 e He a b P Q H1 H2 Nx) as (_ & _ & H & _); exact H).
  assert (ST : edge_step (d0, acc) (k, x) = if Rltb (val (dist32 x)) (val d0) then (dist32 x, (k, x)) else (d0, acc)).
  { unfold edge_step. cbn [fst snd]. fold (dist32 x). rewrite flt_fin by assumption. reflexivity. }
  rewrite ST. destruct (Rltb_spec (val (dist32 x)) (val d0)) as [L|L].
  - right. destruct (IH (S k) (dist32 x) (k, x) FX) as [[E1 FA]|(i & x1 & N1 & E1 & F1 & L1 & FF)].
    + exists 0%nat, x. rewrite E1, Nat.add_0_r. repeat split; auto. apply Forall_cons; [lra | exact FA].
    + exists (S i), x1. rewrite E1. repeat split; auto; [do 2 f_equal; lia | lra | apply Forall_cons; [lra | exact FF]].
  - destruct (IH (S k) d0 acc Fd) as [[E1 FA]|(i & x1 & N1 & E1 & F1 & L1 & FF)].
    + left. split; [exact E1 | apply Forall_cons; [lra | exact FA]].
    + right. exists (S i), x1. rewrite E1. repeat split; auto; [do 2 f_equal; lia | apply Forall_cons; [lra | exact FF]].
Qed.
Lemma F2_nth {X Y} (P : X -> Y -> Prop) l l' : Forall2 P l l' -> forall i x, nth_error l i = Some x -> exists y, nth_error l' i = Some y /\ P x y.
Proof. induction 1; intros [|i] z; cbn; intro E; try discriminate; [injection E as <-; eauto | eauto]. Qed.
Lemma closest32 p l P L : pe p P -> Forall2 pe l L -> Forall (fun x => fst x <> snd x) (path P L P) ->
  exists i a b A B, find_closest_edge (p :: l) = (i, (a, b)) /\ nth_error (path P L P) i = Some (A, B) /\ pe a A /\ pe b B /\
    forall E, In E (path P L P) -> u / 91 <= norm (segp A B) -> 1000 * norm (segp A B) <= 1007 * norm (segp (fst E) (snd E)).
Proof.
  intros Hp F FN. pose proof (path32 l L F p P p P Hp Hp) as F2. unfold find_closest_edge, indexed_edges.
  replace (length (p :: l)) with (length (combine (p :: l) (l ++ [p]))).
  2:{ rewrite combine_length, app_length. cbn [length]. lia. }
  assert (NIL : combine (p :: l) (l ++ [p]) <> []) by (destruct l; discriminate).
  set (E32 := combine (p :: l) (l ++ [p])) in * . set (EE := path P L P) in * . clearbody E32 EE.
  assert (main : forall i x, nth_error E32 i = Some x -> Forall (fun y => val (dist32 x) <= val (dist32 y)) E32 -> exists A B, nth_error EE i = Some (A, B) /\ pe (fst x) A /\ pe (snd x) B /\
    forall E, In E EE -> u / 91 <= norm (segp A B) -> 1000 * norm (segp A B) <= 1007 * norm (segp (fst E) (snd E))).
  { intros i x Nx FA. destruct (F2_nth _ _ _ F2 i x Nx) as ([A B] & NE & [H1 H2]). exists A, B. split; [exact NE|]. split; [exact H1|]. split; [exact H2|].
    intros E I LO. rewrite Forall_forall in FN. pose proof (FN _ (nth_error_In _ _ NE)) as N1. cbn [fst snd] in * .
    destruct E as [P' Q']. cbn [fst snd]. pose proof (FN _ I) as N2. cbn [fst snd] in N2.
    assert (EX : exists y, In y E32 /\ pe2 y (P', Q')).
    { clear - F2 I. induction F2 as [|z Z ? ? Hz ? IH]; [contradiction|]. destruct I as [->|I]; [exists z; split; [left; reflexivity | exact Hz] | destruct (IH I) as (y & J & Y); exists y; split; [right; exact J | exact Y]]. }
    destruct EX as ([a' b'] & J & [H3 H4]). rewrite Forall_forall in FA. pose proof (FA _ J) as LE. destruct x as [a b].
    apply (order32 e He a b A B a' b' P' Q'); assumption. }
  destruct F2 as [|x X E32 EE Hx F2]; [contradiction|]. apply Forall_cons_iff in FN. destruct FN as [Nx FN].
  assert (FX : fin (dist32 x)) by (destruct x as [a b], X as [A B], Hx as [H1 H2]; destruct (seg32 e He a b A B H1 H2 Nx) as (_ & _ & H & _); exact H).
  cbn [length seq combine fold_left].
  assert (ST : edge_step (finf, (0%nat, (v2nan, v2nan))) (0%nat, x) = (dist32 x, (0%nat, x))).
  { unfold edge_step. cbn [fst snd]. fold (dist32 x). unfold fin in FX. destruct (dist32 x); cbn in FX |- *; try discriminate; reflexivity. }
  rewrite ST. destruct (fold32 E32 EE F2 FN 1 (dist32 x) (0%nat, x) FX) as [[E1 FA]|(i & x1 & N1 & E1 & _ & L1 & FA)]; rewrite E1.
  - destruct (main 0%nat x eq_refl) as (A & B & H); [apply Forall_cons; [lra | exact FA]|]. exists 0%nat, (fst x), (snd x), A, B. split; [destruct x; reflexivity | exact H].
  - destruct (main (S i) x1 N1) as (A & B & H); [apply Forall_cons; [lra | exact FA]|]. exists (S i), (fst x1), (snd x1), A, B. split; [destruct x1; reflexivity | exact H].
Qed.
(** the normal of an edge and the test against it *)
Lemma normal32 a b A B : pe a A -> pe b B -> A <> B ->
  exists m n d, iv e 1 (m, n) (perp_right (v2sub b a)) (inj (nrm A B)) /\ (Z.abs m <= 64 /\ Z.abs n <= 64)%Z /\ d = (m * m + n * n)%Z /\ (1 <= d <= 8192)%Z /\
    pdot (nrm A B) (nrm A B) = IZR d * (u * u) /\ is e 2 d (v2dot (perp_right (v2sub b a)) (perp_right (v2sub b a))) (XFin (IZR d * (u * u))).
Proof.
  intros PA PB N. destruct PA as ([ax ay] & [A1 A2] & IA). destruct PB as ([bx by_] & [B1 B2] & IB). cbn [fst snd] in * .
  assert (IAB := iv_sub e He 1 _ _ _ _ _ _ IB IA ltac:(lia) ltac:(cbn [fst snd]; lia) ltac:(cbn [fst snd]; lia)). cbn [fst snd] in IAB. rewrite v2sub_inj in IAB.
  assert (IN : iv e 1 (by_ - ay, - (bx - ax))%Z (perp_right (v2sub b a)) (inj (nrm A B))).
  { destruct IAB as [X Y]. split; [exact Y | apply is_neg in X; exact X]. }
  set (m := (by_ - ay)%Z) in * . set (n := (- (bx - ax))%Z) in * . assert (Bm : (Z.abs m <= 64)%Z) by lia. assert (Bn : (Z.abs n <= 64)%Z) by lia. clearbody m n.
  exists m, n, (m * m + n * n)%Z. split; [exact IN|]. split; [split; assumption|]. split; [reflexivity|].
  assert (D : is e (1 + 1) (m * m + n * n) (v2dot (perp_right (v2sub b a)) (perp_right (v2sub b a))) (XFin (pdot (nrm A B) (nrm A B)))).
  { rewrite <- v2dot_inj. apply (iv_dot e He 1 1 (m, n) _ _ (m, n)); try assumption; [lia | |]; cbn [fst snd]; (eapply Z.le_trans; [apply (abs_mul _ _ 64 64); lia | lia]). }
  assert (UU : bpow radix2 ((1 + 1) * e) = u * u) by (rewrite <- bpow_plus; f_equal; lia).
  assert (DE : pdot (nrm A B) (nrm A B) = IZR (m * m + n * n) * (u * u)) by (destruct D as (_ & _ & D); rewrite UU in D; congruence).
  pose proof (dot_pos _ (nrm_ne A B N)) as DP. rewrite DE in DP, D.
  assert (BD : (m * m + n * n <= 8192)%Z) by (pose proof (abs_mul m m 64 64 ltac:(lia) ltac:(lia)); pose proof (abs_mul n n 64 64 ltac:(lia) ltac:(lia)); lia).
  pose proof (Z.square_nonneg m). pose proof (Z.square_nonneg n). pose proof (u_pos e).
  split; [|split; [exact DE | exact D]]. split; [|exact BD]. destruct (Z.eq_dec (m * m + n * n) 0) as [Z0|]; [rewrite Z0 in DP; exfalso; lra | lia].
Qed.
Lemma dir_normal a b A B : pe a A -> pe b B -> A <> B -> diri e (perp_right (v2sub b a)) (inj (nrm A B)).
Proof. intros H1 H2 N. destruct (normal32 a b A B H1 H2 N) as (m & n & d & I & [B1 B2] & _). exists 1%Z, (m, n). split; [lia|]. split; [cbn; lia | exact I]. Qed.
Lemma fit32 x X a b A B : pe x X -> pe a A -> pe b B -> A <> B ->
  exists f, is e 2 f (v2dot x (perp_right (v2sub b a))) (XFin (pdot (nrm A B) X)) /\ pdot (nrm A B) X = IZR f * (u * u) /\ (Z.abs f <= 4096)%Z.
Proof.
  intros Hx Ha Hb N. destruct (normal32 a b A B Ha Hb N) as (m & n & d & I & [B1 B2] & _). destruct Hx as ([x1 x2] & [X1 X2] & IX). cbn [fst snd] in * .
  exists (x1 * m + x2 * n)%Z.
  assert (D : is e (1 + 1) (x1 * m + x2 * n) (v2dot x (perp_right (v2sub b a))) (XFin (pdot X (nrm A B)))).
  { rewrite <- v2dot_inj. apply (iv_dot e He 1 1 (x1, x2) _ _ (m, n)); try assumption; [lia | |]; cbn [fst snd]; (eapply Z.le_trans; [apply (abs_mul _ _ 32 64); lia | lia]). }
  rewrite pdot_comm. split; [exact D|]. split.
  - destruct D as (_ & _ & D). assert (UU : bpow radix2 ((1 + 1) * e) = u * u) by (rewrite <- bpow_plus; f_equal; lia). rewrite UU in D. congruence.
  - pose proof (abs_mul x1 m 32 64 ltac:(lia) ltac:(lia)). pose proof (abs_mul x2 n 32 64 ltac:(lia) ltac:(lia)). lia.
Qed.
Lemma cent_up : fin (fadd (F:=b32) f1 fcent) /\ 1 < val (fadd (F:=b32) f1 fcent) <= 101 / 100.
Proof.
  split; [vm_compute; reflexivity|]. rewrite (val_sf _ false 8472494 (-23)) by (vm_compute; reflexivity). cbn [cond_Zopp]. cbn. lra.
Qed.
Lemma better32 x y f g : is e 2 f x (XFin (IZR f * (u * u))) -> is e 2 g y (XFin (IZR g * (u * u))) -> (0 <= g)%Z -> (Z.abs g <= 4096)%Z ->
  if sufficiently_better x y fcent then (g < f)%Z else (g = 0 /\ f <= 0)%Z \/ (1 <= g /\ 10000 * f <= 10101 * g)%Z.
Proof.
  intros (Fx & Vx & _) (Fy & Vy & _) G0 G1. pose proof (u_pos e) as U0. assert (UP : 0 < u * u) by (apply Rmult_lt_0_compat; lra).
  assert (UU : bpow radix2 (2 * e) = u * u) by (rewrite <- bpow_plus; f_equal; lia). rewrite UU in Vx, Vy.
  assert (F0 : fin (f0 : b32)) by reflexivity. unfold sufficiently_better. rewrite (flt_fin f0 y) by assumption. change (val f0) with 0. rewrite Vy.
  destruct (Z.eq_dec g 0) as [->|NG].
  - rewrite Rltb_false by lra. destruct val_cent as [Fc _]. destruct (mul_ok y _ Fy Fc) as [M1 M2]; [rewrite Vy, !Rmult_0_l, rnd_0, Rabs_R0; apply bpow_gt_0|].
    rewrite Vy, !Rmult_0_l, rnd_0 in M2. rewrite flt_fin, M2, Vx by assumption. destruct (Rltb_spec 0 (IZR f * (u * u))) as [L|L].
    + apply lt_IZR. nra.
    + left. split; [reflexivity|]. apply le_IZR. apply Rnot_lt_le. intro C. apply L. apply Rmult_lt_0_compat; assumption.
  - assert (g1 : (1 <= g)%Z) by lia. assert (g1R : 1 <= IZR g) by (apply (IZR_le 1); exact g1). assert (g2R : IZR g <= 4096) by (apply (IZR_le _ 4096); lia).
    rewrite Rltb_true by nra. destruct cent_up as [Fc [C1 C2]]. set (c := fadd (F:=b32) f1 fcent) in * . pose proof (u_small e He) as US.
    assert (YB : 0 <= val y * val c <= 4096 * (16384 * 16384) * 2). { rewrite Vy. split; [apply Rmult_le_pos; nra|]. apply Rmult_le_compat; [nra | lra | | lra]. apply Rmult_le_compat; [lra | lra | lra | nra]. }
    pose proof (rnd_abs (val y * val c)) as ER. rewrite (Rabs_pos_eq (val y * val c)) in ER by lra. apply abs_le2 in ER. rewrite u32_val in ER.
    assert (TI : tiny <= u * u / 1000000).
    { apply Rle_trans with (u * u / 16777216); [|lra]. replace (u * u / 16777216) with (bpow radix2 (e + e + -24)) by (rewrite !bpow_plus; cbn; lra). apply bpow_le. lia. }
    assert (UM : u * u <= 16384 * 16384) by (apply Rmult_le_compat; lra).
    assert (RP : 0 <= rnd (val y * val c)) by (rewrite <- rnd_0; apply rnd_le; lra).
    destruct (mul_ok y c Fy Fc) as [M1 M2]; [rewrite Rabs_pos_eq by exact RP; apply Rle_lt_trans with (bpow radix2 60); [change (bpow radix2 60) with 1152921504606846976; lra | apply bpow_lt; lia]|].
    rewrite flt_fin, M2, Vx by assumption. destruct (Rltb_spec (rnd (val y * val c)) (IZR f * (u * u))) as [L|L].
    + assert (VY : val y <= rnd (val y * val c)) by (apply Rle_trans with (rnd (val y)); [rewrite rnd_exact; apply Rle_refl | apply rnd_le; rewrite <- (Rmult_1_r (val y)) at 1; apply Rmult_le_compat_l; [rewrite Vy; nra | lra]]). rewrite Vy in VY at 1.
      apply lt_IZR. apply Rmult_lt_reg_r with (u * u); [exact UP | lra].
    + right. split; [exact g1|]. apply le_IZR. rewrite !mult_IZR. apply Rmult_le_reg_r with (u * u); [exact UP|].
      assert (YC : val y * val c <= IZR g * (u * u) * (101 / 100)) by (rewrite Vy; apply Rmult_le_compat_l; [nra | lra]).
      assert (GU : u * u <= IZR g * (u * u)) by nra. lra.
Qed.
(** the returned vector *)
Lemma scaled32 N32 m n d f F32 den : (Z.abs m <= 64 /\ Z.abs n <= 64)%Z -> d = (m * m + n * n)%Z -> (1 <= d <= 8192)%Z -> (Z.abs f <= 4096)%Z ->
  (exists x1 x2, Z.abs x1 <= 32 /\ Z.abs x2 <= 32 /\ f = x1 * m + x2 * n)%Z ->
  fin2 N32 -> rv N32 = (IZR m * u, IZR n * u) -> is e 2 f F32 (XFin (IZR f * (u * u))) -> is e 2 d den (XFin (IZR d * (u * u))) ->
  near e (v2muls N32 (fdiv (fneg F32) den)) (pscale (- (IZR f * (u * u)) / (IZR d * (u * u))) (IZR m * u, IZR n * u)).
Proof.
  intros [Bm Bn] Ed Bd Bf (x1 & x2 & X1 & X2 & Ef) [FX FY] RV IF (Fd & Vd & _). apply is_neg in IF. destruct IF as (Ff & Vf & _).
  pose proof (u_pos e) as U0. assert (UP : 0 < u * u) by (apply Rmult_lt_0_compat; lra).
  assert (UU : bpow radix2 (2 * e) = u * u) by (rewrite <- bpow_plus; f_equal; lia). rewrite UU in Vf, Vd.
  assert (D1 : 1 <= IZR d) by (apply (IZR_le 1); lia). set (T := IZR (- f) / IZR d).
  assert (QE : val (fneg F32) / val den = T) by (rewrite Vf, Vd; unfold T; field; split; apply Rgt_not_eq; lra).
  assert (ID : 0 < / IZR d) by (apply Rinv_0_lt_compat; lra). assert (I1 : / IZR d <= 1) by (rewrite <- Rinv_1; apply Rinv_le; lra).
  assert (BT : Rabs T <= 4096). { unfold T, Rdiv. rewrite Rabs_mult, (Rabs_pos_eq (/ _)) by lra. rewrite <- abs_IZR. assert (IZR (Z.abs (- f)) <= 4096) by (apply (IZR_le _ 4096); lia). assert (0 <= IZR (Z.abs (- f))) by (apply IZR_le; lia). nra. }
  pose proof (rnd_abs T) as ET. pose proof (tiny_u e He) as TU. pose proof (u_small e He) as US. pose proof tiny_pos as T0. rewrite u32_val in ET.
  assert (BR : Rabs (rnd T) <= 4097).
  { replace (rnd T) with (T + (rnd T - T)) by ring. eapply Rle_trans; [apply Rabs_triang|]. lra. }
  destruct (div_ok (fneg F32) den Ff) as [V1 V2]; [rewrite Vd; apply Rgt_not_eq; nra | rewrite QE; eapply Rle_lt_trans; [exact BR|]; apply Rle_lt_trans with (bpow radix2 13); [cbn; lra | apply bpow_lt; lia]|]. rewrite QE in V2.
  set (tau := fdiv (fneg F32) den) in * . clearbody tau.
  assert (C : forall x k, fin x -> val x = IZR k * u -> (Z.abs k <= 64)%Z -> (Z.abs (k * f) <= 64 * d)%Z -> fin (fmul x tau) /\ Rabs (val (fmul x tau) - T * (IZR k * u)) <= eta e).
  { intros x k Fx Vx Bk Bkf. set (W := IZR k * u * rnd T).
    assert (BkR : Rabs (IZR k * u) <= 64 * u) by (rewrite Rabs_mult, (Rabs_pos_eq u), <- abs_IZR by lra; apply Rmult_le_compat_r; [lra | apply (IZR_le _ 64); lia]).
    assert (BKT : Rabs (IZR k * u * T) <= 64 * u).
    { replace (IZR k * u * T) with (IZR (- (k * f)) * (/ IZR d * u)) by (unfold T, Rdiv; rewrite !opp_IZR, mult_IZR; ring). rewrite Rabs_mult, (Rabs_pos_eq (/ IZR d * u)), <- abs_IZR by nra.
      assert (Q : IZR (Z.abs (- (k * f))) <= 64 * IZR d) by (rewrite <- mult_IZR; apply IZR_le; lia).
      apply Rle_trans with (64 * IZR d * (/ IZR d * u)); [apply Rmult_le_compat_r; [nra | exact Q]|]. apply Req_le. field. lra. }
    assert (DW : Rabs (W - IZR k * u * T) <= 64 * u * tiny + / 16777216 * (64 * u)).
    { unfold W. rewrite <- Rmult_minus_distr_l, Rabs_mult. apply Rle_trans with (Rabs (IZR k * u) * (/ 16777216 * Rabs T + tiny)); [apply Rmult_le_compat_l; [apply Rabs_pos | exact ET]|].
      rewrite Rabs_mult in BKT. assert (Rabs (IZR k * u) * tiny <= 64 * u * tiny) by (apply Rmult_le_compat_r; lra). lra. }
    assert (TT : u * tiny <= u * / 16777216). { apply Rmult_le_compat_l; [lra|]. replace (/ 16777216) with (bpow radix2 (-24)) by (cbn; lra). apply bpow_le; lia. }
    assert (BW : Rabs W <= 65 * u). { replace W with ((IZR k * u * T) + (W - IZR k * u * T)) by ring. eapply Rle_trans; [apply Rabs_triang|]. lra. }
    pose proof (rnd_abs W) as EW. rewrite u32_val in EW.
    destruct (mul_ok x tau Fx V1) as [M1 M2].
    { rewrite Vx, V2. fold W. apply (small_u e He). replace (rnd W) with (W + (rnd W - W)) by ring. eapply Rle_trans; [apply Rabs_triang|]. lra. }
    rewrite Vx, V2 in M2. fold W in M2. split; [exact M1|]. rewrite M2. unfold eta. rewrite (Rmult_comm T).
    replace (rnd W - IZR k * u * T) with ((rnd W - W) + (W - IZR k * u * T)) by ring. eapply Rle_trans; [apply Rabs_triang|]. lra. }
  assert (TE : - (IZR f * (u * u)) / (IZR d * (u * u)) = T) by (unfold T; rewrite opp_IZR; field; split; apply Rgt_not_eq; lra). rewrite TE.
  assert (Bz : forall k, (k = m \/ k = n)%Z -> (Z.abs (k * f) <= 64 * d)%Z).
  { intros k Hk. rewrite Ed, Ef. rewrite Z.abs_mul.
    assert (A1 : (Z.abs (x1 * m + x2 * n) <= 32 * (Z.abs m + Z.abs n))%Z).
    { pose proof (abs_mul x1 m 32 (Z.abs m) X1 ltac:(lia)). pose proof (abs_mul x2 n 32 (Z.abs n) X2 ltac:(lia)). lia. }
    assert (A2 : (Z.abs k * (Z.abs m + Z.abs n) <= 2 * (m * m + n * n))%Z).
    { rewrite <- (Z.abs_square m), <- (Z.abs_square n). destruct Hk as [-> | ->]; pose proof (Z.square_nonneg (Z.abs m - Z.abs n)); nia. }
    assert (A3 : (Z.abs k * Z.abs (x1 * m + x2 * n) <= Z.abs k * (32 * (Z.abs m + Z.abs n)))%Z) by (apply Z.mul_le_mono_nonneg_l; lia). lia. }
  destruct N32 as [nx ny]. injection RV as RX RY. cbn [vx vy] in FX, FY.
  destruct (C nx m FX RX Bm (Bz m ltac:(auto))) as [C1 C2]. destruct (C ny n FY RY Bn (Bz n ltac:(auto))) as [C3 C4].
  split; [split; [exact C1 | exact C3]|]. split; [exact C2 | exact C4].
Qed.
End Epa32.
