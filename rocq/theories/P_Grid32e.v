(** * Vectors of the f32 search on small grids: rounding errors of the closest point of a segment. *)
From Coq Require Import Reals ZArith Bool Lra Lia List Psatz.
From Flocq Require Import IEEE754.BinarySingleNaN Core Relative.
From Verif Require Import Num NumXR NumB32 Glam Transform2 Shapes2 Gjk Detect2 Spec SpecLink SpecGjk P_Base P_Transform P_Shapes P_Geo P_GjkShape P_Gjk P_Gjk2 P_Gjk3 P_Dist P_Scene P_Epa
  Props_Gjk Props_Dist P_B32 Props_F32 P_Grid32 P_Grid32b.
Import ListNotations.
Local Open Scope R_scope.

Lemma u32_val : u32 = / 16777216. Proof. unfold u32. f_equal. Qed.
Lemma rnd_abs x : Rabs (rnd x - x) <= u32 * Rabs x + tiny.
Proof.
  destruct (rnd_error x) as (eps & eta & H1 & H2 & ->). replace (x * (1 + eps) + eta - x) with (eps * x + eta) by ring.
  eapply Rle_trans; [apply Rabs_triang|]. rewrite Rabs_mult. apply Rplus_le_compat; [|exact H2].
  apply Rmult_le_compat_r; [apply Rabs_pos | exact H1].
Qed.
Lemma tiny_pos : 0 < tiny. Proof. apply bpow_gt_0. Qed.

Section Acc.
Variable e : Z.
Hypothesis He : (-7 <= e <= 14)%Z.
Local Notation u := (bpow radix2 e).
Lemma u_pos : 0 < u. Proof. apply bpow_gt_0. Qed.
Lemma tiny_u : tiny <= u * / 16777216 * / 16777216.
Proof.
  replace (u * / 16777216 * / 16777216) with (bpow radix2 (e + -24 + -24)) by (rewrite !bpow_plus; cbn; lra).
  unfold tiny. apply bpow_le. lia.
Qed.
Lemma u_small : u <= 16384.
Proof. replace 16384 with (bpow radix2 14) by (cbn; lra). apply bpow_le. lia. Qed.
(** the error allowed for a coordinate *)
Definition eta : R := u * / 65536.
Lemma small_u x : Rabs x <= 4096 * u -> Rabs x < big.
Proof.
  intro H. eapply Rle_lt_trans; [exact H|]. pose proof u_small. apply Rle_lt_trans with (bpow radix2 30); [cbn; lra | apply bpow_lt; lia].
Qed.
Lemma prod_acc y tau T : fin y -> fin tau -> Rabs (val y) <= 64 * u -> 0 <= T <= 1 -> val tau = rnd T ->
  fin (fmul y tau) /\ Rabs (val (fmul y tau)) <= 65 * u /\ Rabs (val (fmul y tau) - val y * T) <= 129 * u32 * u.
Proof.
  intros Fy Ft By HT Vt. pose proof u_pos as U0. pose proof tiny_u as TU. pose proof tiny_pos as T0.
  assert (T1 : 0 <= rnd T <= 1).
  { split; [rewrite <- rnd_0; apply rnd_le; lra|]. replace 1 with (rnd 1); [apply rnd_le; lra|]. pose proof (rnd_dyadic 1 0 ltac:(lia) ltac:(lia)) as H. cbn in H. rewrite Rmult_1_r in H. exact H. }
  pose proof (rnd_abs T) as ET. rewrite (Rabs_pos_eq T) in ET by lra.
  set (Z := val y * rnd T).
  assert (BZ : Rabs Z <= 64 * u).
  { unfold Z. rewrite Rabs_mult, (Rabs_pos_eq (rnd T)) by lra. pose proof (Rabs_pos (val y)). nra. }
  assert (DZ : Rabs (Z - val y * T) <= 64 * u * (u32 + tiny)).
  { unfold Z. rewrite <- Rmult_minus_distr_l, Rabs_mult. apply Rmult_le_compat; [apply Rabs_pos | apply Rabs_pos | exact By|]. rewrite u32_val in * . lra. }
  pose proof (rnd_abs Z) as EZ. rewrite u32_val in * .
  assert (TT : tiny <= / 16777216 * / 16777216 * 16384) by (pose proof u_small; lra).
  assert (TT' : u * tiny <= u * (/ 16777216 * / 16777216 * 16384)) by (apply Rmult_le_compat_l; lra).
  assert (BR : Rabs (rnd Z) <= 65 * u).
  { replace (rnd Z) with (Z + (rnd Z - Z)) by ring. eapply Rle_trans; [apply Rabs_triang|]. lra. }
  destruct (mul_ok y tau Fy Ft) as [M1 M2]; [rewrite Vt; fold Z; apply small_u; lra|]. rewrite Vt in M2. fold Z in M2.
  split; [exact M1|]. rewrite M2. split; [exact BR|].
  replace (rnd Z - val y * T) with ((rnd Z - Z) + (Z - val y * T)) by ring. eapply Rle_trans; [apply Rabs_triang|]. lra.
Qed.
Lemma add_acc x y tau T : fin x -> fin y -> fin tau -> Rabs (val x) <= 32 * u -> Rabs (val y) <= 64 * u -> 0 <= T <= 1 -> val tau = rnd T ->
  fin (fadd x (fmul y tau)) /\ Rabs (val (fadd x (fmul y tau)) - (val x + val y * T)) <= eta.
Proof.
  intros Fx Fy Ft Bx By HT Vt. destruct (prod_acc y tau T Fy Ft By HT Vt) as (F & B & E). set (p := fmul y tau) in * . clearbody p.
  pose proof u_pos as U0. pose proof tiny_u as TU. pose proof (rnd_abs (val x + val p)) as ER. pose proof (Rabs_triang (val x) (val p)) as AT.
  rewrite u32_val in * .
  assert (BS : Rabs (rnd (val x + val p)) <= 98 * u).
  { replace (rnd (val x + val p)) with ((val x + val p) + (rnd (val x + val p) - (val x + val p))) by ring. eapply Rle_trans; [apply Rabs_triang|]. lra. }
  destruct (add_ok x p Fx F) as [A1 A2]; [apply small_u; lra|]. split; [exact A1|]. rewrite A2. unfold eta.
  replace (rnd (val x + val p) - (val x + val y * T)) with ((rnd (val x + val p) - (val x + val p)) + (val p - val y * T)) by ring.
  eapply Rle_trans; [apply Rabs_triang|]. lra.
Qed.
Lemma sub_acc x y tau T : fin x -> fin y -> fin tau -> Rabs (val x) <= 32 * u -> Rabs (val y) <= 64 * u -> 0 <= T <= 1 -> val tau = rnd T ->
  fin (fsub x (fmul y tau)) /\ Rabs (val (fsub x (fmul y tau)) - (val x - val y * T)) <= eta.
Proof.
  intros Fx Fy Ft Bx By HT Vt. destruct (prod_acc y tau T Fy Ft By HT Vt) as (F & B & E). set (p := fmul y tau) in * . clearbody p.
  pose proof u_pos as U0. pose proof tiny_u as TU. pose proof (rnd_abs (val x - val p)) as ER. pose proof (Rabs_triang (val x) (- val p)) as AT. rewrite Rabs_Ropp in AT.
  rewrite u32_val in * . change (val x + - val p) with (val x - val p) in AT.
  assert (BS : Rabs (rnd (val x - val p)) <= 98 * u).
  { replace (rnd (val x - val p)) with ((val x - val p) + (rnd (val x - val p) - (val x - val p))) by ring. eapply Rle_trans; [apply Rabs_triang|]. lra. }
  destruct (sub_ok x p Fx F) as [A1 A2]; [apply small_u; lra|]. split; [exact A1|]. rewrite A2. unfold eta.
  replace (rnd (val x - val p) - (val x - val y * T)) with ((rnd (val x - val p) - (val x - val p)) - (val p - val y * T)) by ring.
  eapply Rle_trans; [apply Rabs_triang|]. rewrite Rabs_Ropp. lra.
Qed.

(** ** the parameter of the closest point *)
Definition near (v : vec2 b32) (w : pt) : Prop := fin2 v /\ Rabs (val (vx v) - fst w) <= eta /\ Rabs (val (vy v) - snd w) <= eta.
Definition pe (p : vec2 b32) (P : pt) : Prop := pti e p (inj P).
Lemma pe_val p P : pe p P -> fin2 p /\ P = rv p /\ Rabs (fst P) <= 32 * u /\ Rabs (snd P) <= 32 * u.
Proof.
  intro H. pose proof (pti_rv _ _ _ H) as E. apply inj_inj in E. destruct H as ([m n] & [B1 B2] & [(FX & VX & _) (FY & VY & _)]). cbn [fst snd] in * .
  split; [split; assumption|]. split; [exact E|]. subst P. unfold rv; cbn [fst snd]. rewrite VX, VY, Z.mul_1_l.
  rewrite !Rabs_mult, !(Rabs_pos_eq (bpow _ _)) by apply bpow_ge_0. rewrite <- !abs_IZR. pose proof u_pos.
  split; (apply Rmult_le_compat_r; [lra | apply IZR_le; assumption]).
Qed.
Definition par (P Q : pt) : R := pdot (pneg P) (psub Q P) / pdot (psub Q P) (psub Q P).
Lemma par32 a b P Q : pe a P -> pe b Q -> P <> Q ->
  let tau := fdiv (v2dot (v2neg a) (v2sub b a)) (v2dot (v2sub b a) (v2sub b a)) in
  fin tau /\ val tau = rnd (par P Q) /\ Rabs (par P Q) <= 4096 /\ (0 < par P Q -> / 8192 <= par P Q) /\ (par P Q < 1 -> par P Q <= 1 - / 8192) /\
  fin2 (v2sub b a) /\ rv (v2sub b a) = psub Q P /\ Rabs (fst (psub Q P)) <= 64 * u /\ Rabs (snd (psub Q P)) <= 64 * u /\ / 8192 * (u * u) * 8192 <= pdot (psub Q P) (psub Q P) <= 8192 * (u * u).
Proof.
  intros PA PB N. pose proof u_pos as U0. destruct (pe_val _ _ PA) as (FA & EA & _). destruct (pe_val _ _ PB) as (FB & EB & _).
  destruct PA as ([ax ay] & [A1 A2] & IA). destruct PB as ([bx by_] & [B1 B2] & IB). cbn [fst snd] in * .
  assert (IAB := iv_sub e He 1 _ _ _ _ _ _ IB IA ltac:(lia) ltac:(cbn [fst snd]; lia) ltac:(cbn [fst snd]; lia)).
  assert (IAO := iv_neg e 1 _ _ _ IA). cbn [fst snd] in IAB, IAO.
  rewrite v2sub_inj in IAB. rewrite v2neg_inj in IAO.
  set (ab := v2sub b a) in * . set (ao := v2neg a) in * .
  assert (NUM : is e (1 + 1) (- ax * (bx - ax) + - ay * (by_ - ay)) (v2dot ao ab) (XFin (pdot (pneg P) (psub Q P)))).
  { rewrite <- v2dot_inj. apply (iv_dot e He 1 1 (- ax, - ay)%Z _ _ (bx - ax, by_ - ay)%Z); try assumption; [lia | |]; cbn [fst snd]; (eapply Z.le_trans; [apply (abs_mul _ _ 32 64); lia | lia]). }
  assert (DEN : is e (1 + 1) ((bx - ax) * (bx - ax) + (by_ - ay) * (by_ - ay)) (v2dot ab ab) (XFin (pdot (psub Q P) (psub Q P)))).
  { rewrite <- v2dot_inj. apply (iv_dot e He 1 1 (bx - ax, by_ - ay)%Z _ _ (bx - ax, by_ - ay)%Z); try assumption; [lia | |]; cbn [fst snd]; (eapply Z.le_trans; [apply (abs_mul _ _ 64 64); lia | lia]). }
  assert (BN : (Z.abs (- ax * (bx - ax) + - ay * (by_ - ay)) <= 4096)%Z).
  { pose proof (abs_mul (- ax) (bx - ax) 32 64 ltac:(lia) ltac:(lia)). pose proof (abs_mul (- ay) (by_ - ay) 32 64 ltac:(lia) ltac:(lia)). lia. }
  assert (BD : (0 <= (bx - ax) * (bx - ax) + (by_ - ay) * (by_ - ay) <= 8192)%Z).
  { pose proof (abs_mul (bx - ax) (bx - ax) 64 64 ltac:(lia) ltac:(lia)). pose proof (abs_mul (by_ - ay) (by_ - ay) 64 64 ltac:(lia) ltac:(lia)). pose proof (Z.square_nonneg (bx - ax)). pose proof (Z.square_nonneg (by_ - ay)). lia. }
  set (n := (- ax * (bx - ax) + - ay * (by_ - ay))%Z) in * . set (d := ((bx - ax) * (bx - ax) + (by_ - ay) * (by_ - ay))%Z) in * . clearbody n d.
  destruct NUM as (FN & VN & EN0). destruct DEN as (FD & VD & ED0).
  assert (UU : bpow radix2 ((1 + 1) * e) = u * u) by (rewrite <- bpow_plus; f_equal; lia). rewrite UU in EN0, ED0, VN, VD.
  assert (EN : pdot (pneg P) (psub Q P) = IZR n * (u * u)) by congruence. assert (ED : pdot (psub Q P) (psub Q P) = IZR d * (u * u)) by congruence. clear EN0 ED0.
  pose proof (dot_pos _ (sub_ne P Q N)) as DP. rewrite ED in DP.
  assert (D1 : (1 <= d)%Z). { destruct (Z.eq_dec d 0) as [->|]; [exfalso; lra | lia]. }
  assert (D1R : 1 <= IZR d) by (apply (IZR_le 1); exact D1). assert (D2R : IZR d <= 8192) by (apply (IZR_le _ 8192); lia).
  assert (PE : par P Q = IZR n / IZR d). { unfold par. rewrite EN, ED. field. split; nra. }
  assert (BP : Rabs (par P Q) <= 4096).
  { rewrite PE. unfold Rdiv. rewrite Rabs_mult, Rabs_inv, (Rabs_pos_eq (IZR d)) by lra. rewrite <- abs_IZR.
    apply Rle_trans with (4096 * / 1); [|lra]. apply Rmult_le_compat; [apply IZR_le; lia | apply Rlt_le, Rinv_0_lt_compat; lra | apply (IZR_le _ 4096); lia | apply Rinv_le; lra]. }
  assert (BR : Rabs (rnd (par P Q)) < big).
  { pose proof (rnd_abs (par P Q)) as ER. rewrite u32_val in ER. assert (TT : tiny <= 1) by (apply (bpow_le radix2 (-150) 0); lia).
    replace (rnd (par P Q)) with (par P Q + (rnd (par P Q) - par P Q)) by ring. eapply Rle_lt_trans; [apply Rabs_triang|].
    apply Rle_lt_trans with (bpow radix2 13); [cbn; lra | apply bpow_lt; lia]. }
  cbv zeta. assert (QE : val (v2dot ao ab) / val (v2dot ab ab) = par P Q). { rewrite VN, VD, PE. field. split; nra. }
  destruct (div_ok (v2dot ao ab) (v2dot ab ab) FN) as [T1 T2]; [rewrite VD; apply Rgt_not_eq; lra | rewrite QE; exact BR|]. rewrite QE in T2.
  split; [exact T1|]. split; [exact T2|]. split; [exact BP|].
  assert (I8 : / 8192 <= / IZR d) by (apply Rinv_le; lra). assert (ID : 0 < / IZR d) by lra.
  assert (DD : IZR d * / IZR d = 1) by (field; lra).
  split; [|split].
  - intro H. rewrite PE in * . assert (1 <= n)%Z. { apply Z.lt_pred_le. cbn. apply lt_IZR. apply Rnot_le_lt. intro C. unfold Rdiv in H. nra. }
    assert (1 <= IZR n) by (apply (IZR_le 1); assumption). unfold Rdiv. nra.
  - intro H. rewrite PE in * . assert (n <= d - 1)%Z. { apply Z.lt_le_pred. apply lt_IZR. apply Rnot_le_lt. intro C. unfold Rdiv in H. assert (IZR d * / IZR d <= IZR n * / IZR d) by (apply Rmult_le_compat_r; lra). lra. }
    assert (L : IZR n <= IZR d - 1) by (rewrite <- minus_IZR; apply IZR_le; lia). unfold Rdiv.
    assert (IZR n * / IZR d <= (IZR d - 1) * / IZR d) by (apply Rmult_le_compat_r; lra). lra.
  - destruct IAB as [(FX & VX & EX) (FY & VY & EY)]. cbn [fst snd vx vy inj] in * . rewrite Z.mul_1_l in * . injection EX as EX. injection EY as EY.
    split; [split; assumption|]. split; [unfold rv; rewrite VX, VY; apply pt_eq; cbn [fst snd psub]; symmetry; assumption|].
    cbn [psub fst snd]. rewrite EX, EY. rewrite !Rabs_mult, !(Rabs_pos_eq u) by lra. rewrite <- !abs_IZR.
    split; [apply Rmult_le_compat_r; [lra | apply IZR_le; lia]|]. split; [apply Rmult_le_compat_r; [lra | apply IZR_le; lia]|].
    assert (UP : 0 < u * u) by (apply Rmult_lt_0_compat; lra). split; nra.
Qed.
Lemma dto_near l S : Forall2 pe l S -> (1 <= length S <= 2)%nat -> forall w, distance_to_origin (map inj S) = Ok (inj w) ->
  exists v, distance_to_origin l = Ok v /\ near v w.
Proof.
  intros F L w E. pose proof u_pos as U0. assert (Eta0 : 0 <= eta) by (unfold eta; lra).
  assert (NG : forall p P, pe p P -> near (v2neg p) (pneg P)).
  { intros p P H. destruct (pe_val p P H) as ([FX FY] & -> & _). unfold near, rv, fin2; cbn. destruct p as [px py]; cbn [vx vy] in * .
    change (Bopp px) with (fneg px). change (Bopp py) with (fneg py). rewrite !val_neg.
    unfold fin in * . cbn. rewrite !is_finite_Bopp. split; [split; assumption|]. rewrite !Rminus_diag_eq, Rabs_R0 by reflexivity. split; exact Eta0. }
  destruct F as [|a P l S Ha F]; [cbn in L; lia|]. destruct F as [|b Q l S Hb F]; [|destruct F; [|cbn in L; lia]].
  - cbn [map distance_to_origin] in E. rewrite v2neg_inj in E. assert (Ew : w = pneg P) by (symmetry; apply inj_inj; congruence). subst w. exists (v2neg a). split; [reflexivity | apply NG, Ha].
  - destruct (Req_dec (norm (psub P Q)) 0) as [Z|Z].
    { apply norm_0 in Z. assert (P = Q) by (apply pt_eq; [apply (f_equal fst) in Z | apply (f_equal snd) in Z]; cbn in Z; lra). subst Q.
      destruct (dto2_same P) as (v & Ev & Nv). rewrite Ev in E. exfalso. apply (Nv w). congruence. }
    assert (N : P <> Q) by (intros ->; apply Z; apply norm_0; apply pt_eq; cbn; ring). clear Z.
    rewrite (dto2 P Q N) in E. change (near_t P Q) with (par P Q) in E.
    destruct (par32 a b P Q Ha Hb N) as (FT & VT & BT & T0 & T1 & FD & ED & BX & BY & _).
    cbn [distance_to_origin]. set (tau := fdiv _ _) in * .
    assert (C0 : fle tau f0 = Rleb (par P Q) 0).
    { rewrite fle_fin by (exact FT || reflexivity). rewrite VT. change (val f0) with 0.
      destruct (Rleb_spec (par P Q) 0) as [C|C]; [apply Rleb_true; rewrite <- rnd_0; apply rnd_le; exact C|]. apply Rleb_false.
      apply Rlt_le_trans with (bpow radix2 (-13)); [apply bpow_gt_0|]. pose proof (rnd_dyadic 1 (-13) ltac:(lia) ltac:(lia)) as R0. rewrite Rmult_1_l in R0. rewrite <- R0. apply rnd_le.
      replace (bpow radix2 (-13)) with (/ 8192) by (cbn; lra). apply T0; lra. }
    assert (V1 : fin (f1 : b32) /\ val (f1 : b32) = 1) by (destruct (val_of 1 0 ltac:(lia) ltac:(lia)) as [F1 V1]; split; [exact F1 | rewrite Rmult_1_r in V1; exact V1]).
    destruct V1 as [F1 V1].
    assert (C1 : fle f1 tau = Rleb 1 (par P Q)).
    { rewrite fle_fin by assumption. rewrite VT, V1. assert (R1 : rnd 1 = 1) by (rewrite <- V1; apply rnd_exact).
      destruct (Rleb_spec 1 (par P Q)) as [C|C]; [apply Rleb_true; rewrite <- R1; apply rnd_le; exact C|]. apply Rleb_false.
      apply Rle_lt_trans with (IZR 8191 * bpow radix2 (-13)); [|cbn; lra]. rewrite <- (rnd_dyadic 8191 (-13)) by lia. apply rnd_le.
      eapply Rle_trans; [apply T1; lra|]. cbn. lra. }
    rewrite C0, C1. destruct (pe_val a P Ha) as ([FAX FAY] & EP & BAX & BAY).
    destruct (Rleb_spec (par P Q) 0) as [L0|L0]; [|destruct (Rleb_spec 1 (par P Q)) as [L1|L1]].
    + exists (v2neg a). split; [reflexivity|]. assert (Ew : w = pneg P) by (symmetry; apply inj_inj; congruence). subst w. apply NG, Ha.
    + exists (v2neg b). split; [reflexivity|]. assert (Ew : w = pneg Q) by (symmetry; apply inj_inj; congruence). subst w. apply NG, Hb.
    + eexists. split; [reflexivity|]. assert (Ew : w = psub (pneg P) (pscale (par P Q) (psub Q P))) by (symmetry; apply inj_inj; congruence). subst w.
      destruct FD as [FDX FDY]. destruct (NG a P Ha) as ([FNX FNY] & _).
      assert (VX : val (vx (v2neg a)) = - fst P) by (rewrite EP; cbn; apply val_neg). assert (VY : val (vy (v2neg a)) = - snd P) by (rewrite EP; cbn; apply val_neg).
      assert (DX : val (vx (v2sub b a)) = fst (psub Q P)) by (rewrite <- ED; reflexivity). assert (DY : val (vy (v2sub b a)) = snd (psub Q P)) by (rewrite <- ED; reflexivity).
      destruct (sub_acc (vx (v2neg a)) (vx (v2sub b a)) tau (par P Q) FNX FDX FT) as [X1 X2]; [rewrite VX, Rabs_Ropp; exact BAX | rewrite DX; exact BX | lra | exact VT|].
      destruct (sub_acc (vy (v2neg a)) (vy (v2sub b a)) tau (par P Q) FNY FDY FT) as [Y1 Y2]; [rewrite VY, Rabs_Ropp; exact BAY | rewrite DY; exact BY | lra | exact VT|].
      rewrite VX, DX in X2. rewrite VY, DY in Y2. unfold near. split; [split; [exact X1 | exact Y1]|]. cbn [fst snd psub pneg pscale] in * .
      rewrite (Rmult_comm (par P Q)), (Rmult_comm (par P Q)). split; [exact X2 | exact Y2].
Qed.
End Acc.
