(** * Binary32 and exact arithmetic agree on small grids: relating the two runs of the search. *)
From Coq Require Import Reals ZArith Bool Lra Lia List Psatz.
From Flocq Require Import IEEE754.BinarySingleNaN Core Relative.
From Verif Require Import Num NumXR NumB32 Glam Transform2 Shapes2 Gjk Detect2 P_B32 Props_F32.
Import ListNotations.
Local Open Scope R_scope.

Section Grid.
(** grid step 2^e *)
Variable e : Z.
Hypothesis He : (-7 <= e <= 14)%Z.

(** x (f32) and y (exact) are both n * 2^(k*e) *)
Definition is (k n : Z) (x : b32) (y : XR) : Prop := fin x /\ val x = IZR n * bpow radix2 (k * e) /\ y = XFin (IZR n * bpow radix2 (k * e)).
Definition iv (k : Z) (p : Z * Z) (v : vec2 b32) (w : vec2 XR) : Prop := is k (fst p) (vx v) (vx w) /\ is k (snd p) (vy v) (vy w).

Lemma is_cmp k n k' n' x y x' y' : is k n x y -> is k' n' x' y' -> flt x x' = flt y y' /\ fle x x' = fle y y'.
Proof.
  intros (F & V & ->) (F' & V' & ->). rewrite flt_fin, fle_fin, V, V' by assumption. split; reflexivity.
Qed.
Lemma is_big m k : (Z.abs m <= 2 ^ 24)%Z -> (0 <= k <= 4)%Z -> rnd (IZR m * bpow radix2 (k * e)) = IZR m * bpow radix2 (k * e) /\ Rabs (rnd (IZR m * bpow radix2 (k * e))) < big.
Proof.
  intros B K. assert (R0 : rnd (IZR m * bpow radix2 (k * e)) = IZR m * bpow radix2 (k * e)) by (apply rnd_dyadic; [exact B | nia]).
  split; [exact R0|]. rewrite R0, Rabs_mult, (Rabs_pos_eq (bpow _ _)) by apply bpow_ge_0. rewrite <- abs_IZR.
  apply Rle_lt_trans with (bpow radix2 24 * bpow radix2 56); [|rewrite <- bpow_plus; apply bpow_lt; lia].
  apply Rmult_le_compat; [apply IZR_le; lia | apply bpow_ge_0 | apply (IZR_le _ (2 ^ 24)); exact B | apply bpow_le; nia].
Qed.
Lemma is_neg k n x y : is k n x y -> is k (- n) (fneg x) (fneg y).
Proof.
  intros (F & V & ->). split; [|split].
  - unfold fin in * . cbn. rewrite is_finite_Bopp. exact F.
  - unfold val in * . cbn. rewrite B2R_Bopp, V, opp_IZR. ring.
  - cbn. rewrite opp_IZR. f_equal. ring.
Qed.
Lemma is_add k m n x y x' y' : is k m x y -> is k n x' y' -> (0 <= k <= 4)%Z -> (Z.abs (m + n) <= 2 ^ 24)%Z -> is k (m + n) (fadd x x') (fadd y y').
Proof.
  intros (F & V & ->) (F' & V' & ->) K B. destruct (is_big _ k B K) as [R0 R1]. rewrite plus_IZR, Rmult_plus_distr_r in R0, R1.
  destruct (add_ok x x' F F') as [A1 A2]; [rewrite V, V'; exact R1|]. unfold is. rewrite plus_IZR, Rmult_plus_distr_r.
  split; [exact A1|]. split; [rewrite A2, V, V'; exact R0 | reflexivity].
Qed.
Lemma is_sub k m n x y x' y' : is k m x y -> is k n x' y' -> (0 <= k <= 4)%Z -> (Z.abs (m - n) <= 2 ^ 24)%Z -> is k (m - n) (fsub x x') (fsub y y').
Proof.
  intros (F & V & ->) (F' & V' & ->) K B. destruct (is_big _ k B K) as [R0 R1]. rewrite minus_IZR, Rmult_minus_distr_r in R0, R1.
  destruct (sub_ok x x' F F') as [A1 A2]; [rewrite V, V'; exact R1|]. unfold is. rewrite minus_IZR, Rmult_minus_distr_r.
  split; [exact A1|]. split; [rewrite A2, V, V'; exact R0 | reflexivity].
Qed.
Lemma is_mul k j m n x y x' y' : is k m x y -> is j n x' y' -> (0 <= k + j <= 4)%Z -> (Z.abs (m * n) <= 2 ^ 24)%Z -> is (k + j) (m * n) (fmul x x') (fmul y y').
Proof.
  intros (F & V & ->) (F' & V' & ->) K B. destruct (is_big _ (k + j) B K) as [R0 R1].
  assert (E : IZR (m * n) * bpow radix2 ((k + j) * e) = IZR m * bpow radix2 (k * e) * (IZR n * bpow radix2 (j * e))) by (rewrite mult_IZR, Z.mul_add_distr_r, bpow_plus; ring).
  rewrite E in R0, R1. destruct (mul_ok x x' F F') as [A1 A2]; [rewrite V, V'; exact R1|]. unfold is. rewrite E.
  split; [exact A1|]. split; [rewrite A2, V, V'; exact R0 | reflexivity].
Qed.
Lemma is_zero k : is k 0 f0 f0.
Proof. split; [reflexivity|]. split; [cbn; ring | cbn; f_equal; ring]. Qed.
Lemma is_one : is 0 1 f1 f1.
Proof. destruct (val_of 1 0 ltac:(lia) ltac:(lia)) as [F V]. split; [exact F|]. split; [exact V|]. cbn. f_equal. ring. Qed.
Lemma is_eq k n m x y : is k n x y -> n = m -> is k m x y. Proof. intros H <-. exact H. Qed.

(** points of the difference: at most 32 steps from the origin; directions: at most 2^18 *)
Definition near32 (p : Z * Z) : Prop := (Z.abs (fst p) <= 32 /\ Z.abs (snd p) <= 32)%Z.
Definition diri (d : vec2 b32) (d' : vec2 XR) : Prop :=
  exists k z, (0 <= k <= 3)%Z /\ (Z.abs (fst z) <= 2 ^ 18 /\ Z.abs (snd z) <= 2 ^ 18)%Z /\ iv k z d d'.
Definition pti (p : vec2 b32) (p' : vec2 XR) : Prop := exists z, near32 z /\ iv 1 z p p'.

Lemma iv_neg k z v w : iv k z v w -> iv k (- fst z, - snd z)%Z (v2neg v) (v2neg w).
Proof. intros [X Y]. split; apply is_neg; assumption. Qed.
Lemma iv_sub k z v w z' v' w' : iv k z v w -> iv k z' v' w' -> (0 <= k <= 4)%Z -> (Z.abs (fst z - fst z') <= 2 ^ 24)%Z -> (Z.abs (snd z - snd z') <= 2 ^ 24)%Z ->
  iv k (fst z - fst z', snd z - snd z')%Z (v2sub v v') (v2sub w w').
Proof. intros [X Y] [X' Y'] K A B. split; apply is_sub; assumption. Qed.
Lemma iv_dot k j z v w z' v' w' : iv k z v w -> iv j z' v' w' -> (0 <= k + j <= 4)%Z ->
  (Z.abs (fst z * fst z') <= 2 ^ 23)%Z -> (Z.abs (snd z * snd z') <= 2 ^ 23)%Z ->
  is (k + j) (fst z * fst z' + snd z * snd z') (v2dot v v') (v2dot w w').
Proof. intros [X Y] [X' Y'] K A B. apply is_add; [apply is_mul; try assumption; lia | apply is_mul; try assumption; lia | exact K | lia]. Qed.
Lemma abs_mul x y A B : (Z.abs x <= A -> Z.abs y <= B -> Z.abs (x * y) <= A * B)%Z.
Proof. intros. rewrite Z.abs_mul. apply Z.mul_le_mono_nonneg; lia. Qed.
Lemma iv_dot_pd z v w k z' v' w' : near32 z -> iv 1 z v w -> (0 <= k <= 3)%Z -> (Z.abs (fst z') <= 2 ^ 18 /\ Z.abs (snd z') <= 2 ^ 18)%Z -> iv k z' v' w' ->
  is (1 + k) (fst z * fst z' + snd z * snd z') (v2dot v v') (v2dot w w').
Proof.
  intros [N1 N2] I K [B1 B2] I'. apply iv_dot; try assumption; [lia | |]; (eapply Z.le_trans; [eapply abs_mul; eassumption | lia]).
Qed.
Lemma dot_pd p p' d d' : pti p p' -> diri d d' -> exists k n, is k n (v2dot p d) (v2dot p' d').
Proof. intros (z & N & I) (k & z' & K & B & I'). eexists _, _. eapply iv_dot_pd; eassumption. Qed.
Lemma dot_dp p p' d d' : pti p p' -> diri d d' -> exists k n, is k n (v2dot d p) (v2dot d' p').
Proof.
  intros (z & [N1 N2] & I) (k & z' & K & [B1 B2] & I'). eexists _, _. eapply (iv_dot k 1); try eassumption; [lia | |]; (eapply Z.le_trans; [eapply abs_mul; eassumption | lia]).
Qed.
Lemma diri_neg d d' : diri d d' -> diri (v2neg d) (v2neg d').
Proof. intros (k & z & K & [B1 B2] & I). exists k, (- fst z, - snd z)%Z. split; [exact K|]. split; [cbn; lia | apply iv_neg, I]. Qed.
Lemma diri_perp d d' : diri d d' -> diri (v2perp d) (v2perp d').
Proof. intros (k & z & K & [B1 B2] & [X Y]). exists k, (- snd z, fst z)%Z. split; [exact K|]. split; [cbn; lia|]. split; [apply is_neg, Y | exact X]. Qed.
Lemma diri_pt p p' : pti p p' -> diri (v2neg p) (v2neg p').
Proof. intros (z & [N1 N2] & I). exists 1%Z, (- fst z, - snd z)%Z. split; [lia|]. split; [cbn; lia | apply iv_neg, I]. Qed.
Lemma diri_x : diri (V2 f1 f0) (V2 f1 f0).
Proof. exists 0%Z, (1, 0)%Z. split; [lia|]. split; [cbn; lia|]. split; [apply is_one | apply is_zero]. Qed.

(** ** the length test *)
Lemma eps2 : fin (fmul feps feps) /\ val (fmul feps feps) = bpow radix2 (-46).
Proof.
  split; [vm_compute; reflexivity|]. rewrite (val_sf _ false 8388608 (-69)) by (vm_compute; reflexivity). cbn [cond_Zopp].
  change (IZR 8388608) with (bpow radix2 23). rewrite <- bpow_plus. reflexivity.
Qed.
Lemma eps2x : fmul (F:=XR) feps feps = XFin (bpow radix2 (-46)).
Proof. cbn. f_equal. lra. Qed.
Lemma sq_low n k : n <> 0%Z -> (0 <= k <= 3)%Z -> bpow radix2 (-42) <= (IZR n * bpow radix2 (k * e)) * (IZR n * bpow radix2 (k * e)).
Proof.
  intros N K. assert (A : 1 <= IZR n * IZR n) by (rewrite <- mult_IZR; apply IZR_le; nia).
  replace (IZR n * bpow radix2 (k * e) * (IZR n * bpow radix2 (k * e))) with (IZR n * IZR n * (bpow radix2 (k * e) * bpow radix2 (k * e))) by ring.
  rewrite <- bpow_plus. apply Rle_trans with (1 * bpow radix2 (k * e + k * e)); [rewrite Rmult_1_l; apply bpow_le; nia|].
  apply Rmult_le_compat_r; [apply bpow_ge_0 | exact A].
Qed.
Lemma sq_high n k : (Z.abs n <= 2 ^ 18)%Z -> (0 <= k <= 3)%Z -> small ((IZR n * bpow radix2 (k * e)) * (IZR n * bpow radix2 (k * e))) 120.
Proof.
  intros N K. change 120%Z with (60 + 60)%Z. assert (S : small (IZR n * bpow radix2 (k * e)) 60).
  { unfold small. rewrite Rabs_mult, (Rabs_pos_eq (bpow _ _)) by apply bpow_ge_0. rewrite <- abs_IZR.
    apply Rle_trans with (bpow radix2 18 * bpow radix2 42); [|rewrite <- bpow_plus; apply Rle_refl].
    apply Rmult_le_compat; [apply IZR_le; lia | apply bpow_ge_0 | apply (IZR_le _ (2 ^ 18)); exact N | apply bpow_le; nia]. }
  apply small_mul; exact S.
Qed.
Lemma too_small_same d d' : diri d d' -> direction_is_too_small d = direction_is_too_small d'.
Proof.
  intros (k & [m n] & K & [B1 B2] & [(FX & VX & EX) (FY & VY & EY)]). cbn [fst snd] in * .
  destruct d as [x y], d' as [x' y']. cbn [vx vy] in * . subst x' y'.
  destruct eps2 as [FE VE].
  assert (SX := sq_high m k B1 K). assert (SY := sq_high n k B2 K).
  set (X := IZR m * bpow radix2 (k * e)) in * . set (Y := IZR n * bpow radix2 (k * e)) in * .
  assert (SX' : small (rnd (X * X)) 120) by (apply rnd_small; [lia | exact SX]).
  assert (SY' : small (rnd (Y * Y)) 120) by (apply rnd_small; [lia | exact SY]).
  destruct (mul_ok x x FX FX) as [M1 M2]; [rewrite VX; apply (small_big _ 120); [lia | exact SX']|]. rewrite VX in M2.
  destruct (mul_ok y y FY FY) as [M3 M4]; [rewrite VY; apply (small_big _ 120); [lia | exact SY']|]. rewrite VY in M4.
  assert (SS : small (rnd (rnd (X * X) + rnd (Y * Y))) 121) by (apply rnd_small; [lia|]; apply (small_add _ _ 120); assumption).
  destruct (add_ok _ _ M1 M3) as [A1 A2]; [rewrite M2, M4; apply (small_big _ 121); [lia | exact SS]|]. rewrite M2, M4 in A2.
  unfold direction_is_too_small, v2lensq, v2dot; cbn [vx vy]. rewrite flt_fin, A2, VE by assumption. rewrite eps2x.
  change (Rltb (rnd (rnd (X * X) + rnd (Y * Y))) (bpow radix2 (-46)) = Rltb (X * X + Y * Y) (bpow radix2 (-46))).
  assert (PX : 0 <= rnd (X * X)) by (rewrite <- rnd_0; apply rnd_le, Rle_0_sqr).
  assert (PY : 0 <= rnd (Y * Y)) by (rewrite <- rnd_0; apply rnd_le, Rle_0_sqr).
  assert (B42 : bpow radix2 (-46) < bpow radix2 (-42)) by (apply bpow_lt; lia).
  assert (R42 : rnd (bpow radix2 (-42)) = bpow radix2 (-42)) by (rewrite <- (Rmult_1_l (bpow radix2 (-42))); apply (rnd_dyadic 1 (-42)); lia).
  destruct (Z.eq_dec m 0) as [->|Nm]; [destruct (Z.eq_dec n 0) as [->|Nn]|].
  - replace X with 0 by (unfold X; ring). replace Y with 0 by (unfold Y; ring). rewrite Rmult_0_l, rnd_0, Rplus_0_r, rnd_0. reflexivity.
  - pose proof (sq_low n k Nn K) as L. fold Y in L. assert (L' : bpow radix2 (-42) <= rnd (Y * Y)) by (rewrite <- R42; apply rnd_le; exact L).
    pose proof (Rle_0_sqr X) as QX. unfold Rsqr in QX.
    rewrite !Rltb_false; [reflexivity | lra |]. apply Rle_trans with (bpow radix2 (-42)); [lra|]. rewrite <- R42. apply rnd_le. lra.
  - pose proof (sq_low m k Nm K) as L. fold X in L. assert (L' : bpow radix2 (-42) <= rnd (X * X)) by (rewrite <- R42; apply rnd_le; exact L).
    pose proof (Rle_0_sqr Y) as QX. unfold Rsqr in QX.
    rewrite !Rltb_false; [reflexivity | lra |]. apply Rle_trans with (bpow radix2 (-42)); [lra|]. rewrite <- R42. apply rnd_le. lra.
Qed.

(** ** one step of the search *)
Lemma area_bound ax ay bx by_ cx cy : (Z.abs ax <= 32 -> Z.abs ay <= 32 -> Z.abs bx <= 32 -> Z.abs by_ <= 32 -> Z.abs cx <= 32 -> Z.abs cy <= 32 ->
  Z.abs ((bx - ax) * (cy - ay) - (by_ - ay) * (cx - ax)) <= 4096)%Z.
Proof.
  intros. replace ((bx - ax) * (cy - ay) - (by_ - ay) * (cx - ax))%Z with (ax * (by_ - cy) + bx * (cy - ay) + cx * (ay - by_))%Z by ring.
  assert (A : forall x y, (Z.abs x <= 32 -> Z.abs (x * y) <= 32 * Z.abs y)%Z) by (intros; rewrite Z.abs_mul; apply Z.mul_le_mono_nonneg_r; lia).
  pose proof (A ax (by_ - cy)%Z ltac:(lia)). pose proof (A bx (cy - ay)%Z ltac:(lia)). pose proof (A cx (ay - by_)%Z ltac:(lia)). lia.
Qed.
(** the answers of add_point agree *)
Definition agree1 (r : res (simplex b32 * (bool * vec2 b32))) (r' : res (simplex XR * (bool * vec2 XR))) : Prop :=
  match r, r' with
  | Ok (s, (c, d)), Ok (s', (c', d')) => Forall2 pti s s' /\ c = c' /\ (if c then length s = 3%nat else (1 <= length s <= 2)%nat /\ diri d d')
  | _, _ => False
  end.
Lemma add_same s s' p p' : Forall2 pti s s' -> (length s <= 2)%nat -> pti p p' -> agree1 (add_point s p) (add_point s' p').
Proof.
  intros FS L P. destruct FS as [|b b' s s' Pb FS]; [|destruct FS as [|c c' s s' Pc FS]; [|destruct FS; [|cbn in L; lia]]].
  - cbn. split; [repeat constructor; exact P|]. split; [reflexivity|]. split; [lia | apply diri_pt, P].
  - destruct P as ([ax ay] & [A1 A2] & IA). destruct Pb as ([bx by_] & [B1 B2] & IB). cbn [fst snd] in * .
    assert (Pa : pti p p') by (exists (ax, ay); split; [split; assumption | exact IA]). assert (Pb : pti b b') by (exists (bx, by_); split; [split; assumption | exact IB]).
    cbn [add_point].
    assert (IAB := iv_sub 1 _ _ _ _ _ _ IB IA ltac:(lia) ltac:(cbn [fst snd]; lia) ltac:(cbn [fst snd]; lia)).
    assert (IAO := iv_neg 1 _ _ _ IA). cbn [fst snd] in IAB, IAO.
    set (ab := v2sub b p) in * . set (ab' := v2sub b' p') in * . set (ao := v2neg p) in * . set (ao' := v2neg p') in * .
    assert (D : is (1 + 1) ((bx - ax) * (- ax) + (by_ - ay) * (- ay)) (v2dot ab ao) (v2dot ab' ao')).
    { apply (iv_dot 1 1 (bx - ax, by_ - ay)%Z _ _ (- ax, - ay)%Z); try assumption; [lia | |]; cbn [fst snd]; (eapply Z.le_trans; [apply (abs_mul _ _ 64 32); lia | lia]). }
    destruct (is_cmp _ _ _ _ _ _ _ _ (is_zero 0) D) as [_ ->].
    destruct (fle f0 (v2dot ab' ao')).
    + cbn [agree1]. split; [repeat constructor; assumption|]. split; [reflexivity|]. split; [cbn; lia|].
      destruct IAB as [X Y], IAO as [X' Y'].
      assert (CR : is (1 + 1) ((bx - ax) * (- ay) - (by_ - ay) * (- ax)) (cross ab ao) (cross ab' ao')).
      { apply is_sub; [apply is_mul; try assumption; [lia|] | apply is_mul; try assumption; [lia|] | lia |]; cbn [fst snd].
        - eapply Z.le_trans; [apply (abs_mul _ _ 64 32); lia | lia].
        - eapply Z.le_trans; [apply (abs_mul _ _ 64 32); lia | lia].
        - pose proof (abs_mul (bx - ax) (- ay) 64 32 ltac:(lia) ltac:(lia)). pose proof (abs_mul (by_ - ay) (- ax) 64 32 ltac:(lia) ltac:(lia)). lia. }
      set (c := ((bx - ax) * (- ay) - (by_ - ay) * (- ax))%Z) in * .
      assert (BC : (Z.abs c <= 4096)%Z).
      { pose proof (abs_mul (bx - ax) (- ay) 64 32 ltac:(lia) ltac:(lia)). pose proof (abs_mul (by_ - ay) (- ax) 64 32 ltac:(lia) ltac:(lia)). unfold c; lia. }
      exists 3%Z, (- (by_ - ay) * c, (bx - ax) * c)%Z. split; [lia|]. cbn [fst snd].
      pose proof (abs_mul (- (by_ - ay)) c 64 4096 ltac:(lia) ltac:(lia)). pose proof (abs_mul (bx - ax) c 64 4096 ltac:(lia) ltac:(lia)).
      split; [split; lia|]. split.
      * apply (is_mul 1 (1 + 1)); [apply is_neg, Y | exact CR | lia | cbn [fst snd]; lia].
      * apply (is_mul 1 (1 + 1)); [exact X | exact CR | lia | cbn [fst snd]; lia].
    + cbn [agree1]. split; [repeat constructor; assumption|]. split; [reflexivity|]. split; [cbn; lia|]. apply diri_pt, Pa.
  - destruct P as ([ax ay] & [A1 A2] & IA). destruct Pb as ([bx by_] & [B1 B2] & IB). destruct Pc as ([cx cy] & [C1 C2] & IC). cbn [fst snd] in * .
    assert (Pa : pti p p') by (exists (ax, ay); split; [split; assumption | exact IA]). assert (Pb : pti b b') by (exists (bx, by_); split; [split; assumption | exact IB]).
    assert (Pc : pti c c') by (exists (cx, cy); split; [split; assumption | exact IC]).
    cbn [add_point].
    assert (IAB := iv_sub 1 _ _ _ _ _ _ IB IA ltac:(lia) ltac:(cbn [fst snd]; lia) ltac:(cbn [fst snd]; lia)).
    assert (IAC := iv_sub 1 _ _ _ _ _ _ IC IA ltac:(lia) ltac:(cbn [fst snd]; lia) ltac:(cbn [fst snd]; lia)).
    assert (IAO := iv_neg 1 _ _ _ IA). cbn [fst snd] in IAB, IAC, IAO.
    set (ab := v2sub b p) in * . set (ab' := v2sub b' p') in * . set (ao := v2neg p) in * . set (ao' := v2neg p') in * .
    set (ac := v2sub c p) in * . set (ac' := v2sub c' p') in * .
    assert (CR : is (1 + 1) ((bx - ax) * (cy - ay) - (by_ - ay) * (cx - ax)) (cross ab ac) (cross ab' ac')).
    { destruct IAB as [X Y], IAC as [X' Y']. apply is_sub; [apply is_mul; try assumption; [lia|] | apply is_mul; try assumption; [lia|] | lia |]; cbn [fst snd].
      - eapply Z.le_trans; [apply (abs_mul _ _ 64 64); lia | lia].
      - eapply Z.le_trans; [apply (abs_mul _ _ 64 64); lia | lia].
      - eapply Z.le_trans; [apply area_bound; assumption | lia]. }
    assert (BC := area_bound ax ay bx by_ cx cy A1 A2 B1 B2 C1 C2).
    set (k := ((bx - ax) * (cy - ay) - (by_ - ay) * (cx - ax))%Z) in * . clearbody k.
    set (abc := cross ab ac) in * . set (abc' := cross ab' ac') in * .
    assert (ACP : iv 3 (- k * (cy - ay), k * (cx - ax))%Z (cross_sv abc ac) (cross_sv abc' ac')).
    { destruct IAC as [X Y]. split; cbn [fst snd].
      - apply (is_mul (1 + 1) 1); [apply is_neg, CR | exact Y | lia |]. eapply Z.le_trans; [apply (abs_mul _ _ 4096 64); cbn [fst snd]; lia | lia].
      - apply (is_mul (1 + 1) 1); [exact CR | exact X | lia |]. eapply Z.le_trans; [apply (abs_mul _ _ 4096 64); cbn [fst snd]; lia | lia]. }
    assert (ABP : iv 3 ((by_ - ay) * k, - (bx - ax) * k)%Z (cross_f32 ab abc) (cross_f32 ab' abc')).
    { destruct IAB as [X Y]. split; cbn [fst snd].
      - apply (is_mul 1 (1 + 1)); [exact Y | exact CR | lia |]. eapply Z.le_trans; [apply (abs_mul _ _ 64 4096); cbn [fst snd]; lia | lia].
      - apply (is_mul 1 (1 + 1)); [apply is_neg, X | exact CR | lia |]. eapply Z.le_trans; [apply (abs_mul _ _ 64 4096); cbn [fst snd]; lia | lia]. }
    assert (DB : diri (cross_f32 ab abc) (cross_f32 ab' abc')).
    { eexists 3%Z, _. split; [lia|]. split; [|exact ABP]. cbn [fst snd].
      pose proof (abs_mul (by_ - ay) k 64 4096 ltac:(lia) ltac:(lia)). pose proof (abs_mul (- (bx - ax)) k 64 4096 ltac:(lia) ltac:(lia)). lia. }
    assert (DC : diri (cross_sv abc ac) (cross_sv abc' ac')).
    { eexists 3%Z, _. split; [lia|]. split; [|exact ACP]. cbn [fst snd].
      pose proof (abs_mul (- k) (cy - ay) 4096 64 ltac:(lia) ltac:(lia)). pose proof (abs_mul k (cx - ax) 4096 64 ltac:(lia) ltac:(lia)). lia. }
    assert (PO : pti ao ao') by (exists (- ax, - ay)%Z; split; [split; cbn [fst snd]; lia | exact IAO]).
    assert (T1 : same_direction (cross_f32 ab abc) ao = same_direction (cross_f32 ab' abc') ao').
    { destruct (dot_dp _ _ _ _ PO DB) as (j & n & D). unfold same_direction. apply (is_cmp _ _ _ _ _ _ _ _ (is_zero 0) D). }
    assert (T2 : same_direction (cross_sv abc ac) ao = same_direction (cross_sv abc' ac') ao').
    { destruct (dot_dp _ _ _ _ PO DC) as (j & n & D). unfold same_direction. apply (is_cmp _ _ _ _ _ _ _ _ (is_zero 0) D). }
    assert (T3 : same_direction ab ao = same_direction ab' ao').
    { assert (D : is (1 + 1) ((bx - ax) * (- ax) + (by_ - ay) * (- ay)) (v2dot ab ao) (v2dot ab' ao')).
      { apply (iv_dot 1 1 (bx - ax, by_ - ay)%Z _ _ (- ax, - ay)%Z); try assumption; [lia | |]; cbn [fst snd]; (eapply Z.le_trans; [apply (abs_mul _ _ 64 32); lia | lia]). }
      unfold same_direction. apply (is_cmp _ _ _ _ _ _ _ _ (is_zero 0) D). }
    rewrite T1, T2, T3. destruct (same_direction (cross_f32 ab' abc') ao'); [destruct (same_direction ab' ao') | destruct (same_direction (cross_sv abc' ac') ao')];
      (cbn [agree1]; split; [repeat constructor; assumption|]; split; [reflexivity|]; first [reflexivity | split; [cbn; lia | assumption]]).
Qed.
(** ** the loops *)
Section Runs.
Variable sup : vec2 b32 -> vec2 b32.
Variable sup' : vec2 XR -> vec2 XR.
Hypothesis Hs : forall d d', diri d d' -> pti (sup d) (sup' d').

Definition same_end (o : outcome b32) (o' : outcome XR) : Prop :=
  match o, o' with
  | Separated s d, Separated s' d' => Forall2 pti s s' /\ (length s <= 2)%nat
  | Captured s, Captured s' => Forall2 pti s s' /\ length s = 3%nat
  | TooSmall s d, TooSmall s' d' => Forall2 pti s s' /\ (length s <= 2)%nat
  | Exhausted s, Exhausted s' => Forall2 pti s s' /\ (length s <= 2)%nat
  | _, _ => False
  end.
Lemma fit_zero p p' d d' : pti p p' -> diri d d' -> fle (v2dot p d) f0 = fle (v2dot p' d') f0.
Proof. intros P D. destruct (dot_pd _ _ _ _ P D) as (k & n & I). apply (is_cmp _ _ _ _ _ _ _ _ I (is_zero 0)). Qed.
Lemma fit_last p p' q q' d d' : pti p p' -> pti q q' -> diri d d' -> fle (v2dot p d) (v2dot q d) = fle (v2dot p' d') (v2dot q' d').
Proof. intros P Q D. destruct (dot_pd _ _ _ _ P D) as (k & n & I). destruct (dot_pd _ _ _ _ Q D) as (j & m & J). apply (is_cmp _ _ _ _ _ _ _ _ I J). Qed.
Lemma next_dir d d' e1 e1' : diri d d' -> diri e1 e1' ->
  diri (if direction_is_too_small e1 then v2perp d else e1) (if direction_is_too_small e1' then v2perp d' else e1').
Proof. intros D E1. rewrite (too_small_same _ _ E1). destruct (direction_is_too_small e1'); [apply diri_perp, D | exact E1]. Qed.

Lemma ff_same n : forall s s' d d', Forall2 pti s s' -> (length s <= 2)%nat -> diri d d' -> same_end (run_ff sup n s d) (run_ff sup' n s' d').
Proof.
  induction n as [|n IH]; intros s s' d d' FS L D; cbn [run_ff]; [split; assumption|].
  pose proof (Hs d d' D) as P. rewrite (fit_zero _ _ _ _ P D). destruct (fle _ f0); [split; assumption|].
  pose proof (add_same s s' _ _ FS L P) as A. unfold agree1 in A. destruct (add_point s (sup d)) as [[s1 [c d1]]|]; [|contradiction].
  destruct (add_point s' (sup' d')) as [[s1' [c' d1']]|]; [|contradiction]. destruct A as (F1 & <- & A). destruct c; [split; assumption|].
  destruct A as [L1 D1]. rewrite (too_small_same _ _ D1). destruct (direction_is_too_small d1'); [split; [exact F1 | lia] | apply IH; [exact F1 | lia | exact D1]].
Qed.
Lemma tf_same n : forall s s' d d', Forall2 pti s s' -> (length s <= 2)%nat -> diri d d' -> same_end (run_tf sup n s d) (run_tf sup' n s' d').
Proof.
  induction n as [|n IH]; intros s s' d d' FS L D; cbn [run_tf]; [split; assumption|].
  pose proof (Hs d d' D) as P. rewrite (fit_zero _ _ _ _ P D). destruct (fle _ f0); [split; assumption|].
  pose proof (add_same s s' _ _ FS L P) as A. unfold agree1 in A. destruct (add_point s (sup d)) as [[s1 [c d1]]|]; [|contradiction].
  destruct (add_point s' (sup' d')) as [[s1' [c' d1']]|]; [|contradiction]. destruct A as (F1 & <- & A). destruct c; [split; assumption|].
  destruct A as [L1 D1]. apply IH; [exact F1 | lia |]. apply next_dir; assumption.
Qed.
Lemma ft_same n : forall s s' la la' d d', Forall2 pti s s' -> (length s <= 2)%nat -> pti la la' -> diri d d' ->
  same_end (run_ft sup n s la d) (run_ft sup' n s' la' d').
Proof.
  induction n as [|n IH]; intros s s' la la' d d' FS L PL D; cbn [run_ft]; [split; assumption|].
  pose proof (Hs d d' D) as P. rewrite (fit_zero _ _ _ _ P D), (fit_last _ _ _ _ _ _ P PL D). destruct (_ && _); [split; assumption|].
  pose proof (add_same s s' _ _ FS L P) as A. unfold agree1 in A. destruct (add_point s (sup d)) as [[s1 [c d1]]|]; [|contradiction].
  destruct (add_point s' (sup' d')) as [[s1' [c' d1']]|]; [|contradiction]. destruct A as (F1 & <- & A). destruct c; [split; assumption|].
  destruct A as [L1 D1]. apply IH; [exact F1 | lia | exact P |]. apply next_dir; assumption.
Qed.
Lemma start_ft_same d d' : diri d d' -> same_end (start_ft sup d) (start_ft sup' d').
Proof.
  intro D. pose proof (Hs d d' D) as P. unfold start_ft. cbn [add_point]. apply ft_same; [repeat constructor; exact P | cbn; lia | exact P | apply diri_pt, P].
Qed.
(** as long as every fitness is positive the combined search does the same in both *)
Definition nonzero (d : vec2 XR) : Prop := d <> V2 (XFin 0) (XFin 0).
Lemma nonzero_next d e1 : nonzero d -> (exists d0, diri d0 d) -> nonzero (if direction_is_too_small e1 then v2perp d else e1).
Proof.
  intros N (d0 & k & z & _ & _ & [(_ & _ & X) (_ & _ & Y)]). destruct (direction_is_too_small e1) eqn:E.
  - intro Q. apply N. destruct d as [x y]. cbn [vx vy] in X, Y. subst x y. injection Q as Q1 Q2. f_equal; f_equal; lra.
  - intros ->. unfold direction_is_too_small, v2lensq, v2dot in E. cbn [vx vy] in E. rewrite eps2x in E.
    change (Rltb (0 * 0 + 0 * 0) (bpow radix2 (-46)) = false) in E. rewrite Rltb_true in E; [discriminate|].
    rewrite Rmult_0_l, Rplus_0_r. apply bpow_gt_0.
Qed.
Lemma tt_same n : (forall d d', diri d d' -> nonzero d' -> fle (v2dot (sup' d') d') f0 = false) ->
  forall s s' la la' d d', Forall2 pti s s' -> (length s <= 2)%nat -> diri d d' -> nonzero d' ->
  same_end (run_tt sup n s la d true) (run_tt sup' n s' la' d' true).
Proof.
  intro H. induction n as [|n IH]; intros s s' la la' d d' FS L D N; cbn [run_tt]; [split; assumption|].
  pose proof (Hs d d' D) as P. rewrite (fit_zero _ _ _ _ P D), (H _ _ D N). cbn [andb].
  pose proof (add_same s s' _ _ FS L P) as A. unfold agree1 in A. destruct (add_point s (sup d)) as [[s1 [c d1]]|]; [|contradiction].
  destruct (add_point s' (sup' d')) as [[s1' [c' d1']]|]; [|contradiction]. destruct A as (F1 & <- & A). destruct c; [split; assumption|]. cbn [andb].
  destruct A as [L1 D1]. apply IH; [exact F1 | lia | apply next_dir; assumption | apply nonzero_next; [exact N | exists d; exact D]].
Qed.
End Runs.
End Grid.
