(** * C64: the scalar distance in f32 is nearly the signed distance *)
From Coq Require Import Reals ZArith Bool Lra Lia List Psatz.
From Flocq Require Import IEEE754.BinarySingleNaN Core Relative.
From Verif Require Import Num NumXR NumB32 Glam Transform2 Shapes2 Gjk Detect2 Spec SpecLink P_Base P_Transform P_Shapes P_Geo P_Analytic P_Analytic2 P_B32 Props_F32 Props_F32Gjk Props_Lerp Props_F32Ball P_F32Box P_Drift Spec32 P_Closed32 Props_Drift Props_Closed32 Props_BoxBall.
Import ListNotations.
Local Open Scope R_scope.
Lemma norm_swap_sub p q : norm (psub p q) = norm (psub q p).
Proof. rewrite <- norm_neg. f_equal. apply pt_eq; cbn; ring. Qed.

(** the number x is finite and differs from the signed distance of the bodies by at most 2^-21 of (that distance + twice the radius r), plus 2^-57 *)
Definition close_distance (r : R) (A B : pset) (x : b32) : Prop :=
  fin x /\ exists d, is_signed_distance d A B /\ Rabs (val x - d) <= 8 * u32 * (Rabs d + 2 * r) + bpow radix2 (-57).

(** ** Lengths, also of tiny vectors *)
Lemma sqrt_fin (q : b32) : fin q -> 0 <= val q -> fin (fsqrt q) /\ val (fsqrt q) = rnd (sqrt (val q)).
Proof.
  intros Fq Pq. destruct (Bsqrt_correct 24 128 _ _ mode_NE q) as (Q1 & Q2 & _). split; [|exact Q1]. unfold fin. cbn. rewrite Q2.
  destruct q as [sg|sg| |sg m e b]; try discriminate; [reflexivity|]. destruct sg; [|reflexivity]. exfalso. apply (Rle_not_lt _ _ Pq). apply F2R_lt_0. cbn. lia.
Qed.
Lemma sq_ok (p : vec2 b32) k : (-149 <= k + k)%Z -> (k + k < 127)%Z -> small2 p k -> fin (v2dot p p) /\ 0 <= val (v2dot p p) <= bpow radix2 (k + k + 1).
Proof.
  intros L U [[F1 F2] [S1 S2]]. unfold v2dot.
  assert (K : forall x, fin x -> small (val x) k -> fin (fmul x x) /\ 0 <= val (fmul x x) <= bpow radix2 (k + k)).
  { intros x F S. pose proof (rnd_small _ _ L (small_mul _ _ _ _ S S)) as B. destruct (mul_ok x x F F ltac:(eapply small_big; [|exact B]; lia)) as [G V]. split; [exact G|]. rewrite V. split; [apply rnd_nonneg; nra|].
    eapply Rle_trans; [apply Rle_abs | exact B]. }
  destruct (K _ F1 S1) as (G1 & N1 & B1). destruct (K _ F2 S2) as (G2 & N2 & B2).
  assert (SM : small (rnd (val (fmul (vx p) (vx p)) + val (fmul (vy p) (vy p)))) (k + k + 1)) by (apply rnd_small; [lia|]; apply small_add; unfold small; rewrite Rabs_pos_eq; assumption).
  destruct (add_ok _ _ G1 G2 ltac:(eapply small_big; [|exact SM]; lia)) as [G V]. split; [exact G|]. rewrite V. split; [apply rnd_nonneg; lra|]. eapply Rle_trans; [apply Rle_abs | exact SM].
Qed.
Lemma len_nonneg p : small2 p 60 -> fin (v2len p) /\ 0 <= val (v2len p).
Proof.
  intro S. destruct (sq_ok p 60 ltac:(lia) ltac:(lia) S) as (G & N & _). unfold v2len. destruct (sqrt_fin _ G N) as [F V]. split; [exact F|]. rewrite V. apply rnd_nonneg, sqrt_pos.
Qed.
Lemma len_any p : small2 p 60 -> fin (v2len p) /\ Rabs (val (v2len p) - norm (rval p)) <= 4 * u32 * norm (rval p) + bpow radix2 (-59).
Proof.
  intro S. rewrite <- rlen_norm. pose proof u32_pos as U0. pose proof (bpow_gt_0 radix2 (-59)) as B0. destruct (Rle_or_lt (bpow radix2 (-60)) (rlen p)) as [H|H].
  - destruct (length_ok p (conj S H)) as [F E]. split; [exact F|]. lra.
  - destruct (len_nonneg p S) as [F N]. split; [exact F|]. pose proof (rlen_pos p) as P.
    assert (S' : small2 p (-60)) by (split; [apply S|]; apply fin_small2; rewrite <- rlen_norm; lra).
    destruct (sq_ok p (-60) ltac:(lia) ltac:(lia) S') as (G & G1 & G2). destruct (sqrt_fin _ G G1) as [_ V]. change (fsqrt (v2dot p p)) with (v2len p) in V.
    assert (Q : sqrt (val (v2dot p p)) <= bpow radix2 (-59)).
    { rewrite <- (sqrt_square (bpow radix2 (-59))) by apply bpow_ge_0. apply sqrt_le_1_alt. rewrite <- bpow_plus. eapply Rle_trans; [exact G2|]. apply bpow_le. lia. }
    assert (val (v2len p) <= bpow radix2 (-59)). { rewrite V. rewrite <- (rnd_bpow (-59)) by lia. apply rnd_le, Q. }
    assert (bpow radix2 (-60) <= bpow radix2 (-59)) by (apply bpow_le; lia). assert (0 <= 4 * u32 * rlen p) by (apply Rmult_le_pos; lra). apply Rabs_le. lra.
Qed.
(** subtracting a radius that carries a rounding error itself *)
Lemma less_radius (l r : b32) (L r0 : R) : fin l -> fin r -> small (val l) 63 -> small (val r) 60 -> 0 <= r0 -> Rabs (val r - r0) <= u32 * r0 -> Rabs (val l - L) <= 6 * u32 * Rabs L + bpow radix2 (-58) ->
  fin (fsub l r) /\ Rabs (val (fsub l r) - (L - r0)) <= 8 * u32 * (Rabs (L - r0) + 2 * r0) + bpow radix2 (-57).
Proof.
  intros Fl Fr Sl Sr R0 Er El. assert (Sm : small (rnd (val l - val r)) 64). { apply rnd_small; [lia|]. apply (small_add _ _ 63); [exact Sl | apply small_opp; eapply small_weak; [|exact Sr]; lia]. }
  destruct (sub_ok l r Fl Fr ltac:(eapply small_big; [|exact Sm]; lia)) as [F V]. split; [exact F|]. destruct (rnd_error_sub l r) as (e & He & E). rewrite V, E.
  pose proof u32_pos as U0. pose proof u32_small as U1. assert (B2 : bpow radix2 (-57) = 2 * bpow radix2 (-58)) by (replace (-57)%Z with (1 + -58)%Z by reflexivity; rewrite bpow_plus; reflexivity). pose proof (bpow_gt_0 radix2 (-58)) as B0. rewrite B2. set (b := bpow radix2 (-58)) in * .
  assert (LA : Rabs L <= Rabs (L - r0) + r0) by (unfold Rabs; repeat destruct Rcase_abs; lra).
  set (D := Rabs (L - r0)) in * . pose proof (Rabs_pos (L - r0)) as D0. fold D in D0. assert (U2 : u32 * u32 <= u32 / 1000) by nra.
  set (x := val l - val r). assert (X1 : Rabs (x - (L - r0)) <= 6 * u32 * Rabs L + b + u32 * r0).
  { replace (x - (L - r0)) with ((val l - L) - (val r - r0)) by (unfold x; ring). eapply Rle_trans; [apply Rabs_triang|]. rewrite Rabs_Ropp. lra. }
  assert (X2 : Rabs x <= D + 6 * u32 * Rabs L + b + u32 * r0). { replace x with ((L - r0) + (x - (L - r0))) by ring. eapply Rle_trans; [apply Rabs_triang|]. fold D. lra. }
  replace (x * (1 + e) - (L - r0)) with ((x - (L - r0)) + x * e) by ring. eapply Rle_trans; [apply Rabs_triang|]. rewrite (Rabs_mult x e).
  assert (X3 : Rabs x * Rabs e <= (D + 6 * u32 * Rabs L + b + u32 * r0) * u32) by (apply Rmult_le_compat; try apply Rabs_pos; assumption).
  set (UL := u32 * Rabs L) in * . assert (UL1 : UL <= u32 * (D + r0)) by (apply Rmult_le_compat_l; lra). assert (UD : 0 <= u32 * D) by (apply Rmult_le_pos; lra). assert (UR : 0 <= u32 * r0) by (apply Rmult_le_pos; lra). assert (UB : u32 * b <= b / 10) by nra.
  assert (ULU : u32 * UL <= UL / 100) by (assert (0 <= UL) by (unfold UL; apply Rmult_le_pos; [lra | apply Rabs_pos]); nra). assert (URU : u32 * (u32 * r0) <= u32 * r0 / 100) by nra.
  replace ((D + 6 * u32 * Rabs L + b + u32 * r0) * u32) with (u32 * D + 6 * (u32 * UL) + u32 * b + u32 * (u32 * r0)) in X3 by (unfold UL; ring).
  replace (6 * u32 * Rabs L) with (6 * UL) in X1 by (unfold UL; ring). lra.
Qed.

(** ** Box v Point *)
(** the signed distance of a point at c from a box with half sizes hx and hy *)
Definition box_distance (hx hy : R) (c : pt) : R :=
  let px := Rabs (fst c) - hx in let py := Rabs (snd c) - hy in
  if Rltb px 0 && Rltb py 0 then Rmax px py else if Rltb px 0 then py else if Rltb py 0 then px else norm (px, py).
Lemma fmax_fin32 (x y : b32) : fin x -> fin y -> fin (fmax x y) /\ val (fmax x y) = Rmax (val x) (val y).
Proof.
  intros F G. unfold fmax. rewrite (fin_nan x F), (fin_nan y G). cbn [negb]. rewrite flt_fin by assumption.
  destruct (Rltb_spec (val x) (val y)) as [L|L]; [split; [exact G | rewrite Rmax_right by lra; reflexivity] | split; [exact F | rewrite Rmax_left by lra; reflexivity]].
Qed.
Section Box.
Context {T : Type} {TR : Transformation2d b32 T}.
Variables (h : vec2 b32) (rel : T).
Let p := apply_origin rel.
Hypotheses (Hh : half_ok h) (Fp : small2 p 59).
Let S0 := box_distance (val (vx h)) (val (vy h)) (rval p).
Lemma box_value : let x := box_point_sdf (Box2d h) rel in fin x /\ Rabs (val x - S0) <= 6 * u32 * Rabs S0 + bpow radix2 (-58) /\ small (val x) 63 /\ (val x < 0 <-> S0 < 0) /\
  fst (box_point_sdfv false false (Box2d h) rel) = flt x f0.
Proof.
  destruct Hh as (Fh & Hx & Hy). pose proof (box_part_flag h rel Fp Fh) as BF. fold p in BF. destruct Fp as [[F1 F2] [S1 S2]]. destruct Fh as [[F3 F4] [S3 S4]]. pose proof u32_pos as Up. pose proof u32_small as Us.
  assert (W : forall a, small a 59 -> small a 60) by (intros a Ha; eapply small_weak; [|exact Ha]; lia).
  destruct (edge_ok (vx p) (vx h) F1 F3 (W _ S1) (W _ S3)) as (Dx1 & Dx2 & ex & Ex1 & Ex2). destruct (edge_ok (vy p) (vy h) F2 F4 (W _ S2) (W _ S4)) as (Dy1 & Dy2 & ey & Ey1 & Ey2).
  pose proof (edge_small (vx p) (vx h) 59 ltac:(lia) Dx2 S1 S3) as Sx. pose proof (edge_small (vy p) (vy h) 59 ltac:(lia) Dy2 S2 S4) as Sy. change (59 + 1)%Z with 60%Z in Sx, Sy.
  unfold box_point_sdf. cbn [halfsize]. fold p. rewrite BF. unfold S0, box_distance. cbv zeta. unfold rval. cbn [fst snd].
  set (X := Rabs (val (vx p)) - val (vx h)) in * . set (Y := Rabs (val (vy p)) - val (vy h)) in * . set (dx := fsub (fabs (vx p)) (vx h)) in * . set (dy := fsub (fabs (vy p)) (vy h)) in * .
  assert (Px : 0 < 1 + ex) by (apply fac_pos, Ex1). assert (Py : 0 < 1 + ey) by (apply fac_pos, Ey1). pose proof (bpow_gt_0 radix2 (-58)) as B0.
  assert (Z0 : val (@f0 b32 _) = 0) by reflexivity. assert (Fz : fin (@f0 b32 _)) by reflexivity.
  assert (FX : flt dx f0 = Rltb X 0) by (rewrite flt_fin by assumption; rewrite Z0, Ex2; destruct (Rltb_spec X 0); [apply Rltb_true | apply Rltb_false]; nra).
  assert (FY : flt dy f0 = Rltb Y 0) by (rewrite flt_fin by assumption; rewrite Z0, Ey2; destruct (Rltb_spec Y 0); [apply Rltb_true | apply Rltb_false]; nra).
  assert (One : forall V d e, Rabs e <= u32 -> val d = V * (1 + e) -> Rabs (val d - V) <= 6 * u32 * Rabs V + bpow radix2 (-58)).
  { intros V d e He ->. pose proof (err_rel V e He). pose proof (Rabs_pos V). assert (0 <= u32 * Rabs V) by (apply Rmult_le_pos; lra). lra. }
  assert (Sg : forall V d e, 0 < 1 + e -> val d = V * (1 + e) -> (val d < 0 <-> V < 0)) by (intros V d e He ->; split; intro; nra).
  assert (W3 : forall a, small a 60 -> small a 63) by (intros a Ha; eapply small_weak; [|exact Ha]; lia).
  rewrite FX, FY. destruct (Rltb_spec X 0) as [X0|X0]; [destruct (Rltb_spec Y 0) as [Y0|Y0]|]; cbn [andb].
  - destruct (fmax_fin32 dx dy Dx1 Dy1) as [Fm Vm]. assert (Vx0 : val dx < 0) by (rewrite Ex2; nra). assert (Vy0 : val dy < 0) by (rewrite Ey2; nra).
    assert (M0 : val (fmax dx dy) < 0) by (rewrite Vm; apply Rmax_lub_lt; assumption). assert (M1 : Rmax X Y < 0) by (apply Rmax_lub_lt; assumption).
    split; [exact Fm|]. split; [|split; [|split; [tauto|]]].
    + rewrite (Rabs_left (Rmax X Y)) by exact M1. rewrite Vm. apply abs_le2' in Ex1. apply abs_le2' in Ey1. rewrite Ex2, Ey2 in * .
      assert (K : Rabs (Rmax (X * (1 + ex)) (Y * (1 + ey)) - Rmax X Y) <= u32 * - Rmax X Y).
      { apply Rabs_le. pose proof (Rmax_l X Y). pose proof (Rmax_r X Y). split.
        - assert (Rmax X Y * (1 + u32) <= Rmax (X * (1 + ex)) (Y * (1 + ey))); [|lra]. destruct (Rle_or_lt X Y); [rewrite (Rmax_right X Y) by lra; eapply Rle_trans; [|apply Rmax_r]; nra | rewrite (Rmax_left X Y) by lra; eapply Rle_trans; [|apply Rmax_l]; nra].
        - assert (Rmax (X * (1 + ex)) (Y * (1 + ey)) <= Rmax X Y * (1 - u32)); [|lra]. apply Rmax_lub; nra. }
      assert (0 <= u32 * - Rmax X Y) by (apply Rmult_le_pos; lra). lra.
    + apply W3. unfold small. rewrite Vm. destruct (Rle_or_lt (val dx) (val dy)); [rewrite Rmax_right by lra; exact Sy | rewrite Rmax_left by lra; exact Sx].
    + rewrite flt_fin by assumption. symmetry. apply Rltb_true. rewrite Z0. exact M0.
  - split; [exact Dy1|]. split; [apply (One Y dy ey Ey1 Ey2)|]. split; [apply W3, Sy|]. split; [apply (Sg Y dy ey Py Ey2)|]. symmetry. exact FY.
  - destruct (Rltb_spec Y 0) as [Y0|Y0].
    + split; [exact Dx1|]. split; [apply (One X dx ex Ex1 Ex2)|]. split; [apply W3, Sx|]. split; [apply (Sg X dx ex Px Ex2)|]. symmetry. exact FX.
    + assert (Sd : small2 (V2 dx dy) 60) by (split; [split; assumption | split; assumption]). destruct (len_any _ Sd) as [Fl El]. destruct (len_nonneg _ Sd) as [_ Nl].
      change (rval (V2 dx dy)) with (val dx, val dy) in El. pose proof (norm_nonneg (X, Y)) as NN.
      assert (ND : norm (psub (val dx, val dy) (X, Y)) <= u32 * norm (X, Y)).
      { unfold norm, pdot, psub. cbn [fst snd]. rewrite Ex2, Ey2. rewrite <- (sqrt_square u32) at 1 by lra. rewrite <- sqrt_mult_alt by nra. apply sqrt_le_1_alt.
        replace (X * (1 + ex) - X) with (X * ex) by ring. replace (Y * (1 + ey) - Y) with (Y * ey) by ring.
        assert (Q : forall e, Rabs e <= u32 -> e * e <= u32 * u32) by (intros e He; apply abs_le2' in He; nra). pose proof (Q _ Ex1). pose proof (Q _ Ey1).
        assert (X * X * (ex * ex) <= X * X * (u32 * u32)) by (apply Rmult_le_compat_l; nra). assert (Y * Y * (ey * ey) <= Y * Y * (u32 * u32)) by (apply Rmult_le_compat_l; nra). nra. }
      assert (NB : Rabs (norm (val dx, val dy) - norm (X, Y)) <= u32 * norm (X, Y)).
      { apply Rabs_le. pose proof (norm_triangle_sub (val dx, val dy) (X, Y)). pose proof (norm_triangle_sub (X, Y) (val dx, val dy)) as K. rewrite (norm_swap_sub (X, Y)) in K. lra. }
      assert (B59 : bpow radix2 (-59) <= bpow radix2 (-58)) by (apply bpow_le; lia). apply abs_le2' in NB.
      assert (UN : 0 <= u32 * norm (X, Y)) by (apply Rmult_le_pos; lra). assert (UU : u32 * norm (val dx, val dy) <= u32 * norm (X, Y) * (1 + 1 / 100)) by nra.
      assert (EN : Rabs (val (v2len (V2 dx dy)) - norm (X, Y)) <= 6 * u32 * Rabs (norm (X, Y)) + bpow radix2 (-58)). { rewrite (Rabs_pos_eq (norm (X, Y))) by exact NN. apply abs_le2' in El. apply Rabs_le. lra. }
      split; [exact Fl|]. split; [exact EN|]. split; [|split; [lra|rewrite flt_fin by assumption; symmetry; apply Rltb_false; rewrite Z0; exact Nl]].
      pose proof (norm_box (val dx, val dy) (bpow radix2 60) Sx Sy) as NB2. unfold small. rewrite Rabs_pos_eq by exact Nl. apply abs_le2' in El. assert (E63 : bpow radix2 63 = 8 * bpow radix2 60) by (replace 63%Z with (3 + 60)%Z by reflexivity; rewrite bpow_plus; reflexivity).
      assert (bpow radix2 (-59) <= bpow radix2 60) by (apply bpow_le; lia). pose proof (norm_nonneg (val dx, val dy)). assert (4 * u32 * norm (val dx, val dy) <= norm (val dx, val dy)) by nra. lra.
Qed.
End Box.
Lemma box_distance_true hx hy r c : 0 <= hx -> 0 <= hy -> 0 <= r -> is_signed_distance (box_distance hx hy c - r) (rounded_rect hx hy r) (single c).
Proof. intros Hx Hy Hr. exact (rounded_sdf_exact hx hy r c Hx Hy Hr). Qed.
Lemma box_distance_true0 hx hy c : 0 <= hx -> 0 <= hy -> is_signed_distance (box_distance hx hy c) (rect hx hy) (single c).
Proof.
  intros Hx Hy. pose proof (box_distance_true hx hy 0 c Hx Hy (Rle_refl 0)) as K. rewrite Rminus_0_r in K.
  apply (same_signed_distance _ _ _ _ (diff_ext _ _ (single c) (single c) (rounded_0 hx hy) (fun _ => iff_refl _))). exact K.
Qed.
Lemma wide p : small2 p 59 -> small2 p 60.
Proof. intros [F [A B]]. split; [exact F|]. split; (eapply small_weak; [|eassumption]; lia). Qed.

(** Box2d v Point: the sign is exact, and negative numbers are what collides reports *)
Theorem C64_box_point : forall (T : Type) (TR : Transformation2d b32 T) (h : vec2 b32) (rel : T), half_ok h -> small2 (apply_origin rel) 59 ->
  let x := sdf_rel (F:=b32) (Box2d h) PointS rel in let A := rect (val (vx h)) (val (vy h)) in let B := single (rval (apply_origin rel)) in
  close_distance 0 A B x /\ (val x < 0 <-> overlaps A B) /\ collides_rel (F:=b32) (Box2d h) PointS rel = Ok (flt x f0).
Proof.
  intros T TR h rel Hh Sp x A B. destruct (box_value h rel Hh Sp) as (F & E & _ & Sg & Fl). change (box_point_sdf (Box2d h) rel) with x in * . destruct Hh as (_ & Hx & Hy).
  pose proof (box_distance_true0 _ _ (rval (apply_origin rel)) Hx Hy) as Tr. pose proof u32_pos as U0. set (d := box_distance (val (vx h)) (val (vy h)) (rval (apply_origin rel))) in * .
  split; [|split].
  - split; [exact F|]. exists d. split; [exact Tr|]. eapply Rle_trans; [exact E|]. assert (bpow radix2 (-58) <= bpow radix2 (-57)) by (apply bpow_le; lia). pose proof (Rabs_pos d). assert (0 <= u32 * Rabs d) by (apply Rmult_le_pos; lra). lra.
  - rewrite Sg. symmetry. apply sd_sign, Tr.
  - unfold collides_rel, sdfv_common_rel, Sdfv_BoxPoint. cbn [rmap]. rewrite Fl. reflexivity.
Qed.
Print Assumptions C64_box_point.
Theorem C64_rounded_point : forall (T : Type) (TR : Transformation2d b32 T) (h : vec2 b32) (r : b32) (rel : T), half_ok h -> radius_ok r -> small2 (apply_origin rel) 59 ->
  close_distance (val r) (rounded_rect (val (vx h)) (val (vy h)) (val r)) (single (rval (apply_origin rel))) (sdf_rel (F:=b32) (RoundedBox2d h r) PointS rel).
Proof.
  intros T TR h r rel Hh (Fr & Sr & Hr) Sp. destruct (box_value h rel Hh Sp) as (F & E & Sm & _). destruct Hh as (_ & Hx & Hy). pose proof u32_pos as U0.
  destruct (less_radius (box_point_sdf (Box2d h) rel) r _ (val r) F Fr Sm ltac:(eapply small_weak; [|exact Sr]; lia) Hr ltac:(rewrite Rminus_diag_eq, Rabs_R0 by reflexivity; apply Rmult_le_pos; lra) E) as [G K].
  split; [exact G|]. eexists. split; [apply box_distance_true; assumption | exact K].
Qed.
Print Assumptions C64_rounded_point.
Lemma len_less (p : vec2 b32) (r : b32) (r0 : R) : small2 p 59 -> fin r -> small (val r) 60 -> 0 <= r0 -> Rabs (val r - r0) <= u32 * r0 ->
  fin (fsub (v2len p) r) /\ Rabs (val (fsub (v2len p) r) - (norm (rval p) - r0)) <= 8 * u32 * (Rabs (norm (rval p) - r0) + 2 * r0) + bpow radix2 (-57).
Proof.
  intros Sp Fr Sr R0 Er. destruct (len_any p (wide p Sp)) as [F E]. destruct (len_nonneg p (wide p Sp)) as [_ N]. pose proof u32_pos as U0. pose proof u32_small as U1. pose proof (norm_nonneg (rval p)) as NN.
  apply less_radius; try assumption.
  - pose proof (norm_box (rval p) (bpow radix2 60) (proj1 (proj2 (wide p Sp))) (proj2 (proj2 (wide p Sp)))) as NB. unfold small. rewrite Rabs_pos_eq by exact N. apply abs_le2' in E. assert (E63 : bpow radix2 63 = 8 * bpow radix2 60) by (replace 63%Z with (3 + 60)%Z by reflexivity; rewrite bpow_plus; reflexivity).
    assert (bpow radix2 (-59) <= bpow radix2 60) by (apply bpow_le; lia). assert (4 * u32 * norm (rval p) <= norm (rval p)) by nra. lra.
  - eapply Rle_trans; [exact E|]. rewrite Rabs_pos_eq by exact NN. assert (bpow radix2 (-59) <= bpow radix2 (-58)) by (apply bpow_le; lia). assert (0 <= u32 * norm (rval p)) by (apply Rmult_le_pos; lra). lra.
Qed.
(** len < r computed directly, and as the sign of the rounded difference *)
Lemma less_sign (l r : b32) : fin l -> fin r -> small (val l) 63 -> small (val r) 60 -> flt (fsub l r) f0 = flt l r.
Proof.
  intros Fl Fr Sl Sr. assert (Sm : small (rnd (val l - val r)) 64). { apply rnd_small; [lia|]. apply (small_add _ _ 63); [exact Sl | apply small_opp; eapply small_weak; [|exact Sr]; lia]. }
  destruct (sub_ok l r Fl Fr ltac:(eapply small_big; [|exact Sm]; lia)) as [F V]. destruct (rnd_error_sub l r) as (e & He & E). rewrite !flt_fin by (assumption || reflexivity). change (val (@f0 b32 _)) with 0. rewrite V, E.
  pose proof (fac_pos e He). destruct (Rltb_spec (val l) (val r)); [apply Rltb_true | apply Rltb_false]; nra.
Qed.
Lemma len_small (p : vec2 b32) : small2 p 59 -> small (val (v2len p)) 63.
Proof.
  intro Sp. destruct (len_any p (wide p Sp)) as [F E]. destruct (len_nonneg p (wide p Sp)) as [_ N]. pose proof u32_pos as U0. pose proof u32_small as U1. pose proof (norm_nonneg (rval p)) as NN.
  pose proof (norm_box (rval p) (bpow radix2 60) (proj1 (proj2 (wide p Sp))) (proj2 (proj2 (wide p Sp)))) as NB. unfold small. rewrite Rabs_pos_eq by exact N. apply abs_le2' in E. assert (E63 : bpow radix2 63 = 8 * bpow radix2 60) by (replace 63%Z with (3 + 60)%Z by reflexivity; rewrite bpow_plus; reflexivity).
  assert (bpow radix2 (-59) <= bpow radix2 60) by (apply bpow_le; lia). assert (4 * u32 * norm (rval p) <= norm (rval p)) by nra. lra.
Qed.
Lemma ball_flag (r p_len : b32) (v1 v2 : vec2 b32) : fin p_len -> 0 <= val p_len -> fin r -> 0 < val r -> small (val p_len) 63 -> small (val r) 60 ->
  fst (if flt f0 p_len then (flt p_len r, v1) else (true, v2)) = flt (fsub p_len r) f0.
Proof.
  intros F N Fr Pr Sl Sr. rewrite less_sign by assumption. rewrite (flt_fin f0 p_len) by (assumption || reflexivity). change (val (@f0 b32 _)) with 0.
  destruct (Rltb_spec 0 (val p_len)) as [H|H]; cbn [fst]; [reflexivity|]. rewrite flt_fin by assumption. symmetry. apply Rltb_true. lra.
Qed.
(** Ball v Point; a negative number is what collides reports, except for the point ball *)
Theorem C64_ball_point : forall (T : Type) (TR : Transformation2d b32 T) (r : b32) (rel : T), radius_ok r -> small2 (apply_origin rel) 59 ->
  let x := sdf_rel (F:=b32) (Ball r) PointS rel in
  close_distance (val r) (disc (val r)) (single (rval (apply_origin rel))) x /\ (0 < val r -> collides_rel (F:=b32) (Ball r) PointS rel = Ok (flt x f0)).
Proof.
  intros T TR r rel (Fr & Sr & Hr) Sp x. change x with (fsub (v2len (apply_origin rel)) r). set (p := apply_origin rel) in * . pose proof u32_pos as U0. assert (Sr' : small (val r) 60) by (eapply small_weak; [|exact Sr]; lia).
  split.
  - destruct (len_less p r (val r) Sp Fr Sr' Hr ltac:(rewrite Rminus_diag_eq, Rabs_R0 by reflexivity; apply Rmult_le_pos; lra)) as [F E]. split; [exact F|]. exists (norm (rval p) - val r). split; [apply disc_sdf, Hr | exact E].
  - intro Pr. destruct (len_nonneg p (wide p Sp)) as [F N]. unfold collides_rel, sdfv_common_rel, Sdfv_BallPoint, ball_point_sdfv. cbn [b_radius rmap]. fold p. f_equal. apply ball_flag; try assumption; apply len_small, Sp.
Qed.
Print Assumptions C64_ball_point.
Theorem C64_ball_ball : forall (T : Type) (TR : Transformation2d b32 T) (r1 r2 : b32) (rel : T), radius_ok r1 -> radius_ok r2 -> small2 (apply_origin rel) 59 ->
  let x := sdf_rel (F:=b32) (Ball r1) (Ball r2) rel in
  close_distance (val r1 + val r2) (disc (val r1)) (shift (rval (apply_origin rel)) (disc (val r2))) x /\ (0 < val r1 + val r2 -> collides_rel (F:=b32) (Ball r1) (Ball r2) rel = Ok (flt x f0)).
Proof.
  intros T TR r1 r2 rel (F1 & S1 & H1) (F2 & S2 & H2) Sp x. change x with (fsub (v2len (apply_origin rel)) (fadd r1 r2)). set (p := apply_origin rel) in * . pose proof u32_pos as U0. pose proof u32_small as U1.
  assert (Sm : small (rnd (val r1 + val r2)) 60) by (apply rnd_small; [lia|]; apply (small_add _ _ 59); assumption).
  destruct (add_ok r1 r2 F1 F2 ltac:(eapply small_big; [|exact Sm]; lia)) as [A1 A2]. destruct (rnd_error_add r1 r2) as (e & He & Ee). rewrite <- A2 in Sm, Ee. set (R0 := fadd r1 r2) in * .
  split.
  - destruct (len_less p R0 (val r1 + val r2) Sp A1 Sm ltac:(lra)) as [F E]. { rewrite Ee. pose proof (err_rel (val r1 + val r2) e He) as Q. rewrite (Rabs_pos_eq (val r1 + val r2)) in Q by lra. exact Q. }
    split; [exact F|]. exists (norm (rval p) - (val r1 + val r2)). split; [|exact E].
    assert (D : same_set (minkowski_diff (disc (val r1 + val r2)) (single (rval p))) (minkowski_diff (disc (val r1)) (shift (rval p) (disc (val r2))))).
    { intro q. rewrite (diff_disc_disc _ _ (rval p) 1 0 H1 H2 ltac:(lra) q). apply diff_ext; [intro; reflexivity | apply shift_disc]. }
    apply (same_signed_distance _ _ _ _ D), disc_sdf. lra.
  - intro Pr. destruct (len_nonneg p (wide p Sp)) as [F N]. unfold collides_rel, sdfv_common_rel, Sdfv_BallBall, ball_ball_sdfv. cbn [b_radius rmap]. fold p. fold R0. f_equal. apply ball_flag; try assumption; [| apply len_small, Sp].
    rewrite Ee. apply Rmult_lt_0_compat; [exact Pr | apply fac_pos, He].
Qed.
Print Assumptions C64_ball_ball.
Theorem C64_point_point : forall (T : Type) (TR : Transformation2d b32 T) (rel : T), small2 (apply_origin rel) 59 ->
  close_distance 0 (single origin) (single (rval (apply_origin rel))) (sdf_rel (F:=b32) PointS PointS rel).
Proof.
  intros T TR rel Sp. destruct (len_any _ (wide _ Sp)) as [F E]. split; [exact F|]. exists (norm (rval (apply_origin rel))). split; [apply single_sdf|]. pose proof (norm_nonneg (rval (apply_origin rel))) as NN. rewrite (Rabs_pos_eq (norm _)) by exact NN. pose proof u32_pos.
  eapply Rle_trans; [exact E|]. assert (bpow radix2 (-59) <= bpow radix2 (-57)) by (apply bpow_le; lia). assert (0 <= u32 * norm (rval (apply_origin rel))) by (apply Rmult_le_pos; lra). lra.
Qed.
Print Assumptions C64_point_point.
(** ** Colliders: the distance is nearly right for a body displaced by e, with e bounded by the drift of C60 *)
Theorem C64_colliders : forall d ma mb fa ga fb, 0 <= d -> moves d ma fa -> moves d mb fb -> (forall p, fa (ga p) = p) ->
  growth d ^ weight (Then (Back ma) mb) <= 2 -> reach (Then (Back ma) mb) <= bpow radix2 58 ->
  exists e, norm e <= drift d (Then (Back ma) mb) /\ let c := padd (ga (fb origin)) e in
  (forall h, half_ok h -> close_distance 0 (rect (val (vx h)) (val (vy h))) (single c) (sdf (F:=b32) (Collider2d (Box2d h) (build ma)) (Collider2d PointS (build mb)))) /\
  (forall h r, half_ok h -> radius_ok r -> close_distance (val r) (rounded_rect (val (vx h)) (val (vy h)) (val r)) (single c) (sdf (F:=b32) (Collider2d (RoundedBox2d h r) (build ma)) (Collider2d PointS (build mb)))) /\
  (forall r, radius_ok r -> close_distance (val r) (disc (val r)) (single c) (sdf (F:=b32) (Collider2d (Ball r) (build ma)) (Collider2d PointS (build mb)))) /\
  (forall r1 r2, radius_ok r1 -> radius_ok r2 -> close_distance (val r1 + val r2) (disc (val r1)) (shift c (disc (val r2))) (sdf (F:=b32) (Collider2d (Ball r1) (build ma)) (Collider2d (Ball r2) (build mb)))) /\
  close_distance 0 (single origin) (single c) (sdf (F:=b32) (Collider2d PointS (build ma)) (Collider2d PointS (build mb))).
Proof.
  intros d ma mb fa ga fb Hd Ma Mb Inv W Rc. destruct (rel_centre d ma mb fa ga fb Hd Ma Mb Inv W Rc) as [Sp _]. destruct (rel_shifted d ma mb fa ga fb Hd Ma Mb Inv W Rc) as (e & He & Ee).
  exists e. split; [exact He|]. intro c. unfold c. rewrite <- Ee. unfold sdf. cbn [c_shape c_transform]. split; [|split; [|split; [|split]]].
  - intros h Hh. apply C64_box_point; assumption.
  - intros h r Hh Hr. apply C64_rounded_point; assumption.
  - intros r Hr. apply C64_ball_point; assumption.
  - intros r1 r2 H1 H2. apply C64_ball_ball; assumption.
  - apply C64_point_point, Sp.
Qed.
Print Assumptions C64_colliders.
(** the hypotheses are met by the colliders of C61's example, and by this box, ball and point *)
Example C64_case : half_ok (V2 (b32_of 8 0) (b32_of 8 0)) /\ radius_ok (b32_of 1 0) /\ small2 (V2 (b32_of 10 0) (b32_of 20 0)) 59.
Proof.
  assert (V : forall z, (0 <= z <= 32)%Z -> fin (b32_of z 0) /\ val (b32_of z 0) = IZR z /\ small (val (b32_of z 0)) 59).
  { intros z Hz. destruct (val_of z 0 ltac:(lia) ltac:(lia)) as [F E]. split; [exact F|]. rewrite E. cbn [bpow]. rewrite Rmult_1_r. split; [reflexivity|]. unfold small. apply Rle_trans with (bpow radix2 5); [|apply bpow_le; lia]. change (bpow radix2 5) with (IZR 32). rewrite Rabs_pos_eq by (apply IZR_le; lia). apply IZR_le; lia. }
  destruct (V 8%Z ltac:(lia)) as (A1 & A2 & A3). destruct (V 1%Z ltac:(lia)) as (B1 & B2 & B3). destruct (V 10%Z ltac:(lia)) as (C1 & C2 & C3). destruct (V 20%Z ltac:(lia)) as (D1 & D2 & D3).
  split; [split; [split; [split; assumption | split; assumption]|]; cbn [vx vy]; rewrite A2; lra|]. split; [split; [exact B1 | split; [exact B3 | rewrite B2; lra]]|]. split; [split; assumption | split; assumption].
Qed.
