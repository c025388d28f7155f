(** * Theorems about the results in IEEE binary32, rounding included: C02, C34, C35, C37, C38, C44 (f32). *)
From Coq Require Import Reals ZArith Bool Lra Lia List Psatz.
From Flocq Require Import IEEE754.BinarySingleNaN Core Relative Sterbenz.
From Verif Require Import Num NumXR NumB32 Glam Transform2 Shapes2 Gjk Detect2 Misc P_B32.
Import ListNotations.
Local Open Scope R_scope.

Definition fin2 (p : vec2 b32) : Prop := fin (vx p) /\ fin (vy p).

(** ** C34: Box2d v Point containment is exact in f32 *)
Lemma abs_sign (x : b32) : Bsign (fabs x) = false. Proof. apply Bsign_Babs. Qed.
Theorem C34_box_point_exact : forall (T : Type) (TR : Transformation2d b32 T) (b : box2d b32) (rel : T),
  fin2 (halfsize b) -> fin2 (apply_origin rel) ->
  exists c, collides_rel (F:=b32) b PointS rel = Ok c /\
  (c = true <-> Rabs (val (vx (apply_origin rel))) < val (vx (halfsize b)) /\ Rabs (val (vy (apply_origin rel))) < val (vy (halfsize b))).
Proof.
  intros T TR b rel [H1 H2] [P1 P2]. eexists. split; [reflexivity|].
  unfold box_point_sdfv. rewrite !sub_sign; try assumption; try apply fin_abs; try assumption; try apply abs_sign.
  rewrite !val_abs. destruct (Rltb_spec (Rabs (val (vx (apply_origin rel)))) (val (vx (halfsize b)))), (Rltb_spec (Rabs (val (vy (apply_origin rel)))) (val (vy (halfsize b))));
  cbn; split; intro; try discriminate; try tauto.
Qed.
Print Assumptions C34_box_point_exact.
Example box_point_f32_met : fin2 (V2 (b32_of 3 0) (b32_of 1 (-1))) /\ fin2 (V2 (b32_of (-5) (-1)) (b32_of 1 (-2))) /\
  collides_rel (F:=b32) (Box2d (V2 (b32_of 3 0) (b32_of 1 (-1)))) PointS (V2 (b32_of (-5) (-1)) (b32_of 1 (-2))) = Ok true.
Proof. repeat split; vm_compute; reflexivity. Qed.

(** ** C35: Poly2d::extreme_point is best by its own scores, in any arithmetic with transitive [<] *)
Section C35.
Context {F : Type} {FL : Float F}.
Hypothesis lt_irrefl : forall a : F, flt a a = false.
Hypothesis lt_trans : forall a b c : F, flt a b = true -> flt b c = true -> flt a c = true.
Lemma poly_fold d l acc : let r := fold_left (poly_step d) l acc in
  (r = acc \/ (In (snd r) l /\ fst r = v2dot d (snd r) /\ flt (fst acc) (fst r) = true)) /\
  (forall p, In p l -> flt (fst r) (v2dot d p) = false).
Proof.
  revert acc. induction l as [|q l IH]; intro acc; cbn [fold_left].
  - split; [left; reflexivity | intros p []].
  - destruct (flt (fst acc) (v2dot d q)) eqn:E.
    + assert (Es : poly_step d acc q = (v2dot d q, q)) by (unfold poly_step; cbn zeta; rewrite E; reflexivity).
      rewrite Es. destruct (IH (v2dot d q, q)) as [I1 I2]. cbn zeta in * . split.
      * right. destruct I1 as [-> | (J1 & J2 & J3)].
        -- cbn. split; [left; reflexivity|]. split; [reflexivity | exact E].
        -- split; [right; exact J1|]. split; [exact J2|]. cbn [fst] in J3. eapply lt_trans; eassumption.
      * intros p [<- | Hp]; [|apply I2, Hp]. destruct I1 as [-> | (J1 & J2 & J3)]; cbn [fst] in * .
        -- apply lt_irrefl.
        -- destruct (flt (fst (fold_left (poly_step d) l (v2dot d q, q))) (v2dot d q)) eqn:X; [|reflexivity].
           rewrite <- (lt_irrefl (v2dot d q)). symmetry. eapply lt_trans; eassumption.
    + assert (Es : poly_step d acc q = acc) by (unfold poly_step; cbn zeta; rewrite E; reflexivity).
      rewrite Es. destruct (IH acc) as [I1 I2]. cbn zeta in * . split.
      * destruct I1 as [I1 | (J1 & J2 & J3)]; [left; exact I1 | right]. split; [right; exact J1 | split; assumption].
      * intros p [<- | Hp]; [|apply I2, Hp]. destruct I1 as [-> | (J1 & J2 & J3)]; [exact E|].
        destruct (flt (fst (fold_left (poly_step d) l acc)) (v2dot d q)) eqn:X; [|reflexivity].
        rewrite <- E. symmetry. eapply lt_trans; eassumption.
Qed.
End C35.
Lemma flt_irrefl32 (a : b32) : flt a a = false.
Proof. rewrite flt_bx. destruct (bx a) as [r|[|]|]; cbn; try reflexivity. apply Rltb_false. lra. Qed.

(** For every scalar type with an irreflexive and transitive [<]: whenever some vertex scores above f32::MIN, the answer
    is a vertex no other vertex of which has a greater score; otherwise it is the zero vector. *)
Theorem C35_best_score : forall (F : Type) (FL : Float F),
  (forall a : F, flt a a = false) -> (forall a b c : F, flt a b = true -> flt b c = true -> flt a c = true) ->
  forall (l : list (vec2 F)) (d : vec2 F), let e := extreme_point (Poly2d l) d in
  (forall p, In p l -> flt fminval (v2dot d p) = true -> In e l /\ flt (v2dot d e) (v2dot d p) = false) /\
  ((forall p, In p l -> flt fminval (v2dot d p) = false) -> e = v2zero).
Proof.
  intros F FL Hi Ht l d e. unfold e, extreme_point, Ext_Poly; cbn [points].
  destruct (poly_fold Hi Ht d l (fminval, v2zero)) as [I1 I2]. cbn zeta in * . split.
  - intros p Hp S. destruct I1 as [I1 | (J1 & J2 & J3)].
    + exfalso. specialize (I2 p Hp). rewrite I1 in I2. cbn [fst] in I2. congruence.
    + split; [exact J1|]. rewrite <- J2. apply I2, Hp.
  - intro N. destruct I1 as [-> | (J1 & J2 & J3)]; [reflexivity|]. exfalso. rewrite J2 in J3. cbn [fst] in J3. rewrite (N _ J1) in J3. discriminate.
Qed.
Print Assumptions C35_best_score.
(** binary32, NaN and infinities included, is such an arithmetic *)
Theorem C35_f32 : forall (l : list (vec2 b32)) (d : vec2 b32), let e := extreme_point (Poly2d l) d in
  (forall p, In p l -> flt fminval (v2dot d p) = true -> In e l /\ flt (v2dot d e) (v2dot d p) = false) /\
  ((forall p, In p l -> flt fminval (v2dot d p) = false) -> e = v2zero).
Proof. exact (C35_best_score b32 _ flt_irrefl32 flt_trans32). Qed.
Print Assumptions C35_f32.

(** ** dot products in f32 *)
Definition small (r : R) (k : Z) : Prop := Rabs r <= bpow radix2 k.
Lemma rnd_small r k : (-149 <= k)%Z -> small r k -> small (rnd r) k.
Proof.
  intros Hk H. unfold small in * . apply abs_round_le_generic; [exact fexp_valid|apply valid_rnd_N| |exact H].
  apply generic_format_bpow. unfold SpecFloat.fexp, SpecFloat.emin. lia.
Qed.
Lemma small_big r k : (k < 128)%Z -> small r k -> Rabs r < big.
Proof. intros Hk H. eapply Rle_lt_trans; [exact H|]. apply bpow_lt, Hk. Qed.
Lemma small_mul a b i j : small a i -> small b j -> small (a * b) (i + j).
Proof. unfold small. intros. rewrite Rabs_mult, bpow_plus. apply Rmult_le_compat; try apply Rabs_pos; assumption. Qed.
Lemma small_add a b i : small a i -> small b i -> small (a + b) (i + 1).
Proof.
  unfold small. intros. rewrite bpow_plus. replace (bpow radix2 1) with 2 by reflexivity.
  eapply Rle_trans; [apply Rabs_triang|]. lra.
Qed.
(** the exact scalar product of the values *)
Definition rdot (p q : vec2 b32) : R := val (vx p) * val (vx q) + val (vy p) * val (vy q).
Definition rdot_abs (p q : vec2 b32) : R := Rabs (val (vx p) * val (vx q)) + Rabs (val (vy p) * val (vy q)).
Definition small2 (p : vec2 b32) (k : Z) : Prop := fin2 p /\ small (val (vx p)) k /\ small (val (vy p)) k.
Lemma u32_pos : 0 < u32. Proof. unfold u32. apply Rinv_0_lt_compat, IZR_lt. reflexivity. Qed.
Lemma u32_small : u32 <= 1 / 16777216. Proof. unfold u32. cbn. lra. Qed.
Lemma tiny_pos : 0 < tiny. Proof. apply bpow_gt_0. Qed.
Lemma dot_ok p q i j : (-149 <= i + j)%Z -> (i + j <= 126)%Z -> small2 p i -> small2 q j ->
  fin (v2dot p q) /\ Rabs (val (v2dot p q) - rdot p q) <= 3 * u32 * rdot_abs p q + 3 * tiny.
Proof.
  intros L U [[F1 F2] [S1 S2]] [[G1 G2] [T1 T2]]. unfold v2dot.
  assert (M1 : small (rnd (val (vx p) * val (vx q))) (i + j)) by (apply rnd_small; [exact L | apply small_mul; assumption]).
  assert (M2 : small (rnd (val (vy p) * val (vy q))) (i + j)) by (apply rnd_small; [exact L | apply small_mul; assumption]).
  destruct (mul_ok (vx p) (vx q) F1 G1 ltac:(eapply small_big; [|exact M1]; lia)) as [X1 X2].
  destruct (mul_ok (vy p) (vy q) F2 G2 ltac:(eapply small_big; [|exact M2]; lia)) as [Y1 Y2].
  assert (A : small (rnd (val (fmul (vx p) (vx q)) + val (fmul (vy p) (vy q)))) (i + j + 1)).
  { rewrite X2, Y2. apply rnd_small; [lia|]. apply small_add; assumption. }
  destruct (add_ok _ _ X1 Y1 ltac:(eapply small_big; [|exact A]; lia)) as [Z1 Z2].
  split; [exact Z1|]. rewrite Z2.
  destruct (rnd_error_add (fmul (vx p) (vx q)) (fmul (vy p) (vy q))) as (e0 & E0 & ->). rewrite X2, Y2.
  destruct (rnd_error (val (vx p) * val (vx q))) as (e1 & t1 & E1 & U1 & ->).
  destruct (rnd_error (val (vy p) * val (vy q))) as (e2 & t2 & E2 & U2 & ->).
  unfold rdot, rdot_abs. set (a := val (vx p) * val (vx q)) in * . set (b := val (vy p) * val (vy q)) in * .
  pose proof u32_pos as Hu. pose proof u32_small as Hs. pose proof tiny_pos as Ht.
  replace ((a * (1 + e1) + t1 + (b * (1 + e2) + t2)) * (1 + e0) - (a + b)) with (a * (e1 + e0 + e1 * e0) + b * (e2 + e0 + e2 * e0) + (t1 + t2) * (1 + e0)) by ring.
  assert (K : forall e, Rabs e <= u32 -> Rabs (e + e0 + e * e0) <= 3 * u32).
  { intros e He. apply Rabs_le_inv in He. apply Rabs_le_inv in E0. apply Rabs_le. nra. }
  assert (K1 := K _ E1). assert (K2 := K _ E2).
  assert (B1 : Rabs (a * (e1 + e0 + e1 * e0)) <= 3 * u32 * Rabs a) by (rewrite Rabs_mult; pose proof (Rabs_pos a); nra).
  assert (B2 : Rabs (b * (e2 + e0 + e2 * e0)) <= 3 * u32 * Rabs b) by (rewrite Rabs_mult; pose proof (Rabs_pos b); nra).
  assert (B3 : Rabs ((t1 + t2) * (1 + e0)) <= 3 * tiny).
  { rewrite Rabs_mult. assert (Rabs (t1 + t2) <= 2 * tiny) by (eapply Rle_trans; [apply Rabs_triang|]; lra).
    assert (Rabs (1 + e0) <= 3 / 2). { apply Rabs_le_inv in E0. apply Rabs_le. lra. }
    pose proof (Rabs_pos (t1 + t2)). pose proof (Rabs_pos (1 + e0)). nra. }
  eapply Rle_trans; [apply Rabs_triang|]. eapply Rle_trans; [apply Rplus_le_compat_r, Rabs_triang|]. lra.
Qed.

(** The extreme point computed in f32 is a farthest vertex up to the rounding of the two scores. *)
Theorem C35_f32_support : forall (l : list (vec2 b32)) (d : vec2 b32), l <> [] -> small2 d 60 -> (forall p, In p l -> small2 p 60) ->
  let e := extreme_point (Poly2d l) d in In e l /\
  forall p, In p l -> rdot d p <= rdot d e + 3 * u32 * (rdot_abs d p + rdot_abs d e) + 6 * tiny.
Proof.
  intros l d NE Hd Hl e.
  assert (V : fin fminval /\ val fminval = - IZR ((2 ^ 24 - 1) * 2 ^ 104)).
  { split; [reflexivity|]. unfold fminval. rewrite val_neg. f_equal. unfold val. cbn [fmaxval FloatB32].
    pose proof (binary_normalize_correct 24 128 _ _ mode_NE (2 ^ 24 - 1) 104 false) as C. cbn zeta in C.
    assert (R0 : round radix2 (SpecFloat.fexp 24 128) (round_mode mode_NE) (F2R (Defs.Float radix2 (2 ^ 24 - 1) 104)) = IZR ((2 ^ 24 - 1) * 2 ^ 104)).
    { transitivity (IZR (2 ^ 24 - 1) * bpow radix2 104); [|rewrite mult_IZR; reflexivity]. apply rnd_dyadic; lia. }
    rewrite R0, Rlt_bool_true in C. { exact (proj1 C). }
    rewrite Rabs_pos_eq by (apply IZR_le; lia). change (bpow radix2 128) with (IZR (2 ^ 128)). apply IZR_lt. reflexivity. }
  destruct V as [V1 V2].
  assert (D : forall p, In p l -> flt fminval (v2dot d p) = true).
  { intros p Hp. destruct (dot_ok d p 60 60 ltac:(lia) ltac:(lia) Hd (Hl p Hp)) as [B1 B2].
    rewrite flt_fin by assumption. apply Rltb_true. rewrite V2.
    pose proof Hd as [_ [A1 A2]]. pose proof (Hl p Hp) as [_ [A3 A4]]. pose proof (small_mul _ _ _ _ A1 A3) as P1. pose proof (small_mul _ _ _ _ A2 A4) as P2.
    unfold small in P1, P2. change (bpow radix2 (60 + 60)) with (IZR (2 ^ 120)) in * . 
    assert (Ht : tiny <= 1). { unfold tiny. change 1 with (bpow radix2 0). apply bpow_le. lia. }
    pose proof u32_small. pose proof u32_pos. unfold rdot, rdot_abs in B2.
    apply Rabs_le_inv in B2. pose proof (Rabs_le_inv _ _ P1). pose proof (Rabs_le_inv _ _ P2).
    assert (3 * u32 * (Rabs (val (vx d) * val (vx p)) + Rabs (val (vy d) * val (vy p))) <= 6 * IZR (2 ^ 120)).
    { pose proof (Rabs_pos (val (vx d) * val (vx p))). pose proof (Rabs_pos (val (vy d) * val (vy p))). nra. }
    assert (IZR (2 ^ 120) * 8 + 3 < IZR ((2 ^ 24 - 1) * 2 ^ 104)). { rewrite <- mult_IZR, <- plus_IZR. apply IZR_lt. reflexivity. }
    lra. }
  destruct (C35_f32 l d) as [K _]. fold e in K.
  assert (In e l) as Ie. { destruct l as [|p l']; [contradiction|]. apply (K p); [left; reflexivity | apply D; left; reflexivity]. }
  split; [exact Ie|]. intros p Hp. destruct (K p Hp (D p Hp)) as [_ N].
  destruct (dot_ok d p 60 60 ltac:(lia) ltac:(lia) Hd (Hl p Hp)) as [B1 B2].
  destruct (dot_ok d e 60 60 ltac:(lia) ltac:(lia) Hd (Hl e Ie)) as [C1 C2].
  rewrite flt_fin in N by assumption. destruct (Rltb_spec (val (v2dot d e)) (val (v2dot d p))) as [|N']; [discriminate|].
  apply Rabs_le_inv in B2. apply Rabs_le_inv in C2. lra.
Qed.
Print Assumptions C35_f32_support.
Example C35_case : let l := [V2 (b32_of 1 0) (b32_of 0 0); V2 (b32_of (-1) 0) (b32_of 1 0); V2 (b32_of 3 (-1)) (b32_of (-1) (-2))] in
  let d := V2 (b32_of 1 (-3)) (b32_of 5 0) in
  small2 d 60 /\ (forall p, In p l -> small2 p 60) /\ B2SF (vy (extreme_point (Poly2d l) d)) = B2SF (b32_of 1 0).
Proof.
  intros l d. assert (B : 8 <= bpow radix2 60). { change 8 with (bpow radix2 3). apply bpow_le. lia. }
  split; [|split].
  - split; [split; reflexivity|]. unfold small, d; cbn [vx vy]. b32_vals. split; apply Rabs_le; cbn; lra.
  - intros p [<-|[<-|[<-|[]]]]; (split; [split; reflexivity|]); unfold small; cbn [vx vy]; b32_vals; split; apply Rabs_le; cbn; lra.
  - vm_compute. reflexivity.
Qed.
