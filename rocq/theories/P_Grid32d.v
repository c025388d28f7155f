(** * Placements that keep points on the grid: translations, integer scales and quarter turns. *)
From Coq Require Import Reals ZArith Bool Lra Lia List Psatz.
From Flocq Require Import IEEE754.BinarySingleNaN Core Relative.
From Verif Require Import Num NumXR NumB32 Glam Transform2 Shapes2 Gjk Detect2 Spec SpecLink SpecGjk P_Base P_Transform P_Shapes P_Geo P_B32 Props_F32 P_Grid32 P_Grid32b P_Grid32c.
Import ListNotations.
Local Open Scope R_scope.

Section Place.
Variable e : Z.
Hypothesis He : (-7 <= e <= 14)%Z.
Lemma iv_add k z v w z' v' w' : iv e k z v w -> iv e k z' v' w' -> (0 <= k <= 4)%Z -> (Z.abs (fst z + fst z') <= 2 ^ 24)%Z -> (Z.abs (snd z + snd z') <= 2 ^ 24)%Z ->
  iv e k (fst z + fst z', snd z + snd z')%Z (v2add v v') (v2add w w').
Proof. intros [X Y] [X' Y'] K A B. split; apply (is_add e He); assumption. Qed.
Lemma is_div1 k n x y o o' : is e k n x y -> is e 0 1 o o' -> is e k n (fdiv x o) (fdiv y o').
Proof.
  intros (F & V & ->) (F1 & V1 & ->). change (bpow radix2 (0 * e)) with 1 in V1. rewrite Rmult_1_l in V1.
  assert (E : val x / val o = val x) by (rewrite V1; field).
  destruct (div_ok x o F ltac:(rewrite V1; lra)) as [D1 D2]; [rewrite E, rnd_exact; apply val_big|]. rewrite E, rnd_exact in D2.
  split; [exact D1|]. split; [rewrite D2; exact V|]. cbn [fdiv FloatXR]. change (bpow radix2 (0 * e)) with 1. unfold xdiv. rewrite Reqb_false by lra. f_equal. field.
Qed.
(** multiplying by an integer *)
Lemma is_int k m n x y x' y' : is e 0 m x y -> is e k n x' y' -> (0 <= k <= 4)%Z -> (Z.abs (m * n) <= 2 ^ 24)%Z -> is e k (m * n) (fmul x x') (fmul y y').
Proof. intros A B K L. apply (is_mul e He 0 k); assumption. Qed.
Definition unit_int (c s : Z) : Prop := (Z.abs c + Z.abs s = 1)%Z.
Lemma unit_cases c s : unit_int c s -> (c = 1 /\ s = 0 \/ c = -1 /\ s = 0 \/ c = 0 /\ s = 1 \/ c = 0 /\ s = -1)%Z.
Proof. unfold unit_int. lia. Qed.
Definition turn (c s : Z) (z : Z * Z) : Z * Z := (c * fst z - s * snd z, c * snd z + s * fst z)%Z.
Lemma turn_bound c s z N : unit_int c s -> (Z.abs (fst z) <= N /\ Z.abs (snd z) <= N)%Z -> (Z.abs (fst (turn c s z)) <= N /\ Z.abs (snd (turn c s z)) <= N)%Z.
Proof. intros U B. unfold turn. cbn [fst snd]. destruct (unit_cases c s U) as [(-> & ->)|[(-> & ->)|[(-> & ->)|(-> & ->)]]]; lia. Qed.
Definition roti (c s : Z) (r : rotor2d b32) (r' : rotor2d XR) : Prop := unit_int c s /\ is e 0 c (vx (ra r)) (vx (ra r')) /\ is e 0 s (vy (ra r)) (vy (ra r')).
Lemma roti_inverse c s r r' : roti c s r r' -> roti c (- s) (rotor_inverse r) (rotor_inverse r').
Proof. intros (U & C & S). split; [unfold unit_int in *; lia|]. split; [exact C | apply is_neg, S]. Qed.
Lemma iv_rot c s r r' k z v w : roti c s r r' -> iv e k z v w -> (0 <= k <= 4)%Z -> (Z.abs (fst z) <= 2 ^ 23 /\ Z.abs (snd z) <= 2 ^ 23)%Z ->
  iv e k (turn c s z) (rotor_rot r v) (rotor_rot r' w).
Proof.
  intros (U & C & S) [X Y] K [B1 B2]. assert (UC : (Z.abs c <= 1 /\ Z.abs s <= 1)%Z) by (unfold unit_int in U; lia). destruct UC as [U1 U2].
  pose proof (abs_mul c (fst z) 1 (2 ^ 23) U1 B1). pose proof (abs_mul c (snd z) 1 (2 ^ 23) U1 B2). pose proof (abs_mul s (fst z) 1 (2 ^ 23) U2 B1). pose proof (abs_mul s (snd z) 1 (2 ^ 23) U2 B2).
  split.
  - apply (is_sub e He); [apply is_int; try assumption; lia | apply is_int; try assumption; lia | exact K | lia].
  - apply (is_add e He); [apply is_int; try assumption; lia | apply is_int; try assumption; lia | exact K | lia].
Qed.
Lemma diri_rot c s r r' d d' : roti c s r r' -> diri e d d' -> diri e (rotor_rot r d) (rotor_rot r' d').
Proof.
  intros R (k & z & K & B & I). exists k, (turn c s z). split; [exact K|]. split; [apply turn_bound; [apply R | exact B]|].
  apply (iv_rot c s r r' k z); try assumption; lia.
Qed.
Lemma roti_mul c s r r' c1 s1 r1 r1' : roti c s r r' -> roti c1 s1 r1 r1' -> roti (c * c1 - s * s1) (c * s1 + s * c1) (rotor_mul r r1) (rotor_mul r' r1').
Proof.
  intros (U & C & S) (U1 & C1 & S1). pose proof (unit_cases c s U) as Q. pose proof (unit_cases c1 s1 U1) as Q1.
  split; [|split].
  - destruct Q as [(-> & ->)|[(-> & ->)|[(-> & ->)|(-> & ->)]]]; destruct Q1 as [(-> & ->)|[(-> & ->)|[(-> & ->)|(-> & ->)]]]; reflexivity.
  - apply (is_sub e He); [apply is_int; try assumption; [lia|] | apply is_int; try assumption; [lia|] | lia |];
      destruct Q as [(-> & ->)|[(-> & ->)|[(-> & ->)|(-> & ->)]]]; destruct Q1 as [(-> & ->)|[(-> & ->)|[(-> & ->)|(-> & ->)]]]; cbn; lia.
  - apply (is_add e He); [apply is_int; try assumption; [lia|] | apply is_int; try assumption; [lia|] | lia |];
      destruct Q as [(-> & ->)|[(-> & ->)|[(-> & ->)|(-> & ->)]]]; destruct Q1 as [(-> & ->)|[(-> & ->)|[(-> & ->)|(-> & ->)]]]; cbn; lia.
Qed.
(** Transform2d: position z, turn (c, s), the same integer scale k on both axes *)
Definition t2i (z : Z * Z) (c s k : Z) (t : transform2d b32) (t' : transform2d XR) : Prop :=
  iv e 1 z (t_pos t) (t_pos t') /\ roti c s (t_rot t) (t_rot t') /\ is e 0 k (vx (t_scale t)) (vx (t_scale t')) /\ is e 0 k (vy (t_scale t)) (vy (t_scale t')).
Lemma t2i_apply z c s k t t' y p p' N Ny : t2i z c s k t t' -> iv e 1 y p p' -> (Z.abs (fst z) <= N /\ Z.abs (snd z) <= N)%Z -> (Z.abs (fst y) <= Ny /\ Z.abs (snd y) <= Ny)%Z ->
  (0 <= k)%Z -> (k * Ny <= 2 ^ 23)%Z -> (N <= 2 ^ 23)%Z ->
  let y' := turn c s (k * fst y, k * snd y)%Z in
  iv e 1 (fst y' + fst z, snd y' + snd z)%Z (apply t p) (apply t' p') /\ (Z.abs (fst y' + fst z) <= k * Ny + N /\ Z.abs (snd y' + snd z) <= k * Ny + N)%Z.
Proof.
  intros (IP & R & KX & KY) [IX IY] BZ [Y1 Y2] K0 BK BN y'.
  assert (K1 : (Z.abs (k * fst y) <= k * Ny)%Z) by (apply abs_mul; lia). assert (K2 : (Z.abs (k * snd y) <= k * Ny)%Z) by (apply abs_mul; lia).
  assert (IM : iv e 1 (k * fst y, k * snd y)%Z (v2mul (t_scale t) p) (v2mul (t_scale t') p')).
  { split; cbn [fst snd]; (apply is_int; [assumption | assumption | lia | lia]). }
  assert (TB : (Z.abs (fst y') <= k * Ny /\ Z.abs (snd y') <= k * Ny)%Z) by (apply turn_bound; [apply R | split; assumption]).
  assert (IR : iv e 1 y' (rotor_rot (t_rot t) (v2mul (t_scale t) p)) (rotor_rot (t_rot t') (v2mul (t_scale t') p'))).
  { apply iv_rot; [exact R | exact IM | lia | cbn [fst snd]; lia]. }
  split; [apply iv_add; [exact IR | exact IP | lia | lia | lia] | lia].
Qed.
Lemma t2i_unit z c s t t' : t2i z c s 1 t t' -> (Z.abs (fst z) <= 2 ^ 22 /\ Z.abs (snd z) <= 2 ^ 22)%Z -> forall z1 c1 s1 t1 t1', t2i z1 c1 s1 1 t1 t1' -> (Z.abs (fst z1) <= 2 ^ 22 /\ Z.abs (snd z1) <= 2 ^ 22)%Z ->
  t2i (turn c (- s) (fst z1 - fst z, snd z1 - snd z)%Z) (c * c1 + s * s1) (c * s1 - s * c1) 1 (delta_transform t t1) (delta_transform t' t1').
Proof.
  intros (IP & R & KX & KY) BZ z1 c1 s1 t1 t1' (IP1 & R1 & KX1 & KY1) BZ1. unfold delta_transform, inverse, Inv_Transform2d, compose, Comp_Transform2d. cbn [t_pos t_rot t_scale].
  pose proof (roti_inverse _ _ _ _ R) as RI.
  assert (Z0 : iv e 1 (0, 0)%Z v2zero v2zero) by (split; apply is_zero).
  assert (ID : iv e 1 (- fst z, - snd z)%Z (v2sub v2zero (t_pos t)) (v2sub v2zero (t_pos t'))) by (apply (iv_sub e He 1 _ _ _ z _ _ Z0 IP); cbn; lia).
  assert (IR := iv_rot _ _ _ _ _ _ _ _ RI ID ltac:(lia) ltac:(cbn [fst snd]; lia)).
  assert (IU : iv e 1 (turn c (- s) (- fst z, - snd z))%Z (unapply t v2zero) (unapply t' v2zero)).
  { destruct IR as [X Y]. split; apply is_div1; assumption. }
  assert (S1 : is e 0 1 (fdiv f1 (vx (t_scale t))) (fdiv f1 (vx (t_scale t')))) by (apply is_div1; [apply is_one | exact KX]).
  assert (S2 : is e 0 1 (fdiv f1 (vy (t_scale t))) (fdiv f1 (vy (t_scale t')))) by (apply is_div1; [apply is_one | exact KY]).
  assert (TI : t2i (turn c (- s) (- fst z, - snd z))%Z c (- s) 1 (Transform2d (unapply t v2zero) (rotor_inverse (t_rot t)) (v2sdiv f1 (t_scale t)))
                  (Transform2d (unapply t' v2zero) (rotor_inverse (t_rot t')) (v2sdiv f1 (t_scale t')))).
  { split; [exact IU|]. split; [exact RI|]. split; assumption. }
  assert (BT := turn_bound c (- s) (- fst z, - snd z)%Z (2 ^ 22) (proj1 RI) ltac:(cbn [fst snd]; lia)).
  destruct (t2i_apply _ _ _ _ _ _ z1 _ _ (2 ^ 22) (2 ^ 22) TI IP1 BT BZ1 ltac:(lia) ltac:(lia) ltac:(lia)) as [IA _].
  split; [|split; [|split]]; cbn [t_pos t_rot t_scale].
  - destruct IA as [X Y]. split; cbn [fst snd turn] in * .
    + eapply is_eq; [exact X | ring].
    + eapply is_eq; [exact Y | ring].
  - pose proof (roti_mul _ _ _ _ _ _ _ _ RI R1) as RM. destruct RM as (U & C & S).
    split; [|split; [eapply is_eq; [exact C | ring] | eapply is_eq; [exact S | ring]]].
    unfold unit_int in * . replace (c * c1 + s * s1)%Z with (c * c1 - - s * s1)%Z by ring. replace (c * s1 - s * c1)%Z with (c * s1 + - s * c1)%Z by ring. exact U.
  - apply (is_int 0 1 1); try assumption; lia.
  - apply (is_int 0 1 1); try assumption; lia.
Qed.
End Place.
