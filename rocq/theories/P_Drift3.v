(** * Quaternion products, rotations and sums in f32 near exact ones: how errors multiply along a chain *)
From Coq Require Import Reals ZArith Lra Lia Psatz Bool.
From Flocq Require Import Core BinarySingleNaN.
From Verif Require Import Num NumXR NumB32 Glam Transform2 Shapes2 Gjk Detect2 Col3 Spec SpecLink P_Base P_Geo P_Geo3 P_3d P_B32 Props_F32 Props_F32Gjk Props_Lerp P_Drift P_Closed32 Props_Approx Spec32s P_Space32 P_Quat32.
Local Open Scope R_scope.

(** ** Quaternions over R: vector part and scalar part *)
Definition pt4 : Type := (pt3 * R)%type.
Definition dot4 (a b : pt4) : R := dot3 (fst a) (fst b) + snd a * snd b.
Definition norm4 (a : pt4) : R := sqrt (dot4 a a).
Definition add4 (a b : pt4) : pt4 := (add3 (fst a) (fst b), snd a + snd b).
Definition sub4 (a b : pt4) : pt4 := (sub3 (fst a) (fst b), snd a - snd b).
Definition conj4 (a : pt4) : pt4 := (neg3 (fst a), snd a).
Definition qm (a b : pt4) : pt4 :=
  (add3 (add3 (scale3 (snd a) (fst b)) (scale3 (snd b) (fst a))) (cross3 (fst a) (fst b)), snd a * snd b - dot3 (fst a) (fst b)).
Definition rq4 (a : pt4) (p : pt3) : pt3 := rq (x3 (fst a)) (y3 (fst a)) (z3 (fst a)) (snd a) p.
Definition r4 (q : quat b32) : pt4 := ((val (qx q), val (qy q), val (qz q)), val (qw q)).

Lemma pt4_eq (a b : pt4) : x3 (fst a) = x3 (fst b) -> y3 (fst a) = y3 (fst b) -> z3 (fst a) = z3 (fst b) -> snd a = snd b -> a = b.
Proof. destruct a as [v w], b as [v' w']; cbn [fst snd]. intros X Y Z W. rewrite W, (pt3_eq v v' X Y Z). reflexivity. Qed.
Ltac v4 := unfold rq4, qm, conj4, add4, sub4, dot4; cbn [fst snd]; v3.
Lemma dot4_nonneg a : 0 <= dot4 a a.
Proof. unfold dot4. pose proof (dot3_nonneg (fst a)). pose proof (Rle_0_sqr (snd a)). unfold Rsqr in * . lra. Qed.
Lemma norm4_nonneg a : 0 <= norm4 a. Proof. apply sqrt_pos. Qed.
Lemma norm4_sq a : norm4 a * norm4 a = dot4 a a. Proof. apply sqrt_sqrt, dot4_nonneg. Qed.
Lemma norm4_le_sq a r : 0 <= r -> dot4 a a <= r * r -> norm4 a <= r.
Proof. intros P H. unfold norm4. rewrite <- (sqrt_square r) by exact P. apply sqrt_le_1_alt, H. Qed.
Lemma norm4_mul a b : norm4 (qm a b) = norm4 a * norm4 b.
Proof. unfold norm4. rewrite <- sqrt_mult by apply dot4_nonneg. f_equal. v4. ring. Qed.
Lemma norm4_conj a : norm4 (conj4 a) = norm4 a.
Proof. unfold norm4. f_equal. v4. ring. Qed.
Lemma cauchy4 a b : dot4 a b <= norm4 a * norm4 b.
Proof.
  assert (C : dot4 a b * dot4 a b <= dot4 a a * dot4 b b).
  { pose proof (cauchy3 (fst a) (fst b)) as C3. destruct a as [[[a1 a2] a3] a4], b as [[[b1 b2] b3] b4]. v4.
    pose proof (Rle_0_sqr (a1 * b2 - a2 * b1)). pose proof (Rle_0_sqr (a1 * b3 - a3 * b1)). pose proof (Rle_0_sqr (a2 * b3 - a3 * b2)).
    pose proof (Rle_0_sqr (a1 * b4 - a4 * b1)). pose proof (Rle_0_sqr (a2 * b4 - a4 * b2)). pose proof (Rle_0_sqr (a3 * b4 - a4 * b3)). unfold Rsqr in * .
    match goal with |- ?l <= ?r => replace r with (l + ((a1 * b2 - a2 * b1) * (a1 * b2 - a2 * b1) + (a1 * b3 - a3 * b1) * (a1 * b3 - a3 * b1) + (a2 * b3 - a3 * b2) * (a2 * b3 - a3 * b2)
      + (a1 * b4 - a4 * b1) * (a1 * b4 - a4 * b1) + (a2 * b4 - a4 * b2) * (a2 * b4 - a4 * b2) + (a3 * b4 - a4 * b3) * (a3 * b4 - a4 * b3))) by ring end. lra. }
  rewrite <- !norm4_sq in C. pose proof (norm4_nonneg a). pose proof (norm4_nonneg b). assert (P : 0 <= norm4 a * norm4 b) by (apply Rmult_le_pos; assumption).
  destruct (Rle_or_lt (dot4 a b) 0); [lra|]. apply Rsqr_incr_0; [|lra|exact P]. unfold Rsqr. replace (norm4 a * norm4 b * (norm4 a * norm4 b)) with (norm4 a * norm4 a * (norm4 b * norm4 b)) by ring. exact C.
Qed.
Lemma norm4_triangle a b : norm4 (add4 a b) <= norm4 a + norm4 b.
Proof.
  pose proof (norm4_nonneg a). pose proof (norm4_nonneg b). apply norm4_le_sq; [lra|]. pose proof (cauchy4 a b). pose proof (norm4_sq a). pose proof (norm4_sq b).
  replace (dot4 (add4 a b) (add4 a b)) with (dot4 a a + 2 * dot4 a b + dot4 b b) by (v4; ring).
  replace ((norm4 a + norm4 b) * (norm4 a + norm4 b)) with (norm4 a * norm4 a + 2 * (norm4 a * norm4 b) + norm4 b * norm4 b) by ring. lra.
Qed.
Lemma norm4_split a b : norm4 a <= norm4 (sub4 a b) + norm4 b.
Proof. replace a with (add4 (sub4 a b) b) at 1 by (apply pt4_eq; v4; ring). apply norm4_triangle. Qed.
Lemma norm4_sub_sym a b : norm4 (sub4 a b) = norm4 (sub4 b a).
Proof. unfold norm4. f_equal. v4. ring. Qed.
Lemma norm3_norm4 a : norm3 (fst a) <= norm4 a.
Proof. unfold norm3, norm4. apply sqrt_le_1_alt. unfold dot4. pose proof (Rle_0_sqr (snd a)). unfold Rsqr in * . lra. Qed.
Lemma norm4_pure p : norm4 (p, 0) = norm3 p.
Proof. unfold norm3, norm4. f_equal. unfold dot4. cbn [fst snd]. ring. Qed.
Lemma norm4_comps a m : 0 <= m -> Rabs (x3 (fst a)) <= m -> Rabs (y3 (fst a)) <= m -> Rabs (z3 (fst a)) <= m -> Rabs (snd a) <= m -> norm4 a <= 2 * m.
Proof.
  intros M X Y Z W. apply norm4_le_sq; [lra|].
  assert (Q : forall t, Rabs t <= m -> t * t <= m * m).
  { intros t T. replace (t * t) with (Rabs t * Rabs t) by (rewrite <- Rabs_mult; apply Rabs_pos_eq, Rle_0_sqr). apply Rmult_le_compat; try apply Rabs_pos; exact T. }
  apply Q in X. apply Q in Y. apply Q in Z. apply Q in W. unfold dot4, dot3. lra.
Qed.
Lemma rq4_sandwich a p : rq4 a p = fst (qm (qm a (p, 0)) (conj4 a)).
Proof. apply pt3_eq; v4; ring. Qed.
Lemma rq4_diff a b p : norm3 (sub3 (rq4 a p) (rq4 b p)) <= norm4 (sub4 a b) * (norm4 a + norm4 b) * norm3 p.
Proof.
  replace (sub3 (rq4 a p) (rq4 b p)) with (fst (add4 (qm (qm (sub4 a b) (p, 0)) (conj4 a)) (qm (qm b (p, 0)) (conj4 (sub4 a b))))) by (apply pt3_eq; v4; ring).
  apply Rle_trans with (1 := norm3_norm4 _). apply Rle_trans with (1 := norm4_triangle _ _). rewrite !norm4_mul, !norm4_conj, norm4_pure. right. ring.
Qed.
Lemma rq4_norm a p : norm3 (rq4 a p) = norm4 a * norm4 a * norm3 p.
Proof.
  apply norm3_eq; [apply Rmult_le_pos; [apply Rmult_le_pos; apply norm4_nonneg | apply norm3_nonneg]|].
  replace (norm4 a * norm4 a * norm3 p * (norm4 a * norm4 a * norm3 p)) with (norm4 a * norm4 a * (norm4 a * norm4 a) * (norm3 p * norm3 p)) by ring. rewrite norm4_sq, norm3_sq. v4. ring.
Qed.
Lemma rq4_sub a p q : rq4 a (sub3 p q) = sub3 (rq4 a p) (rq4 a q). Proof. apply pt3_eq; v4; ring. Qed.
Lemma rq4_add a p q : rq4 a (add3 p q) = add3 (rq4 a p) (rq4 a q). Proof. apply pt3_eq; v4; ring. Qed.
Lemma rq4_mul a b p : rq4 (qm a b) p = rq4 a (rq4 b p). Proof. apply pt3_eq; v4; ring. Qed.
Lemma rq4_conj a p : norm4 a = 1 -> rq4 (conj4 a) (rq4 a p) = p.
Proof.
  intro N. assert (D : dot4 a a = 1) by (rewrite <- norm4_sq, N; ring). destruct (rq_inv (x3 (fst a)) (y3 (fst a)) (z3 (fst a)) (snd a) p) as (A & _); [|exact A].
  unfold dot4, dot3 in D. exact D.
Qed.
Lemma rqv_rq4 q p : rqv q p = rq4 (r4 q) p. Proof. reflexivity. Qed.
Lemma sizeq_norm4 q : sizeq q = norm4 (r4 q) * norm4 (r4 q).
Proof. rewrite norm4_sq. reflexivity. Qed.

(** ** Products of f32 quaternions *)
Definition opf (b : bool) : b32 -> b32 -> b32 := if b then fadd else fsub.
Definition opr (b : bool) : R -> R -> R := if b then Rplus else Rminus.
Lemma op_ok (o : bool) e1 b1 x a e2 b2 y b e c : app e1 b1 1 x a -> app e2 b2 1 y b ->
  Rabs (opr o a b) <= c * 1 -> 0 <= e1 <= 64 -> 0 <= e2 <= 64 -> 0 <= c <= 8 -> e1 + e2 + c + 1 / 50 <= e -> app e c 1 (opf o x y) (opr o a b).
Proof. intros A B C E1 E2 Hc He. destruct o; [eapply app_add | eapply app_sub]; try eassumption; apply one_c. Qed.
Lemma op_abs (o : bool) a b : Rabs (opr o a b) <= Rabs a + Rabs b.
Proof. destruct o; cbn [opr]; [apply Rabs_triang|]. unfold Rminus. apply Rle_trans with (1 := Rabs_triang _ _). rewrite Rabs_Ropp. lra. Qed.
Lemma four_ok (o1 o2 o3 : bool) p1 p2 p3 p4 X1 X2 X3 X4 :
  app (105 / 100) (103 / 100) 1 p1 X1 -> app (105 / 100) (103 / 100) 1 p2 X2 -> app (105 / 100) (103 / 100) 1 p3 X3 -> app (105 / 100) (103 / 100) 1 p4 X4 ->
  Rabs X1 + Rabs X2 + Rabs X3 + Rabs X4 <= 101 / 100 ->
  app (75 / 10) (101 / 100) 1 (opf o3 (opf o2 (opf o1 p1 p2) p3) p4) (opr o3 (opr o2 (opr o1 X1 X2) X3) X4).
Proof.
  intros A1 A2 A3 A4 S. pose proof (Rabs_pos X1). pose proof (Rabs_pos X2). pose proof (Rabs_pos X3). pose proof (Rabs_pos X4).
  pose proof (op_abs o1 X1 X2) as B1. pose proof (op_abs o2 (opr o1 X1 X2) X3) as B2. pose proof (op_abs o3 (opr o2 (opr o1 X1 X2) X3) X4) as B3.
  assert (T1 : app (313 / 100) (101 / 100) 1 (opf o1 p1 p2) (opr o1 X1 X2)) by (eapply op_ok; [exact A1 | exact A2 | lra | lra | lra | lra | lra]).
  assert (T2 : app (521 / 100) (101 / 100) 1 (opf o2 (opf o1 p1 p2) p3) (opr o2 (opr o1 X1 X2) X3)) by (eapply op_ok; [exact T1 | exact A3 | lra | lra | lra | lra | lra]).
  eapply op_ok; [exact T2 | exact A4 | lra | lra | lra | lra | lra].
Qed.
Lemma prod_ok (a b : b32) : fin a -> fin b -> val a * val a <= 101 / 100 -> val b * val b <= 101 / 100 -> app (105 / 100) (103 / 100) 1 (fmul a b) (val a * val b).
Proof.
  intros Fa Fb A B.
  assert (H : forall x : b32, fin x -> val x * val x <= 101 / 100 -> app 0 (101 / 100) 1 x (val x)).
  { intros x F X. apply app_exact; [exact F|]. apply comp1, X. }
  eapply (app_mul 0 _ 1 _ _ 0 _ 1); [apply (H a Fa A) | apply (H b Fb B) | ring | lra | lra | lra | lra | lra | lra | exact one_ok | lra | lra].
Qed.
Lemma four_abs a1 a2 a3 a4 b1 b2 b3 b4 m : a1 * a1 + a2 * a2 + a3 * a3 + a4 * a4 <= m -> b1 * b1 + b2 * b2 + b3 * b3 + b4 * b4 <= m ->
  Rabs (a1 * b1) + Rabs (a2 * b2) + Rabs (a3 * b3) + Rabs (a4 * b4) <= m.
Proof.
  intros A B. assert (H : forall x y, Rabs (x * y) <= (x * x + y * y) / 2).
  { intros x y. apply Rabs_le. pose proof (Rle_0_sqr (x + y)). pose proof (Rle_0_sqr (x - y)). unfold Rsqr in * . lra. }
  pose proof (H a1 b1). pose proof (H a2 b2). pose proof (H a3 b3). pose proof (H a4 b4). lra.
Qed.
Lemma qmul32 (a b : quat b32) : finq a -> finq b -> sizeq a <= 101 / 100 -> sizeq b <= 101 / 100 ->
  finq (qmul a b) /\ norm4 (sub4 (r4 (qmul a b)) (qm (r4 a) (r4 b))) <= 15 * u32.
Proof.
  intros (A1 & A2 & A3 & A4) (B1 & B2 & B3 & B4) Sa Sb. unfold sizeq in Sa, Sb.
  set (x := val (qx a)) in * . set (y := val (qy a)) in * . set (z := val (qz a)) in * . set (w := val (qw a)) in * .
  set (x' := val (qx b)) in * . set (y' := val (qy b)) in * . set (z' := val (qz b)) in * . set (w' := val (qw b)) in * .
  pose proof (Rle_0_sqr x). pose proof (Rle_0_sqr y). pose proof (Rle_0_sqr z). pose proof (Rle_0_sqr w).
  pose proof (Rle_0_sqr x'). pose proof (Rle_0_sqr y'). pose proof (Rle_0_sqr z'). pose proof (Rle_0_sqr w'). unfold Rsqr in * .
  assert (P : forall c d, fin c -> fin d -> val c * val c <= 101 / 100 -> val d * val d <= 101 / 100 -> app (105 / 100) (103 / 100) 1 (fmul c d) (val c * val d)) by (intros; apply prod_ok; assumption).
  assert (QX : val (qx a) * val (qx a) <= 101 / 100) by (fold x; lra). assert (QY : val (qy a) * val (qy a) <= 101 / 100) by (fold y; lra).
  assert (QZ : val (qz a) * val (qz a) <= 101 / 100) by (fold z; lra). assert (QW : val (qw a) * val (qw a) <= 101 / 100) by (fold w; lra).
  assert (QX' : val (qx b) * val (qx b) <= 101 / 100) by (fold x'; lra). assert (QY' : val (qy b) * val (qy b) <= 101 / 100) by (fold y'; lra).
  assert (QZ' : val (qz b) * val (qz b) <= 101 / 100) by (fold z'; lra). assert (QW' : val (qw b) * val (qw b) <= 101 / 100) by (fold w'; lra).
  assert (X : app (75 / 10) (101 / 100) 1 (qx (qmul a b)) (w * x' + x * w' + y * z' - z * y')).
  { apply (four_ok true true false); try (apply P; assumption). apply four_abs; lra. }
  assert (Y : app (75 / 10) (101 / 100) 1 (qy (qmul a b)) (w * y' - x * z' + y * w' + z * x')).
  { apply (four_ok false true true); try (apply P; assumption). apply four_abs; lra. }
  assert (Z : app (75 / 10) (101 / 100) 1 (qz (qmul a b)) (w * z' + x * y' - y * x' + z * w')).
  { apply (four_ok true false true); try (apply P; assumption). apply four_abs; lra. }
  assert (W : app (75 / 10) (101 / 100) 1 (qw (qmul a b)) (w * w' - x * x' - y * y' - z * z')).
  { apply (four_ok false false false); try (apply P; assumption). apply four_abs; lra. }
  destruct X as (X1 & X2 & _). destruct Y as (Y1 & Y2 & _). destruct Z as (Z1 & Z2 & _). destruct W as (W1 & W2 & _).
  split; [repeat split; assumption|]. pose proof u32_pos. apply Rle_trans with (2 * (75 / 10 * u32 * 1)); [|lra]. apply norm4_comps; [lra| | | |].
  - apply Rle_trans with (2 := X2). right. f_equal. unfold r4 at 2 3. v4. fold x y z w x' y' z' w'. change (x3 (fst (r4 (qmul a b)))) with (val (qx (qmul a b))). cbn [r4 fst snd]. ring.
  - apply Rle_trans with (2 := Y2). right. f_equal. unfold r4 at 2 3. v4. fold x y z w x' y' z' w'. cbn [r4 fst snd]. ring.
  - apply Rle_trans with (2 := Z2). right. f_equal. unfold r4 at 2 3. v4. fold x y z w x' y' z' w'. cbn [r4 fst snd]. ring.
  - apply Rle_trans with (2 := W2). right. f_equal. unfold r4 at 2 3. v4. fold x y z w x' y' z' w'. cbn [r4 fst snd]. ring.
Qed.

(** ** Near an exact value *)
Definition near3 (x : vec3 b32) (y : pt3) (D K : R) : Prop := fin3 x /\ norm3 (sub3 (rval3 x) y) <= (K - 1) * D /\ norm3 y <= D.
Definition near4 (q : quat b32) (Q : pt4) (K : R) : Prop := finq q /\ norm4 (sub4 (r4 q) Q) <= K - 1 /\ norm4 Q = 1.
Definition bot3 : R := bpow radix2 (-60).
Lemma bot3_pos : 0 < bot3. Proof. apply bpow_gt_0. Qed.
Lemma near3_norm x y D K : near3 x y D K -> norm3 (rval3 x) <= K * D.
Proof.
  intros (_ & E & N). pose proof (norm3_triangle (sub3 (rval3 x) y) y) as T. replace (add3 (sub3 (rval3 x) y) y) with (rval3 x) in T by (apply pt3_eq; v3; ring). lra.
Qed.
Lemma near3_nonneg x y D K : near3 x y D K -> 0 <= D.
Proof. intros (_ & _ & N). eapply Rle_trans; [apply norm3_nonneg | exact N]. Qed.
Lemma near3_weaken x y D K K' : near3 x y D K -> K <= K' -> near3 x y D K'.
Proof. intros H L. pose proof (near3_nonneg _ _ _ _ H). destruct H as (F & E & N). split; [exact F|]. split; [|exact N]. eapply Rle_trans; [exact E|]. apply Rmult_le_compat_r; lra. Qed.
Lemma near4_weaken q Q K K' : near4 q Q K -> K <= K' -> near4 q Q K'.
Proof. intros (F & E & N) L. split; [exact F|]. split; [lra | exact N]. Qed.
Lemma near4_norm q Q K : near4 q Q K -> norm4 (r4 q) <= K.
Proof. intros (_ & E & N). pose proof (norm4_split (r4 q) Q). lra. Qed.
Lemma near4_size q Q K : near4 q Q K -> K * K <= 101 / 100 -> sizeq q <= 101 / 100.
Proof. intros H S. rewrite sizeq_norm4. pose proof (near4_norm _ _ _ H). pose proof (norm4_nonneg (r4 q)). apply Rle_trans with (2 := S). apply Rmult_le_compat; assumption. Qed.
Lemma near4_conj q Q K : near4 q Q K -> near4 (qinv q) (conj4 Q) K.
Proof.
  intros (F & E & N). split; [apply finq_inv, F|]. rewrite norm4_conj. split; [|exact N].
  replace (sub4 (r4 (qinv q)) (conj4 Q)) with (conj4 (sub4 (r4 q) Q)); [rewrite norm4_conj; exact E|].
  apply pt4_eq; unfold r4, qinv; cbn [qx qy qz qw]; rewrite ?val_neg; v4; ring.
Qed.
Lemma near4_mul a A b B k l : near4 a A k -> near4 b B l -> 1 <= k -> 1 <= l -> k * k <= 101 / 100 -> l * l <= 101 / 100 ->
  near4 (qmul a b) (qm A B) (k * l * (1 + 15 * u32)).
Proof.
  intros HA HB K1 L1 Kk Ll. pose proof (near4_norm _ _ _ HA) as NA. pose proof (near4_norm _ _ _ HB) as NB. pose proof (near4_size _ _ _ HA Kk) as SA. pose proof (near4_size _ _ _ HB Ll) as SB.
  destruct HA as (Fa & Ea & Na), HB as (Fb & Eb & Nb). destruct (qmul32 a b Fa Fb SA SB) as (F & E). split; [exact F|]. split; [|rewrite norm4_mul, Na, Nb; ring].
  replace (sub4 (r4 (qmul a b)) (qm A B)) with (add4 (sub4 (r4 (qmul a b)) (qm (r4 a) (r4 b))) (add4 (qm (sub4 (r4 a) A) (r4 b)) (qm A (sub4 (r4 b) B)))) by (apply pt4_eq; v4; ring).
  eapply Rle_trans; [apply norm4_triangle|]. eapply Rle_trans; [apply Rplus_le_compat_l, norm4_triangle|]. rewrite !norm4_mul, Na.
  assert (norm4 (sub4 (r4 a) A) * norm4 (r4 b) <= (k - 1) * l) by (apply Rmult_le_compat; try apply norm4_nonneg; assumption). pose proof u32_pos.
  assert (1 * 1 <= k * l) by (apply Rmult_le_compat; lra). assert (15 * u32 * 1 <= 15 * u32 * (k * l)) by (apply Rmult_le_compat_l; lra).
  replace (k * l * (1 + 15 * u32) - 1) with (15 * u32 * (k * l) + ((k - 1) * l + (l - 1))) by ring. lra.
Qed.
Lemma near3_rot q Q v V D k L : near4 q Q k -> near3 v V D L -> 1 <= k -> k * k <= 101 / 100 -> 1 <= L -> L * D <= bpow radix2 100 -> bot3 <= D ->
  near3 (qrot q v) (rq4 Q V) D (k * k * L * (1 + 72 * u32)).
Proof.
  intros HQ HV K1 Kk L1 LD BD. pose proof (near4_norm _ _ _ HQ) as NQ. pose proof (near4_size _ _ _ HQ Kk) as SQ. pose proof (near3_norm _ _ _ _ HV) as NV. pose proof (near3_nonneg _ _ _ _ HV) as PD. pose proof u32_pos as U.
  destruct HQ as (Fq & Eq & Nq), HV as (Fv & Ev & Nv).
  assert (S : bpow radix2 (-60) <= L * D <= bpow radix2 100). { split; [|exact LD]. apply Rle_trans with (1 * D); [unfold bot3 in BD; lra | apply Rmult_le_compat_r; assumption]. }
  destruct (qrot32 q v (L * D) Fq Fv SQ S NV) as (F & E). split; [exact F|]. split; [|rewrite rq4_norm, Nq; lra].
  replace (sub3 (rval3 (qrot q v)) (rq4 Q V)) with (add3 (sub3 (rval3 (qrot q v)) (rqv q (rval3 v))) (add3 (rq4 (r4 q) (sub3 (rval3 v) V)) (sub3 (rq4 (r4 q) V) (rq4 Q V)))).
  2: { rewrite rq4_sub, rqv_rq4. apply pt3_eq; unfold add3, sub3, x3, y3, z3; cbn [fst snd]; ring. }
  eapply Rle_trans; [apply norm3_triangle|]. eapply Rle_trans; [apply Rplus_le_compat_l, norm3_triangle|]. rewrite rq4_norm.
  pose proof (rq4_diff (r4 q) Q V) as DF. rewrite Nq in DF. pose proof (norm4_nonneg (r4 q)) as P4. pose proof (norm4_nonneg (sub4 (r4 q) Q)) as P5. pose proof (norm3_nonneg V) as P6. pose proof (norm3_nonneg (sub3 (rval3 v) V)) as P7.
  assert (A1 : norm4 (r4 q) * norm4 (r4 q) * norm3 (sub3 (rval3 v) V) <= k * k * ((L - 1) * D)) by (apply Rmult_le_compat; try assumption; [apply Rmult_le_pos; assumption | apply Rmult_le_compat; assumption]).
  assert (A2 : norm4 (sub4 (r4 q) Q) * (norm4 (r4 q) + 1) * norm3 V <= (k - 1) * (k + 1) * D).
  { apply Rmult_le_compat; try assumption; [apply Rmult_le_pos; lra|]. apply Rmult_le_compat; lra. }
  assert (KK : 1 <= k * k) by (replace 1 with (1 * 1) by ring; apply Rmult_le_compat; lra). assert (LP : 0 <= L * D) by (apply Rmult_le_pos; lra).
  assert (A3 : 72 * u32 * (1 * (L * D)) <= 72 * u32 * (k * k * (L * D))) by (apply Rmult_le_compat_l; [lra|]; apply Rmult_le_compat_r; assumption).
  replace ((k * k * L * (1 + 72 * u32) - 1) * D) with (72 * u32 * (k * k * (L * D)) + (k * k * ((L - 1) * D) + (k - 1) * (k + 1) * D)) by ring. lra.
Qed.
Lemma small_lift (p : vec3 b32) m : norm3 (rval3 p) <= m -> Rabs (val (wx p)) <= m /\ Rabs (val (wy p)) <= m /\ Rabs (val (wz p)) <= m.
Proof. intro H. destruct (coord_le_norm3 (rval3 p)) as (X & Y & Z). repeat split; eapply Rle_trans; eassumption. Qed.
Lemma vadd3_ok (a b : vec3 b32) : fin3 a -> fin3 b -> norm3 (rval3 a) <= bpow radix2 100 -> norm3 (rval3 b) <= bpow radix2 100 ->
  fin3 (v3add a b) /\ norm3 (sub3 (rval3 (v3add a b)) (add3 (rval3 a) (rval3 b))) <= u32 * norm3 (add3 (rval3 a) (rval3 b)).
Proof.
  intros (A1 & A2 & A3) (B1 & B2 & B3) NA NB. destruct (small_lift _ _ NA) as (X1 & Y1 & Z1). destruct (small_lift _ _ NB) as (X2 & Y2 & Z2).
  destruct (sum_comp _ _ A1 B1 X1 X2) as (F1 & E1). destruct (sum_comp _ _ A2 B2 Y1 Y2) as (F2 & E2). destruct (sum_comp _ _ A3 B3 Z1 Z2) as (F3 & E3).
  split; [repeat split; assumption|]. replace (u32 * norm3 (add3 (rval3 a) (rval3 b))) with (u32 * norm3 (add3 (rval3 a) (rval3 b)) + 2 * 0) by ring. pose proof u32_pos. apply comp_norm; [lra | lra | exact E1 | exact E2 | exact E3].
Qed.
Lemma near3_add a x D b y D' K : near3 a x D K -> near3 b y D' K -> 1 <= K -> K * (D + D') <= bpow radix2 100 -> near3 (v3add a b) (add3 x y) (D + D') (K * (1 + u32)).
Proof.
  intros HA HB K1 KD. pose proof (near3_norm _ _ _ _ HA) as NA. pose proof (near3_norm _ _ _ _ HB) as NB. pose proof (near3_nonneg _ _ _ _ HA) as PA. pose proof (near3_nonneg _ _ _ _ HB) as PB.
  assert (0 <= K * D) by (apply Rmult_le_pos; lra). assert (0 <= K * D') by (apply Rmult_le_pos; lra).
  destruct HA as (Fa & Ea & Na), HB as (Fb & Eb & Nb). destruct (vadd3_ok a b Fa Fb ltac:(lra) ltac:(lra)) as (F & E). pose proof (norm3_triangle (rval3 a) (rval3 b)) as T. pose proof u32_pos.
  split; [exact F|]. split; [|pose proof (norm3_triangle x y); lra].
  replace (sub3 (rval3 (v3add a b)) (add3 x y)) with (add3 (sub3 (rval3 (v3add a b)) (add3 (rval3 a) (rval3 b))) (add3 (sub3 (rval3 a) x) (sub3 (rval3 b) y))) by (apply pt3_eq; unfold add3, sub3, x3, y3, z3; cbn [fst snd]; ring).
  eapply Rle_trans; [apply norm3_triangle|]. pose proof (norm3_triangle (sub3 (rval3 a) x) (sub3 (rval3 b) y)).
  assert (u32 * norm3 (add3 (rval3 a) (rval3 b)) <= u32 * (K * D + K * D')) by (apply Rmult_le_compat_l; lra). lra.
Qed.
Lemma vsub3_ok (a b : vec3 b32) : fin3 a -> fin3 b -> norm3 (rval3 a) <= bpow radix2 100 -> norm3 (rval3 b) <= bpow radix2 100 ->
  fin3 (v3sub a b) /\ norm3 (sub3 (rval3 (v3sub a b)) (sub3 (rval3 a) (rval3 b))) <= u32 * norm3 (sub3 (rval3 a) (rval3 b)).
Proof.
  intros (A1 & A2 & A3) (B1 & B2 & B3) NA NB. destruct (small_lift _ _ NA) as (X1 & Y1 & Z1). destruct (small_lift _ _ NB) as (X2 & Y2 & Z2).
  assert (K : forall x y : b32, fin x -> fin y -> Rabs (val x) <= bpow radix2 100 -> Rabs (val y) <= bpow radix2 100 -> fin (fsub x y) /\ Rabs (val (fsub x y) - (val x - val y)) <= u32 * Rabs (val x - val y) + 0).
  { intros x y Fx Fy Hx Hy. destruct (sub_ok x y Fx Fy) as (F1 & V1).
    { apply below_big. unfold Rminus. apply Rle_trans with (1 := Rabs_triang _ _). rewrite Rabs_Ropp. apply Rle_trans with (bpow radix2 101); [|apply bpow_le; lia]. change 101%Z with (1 + 100)%Z. rewrite bpow_plus. change (bpow radix2 1) with 2. lra. }
    split; [exact F1|]. rewrite V1. destruct (rnd_error_sub x y) as (e & E & ->). replace ((val x - val y) * (1 + e) - (val x - val y)) with (e * (val x - val y)) by ring.
    rewrite Rabs_mult, Rplus_0_r. apply Rmult_le_compat_r; [apply Rabs_pos | exact E]. }
  destruct (K _ _ A1 B1 X1 X2) as (F1 & E1). destruct (K _ _ A2 B2 Y1 Y2) as (F2 & E2). destruct (K _ _ A3 B3 Z1 Z2) as (F3 & E3).
  split; [repeat split; assumption|]. replace (u32 * norm3 (sub3 (rval3 a) (rval3 b))) with (u32 * norm3 (sub3 (rval3 a) (rval3 b)) + 2 * 0) by ring. pose proof u32_pos. apply comp_norm; [lra | lra | exact E1 | exact E2 | exact E3].
Qed.
Lemma norm3_sub_le p q : norm3 (sub3 p q) <= norm3 p + norm3 q.
Proof. replace (sub3 p q) with (add3 p (neg3 q)) by (apply pt3_eq; v3; ring). rewrite <- (norm3_neg q). apply norm3_triangle. Qed.
Lemma near3_sub a x D b y D' K : near3 a x D K -> near3 b y D' K -> 1 <= K -> K * (D + D') <= bpow radix2 100 -> near3 (v3sub a b) (sub3 x y) (D + D') (K * (1 + u32)).
Proof.
  intros HA HB K1 KD. pose proof (near3_norm _ _ _ _ HA) as NA. pose proof (near3_norm _ _ _ _ HB) as NB. pose proof (near3_nonneg _ _ _ _ HA) as PA. pose proof (near3_nonneg _ _ _ _ HB) as PB.
  assert (0 <= K * D) by (apply Rmult_le_pos; lra). assert (0 <= K * D') by (apply Rmult_le_pos; lra).
  destruct HA as (Fa & Ea & Na), HB as (Fb & Eb & Nb). destruct (vsub3_ok a b Fa Fb ltac:(lra) ltac:(lra)) as (F & E). pose proof (norm3_sub_le (rval3 a) (rval3 b)) as T. pose proof u32_pos.
  split; [exact F|]. split; [|pose proof (norm3_sub_le x y); lra].
  replace (sub3 (rval3 (v3sub a b)) (sub3 x y)) with (add3 (sub3 (rval3 (v3sub a b)) (sub3 (rval3 a) (rval3 b))) (sub3 (sub3 (rval3 a) x) (sub3 (rval3 b) y))) by (apply pt3_eq; unfold add3, sub3, x3, y3, z3; cbn [fst snd]; ring).
  eapply Rle_trans; [apply norm3_triangle|]. pose proof (norm3_sub_le (sub3 (rval3 a) x) (sub3 (rval3 b) y)).
  assert (u32 * norm3 (sub3 (rval3 a) (rval3 b)) <= u32 * (K * D + K * D')) by (apply Rmult_le_compat_l; lra). lra.
Qed.
Lemma near3_val a b y D K : near3 a y D K -> fin3 b -> rval3 b = rval3 a -> near3 b y D K.
Proof. intros (_ & E & N) F H. split; [exact F|]. rewrite H. split; assumption. Qed.
Lemma near3_zero_sub p P D K : near3 p P D K -> near3 (v3sub v3zero p) (neg3 P) D K.
Proof.
  intros ((F1 & F2 & F3) & E & N). destruct (zero_sub _ F1) as (A1 & A2). destruct (zero_sub _ F2) as (B1 & B2). destruct (zero_sub _ F3) as (C1 & C2).
  split; [repeat split; assumption|]. rewrite norm3_neg. split; [|exact N].
  replace (sub3 (rval3 (v3sub v3zero p)) (neg3 P)) with (neg3 (sub3 (rval3 p) P)); [rewrite norm3_neg; exact E|].
  unfold rval3, v3sub, v3zero. cbn [wx wy wz]. rewrite A2, B2, C2. apply pt3_eq; v3; ring.
Qed.
Lemma one_mul (x : b32) : fin x -> fin (fmul f1 x) /\ val (fmul f1 x) = val x.
Proof.
  intro F. destruct val_1 as [F1 E1]. assert (E : rnd (val f1 * val x) = val x) by (rewrite E1, Rmult_1_l; apply rnd_exact).
  destruct (mul_ok f1 x F1 F) as [G1 G2]; [rewrite E; apply val_big|]. split; [exact G1 | rewrite G2; exact E].
Qed.
Lemma one_div (x : b32) : fin x -> fin (fdiv x f1) /\ val (fdiv x f1) = val x.
Proof.
  intro F. destruct val_1 as [F1 E1]. assert (E : rnd (val x / val f1) = val x) by (rewrite E1; unfold Rdiv; rewrite Rinv_1, Rmult_1_r; apply rnd_exact).
  destruct (div_ok x f1 F) as [G1 G2]; [rewrite E1; lra | rewrite E; apply val_big|]. split; [exact G1 | rewrite G2; exact E].
Qed.
Lemma near3_mul_one x y D K : near3 x y D K -> near3 (v3smul f1 x) y D K.
Proof.
  intros H. pose proof H as ((F1 & F2 & F3) & _). destruct (one_mul _ F1) as (A1 & A2). destruct (one_mul _ F2) as (B1 & B2). destruct (one_mul _ F3) as (C1 & C2).
  apply (near3_val x); [exact H | repeat split; assumption|]. unfold rval3, v3smul. cbn [wx wy wz]. rewrite A2, B2, C2. reflexivity.
Qed.
Lemma near3_div_one x y D K : near3 x y D K -> near3 (v3divs x f1) y D K.
Proof.
  intros H. pose proof H as ((F1 & F2 & F3) & _). destruct (one_div _ F1) as (A1 & A2). destruct (one_div _ F2) as (B1 & B2). destruct (one_div _ F3) as (C1 & C2).
  apply (near3_val x); [exact H | repeat split; assumption|]. unfold rval3, v3divs. cbn [wx wy wz]. rewrite A2, B2, C2. reflexivity.
Qed.
Lemma near3_self p : fin3 p -> near3 p (rval3 p) (norm3 (rval3 p) + bot3) 1.
Proof.
  intro F. pose proof bot3_pos. split; [exact F|]. split; [|lra]. replace (sub3 (rval3 p) (rval3 p)) with (scale3 0 (0, 0, 0)) by (apply pt3_eq; v3; ring). rewrite norm3_scale, Rabs_R0. lra.
Qed.
