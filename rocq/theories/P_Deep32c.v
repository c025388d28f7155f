(** * GJK in binary32 on bodies that overlap deeply, continued (proofs for C62): the whole search *)
From Coq Require Import Reals ZArith Bool Lra Lia List Psatz.
From Flocq Require Import IEEE754.BinarySingleNaN Core Relative.
From Verif Require Import Num NumXR NumB32 Glam Transform2 Shapes2 Gjk Spec SpecLink P_Base P_Transform P_Shapes P_Geo P_Gjk P_B32 Props_F32 Props_F32Gjk P_F32Box P_Drift P_Deep P_Deep32 P_Deep32b.
Import ListNotations.
Local Open Scope R_scope.

(** ** Angles *)
Definition at_angle (t sg : R) (b c : pt) : Prop := sg * pcross b c = norm b * norm c * sin t /\ pdot b c = norm b * norm c * cos t.
Lemma angle_of sg p q : sg * sg = 1 -> 0 < norm p -> 0 < norm q -> 0 <= sg * pcross p q -> exists t, 0 <= t <= PI /\ at_angle t sg p q.
Proof.
  intros S P Q X. set (n := norm p * norm q). assert (Pn : 0 < n) by (apply Rmult_lt_0_compat; assumption). set (x := pdot p q / n).
  pose proof (cauchy_abs p q) as C. apply abs_le2' in C. fold n in C.
  assert (Ex : pdot p q = n * x) by (unfold x; field; lra). assert (Bx : -1 <= x <= 1). { rewrite Ex in C. split; [apply Rmult_le_reg_l with n | apply Rmult_le_reg_l with n]; lra. }
  exists (acos x). split; [apply acos_bound|]. split; rewrite ?sin_acos, ?cos_acos by exact Bx; fold n; [|exact Ex].
  assert (E : (sg * pcross p q) * (sg * pcross p q) = (n * n) * (1 - x * x)).
  { replace ((sg * pcross p q) * (sg * pcross p q)) with ((sg * sg) * (pcross p q * pcross p q)) by ring. pose proof (lagrange_id p q) as L. rewrite Ex, <- !norm_sq in L. rewrite S. unfold n in * . lra. }
  unfold Rsqr. rewrite <- (sqrt_square n) by lra. rewrite <- sqrt_mult_alt by nra. rewrite <- E. symmetry. apply sqrt_square. exact X.
Qed.
Lemma angle_add t u sg b c a : sg * sg = 1 -> 0 < norm c -> at_angle t sg b c -> at_angle u sg c a -> at_angle (t + u) sg b a.
Proof.
  intros S N [T1 T2] [U1 U2]. assert (PN : 0 < norm c * norm c) by (apply Rmult_lt_0_compat; assumption). split; apply Rmult_eq_reg_l with (norm c * norm c); try lra.
  - replace (norm c * norm c * (sg * pcross b a)) with ((sg * pcross b c) * pdot c a + pdot b c * (sg * pcross c a)) by (rewrite norm_sq; unfold pcross, pdot; ring). rewrite T1, T2, U1, U2, sin_plus. ring.
  - replace (norm c * norm c * pdot b a) with (pdot b c * pdot c a - (sg * pcross b c) * (sg * pcross c a)) by (replace ((sg * pcross b c) * (sg * pcross c a)) with ((sg * sg) * (pcross b c * pcross c a)) by ring; rewrite S, norm_sq; unfold pcross, pdot; ring). rewrite T1, T2, U1, U2, cos_plus. ring.
Qed.
Lemma angle_flip t sg b c : at_angle t sg b c -> at_angle t (- sg) c b.
Proof. intros [A B]. split. { replace (- sg * pcross c b) with (sg * pcross b c) by (unfold pcross; ring). rewrite A. ring. } rewrite pdot_comm, B. ring. Qed.

Section Search.
Variable dl : R.
Hypotheses (Hlo : bpow radix2 (-20) <= dl) (Hhi : dl <= bpow radix2 12).
Local Notation okp := (okp dl).
Definition dir_ok (d : vec2 b32) : Prop := fin2 d /\ bpow radix2 (-24) <= norm (rval d) <= bpow radix2 59.
Variable sup : vec2 b32 -> vec2 b32.
Variables (D : R) (Vis : pt -> Prop).
Hypothesis Hsup : forall d, dir_ok d -> fin2 (sup d) /\ norm (rval (sup d)) <= D /\ dl * norm (rval d) <= pdot (rval d) (rval (sup d)) /\ Vis (rval (sup d)).
Hypothesis HD : D <= 64 * dl.
(** either few points, or a round enough difference *)
Hypothesis Hfew : D <= 8 * dl \/ forall P, NoDup P -> Forall Vis P -> (length P <= 19)%nat.

Lemma dpos : 0 < dl. Proof. apply dl0; assumption. Qed.
Lemma sup_ok d : dir_ok d -> okp (sup d).
Proof.
  intro H. destruct (Hsup d H) as (F & N & G & _). split; [exact F|]. split; [|lra]. destruct H as (_ & L & _). pose proof (bpow_gt_0 radix2 (-24)). pose proof (cauchy (rval d) (rval (sup d))).
  apply Rmult_le_reg_l with (norm (rval d)); lra.
Qed.
Definition Edge (sg k : R) (b c d : vec2 b32) : Prop :=
  okp b /\ okp c /\ pdot (rval b) (rval c) <= 0 /\ sg * sg = 1 /\ 0 <= k <= kap /\ dirn k (rval d) sg (rval b) (rval c) /\ dir_ok d.
Definition Turned (n : nat) (sg : R) (b c : pt) : Prop := D <= 8 * dl -> exists t, 0 <= t <= PI /\ PI / 2 + INR n * (99 / 100 / 8) <= t /\ at_angle t sg b c.
Definition Seen (n : nat) (P : list pt) : Prop := NoDup P /\ Forall Vis P /\ length P = (n + 2)%nat.
Definition Exact (n : nat) (b c d : vec2 b32) : Prop := exists sg P, Edge sg (3 * u32) b c d /\ 0 <= sg * pcross (rval b) (rval c) /\ Turned n sg (rval b) (rval c) /\ Seen n P /\ Forall (cone sg (rval b) (rval c)) P.
Definition Near (n : nat) (b c d : vec2 b32) : Prop := (n <= 17)%nat /\ exists sg k, Edge sg k b c d /\ Rabs (pcross (rval b) (rval c)) <= mu dl.
Definition Good n b c d : Prop := Exact n b c d \/ Near n b c d.
Lemma u_kap : 0 <= 3 * u32 <= kap. Proof. pose proof u32_pos. pose proof u32_small. unfold kap. lra. Qed.

Lemma exact_count n b c d : Exact n b c d -> (n <= 17)%nat.
Proof.
  intros (sg & P & _ & _ & T & (N & V & L) & _). destruct Hfew as [H|H]; [|specialize (H P N V); lia]. destruct (T H) as (t & [_ T1] & T2 & _).
  destruct (le_lt_dec n 17) as [|K]; [assumption|]. exfalso. assert (18 <= INR n) by (replace 18 with (INR 18) by (cbn; lra); apply le_INR; lia). pose proof PI_4. lra.
Qed.
(** after one more non-capturing step *)
Lemma turn_step n sg b c a : okp a -> okp b -> okp c -> sg * sg = 1 -> pdot (rval b) (rval c) <= 0 -> norm (rval a) <= D ->
  99 / 100 * dl * norm (psub (rval c) (rval b)) <= sg * pcross (rval c) (rval a) - sg * pcross (rval b) (rval a) -> 0 <= sg * pcross (rval b) (rval a) -> Turned n sg (rval b) (rval c) -> Turned (S n) (- sg) (rval a) (rval b).
Proof.
  intros [_ A] [_ B] [_ C] S O Na H Y T E8. destruct (T E8) as (t & T1 & T2 & T3). pose proof dpos as Pd.
  assert (Pc : 0 < norm (rval c)) by (destruct C; lra). assert (Pa : 0 < norm (rval a)) by (destruct A; lra). assert (Pb : 0 < norm (rval b)) by (destruct B; lra).
  assert (Hc : norm (rval c) <= norm (psub (rval c) (rval b))). { apply norm_ge; [lra|]. rewrite norm_sq. replace (pdot (psub (rval c) (rval b)) (psub (rval c) (rval b))) with (pdot (rval c) (rval c) - 2 * pdot (rval b) (rval c) + pdot (rval b) (rval b)) by (unfold pdot, psub; cbn; ring). pose proof (pdot_nonneg (rval b)). lra. }
  assert (X0 : 99 / 100 * dl * norm (rval c) <= sg * pcross (rval c) (rval a)). { assert (99 / 100 * dl * norm (rval c) <= 99 / 100 * dl * norm (psub (rval c) (rval b))) by (apply Rmult_le_compat_l; lra). lra. }
  assert (X1 : 0 < 99 / 100 * dl * norm (rval c)) by (apply Rmult_lt_0_compat; lra).
  destruct (angle_of sg (rval c) (rval a) S Pc Pa ltac:(lra)) as (u & U1 & U2). pose proof (angle_add t u sg _ _ _ S Pc T3 U2) as TU.
  assert (Hs : 99 / 100 / 8 <= sin u).
  { destruct U2 as [U2 _]. rewrite U2 in X0. assert (K : 99 / 100 * dl <= norm (rval a) * sin u) by (apply Rmult_le_reg_l with (norm (rval c)); lra).
    assert (Su : 0 <= sin u) by (apply sin_ge_0; lra). assert (norm (rval a) * sin u <= (8 * dl) * sin u) by (apply Rmult_le_compat_r; lra). apply Rmult_le_reg_l with (8 * dl); lra. }
  assert (U0 : 0 < u). { destruct (Req_dec u 0) as [->|]; [rewrite sin_0 in Hs; lra | lra]. } pose proof (sin_lt_x u U0) as SX.
  assert (Up : u < PI). { destruct (Req_dec u PI) as [->|]; [rewrite sin_PI in Hs; lra | lra]. }
  exists (t + u). assert (TP : t + u <= PI).
  { apply Rnot_lt_le. intro K. assert (sin (t + u) < 0) by (apply sin_lt_0; lra). destruct TU as [TU _]. rewrite TU in Y. assert (0 < norm (rval b) * norm (rval a)) by (apply Rmult_lt_0_compat; assumption). nra. }
  split; [lra|]. split; [rewrite S_INR; lra | apply angle_flip, TU].
Qed.
Lemma edge_swap sg k b c d : Edge sg k b c d -> Edge (- sg) k c b d.
Proof. intros (B & C & O & S & K & Hd & Hok). split; [exact C|]. split; [exact B|]. split; [rewrite pdot_comm; exact O|]. split; [lra|]. split; [exact K|]. split; [apply dirn_swap, Hd | exact Hok]. Qed.
Definition ExactAt (n : nat) sg P (b c d : vec2 b32) : Prop := Edge sg (3 * u32) b c d /\ 0 <= sg * pcross (rval b) (rval c) /\ Turned n sg (rval b) (rval c) /\ Seen n P /\ Forall (cone sg (rval b) (rval c)) P.
Lemma exact_swap n sg P b c d : ExactAt n sg P b c d -> ExactAt n (- sg) P c b d.
Proof.
  intros (E & X & T & Sn & Cn). split; [apply edge_swap, E|]. split; [replace (- sg * pcross (rval c) (rval b)) with (sg * pcross (rval b) (rval c)) by (unfold pcross; ring); exact X|].
  split; [intro E8; destruct (T E8) as (t & T1 & T2 & T3); exists t; split; [exact T1|]; split; [exact T2 | apply angle_flip, T3]|]. split; [exact Sn|].
  eapply Forall_impl; [|exact Cn]. intros p Hp. apply cone_swap in Hp. exact Hp.
Qed.
Lemma new_point n sg P b c d : ExactAt n sg P b c d -> ~ In (rval (sup d)) P.
Proof.
  intros ((B & C & O & S & K & Hd & Hok) & X & T & Sn & Cn) I. rewrite Forall_forall in Cn. pose proof (Cn _ I) as Cp. pose proof (cone_back (3 * u32) (rval d) sg _ _ _ S (proj1 K) Hd Cp ltac:(unfold kap in K; lra)) as Q.
  destruct (Hsup d Hok) as (_ & N & G & _). destruct Hok as (_ & L & _). pose proof (bpow_gt_0 radix2 (-24)). pose proof dpos as Pd. pose proof u32_pos. pose proof u32_small. set (nd := norm (rval d)) in * .
  assert (P1 : 0 < dl * nd) by (apply Rmult_lt_0_compat; lra). assert (3 * u32 * nd * norm (rval (sup d)) <= 3 * u32 * nd * (64 * dl)) by (apply Rmult_le_compat_l; [apply Rmult_le_pos; lra | lra]).
  assert (dl * nd * (1 - 3 * u32) <= pdot (rval d) (rval (sup d)) * (1 - 3 * u32)) by (apply Rmult_le_compat_r; lra).
  assert (u32 * (dl * nd) <= 1 / 16777216 * (dl * nd)) by (apply Rmult_le_compat_r; lra). lra.
Qed.
Lemma exact_count' n sg P b c d : ExactAt n sg P b c d -> (S n <= 17)%nat.
Proof.
  intro E. pose proof (new_point n sg P b c d E) as NP. destruct E as ((_ & _ & _ & _ & _ & _ & Hok) & _ & T & (N & V & L) & _). destruct Hfew as [H|H].
  - destruct (T H) as (t & [_ T1] & T2 & _). destruct (le_lt_dec (S n) 17) as [|K]; [assumption|]. exfalso. assert (17 <= INR n) by (replace 17 with (INR 17) by (cbn; lra); apply le_INR; lia). pose proof PI_4. lra.
  - destruct (Hsup d Hok) as (_ & _ & _ & Vd). specialize (H (rval (sup d) :: P) (NoDup_cons _ NP N) (Forall_cons _ Vd V)). cbn [length] in H. lia.
Qed.
Lemma edge_height sg k b c d : Edge sg k b c d -> let a := sup d in
  99 / 100 * dl * norm (psub (rval c) (rval b)) <= sg * pcross (rval c) (rval a) - sg * pcross (rval b) (rval a) /\
  139 / 100 * (dl * dl) <= sg * pcross (rval c) (rval a) - sg * pcross (rval b) (rval a).
Proof.
  intros (B & C & O & S & K & Hd & Hok) a. pose proof (sup_ok d Hok) as A. destruct (Hsup d Hok) as (_ & _ & G & _). pose proof dpos as Pd. split.
  - exact (height dl Pd k (rval d) sg _ _ _ S K Hd (proj2 A) G).
  - exact (height' dl Pd k (rval d) sg _ _ _ S K Hd (proj2 A) G (proj2 B) (proj2 C) O).
Qed.
Lemma half1 n sg P b c d : ExactAt n sg P b c d -> let a := sup d in - mu dl <= sg * pcross (rval b) (rval a) ->
  0 < sg * pcross (rval b) (rval c) /\ pdot (rval a) (rval b) <= 0 /\ 0 < sg * pcross (rval c) (rval a).
Proof.
  intros (E & X & _) a H. destruct (edge_height _ _ _ _ _ E) as [_ H2]. destruct E as (B & C & O & S & K & Hd & Hok). pose proof (sup_ok d Hok) as A.
  exact (exact_side dl dpos sg _ _ _ S (proj2 A) (proj2 B) (proj2 C) O X H2 H).
Qed.
Lemma half2 n sg P b c d d' : ExactAt n sg P b c d -> let a := sup d in - mu dl <= sg * pcross (rval b) (rval a) -> dir_ok d' -> dirn (3 * u32) (rval d') (- sg) (rval a) (rval b) -> Good (S n) a b d'.
Proof.
  intros E a H Hok' Hd'. destruct (half1 _ _ _ _ _ _ E H) as (Z & Oab & X). pose proof (exact_count' _ _ _ _ _ _ E) as CT. pose proof (new_point _ _ _ _ _ _ E) as NP. destruct E as (E & X0 & T & (N & V & L) & Cn).
  destruct (edge_height _ _ _ _ _ E) as [H1 _]. pose proof E as (B & C & O & S & K & Hd & Hok). pose proof (sup_ok d Hok) as A. destruct (Hsup d Hok) as (_ & Na & _ & Vd). fold a in A, Na, Vd, NP, H1.
  assert (E' : Edge (- sg) (3 * u32) a b d') by (split; [exact A|]; split; [exact B|]; split; [exact Oab|]; split; [lra|]; split; [exact K|]; split; assumption).
  destruct (Rle_or_lt 0 (sg * pcross (rval b) (rval a))) as [Y|Y].
  - left. exists (- sg), (rval a :: P). split; [exact E'|]. split; [replace (- sg * pcross (rval a) (rval b)) with (sg * pcross (rval b) (rval a)) by (unfold pcross; ring); exact Y|].
    split; [apply (turn_step n sg b c a); assumption|]. split; [split; [constructor; assumption|]; split; [constructor; assumption | cbn [length]; lia]|].
    apply Forall_cons. { split; [unfold pcross; lra | replace (- sg * pcross (rval a) (rval b)) with (sg * pcross (rval b) (rval a)) by (unfold pcross; ring); exact Y]. }
    eapply Forall_impl; [|exact Cn]. intros p Hp. apply (cone_step sg _ (rval c)); assumption.
  - right. split; [exact CT|]. exists (- sg), (3 * u32). split; [exact E'|]. replace (pcross (rval a) (rval b)) with (- pcross (rval b) (rval a)) by (unfold pcross; ring). rewrite Rabs_Ropp, <- (Rmult_1_l (Rabs _)), <- (abs_sig sg S), <- Rabs_mult, Rabs_left by exact Y. lra.
Qed.
(** the two outer normals of the triangle *)
Lemma tri_normals sg k b c d : Edge sg k b c d -> - mu dl <= sg * pcross (rval b) (rval c) -> let a := sup d in let q := cross (v2sub b a) (v2sub c a) in
  (let r := cross_f32 (v2sub b a) q in fin2 r /\ len_ok r /\ dirn (3 * u32) (rval r) (- sg) (rval a) (rval b) /\ 128 / 100 * (dl * dl) * norm (psub (rval b) (rval a)) <= norm (rval r)) /\
  (let r := cross_sv q (v2sub c a) in fin2 r /\ len_ok r /\ dirn (3 * u32) (rval r) sg (rval a) (rval c) /\ 128 / 100 * (dl * dl) * norm (psub (rval c) (rval a)) <= norm (rval r)).
Proof.
  intros E M a q. destruct (edge_height _ _ _ _ _ E) as [_ H2]. fold a in H2. destruct E as (B & C & O & S & K & Hd & Hok). pose proof (sup_ok d Hok) as A. fold a in A. pose proof dpos as Pd. assert (P2 : 0 < dl * dl) by (apply Rmult_lt_0_compat; lra).
  assert (AR : 138 / 100 * (dl * dl) <= sg * pcross (psub (rval b) (rval a)) (psub (rval c) (rval a))).
  { replace (sg * pcross (psub (rval b) (rval a)) (psub (rval c) (rval a))) with (sg * pcross (rval b) (rval c) + (sg * pcross (rval c) (rval a) - sg * pcross (rval b) (rval a))) by (unfold pcross, psub; cbn; ring). unfold mu in M. lra. }
  destruct (area32 dl Hlo Hhi a b c sg S A B C AR) as (Fq & Lq & Sq & Lab). fold q in Fq, Lq, Sq.
  assert (Lac : / 100 * dl <= norm (psub (rval c) (rval a))).
  { assert (AR' : 138 / 100 * (dl * dl) <= - sg * pcross (psub (rval c) (rval a)) (psub (rval b) (rval a))) by (replace (- sg * pcross (psub (rval c) (rval a)) (psub (rval b) (rval a))) with (sg * pcross (psub (rval b) (rval a)) (psub (rval c) (rval a))) by (unfold pcross; ring); exact AR).
    destruct (area32 dl Hlo Hhi a c b (- sg) ltac:(lra) A C B AR') as (_ & _ & _ & L). exact L. }
  assert (Pq : 0 < sg * val q) by lra. destruct (sign_split (val q) sg S Pq) as [Eq _].
  assert (LL : forall w, / 100 * dl <= norm w -> bpow radix2 (-69) <= Rabs (val q) * norm w).
  { intros w Hw. rewrite Eq. apply Rle_trans with ((bpow radix2 (-20) * bpow radix2 (-20)) * (bpow radix2 (-7) * bpow radix2 (-20))); [rewrite <- !bpow_plus; apply bpow_le; lia|].
    pose proof (bpow_gt_0 radix2 (-20)). assert (B7 : bpow radix2 (-7) = / 128) by (cbn; lra). rewrite B7. apply Rmult_le_compat; try (apply Rmult_le_pos; lra).
    - apply Rle_trans with (dl * dl); [apply Rmult_le_compat; lra | lra].
    - lra. }
  assert (GG : forall w, 128 / 100 * (dl * dl) * norm w <= 99 / 100 * (Rabs (val q) * norm w)).
  { intro w. rewrite Eq. rewrite <- (Rmult_assoc (99 / 100)). apply Rmult_le_compat_r; [apply norm_nonneg | lra]. }
  split.
  - destruct (normal_ab dl Hlo Hhi a b q sg A B S Fq Sq Pq (LL _ Lab)) as (F1 & L1 & D1 & N1). split; [exact F1|]. split; [exact L1|]. split; [exact D1|]. eapply Rle_trans; [apply GG | exact N1].
  - destruct (normal_ac dl Hlo Hhi a c q sg A C S Fq Sq Pq (LL _ Lac)) as (F1 & L1 & D1 & N1). split; [exact F1|]. split; [exact L1|]. split; [exact D1|]. eapply Rle_trans; [apply GG | exact N1].
Qed.
(** one triangle step *)
Definition Next (n : nat) (s : simplex b32) (d : vec2 b32) : Prop := exists b c, s = [b; c] /\ Good n b c d.
Definition LateDir (d : vec2 b32) : Prop := fin2 d /\ norm (rval d) <= bpow radix2 59 /\ 18 / 10 * (dl * dl * dl) <= norm (rval d).
Lemma tri_step n b c d : Good n b c d -> (exists s', add_point [b; c] (sup d) = Ok (s', (true, v2nan)) /\ length s' = 3%nat) \/
  exists s' d', add_point [b; c] (sup d) = Ok (s', (false, d')) /\ LateDir d' /\ (bpow radix2 (-24) <= norm (rval d') -> Next (S n) s' d').
Proof.
  intros [(sg & P & E)|(CT & sg & k & E & M)].
  - change (ExactAt n sg P b c d) in E. pose proof E as (Ed & X0 & _). pose proof Ed as (B & C & O & S & K & Hd & Hok). pose proof (sup_ok d Hok) as A.
    assert (P2 : 0 < dl * dl) by (pose proof dpos; apply Rmult_lt_0_compat; lra).
    destruct (tri_normals sg _ b c d Ed ltac:(unfold mu; lra)) as [(F1 & L1 & D1 & N1) (F2 & L2 & D2 & N2)]. cbn [add_point]. set (a := sup d) in * . set (q := cross (v2sub b a) (v2sub c a)) in * .
    set (r1 := cross_f32 (v2sub b a) q) in * . set (r2 := cross_sv q (v2sub c a)) in * .
    assert (GO : forall x r, 128 / 100 * (dl * dl) * norm (psub (rval x) (rval a)) <= norm (rval r) -> okp x -> pdot (rval a) (rval x) <= 0 -> 18 / 10 * (dl * dl * dl) <= norm (rval r)).
    { intros x r Hr Ox Hx. eapply Rle_trans; [|exact Hr]. pose proof (pair_apart dl dpos (rval a) (rval x) (proj2 A) (proj2 Ox) Hx) as PA. assert (128 / 100 * (dl * dl) * (141 / 100 * dl) <= 128 / 100 * (dl * dl) * norm (psub (rval x) (rval a))) by (apply Rmult_le_compat_l; lra). assert (0 < dl * dl * dl) by (apply Rmult_lt_0_compat; [exact P2 | exact dpos]). lra. }
    destruct (same_direction r1 (v2neg a)) eqn:T1.
    + pose proof (test32 dl Hlo Hhi r1 a b (- sg) ltac:(lra) A B F1 L1 D1 T1) as Q. replace (- sg * pcross (rval a) (rval b)) with (sg * pcross (rval b) (rval a)) in Q by (unfold pcross; ring).
      destruct (half1 _ _ _ _ _ _ E Q) as (_ & Oab & _). fold a in Oab. rewrite (toward32 dl Hlo Hhi a b A B Oab). right. exists [a; b], r1. split; [reflexivity|]. split; [split; [exact F1|]; split; [apply L1 | apply (GO b); assumption]|].
      intro LB. exists a, b. split; [reflexivity|]. apply (half2 n sg P b c d r1 E Q); [split; [exact F1|]; split; [exact LB | apply L1] | exact D1].
    + destruct (same_direction r2 (v2neg a)) eqn:T2; [|left; exists [a; b; c]; split; reflexivity].
      pose proof (test32 dl Hlo Hhi r2 a c sg S A C F2 L2 D2 T2) as Q. pose proof (exact_swap _ _ _ _ _ _ E) as Es.
      assert (Q' : - mu dl <= - sg * pcross (rval c) (rval a)) by (replace (- sg * pcross (rval c) (rval a)) with (sg * pcross (rval a) (rval c)) by (unfold pcross; ring); exact Q).
      destruct (half1 _ _ _ _ _ _ Es Q') as (_ & Oac & _). fold a in Oac. right. exists [a; c], r2. split; [reflexivity|]. split; [split; [exact F2|]; split; [apply L2 | apply (GO c); assumption]|].
      intro LB. exists a, c. split; [reflexivity|]. apply (half2 n (- sg) P c b d r2 Es Q'); [split; [exact F2|]; split; [exact LB | apply L2] | rewrite Ropp_involutive; exact D2].
  - left. pose proof (edge_height _ _ _ _ _ E) as [_ H2]. pose proof E as (B & C & O & S & K & Hd & Hok). pose proof (sup_ok d Hok) as A.
    assert (M' : Rabs (sg * pcross (rval b) (rval c)) <= mu dl) by (rewrite Rabs_mult, (abs_sig sg S), Rmult_1_l; exact M). apply abs_le2' in M'.
    assert (P2 : 0 < dl * dl) by (pose proof dpos; apply Rmult_lt_0_compat; lra).
    destruct (tri_normals sg _ b c d E (proj1 M')) as [(F1 & L1 & D1 & N1) (F2 & L2 & D2 & N2)]. cbn [add_point]. set (a := sup d) in * . set (q := cross (v2sub b a) (v2sub c a)) in * .
    set (r1 := cross_f32 (v2sub b a) q) in * . set (r2 := cross_sv q (v2sub c a)) in * . exists [a; b; c].
    destruct (same_direction r1 (v2neg a)) eqn:T1.
    { exfalso. pose proof (test32 dl Hlo Hhi r1 a b (- sg) ltac:(lra) A B F1 L1 D1 T1) as Q. pose proof (near_side dl dpos sg _ _ _ S (proj2 A) (proj2 B) (proj2 C) O M H2) as Q2. unfold mu in Q. lra. }
    destruct (same_direction r2 (v2neg a)) eqn:T2; [|split; reflexivity].
    exfalso. pose proof (test32 dl Hlo Hhi r2 a c sg S A C F2 L2 D2 T2) as Q. rewrite pdot_comm in O.
    assert (M2 : Rabs (pcross (rval c) (rval b)) <= mu dl) by (replace (pcross (rval c) (rval b)) with (- pcross (rval b) (rval c)) by (unfold pcross; ring); rewrite Rabs_Ropp; exact M).
    pose proof (near_side dl dpos (- sg) (rval c) (rval b) (rval a) ltac:(lra) (proj2 A) (proj2 C) (proj2 B) O M2 ltac:(lra)) as Q2. unfold mu in Q. lra.
Qed.
End Search.
