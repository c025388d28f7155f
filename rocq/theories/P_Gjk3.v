(** * GJK in exact arithmetic: the search ends in time on overlapping bodies with few support values (proofs). *)
From Coq Require Import Reals Lra Psatz Bool List Lia Arith.
From Verif Require Import Num NumXR Glam Transform2 Shapes2 Gjk Spec SpecLink P_Base P_Transform P_Shapes P_Geo P_GjkShape SpecGjk P_Gjk P_Gjk2.
Import ListNotations.
Local Open Scope R_scope.

Lemma abp_drop a b c : pdot (abp a b c) (psub c a) = - (abc_ a b c * abc_ a b c).
Proof. unfold abp, abc_, pdot, pcross, psub; cbn. ring. Qed.
Lemma acp_drop a b c : pdot (acp a b c) (psub b a) = - (abc_ a b c * abc_ a b c).
Proof. unfold acp, abc_, pdot, pcross, psub; cbn. ring. Qed.
Lemma sq_pos x : x <> 0 -> 0 < x * x.
Proof. intro H. nra. Qed.
Lemma ne_origin_of_dot n p q : pdot n p < pdot n q -> n <> origin.
Proof. intros H E. subst n. unfold pdot, origin in H; cbn in H. lra. Qed.

(** a vector is a combination of two independent ones *)
Lemma decompose u w p : pcross u w <> 0 -> exists x y, p = padd (pscale x u) (pscale y w).
Proof.
  intro N. exists (pcross p w / pcross u w), (pcross u p / pcross u w).
  unfold pcross in * . apply pt_eq; cbn; field; exact N.
Qed.
(** two directions orthogonal to a same nonzero vector are proportional *)
Lemma orthogonal_parallel d n e : d <> origin -> e <> origin -> pdot n d = 0 -> pdot e d = 0 -> exists l, n = pscale l e.
Proof.
  intros Nd Ne Hn He. exists (pdot n e / pdot e e). pose proof (dot_pos e Ne) as P. pose proof (dot_pos d Nd) as Q.
  assert (C : pcross n e = 0).
  { assert (Z : pdot d d * pcross n e = 0).
    { replace (pdot d d * pcross n e) with (pdot n d * pcross d e + pcross n d * pdot e d) by (unfold pdot, pcross; ring).
      rewrite Hn, He. ring. }
    apply Rmult_integral in Z. destruct Z as [Z|Z]; [lra | exact Z]. }
  assert (E : pscale (pdot e e) n = pscale (pdot n e) e) .
  { apply pt_eq; cbn; apply Rminus_diag_uniq.
    - transitivity (snd e * pcross n e); [unfold pdot, pcross; ring | rewrite C; ring].
    - transitivity (- fst e * pcross n e); [unfold pdot, pcross; ring | rewrite C; ring]. }
  apply pt_eq; [apply (f_equal fst) in E | apply (f_equal snd) in E]; cbn in *; apply Rmult_eq_reg_l with (pdot e e); try lra; rewrite E; field; lra.
Qed.

Section Run3.
Variables (M : pset) (s : pt -> pt) (sup : vec2 XR -> vec2 XR) (K rho : R).
Hypothesis Hsup : forall d, norm d <= K -> sup (inj d) = inj (s d).
Hypothesis Hfar : forall d, norm d <= K -> is_farthest M d (s d).
Hypothesis HM : forall m, M m -> norm m <= rho.
Hypothesis K1 : 2 * rho <= K.
Hypothesis K3 : 8 * (rho * rho * rho) <= K.
Local Notation vert := (vert M s K).
Local Notation Inv := (Inv M s K).
Local Notation tri := (tri M s K).
Local Notation value := (value s K).

(** one three-point step, with what becomes of the dropped point *)
Lemma three b c d : Inv [b; c] d -> 0 < pdot (s d) d ->
  (exists x y n, ((x = b /\ y = c) \/ (x = c /\ y = b)) /\
     add_point (map inj [b; c]) (inj (s d)) = Ok (map inj [s d; x], (false, inj n)) /\
     Inv [s d; x] n /\ pdot n y < pdot n x /\ (resolvable value -> direction_is_too_small (inj n) = false))
  \/ (add_point (map inj [b; c]) (inj (s d)) = Ok (map inj [s d; b; c], (true, v2nan)) /\ tri (s d) b c).
Proof.
  intros (FS & Hd & Nd & Hm) F. set (a := s d) in * .
  assert (Fd : 0 < pdot d a) by (rewrite pdot_comm; exact F).
  assert (Va : vert a) by (split; [exists d; split; [apply Hfar, Hd | exact Fd] | exists d; auto]).
  inversion FS as [|? ? Vb FS']; subst. inversion FS' as [|? ? Vc _]; subst. cbn in Hm.
  pose proof (vert_M M s K a Va) as A. pose proof (vert_M M s K b Vb) as B. pose proof (vert_M M s K c Vc) as Cc.
  destruct (step3 d a b c Nd Hm Fd) as (Nabc & _ & Hab & Hac & Hcap). pose proof (sq_pos _ Nabc) as Q.
  pose proof (abp_drop a b c) as D1. pose proof (acp_drop a b c) as D2. rewrite pdot_sub_r in D1, D2.
  pose proof (abp_perp a b c) as R1. pose proof (acp_perp a b c) as R2. rewrite pdot_sub_r in R1, R2.
  assert (S1 : pdot (abp a b c) c < pdot (abp a b c) b) by lra. assert (S2 : pdot (acp a b c) b < pdot (acp a b c) c) by lra.
  cbn [map]. rewrite addp3. destruct (Rleb_spec 0 (pdot (abp a b c) (pneg a))) as [H|H].
  - destruct (Hab H) as (D & OK). rewrite (Rleb_true _ _ D). left. exists b, c, (abp a b c). split; [auto|]. split; [reflexivity|].
    split; [|split; [exact S1|]].
    + split; [auto|]. split; [apply (abp_bound M K rho HM K3); assumption|]. split; [apply (ne_origin_of_dot _ _ _ S1) | exact OK].
    + intro R. rewrite small_inj. apply Rltb_false, Rnot_lt_le. intro L.
      apply (ne_origin_of_dot _ _ _ S1), (res_abp _ a b c R (proj2 Va) (proj2 Vb) (proj2 Vc) L).
  - destruct (Rleb_spec 0 (pdot (acp a b c) (pneg a))) as [H2|H2].
    + left. exists c, b, (acp a b c). split; [auto|]. split; [reflexivity|]. split; [|split; [exact S2|]].
      * split; [auto|]. split; [apply (acp_bound M K rho HM K3); assumption|]. split; [apply (ne_origin_of_dot _ _ _ S2) | apply Hac, H2].
      * intro R. rewrite small_inj. apply Rltb_false, Rnot_lt_le. intro L.
        apply (ne_origin_of_dot _ _ _ S2), (res_acp _ a b c R (proj2 Va) (proj2 Vb) (proj2 Vc) L).
    + right. split; [reflexivity|]. destruct (Hcap ltac:(lra) ltac:(lra)) as (P1 & P2 & P3).
      repeat split; try assumption; apply Va || apply Vb || apply Vc.
Qed.

(** the two-point step *)
Lemma two b d : Inv [b] d -> 0 < pdot (s d) d -> exists n,
  add_point (map inj [b]) (inj (s d)) = Ok (map inj [s d; b], (false, inj n)) /\
  ((n <> origin /\ Inv [s d; b] n) \/ (n = origin /\ Inv [s d; b] (perp d))) /\
  (resolvable value -> direction_is_too_small (inj n) = true -> n = origin).
Proof.
  intros I F. pose proof I as (FS & Hd & Nd & Hm). cbn in Hm. set (a := s d) in * .
  assert (Fd : 0 < pdot d a) by (rewrite pdot_comm; exact F).
  assert (Va : vert a) by (split; [exists d; split; [apply Hfar, Hd | exact Fd] | exists d; auto]).
  inversion FS as [|? ? Vb _]; subst.
  pose proof (vert_M M s K a Va) as A. pose proof (vert_M M s K b Vb) as B.
  destruct (step2 a b Fd) as (D & OK & OK0). exists (raba (psub b a) (pneg a)). cbn [map]. rewrite addp2, Rleb_true by exact D.
  split; [reflexivity|]. split.
  - destruct (Req_dec (norm (raba (psub b a) (pneg a))) 0) as [Z|Z].
    + apply norm_0 in Z. right. split; [exact Z|]. split; [auto|]. split; [rewrite perp_norm; exact Hd|]. split; [apply perp_ne, Nd|].
      apply OK0. assert (NE : a <> b) by (apply (pair_ne _ _ _ OK)).
      assert (Z2 : pdot (raba (psub b a) (pneg a)) (raba (psub b a) (pneg a)) = 0) by (rewrite Z; unfold pdot, origin; cbn; ring).
      rewrite raba_norm in Z2.
      replace (pcross (psub b a) (pneg a)) with (pcross a b) in Z2 by (unfold pcross, psub, pneg; cbn; ring).
      assert (P : 0 < pdot (psub b a) (psub b a)).
      { apply dot_pos. intro E2. apply NE. apply pt_eq; [apply (f_equal fst) in E2 | apply (f_equal snd) in E2]; cbn in E2; lra. }
      apply (prod_sq_0 _ _ P Z2).
    + assert (N : raba (psub b a) (pneg a) <> origin) by (intro E; apply Z, norm_0, E).
      left. split; [exact N|]. split; [auto|]. split; [apply (raba_bound M K rho HM K1 K3); assumption|]. split; [exact N | exact OK].
  - intros R SM. rewrite small_inj in SM. destruct (Rltb_spec (pdot (raba (psub b a) (pneg a)) (raba (psub b a) (pneg a))) (eps * eps)) as [L|]; [|discriminate].
    apply (res_raba _ a b R (proj2 Va) (proj2 Vb) L).
Qed.

(** ** Termination: no separating direction *)
Hypothesis Hno : ~ behind M.
Lemma beyond d : norm d <= K -> d <> origin -> 0 < pdot (s d) d.
Proof. intros Hd N. apply Rnot_le_lt. intro H. apply Hno, (far_behind M s K Hfar d Hd N H). Qed.

Definition clean (b c : pt) : Prop := exists e, is_farthest M e b /\ pdot e c < pdot e b.

(** the kept point becomes clean with respect to the new one *)
Lemma becomes_clean n' a x y : n' <> origin -> a <> x -> pdot n' a = pdot n' x -> pdot n' x <= 0 -> pdot n' y < pdot n' x ->
  M a -> M y -> vert x -> clean x a.
Proof.
  intros N NE E Z L A Y Vx. destruct Vx as [(e & [Fx Fe] & Pe) _]. exists e. split; [split; assumption|].
  destruct (Rle_lt_or_eq_dec _ _ (Fe a A)) as [T|T]; [exact T|]. exfalso.
  assert (Ne : e <> origin) by (intro E2; subst e; unfold pdot, origin in Pe; cbn in Pe; lra).
  destruct (orthogonal_parallel (psub a x) n' e) as (l & El); try assumption.
  - intro E2. apply NE. apply pt_eq; [apply (f_equal fst) in E2 | apply (f_equal snd) in E2]; cbn in E2; lra.
  - rewrite pdot_sub_r. lra.
  - rewrite pdot_sub_r. lra.
  - assert (Sc : forall p, pdot n' p = l * pdot e p) by (intro p; rewrite El; unfold pdot, pscale; cbn; ring).
    pose proof (Fe y Y) as Hy. rewrite !Sc in L. assert (0 < l) by nra.
    apply Hno. exists n'. split; [exact N|]. intros m Hm. pose proof (Fe m Hm). rewrite !Sc in * . nra.
Qed.

(** nothing new lies beyond the new edge when the kept point is clean with respect to the dropped one *)
Lemma shrink n n' a x y v : pdot n x = pdot n y -> pdot n x < pdot n a -> pdot n' a = pdot n' x -> pdot n' y < pdot n' x ->
  M a -> M v -> clean x y -> pdot n' x < pdot n' v -> pdot n x < pdot n v.
Proof.
  intros E L E' L' A Hv (e & [Hx He] & Lc) B. apply Rnot_le_lt. intro C.
  assert (I : pcross (psub x a) (psub x y) <> 0).
  { intro Z.
    assert (Z2 : pdot n (psub x a) * pdot n' (psub x y) - pdot n (psub x y) * pdot n' (psub x a) = pcross n n' * pcross (psub x a) (psub x y))
      by (unfold pdot, pcross, psub; cbn; ring).
    rewrite Z, Rmult_0_r, !pdot_sub_r in Z2. nra. }
  destruct (decompose _ _ (psub v x) I) as (al & be & Ev).
  assert (Dv : forall k, pdot k v - pdot k x = al * (pdot k x - pdot k a) + be * (pdot k x - pdot k y)).
  { intro k. rewrite <- pdot_sub_r, Ev, pdot_add_r, !pdot_scale_r, !pdot_sub_r. reflexivity. }
  pose proof (Dv n) as D1. pose proof (Dv n') as D2. pose proof (Dv e) as D3.
  assert (0 < be) by nra. assert (0 <= al) by nra. pose proof (He v Hv). pose proof (He a A). nra.
Qed.

Variable V : list pt.
Hypothesis HV : forall d, norm d <= K -> In (s d) V.
Hypothesis HVM : forall v, In v V -> M v.
Definition above (n b : pt) (v : pt) : bool := Rltb (pdot n b) (pdot n v).
Definition left (n b : pt) : nat := length (filter (above n b) V).
Lemma filter_le (f g : pt -> bool) l : (forall v, In v l -> f v = true -> g v = true) -> (length (filter f l) <= length (filter g l))%nat.
Proof.
  induction l as [|v l IH]; intro H; cbn; [lia|].
  assert (IH' := IH (fun v Hv => H v (or_intror Hv))). pose proof (H v (or_introl eq_refl)) as Hv.
  destruct (f v); [rewrite Hv by reflexivity; cbn; lia | destruct (g v); cbn; lia].
Qed.
Lemma filter_lt (f g : pt -> bool) l a : (forall v, In v l -> f v = true -> g v = true) -> In a l -> g a = true -> f a = false ->
  (length (filter f l) < length (filter g l))%nat.
Proof.
  induction l as [|v l IH]; intros H I Ga Fa; [contradiction|]. cbn. destruct I as [->|I].
  - rewrite Ga, Fa. cbn. pose proof (filter_le f g l (fun v Hv => H v (or_intror Hv))). lia.
  - specialize (IH (fun v Hv => H v (or_intror Hv)) I Ga Fa). pose proof (H v (or_introl eq_refl)) as Hv.
    destruct (f v); [rewrite Hv by reflexivity; cbn; lia | destruct (g v); cbn; lia].
Qed.
Lemma filter_split (f : pt -> bool) l : (length (filter f l) + length (filter (fun v => negb (f v)) l) = length l)%nat.
Proof. induction l as [|v l IH]; cbn; [reflexivity|]. destruct (f v); cbn; lia. Qed.
Lemma filter_outside (f : pt -> bool) l L : NoDup L -> (forall v, In v L -> In v l /\ f v = false) ->
  (length (filter f l) + length L <= length l)%nat.
Proof.
  intros N H. rewrite <- (filter_split f l). assert (length L <= length (filter (fun v => negb (f v)) l))%nat; [|lia].
  apply NoDup_incl_length; [exact N|]. intros v Hv. destruct (H v Hv) as [I F]. apply filter_In. rewrite F. auto.
Qed.

Lemma left_pos b d : norm d <= K -> pdot d b < pdot d (s d) -> (1 <= left d b)%nat.
Proof.
  intros Hd L. unfold left. assert (I : In (s d) (filter (above d b) V)).
  { apply filter_In. split; [apply HV, Hd|]. apply Rltb_true, L. }
  destruct (filter (above d b) V); [contradiction | cbn; lia].
Qed.

Definition Good (S : list pt) (d : pt) : Prop :=
  exists b c, S = [b; c] /\ Inv S d /\ clean b c /\ clean c b.

(** one step from a good state: capture, or a good state with strictly fewer candidates *)
Lemma good_step b c d : Inv [b; c] d -> clean b c -> clean c b ->
  (exists x n, add_point (map inj [b; c]) (inj (s d)) = Ok (map inj [s d; x], (false, inj n)) /\
     Inv [s d; x] n /\ clean (s d) x /\ clean x (s d) /\ (left n (s d) < left d b)%nat /\
     (resolvable value -> direction_is_too_small (inj n) = false))
  \/ (add_point (map inj [b; c]) (inj (s d)) = Ok (map inj [s d; b; c], (true, v2nan)) /\ tri (s d) b c).
Proof.
  intros I Cb Cc. pose proof I as (FS & Hd & Nd & (E & Z & _ & _ & _)). pose proof (beyond d Hd Nd) as F.
  destruct (three b c d I F) as [(x & y & n & XY & EA & I' & L & R)|Cap]; [left|right; exact Cap].
  exists x, n. split; [exact EA|]. split; [exact I'|]. set (a := s d) in * .
  assert (Fd : 0 < pdot d a) by (rewrite pdot_comm; exact F).
  pose proof I' as (FS' & Hn & Nn & OK'). pose proof (pair_ne _ _ _ OK') as NE. destruct OK' as (E' & Z' & _ & _ & _).
  inversion FS as [|? ? Vb FS1]; subst. inversion FS1 as [|? ? Vc _]; subst. inversion FS' as [|? ? Va FS2]; subst. inversion FS2 as [|? ? Vx _]; subst.
  pose proof (vert_M M s K _ Va) as A. pose proof (vert_M M s K _ Vb) as B. pose proof (vert_M M s K _ Vc) as C.
  assert (Exy : pdot d x = pdot d y /\ pdot d x = pdot d b /\ M y /\ clean x y).
  { destruct XY as [[-> ->]|[-> ->]]; repeat split; try assumption; lra. }
  destruct Exy as (Exy & Exb & Hy & Cxy).
  split; [|split; [|split; [|exact R]]].
  - exists d. split; [apply Hfar, Hd | lra].
  - apply (becomes_clean n a x y); try assumption. lra.
  - unfold left. apply filter_lt with (a := a).
    + intros v Iv Hv. unfold above in * . destruct (Rltb_spec (pdot n a) (pdot n v)) as [Q|]; [|discriminate].
      apply Rltb_true. rewrite <- Exb.
      apply (shrink d n a x y v); try assumption; try lra. apply HVM, Iv.
    + apply HV, Hd.
    + apply Rltb_true. lra.
    + apply Rltb_false. lra.
Qed.

(** the first three-point step makes the state clean, whatever it was before *)
Lemma first_step b c d : Inv [b; c] d ->
  (exists x n, add_point (map inj [b; c]) (inj (s d)) = Ok (map inj [s d; x], (false, inj n)) /\
     Inv [s d; x] n /\ clean (s d) x /\ clean x (s d) /\ (left n (s d) + 3 <= length V)%nat /\
     (resolvable value -> direction_is_too_small (inj n) = false))
  \/ (add_point (map inj [b; c]) (inj (s d)) = Ok (map inj [s d; b; c], (true, v2nan)) /\ tri (s d) b c).
Proof.
  intros I. pose proof I as (FS & Hd & Nd & (E & Z & _ & _ & _)). pose proof (beyond d Hd Nd) as F.
  destruct (three b c d I F) as [(x & y & n & XY & EA & I' & L & R)|Cap]; [left|right; exact Cap].
  exists x, n. split; [exact EA|]. split; [exact I'|]. set (a := s d) in * .
  assert (Fd : 0 < pdot d a) by (rewrite pdot_comm; exact F).
  pose proof I' as (FS' & Hn & Nn & OK'). pose proof (pair_ne _ _ _ OK') as NE. destruct OK' as (E' & Z' & _ & _ & _).
  inversion FS as [|? ? Vb FS1]; subst. inversion FS1 as [|? ? Vc _]; subst. inversion FS' as [|? ? Va FS2]; subst. inversion FS2 as [|? ? Vx _]; subst.
  pose proof (vert_M M s K _ Va) as A. pose proof (vert_M M s K _ Vb) as B. pose proof (vert_M M s K _ Vc) as C.
  assert (Exy : pdot d x = pdot d b /\ M y /\ vert y) by (destruct XY as [[-> ->]|[-> ->]]; repeat split; try assumption; try lra; apply Vb || apply Vc).
  destruct Exy as (Exb & Hy & Vy).
  split; [|split; [|split; [|exact R]]].
  - exists d. split; [apply Hfar, Hd | lra].
  - apply (becomes_clean n a x y); try assumption. lra.
  - unfold left. apply (filter_outside (above n a) V [a; x; y]).
    + repeat constructor; cbn; [intros [H|[H|[]]]|intros [H|[]]|auto]; subst; try lra; try (apply NE; reflexivity).
    + assert (W : forall v, vert v -> In v V) by (intros v [_ (e & He & ->)]; apply HV, He).
      intros v [<-|[<-|[<-|[]]]]; (split; [apply W; assumption | apply Rltb_false; lra]).
Qed.

(** ** Runs *)
Definition found (o : outcome XR) : Prop := (exists l, o = Captured l) \/ (exists l d, o = TooSmall l d).
Lemma fle_beyond d : norm d <= K -> d <> origin -> fle (v2dot (sup (inj d)) (inj d)) f0 = false.
Proof. intros Hd N. rewrite (fle_test s sup K Hsup d Hd). apply Rleb_false, beyond; assumption. Qed.

Lemma ff_good n : forall b c d, Inv [b; c] d -> clean b c -> clean c b -> (left d b <= n)%nat ->
  found (run_ff sup n (map inj [b; c]) (inj d)).
Proof.
  induction n as [|n IH]; intros b c d I Cb Cc L; pose proof I as (FS & Hd & Nd & (E & Z & _)).
  - exfalso. pose proof (beyond d Hd Nd) as F. rewrite pdot_comm in F. pose proof (left_pos b d Hd ltac:(lra)). lia.
  - cbn [run_ff]. rewrite (fle_beyond d Hd Nd), (Hsup d Hd).
    destruct (good_step b c d I Cb Cc) as [(x & m & -> & I' & C1 & C2 & L' & _)|[-> _]].
    + destruct (direction_is_too_small (inj m)); [right; eauto|]. apply IH; try assumption. lia.
    + left; eauto.
Qed.
Lemma ff_first n b c d : Inv [b; c] d -> (length V <= n + 3)%nat -> found (run_ff sup (S n) (map inj [b; c]) (inj d)).
Proof.
  intros I L. pose proof I as (FS & Hd & Nd & _). cbn [run_ff]. rewrite (fle_beyond d Hd Nd), (Hsup d Hd).
  destruct (first_step b c d I) as [(x & m & -> & I' & C1 & C2 & L' & _)|[-> _]]; [|left; eauto].
  destruct (direction_is_too_small (inj m)); [right; eauto|]. apply ff_good; try assumption. lia.
Qed.
Lemma ff_found d0 : norm d0 <= K -> d0 <> origin -> (length V <= 20)%nat -> found (run_ff sup 20 [] (inj d0)).
Proof.
  intros Hd Nd L. assert (F := beyond d0 Hd Nd). cbn [run_ff]. rewrite (fle_beyond d0 Hd Nd), (Hsup d0 Hd).
  assert (Fd : 0 < pdot d0 (s d0)) by (rewrite pdot_comm; exact F).
  assert (Vb : vert (s d0)) by (split; [exists d0; split; [apply Hfar, Hd | exact Fd] | exists d0; auto]).
  rewrite addp1. destruct (direction_is_too_small (inj (pneg (s d0)))) eqn:SM; [right; eauto|].
  assert (I : Inv [s d0] (pneg (s d0))).
  { split; [auto|]. split; [apply (neg_bound M K rho HM K1), (vert_M M s K _ Vb)|]. split; [apply small_ne, SM | reflexivity]. }
  set (b := s d0) in *; set (d := pneg b) in * .
  pose proof I as (_ & Hd1 & Nd1 & _). rewrite (fle_beyond d Hd1 Nd1), (Hsup d Hd1).
  destruct (two b d I (beyond d Hd1 Nd1)) as (n & EA & C & _). change ([inj b]) with (map inj [b]). rewrite EA.
  destruct (direction_is_too_small (inj n)) eqn:SM2; [right; eauto|].
  destruct C as [(_ & I2)|(-> & _)]; [|exfalso; apply (small_ne _ SM2 eq_refl)].
  exact (ff_first 17 _ _ _ I2 L).
Qed.

Hypothesis Res : resolvable value.
Lemma tf_good n : forall b c d, Inv [b; c] d -> clean b c -> clean c b -> (left d b <= n)%nat ->
  exists x y z, run_tf sup n (map inj [b; c]) (inj d) = Captured (map inj [x; y; z]) /\ tri x y z.
Proof.
  induction n as [|n IH]; intros b c d I Cb Cc L; pose proof I as (FS & Hd & Nd & (E & Z & _)).
  - exfalso. pose proof (beyond d Hd Nd) as F. rewrite pdot_comm in F. pose proof (left_pos b d Hd ltac:(lra)). lia.
  - cbn [run_tf]. rewrite (fle_beyond d Hd Nd), (Hsup d Hd).
    destruct (good_step b c d I Cb Cc) as [(x & m & -> & I' & C1 & C2 & L' & R)|[-> T]].
    + rewrite (R Res). apply IH; try assumption. lia.
    + exists (s d), b, c. split; [reflexivity | exact T].
Qed.
Lemma tf_first n b c d : Inv [b; c] d -> (length V <= n + 3)%nat ->
  exists x y z, run_tf sup (S n) (map inj [b; c]) (inj d) = Captured (map inj [x; y; z]) /\ tri x y z.
Proof.
  intros I L. pose proof I as (FS & Hd & Nd & _). cbn [run_tf]. rewrite (fle_beyond d Hd Nd), (Hsup d Hd).
  destruct (first_step b c d I) as [(x & m & -> & I' & C1 & C2 & L' & R)|[-> T]].
  - rewrite (R Res). apply tf_good; try assumption. lia.
  - exists (s d), b, c. split; [reflexivity | exact T].
Qed.
Lemma tf_second n b d : Inv [b] d -> (length V <= n + 3)%nat ->
  exists x y z, run_tf sup (S (S n)) (map inj [b]) (inj d) = Captured (map inj [x; y; z]) /\ tri x y z.
Proof.
  intros I L. pose proof I as (FS & Hd & Nd & _).
  change (run_tf sup (S (S n)) (map inj [b]) (inj d)) with
   (if fle (v2dot (sup (inj d)) (inj d)) f0 then Separated (map inj [b]) (inj d)
      else match add_point (map inj [b]) (sup (inj d)) with
           | Panic p => Crashed p
           | Ok (s', (collides, new_dir)) =>
               let new_dir := if direction_is_too_small new_dir then v2perp (inj d) else new_dir in
               if collides then Captured s' else run_tf sup (S n) s' new_dir
           end).
  rewrite (fle_beyond d Hd Nd), (Hsup d Hd).
  destruct (two b d I (beyond d Hd Nd)) as (m & -> & C & R). cbv zeta.
  destruct (direction_is_too_small (inj m)) eqn:SM.
  - rewrite perp_inj. destruct C as [(N & _)|(_ & I2)]; [exfalso; apply N, (R Res), eq_refl|]. apply (tf_first n); assumption.
  - destruct C as [(_ & I2)|(-> & _)]; [|exfalso; apply (small_ne _ SM eq_refl)]. apply (tf_first n); assumption.
Qed.
Lemma start_inv d0 : norm d0 <= K -> d0 <> origin -> Inv [s d0] (pneg (s d0)) /\ direction_is_too_small (inj (pneg (s d0))) = false.
Proof.
  intros Hd Nd. assert (F := beyond d0 Hd Nd).
  assert (Fd : 0 < pdot d0 (s d0)) by (rewrite pdot_comm; exact F).
  assert (Vb : vert (s d0)) by (split; [exists d0; split; [apply Hfar, Hd | exact Fd] | exists d0; auto]).
  assert (N : pneg (s d0) <> origin).
  { intro E. apply (beyond_ne d0 (s d0) Fd). rewrite <- (pneg_pneg (s d0)), E. apply pneg_origin. }
  split.
  - split; [auto|]. split; [apply (neg_bound M K rho HM K1), (vert_M M s K _ Vb)|]. split; [exact N | reflexivity].
  - rewrite small_inj. apply Rltb_false, Rnot_lt_le. intro L. apply N, (res_neg _ (s d0) Res (proj2 Vb) L).
Qed.
Lemma tf_found d0 : norm d0 <= K -> d0 <> origin -> (length V <= 20)%nat ->
  exists x y z, run_tf sup 20 [] (inj d0) = Captured (map inj [x; y; z]) /\ tri x y z.
Proof.
  intros Hd Nd L.
  change (run_tf sup 20 [] (inj d0)) with
   (if fle (v2dot (sup (inj d0)) (inj d0)) f0 then Separated [] (inj d0)
      else match add_point [] (sup (inj d0)) with
           | Panic p => Crashed p
           | Ok (s', (collides, new_dir)) =>
               let new_dir := if direction_is_too_small new_dir then v2perp (inj d0) else new_dir in
               if collides then Captured s' else run_tf sup 19 s' new_dir
           end).
  rewrite (fle_beyond d0 Hd Nd), (Hsup d0 Hd), addp1. cbv zeta.
  destruct (start_inv d0 Hd Nd) as [I SM]. rewrite SM. exact (tf_second 17 (s d0) _ I L).
Qed.

(** the variants that compute distances follow the same path while every new point is beyond the origin *)
Lemma ft_eq n : convex M -> forall S d la, Inv S d -> run_ft sup n (map inj S) la (inj d) = run_tf sup n (map inj S) (inj d).
Proof.
  intro C. induction n as [|n IH]; intros S d la I; cbn [run_ft run_tf]; [reflexivity|].
  pose proof I as (FS & Hd & Nd & _). rewrite (fle_beyond d Hd Nd), (Hsup d Hd). cbn [andb].
  pose proof (inv_step M s K rho Hfar HM K1 K3 S d C I (beyond d Hd Nd)) as ST.
  inversion ST as [S' d' I' SM E|S' d' NR FV LL ND SM Z R E|b c E1 T E].
  - rewrite SM. apply IH, I'.
  - rewrite SM, perp_inj. apply IH, (Z (R Res)).
  - reflexivity.
Qed.
Lemma tt_eq n : convex M -> forall S d la, Inv S d -> run_tt sup n (map inj S) la (inj d) true = run_tf sup n (map inj S) (inj d).
Proof.
  intro C. induction n as [|n IH]; intros S d la I; cbn [run_tt run_tf]; [reflexivity|].
  pose proof I as (FS & Hd & Nd & _). rewrite (fle_beyond d Hd Nd), (Hsup d Hd). cbn [andb].
  pose proof (inv_step M s K rho Hfar HM K1 K3 S d C I (beyond d Hd Nd)) as ST.
  inversion ST as [S' d' I' SM E|S' d' NR FV LL ND SM Z R E|b c E1 T E]; cbn [andb negb].
  - rewrite SM. apply IH, I'.
  - rewrite SM, perp_inj. apply IH, (Z (R Res)).
  - reflexivity.
Qed.
Lemma ft_found d0 : convex M -> norm d0 <= K -> d0 <> origin -> (length V <= 21)%nat ->
  exists x y z, start_ft sup (inj d0) = Captured (map inj [x; y; z]) /\ tri x y z.
Proof.
  intros C Hd Nd L. unfold start_ft. rewrite (Hsup d0 Hd), addp1. destruct (start_inv d0 Hd Nd) as [I SM]. change ([inj (s d0)]) with (map inj [s d0]).
  rewrite (ft_eq 20 C [s d0] (pneg (s d0)) (inj (s d0)) I). exact (tf_second 18 (s d0) _ I L).
Qed.
Lemma tt_found d0 : convex M -> norm d0 <= K -> d0 <> origin -> (length V <= 21)%nat ->
  exists x y z, start_tt sup (inj d0) = Captured (map inj [x; y; z]) /\ tri x y z.
Proof.
  intros C Hd Nd L. unfold start_tt. rewrite (Hsup d0 Hd), addp1. destruct (start_inv d0 Hd Nd) as [I SM]. change ([inj (s d0)]) with (map inj [s d0]).
  rewrite (tt_eq 20 C [s d0] (pneg (s d0)) (inj (s d0)) I). exact (tf_second 18 (s d0) _ I L).
Qed.
End Run3.

(** ** Reports of separation by the distance variants *)
Section Sep.
Variables (M : pset) (s : pt -> pt) (sup : vec2 XR -> vec2 XR) (K rho : R).
Hypothesis Hsup : forall d, norm d <= K -> sup (inj d) = inj (s d).
Hypothesis Hfar : forall d, norm d <= K -> is_farthest M d (s d).
Hypothesis HM : forall m, M m -> norm m <= rho.
Hypothesis K1 : 2 * rho <= K.
Hypothesis K3 : 8 * (rho * rho * rho) <= K.
Lemma ft_separated n : forall S d la, Forall M S -> (length S <= 2)%nat -> norm d <= K -> d <> origin ->
  forall S' d', run_ft sup n (map inj S) la (inj d) = Separated S' d' -> behind M.
Proof.
  induction n as [|n IH]; intros S d la FS L Hd Nd S' d' E; cbn [run_ft] in E; [discriminate|].
  rewrite (fle_test s sup K Hsup d Hd) in E. destruct (Rleb_spec (pdot (s d) d) 0) as [F|F]; [apply (far_behind M s K Hfar d Hd Nd F)|].
  rewrite (Hsup d Hd) in E. cbn [andb] in E. pose proof (proj1 (Hfar d Hd)) as A.
  destruct (add_any M K rho HM K1 K3 S (s d) FS A L) as [(S1 & d1 & E1 & F1 & L1 & N1)|(b & c & -> & E1)]; rewrite E1 in E; [|discriminate].
  destruct (direction_is_too_small (inj d1)) eqn:SM.
  - rewrite perp_inj in E. apply (IH S1 (perp d) (inj (s d)) F1 ltac:(lia)) with (3 := E); [rewrite perp_norm; exact Hd | apply perp_ne, Nd].
  - apply (IH S1 d1 (inj (s d)) F1 ltac:(lia) N1 (small_ne d1 SM) _ _ E).
Qed.
Lemma tt_separated n : forall S d la ps, Forall M S -> (length S <= 2)%nat -> norm d <= K -> d <> origin ->
  forall S' d', run_tt sup n (map inj S) la (inj d) ps = Separated S' d' -> behind M.
Proof.
  induction n as [|n IH]; intros S d la ps FS L Hd Nd S' d' E; cbn [run_tt] in E; [discriminate|].
  rewrite (fle_test s sup K Hsup d Hd) in E. destruct (Rleb_spec (pdot (s d) d) 0) as [F|F]; [apply (far_behind M s K Hfar d Hd Nd F)|].
  rewrite (Hsup d Hd) in E. cbn [andb] in E. pose proof (proj1 (Hfar d Hd)) as A.
  destruct (add_any M K rho HM K1 K3 S (s d) FS A L) as [(S1 & d1 & E1 & F1 & L1 & N1)|(b & c & -> & E1)]; rewrite E1 in E;
    [|destruct ps; discriminate].
  cbn [andb] in E. destruct (direction_is_too_small (inj d1)) eqn:SM.
  - rewrite perp_inj in E. apply (IH S1 (perp d) (inj (s d)) ps F1 ltac:(lia)) with (3 := E); [rewrite perp_norm; exact Hd | apply perp_ne, Nd].
  - apply (IH S1 d1 (inj (s d)) ps F1 ltac:(lia) N1 (small_ne d1 SM) _ _ E).
Qed.
Lemma start_behind d0 : norm d0 <= K -> d0 <> origin -> pneg (s d0) = origin -> behind M.
Proof.
  intros Hd Nd Z. apply (far_behind M s K Hfar d0 Hd Nd). rewrite <- (pneg_pneg (s d0)), Z, pneg_origin. unfold pdot, origin; cbn. lra.
Qed.
Lemma start_ft_separated d0 : norm d0 <= K -> d0 <> origin -> forall S' d', start_ft sup (inj d0) = Separated S' d' -> behind M.
Proof.
  intros Hd Nd S' d' E. unfold start_ft in E. rewrite (Hsup d0 Hd), addp1 in E. pose proof (proj1 (Hfar d0 Hd)) as A.
  destruct (Req_dec (norm (pneg (s d0))) 0) as [Z|Z]; [apply norm_0 in Z; apply (start_behind d0 Hd Nd Z)|].
  apply (ft_separated 20 [s d0] (pneg (s d0)) (inj (s d0))) with (5 := E); [auto | cbn; lia | apply (neg_bound M K rho HM K1), A |].
  intro H. apply Z, norm_0, H.
Qed.
Lemma start_tt_separated d0 : norm d0 <= K -> d0 <> origin -> forall S' d', start_tt sup (inj d0) = Separated S' d' -> behind M.
Proof.
  intros Hd Nd S' d' E. unfold start_tt in E. rewrite (Hsup d0 Hd), addp1 in E. pose proof (proj1 (Hfar d0 Hd)) as A.
  destruct (Req_dec (norm (pneg (s d0))) 0) as [Z|Z]; [apply norm_0 in Z; apply (start_behind d0 Hd Nd Z)|].
  apply (tt_separated 20 [s d0] (pneg (s d0)) (inj (s d0)) true) with (5 := E); [auto | cbn; lia | apply (neg_bound M K rho HM K1), A |].
  intro H. apply Z, norm_0, H.
Qed.
End Sep.
