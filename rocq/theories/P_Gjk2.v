(** * GJK in exact arithmetic: soundness of the collision search (proofs). *)
From Coq Require Import Reals Lra Psatz Bool List Lia Arith.
From Verif Require Import Num NumXR Glam Transform2 Shapes2 Gjk Spec SpecLink P_Base P_Transform P_Shapes P_Geo P_GjkShape SpecGjk P_Gjk.
Import ListNotations.
Local Open Scope R_scope.

Definition perp (d : pt) : pt := (- snd d, fst d).
Lemma perp_norm d : norm (perp d) = norm d.
Proof. unfold norm. f_equal. unfold pdot, perp; cbn. ring. Qed.
Lemma perp_ne d : d <> origin -> perp d <> origin.
Proof.
  intros N E. apply N. apply pt_eq; [apply (f_equal snd) in E | apply (f_equal fst) in E]; cbn in *; lra.
Qed.

Lemma prod_sq_0 p x : 0 < p -> p * (x * x) = 0 -> x = 0.
Proof. intros P H. apply Rmult_integral in H. destruct H as [H|H]; [lra|]. apply Rmult_integral in H. tauto. Qed.
Lemma prod_sq_0' p x : x <> 0 -> p * (x * x) = 0 -> p = 0.
Proof. intros P H. apply Rmult_integral in H. destruct H as [H|H]; [exact H|]. apply Rmult_integral in H. tauto. Qed.
Lemma not_small d : norm d = 0 \/ eps <= norm d -> pdot d d < eps * eps -> d = origin.
Proof.
  intros [H|H] L; [apply norm_0, H|]. pose proof eps_pos. rewrite <- norm_sq in L. nra.
Qed.
Lemma norm_abp a b c : norm (abp a b c) = norm (psub b a) * Rabs (abc_ a b c).
Proof. apply norm_of_dot; [apply Rabs_pos|]. rewrite abp_norm, sq_abs. reflexivity. Qed.
Lemma norm_acp a b c : norm (acp a b c) = norm (psub c a) * Rabs (abc_ a b c).
Proof. apply norm_of_dot; [apply Rabs_pos|]. rewrite acp_norm, sq_abs. reflexivity. Qed.
Lemma norm_raba a b : norm (raba (psub b a) (pneg a)) = norm (psub b a) * Rabs (pcross a b).
Proof.
  apply norm_of_dot; [apply Rabs_pos|]. rewrite raba_norm, sq_abs.
  replace (pcross (psub b a) (pneg a)) with (pcross a b) by (unfold pcross, psub, pneg; cbn; ring). reflexivity.
Qed.
Lemma abc_swap a b c : abc_ a c b = - abc_ a b c.
Proof. unfold abc_, pcross; ring. Qed.
Lemma res_abp P a b c : resolvable P -> P a -> P b -> P c -> pdot (abp a b c) (abp a b c) < eps * eps -> abp a b c = origin.
Proof. intros R A B C. apply not_small. rewrite norm_abp. apply (R a b c A B C). Qed.
Lemma res_acp P a b c : resolvable P -> P a -> P b -> P c -> pdot (acp a b c) (acp a b c) < eps * eps -> acp a b c = origin.
Proof.
  intros R A B C. apply not_small. rewrite norm_acp, <- (Rabs_Ropp (abc_ a b c)), <- abc_swap. apply (R a c b A C B).
Qed.
Lemma res_raba P a b : resolvable P -> P a -> P b ->
  pdot (raba (psub b a) (pneg a)) (raba (psub b a) (pneg a)) < eps * eps -> raba (psub b a) (pneg a) = origin.
Proof. intros R A B. apply not_small. rewrite norm_raba. apply (R a b b A B B). Qed.
Lemma res_neg P a : resolvable P -> P a -> pdot (pneg a) (pneg a) < eps * eps -> pneg a = origin.
Proof. intros R A. apply not_small. rewrite norm_neg. apply (R a a a A A A). Qed.

Section Run.
Variables (M : pset) (s : pt -> pt) (sup : vec2 XR -> vec2 XR) (K rho : R).
Hypothesis Hsup : forall d, norm d <= K -> sup (inj d) = inj (s d).
Hypothesis Hfar : forall d, norm d <= K -> is_farthest M d (s d).
Hypothesis HM : forall m, M m -> norm m <= rho.
Hypothesis K1 : 2 * rho <= K.
Hypothesis K3 : 8 * (rho * rho * rho) <= K.

Lemma rho_nonneg m : M m -> 0 <= rho.
Proof. intro H. pose proof (HM m H). pose proof (norm_nonneg m). lra. Qed.
Lemma diff_bound a b : M a -> M b -> norm (psub b a) <= 2 * rho.
Proof. intros A B. pose proof (norm_psub b a). pose proof (HM a A). pose proof (HM b B). lra. Qed.
Lemma neg_bound a : M a -> norm (pneg a) <= K.
Proof. intro A. rewrite norm_neg. pose proof (HM a A). pose proof (rho_nonneg a A). lra. Qed.
Lemma prod_bound x y A B : 0 <= x -> 0 <= y -> x <= A -> y <= B -> x * y <= A * B.
Proof. intros. nra. Qed.
Lemma raba_bound a b : M a -> M b -> norm (raba (psub b a) (pneg a)) <= K.
Proof.
  intros A B. rewrite norm_raba. pose proof (diff_bound a b A B). pose proof (cross_bound a b).
  pose proof (HM a A). pose proof (HM b B). pose proof (norm_nonneg a). pose proof (norm_nonneg b).
  pose proof (rho_nonneg a A).
  assert (Rabs (pcross a b) <= rho * rho) by (eapply Rle_trans; [exact H0 | apply prod_bound; assumption]).
  assert (norm (psub b a) * Rabs (pcross a b) <= (2 * rho) * (rho * rho))
    by (apply prod_bound; [apply norm_nonneg | apply Rabs_pos | assumption | assumption]).
  assert (0 <= rho * rho * rho) by (apply Rmult_le_pos; nra). lra.
Qed.
Lemma abc_bound a b c : M a -> M b -> M c -> Rabs (abc_ a b c) <= (2 * rho) * (2 * rho).
Proof.
  intros A B C. eapply Rle_trans; [apply cross_bound|].
  apply prod_bound; try apply norm_nonneg; apply diff_bound; assumption.
Qed.
Lemma abp_bound a b c : M a -> M b -> M c -> norm (abp a b c) <= K.
Proof.
  intros A B C. rewrite norm_abp.
  assert (norm (psub b a) * Rabs (abc_ a b c) <= (2 * rho) * ((2 * rho) * (2 * rho)))
    by (apply prod_bound; [apply norm_nonneg | apply Rabs_pos | apply diff_bound; assumption | apply abc_bound; assumption]).
  lra.
Qed.
Lemma acp_bound a b c : M a -> M b -> M c -> norm (acp a b c) <= K.
Proof.
  intros A B C. rewrite norm_acp.
  assert (norm (psub c a) * Rabs (abc_ a b c) <= (2 * rho) * ((2 * rho) * (2 * rho)))
    by (apply prod_bound; [apply norm_nonneg | apply Rabs_pos | apply diff_bound; assumption | apply abc_bound; assumption]).
  lra.
Qed.

(** one call of add_point on points of M *)
Lemma add_any S a : Forall M S -> M a -> (length S <= 2)%nat ->
  (exists S' d, add_point (map inj S) (inj a) = Ok (map inj S', (false, inj d)) /\ Forall M S' /\
      (1 <= length S' <= 2)%nat /\ norm d <= K) \/
  (exists b c, S = [b; c] /\ add_point (map inj S) (inj a) = Ok (map inj [a; b; c], (true, v2nan))).
Proof.
  intros FS A L. destruct S as [|b [|c [|x S]]]; cbn in L; try lia; cbn [map].
  - left. exists [a], (pneg a). repeat split; cbn; auto. apply neg_bound, A.
  - inversion FS as [|? ? B _]; subst. rewrite addp2. left.
    destruct (Rleb _ _).
    + exists [a; b], (raba (psub b a) (pneg a)). repeat split; cbn; auto. apply raba_bound; assumption.
    + exists [a; b], (pneg a). repeat split; cbn; auto. apply neg_bound, A.
  - inversion FS as [|? ? B FS']; subst. inversion FS' as [|? ? C _]; subst. rewrite addp3.
    destruct (Rleb 0 (pdot (abp a b c) (pneg a))); [destruct (Rleb 0 (pdot (psub b a) (pneg a))) | destruct (Rleb 0 (pdot (acp a b c) (pneg a)))].
    + left. exists [a; b], (abp a b c). repeat split; cbn; auto. apply abp_bound; assumption.
    + left. exists [a; c], (acp a b c). repeat split; cbn; auto. apply acp_bound; assumption.
    + left. exists [a; c], (acp a b c). repeat split; cbn; auto. apply acp_bound; assumption.
    + right. exists b, c. split; reflexivity.
Qed.

Lemma far_behind d : norm d <= K -> d <> origin -> pdot (s d) d <= 0 -> behind M.
Proof.
  intros Hd N H. exists d. split; [exact N|]. intros m Hm. pose proof (proj2 (Hfar d Hd) m Hm).
  rewrite (pdot_comm (s d) d) in H. lra.
Qed.
Lemma fle_test d : norm d <= K -> fle (v2dot (sup (inj d)) (inj d)) f0 = Rleb (pdot (s d) d) 0.
Proof. intro H. rewrite (Hsup d H). reflexivity. Qed.
Lemma small_ne d : direction_is_too_small (inj d) = false -> d <> origin.
Proof.
  rewrite small_inj. intros H E. subst d. rewrite Rltb_true in H; [discriminate|]. pose proof eps_pos. unfold pdot, origin; cbn. nra.
Qed.

(** *** Reports of "no overlap" found by the fitness test, whatever happened before *)
Lemma ff_separated n : forall S d, Forall M S -> (length S <= 2)%nat -> norm d <= K -> d <> origin ->
  forall S' d', run_ff sup n (map inj S) (inj d) = Separated S' d' -> behind M.
Proof.
  induction n as [|n IH]; intros S d FS L Hd Nd S' d' E; cbn [run_ff] in E; [discriminate|].
  rewrite (fle_test d Hd) in E. destruct (Rleb_spec (pdot (s d) d) 0) as [F|F].
  - apply (far_behind d Hd Nd F).
  - rewrite (Hsup d Hd) in E. pose proof (proj1 (Hfar d Hd)) as A.
    destruct (add_any S (s d) FS A L) as [(S1 & d1 & E1 & F1 & L1 & N1)|(b & c & -> & E1)]; rewrite E1 in E; [|discriminate].
    destruct (direction_is_too_small (inj d1)) eqn:SM; [discriminate|].
    apply (IH S1 d1 F1 ltac:(lia) N1 (small_ne d1 SM) _ _ E).
Qed.
Lemma tf_separated n : forall S d, Forall M S -> (length S <= 2)%nat -> norm d <= K -> d <> origin ->
  forall S' d', run_tf sup n (map inj S) (inj d) = Separated S' d' -> behind M.
Proof.
  induction n as [|n IH]; intros S d FS L Hd Nd S' d' E; cbn [run_tf] in E; [discriminate|].
  rewrite (fle_test d Hd) in E. destruct (Rleb_spec (pdot (s d) d) 0) as [F|F].
  - apply (far_behind d Hd Nd F).
  - rewrite (Hsup d Hd) in E. pose proof (proj1 (Hfar d Hd)) as A.
    destruct (add_any S (s d) FS A L) as [(S1 & d1 & E1 & F1 & L1 & N1)|(b & c & -> & E1)]; rewrite E1 in E; [|discriminate].
    destruct (direction_is_too_small (inj d1)) eqn:SM.
    + rewrite perp_inj in E. apply (IH S1 (perp d) F1 ltac:(lia)) with (3 := E); [rewrite perp_norm; exact Hd | apply perp_ne, Nd].
    + apply (IH S1 d1 F1 ltac:(lia) N1 (small_ne d1 SM) _ _ E).
Qed.

(** *** The invariant of the collision search *)
Definition vert (v : pt) : Prop := (exists e, is_farthest M e v /\ 0 < pdot e v) /\ (exists e, norm e <= K /\ v = s e).
Lemma vert_M v : vert v -> M v.
Proof. intros [(e & [H _] & _) _]. exact H. Qed.
Definition Inv (S : list pt) (d : pt) : Prop :=
  Forall vert S /\ norm d <= K /\ d <> origin /\
  match S with [] => True | [b] => d = pneg b | [b; c] => pair_ok d b c | _ => False end.
Definition tri (a b c : pt) : Prop :=
  vert a /\ vert b /\ vert c /\ abc_ a b c <> 0 /\
  0 <= abc_ a b c * pcross b c /\ 0 < abc_ a b c * pcross c a /\ 0 < abc_ a b c * pcross a b.

Lemma tri_origin a b c : convex M -> tri a b c -> M origin.
Proof.
  intros C (A & B & Cc & N & P1 & P2 & P3).
  apply (triangle_origin M a b c C (vert_M a A) (vert_M b B) (vert_M c Cc)
    (abc_ a b c * pcross b c) (abc_ a b c * pcross c a) (abc_ a b c * pcross a b)); try lra.
  pose proof (barycentric a b c) as E. apply pt_eq; [apply (f_equal fst) in E | apply (f_equal snd) in E]; cbn in *; nra.
Qed.

(** what one step from an invariant state can do *)
Inductive step (S : list pt) (d a : pt) : res (simplex XR * (bool * vec2 XR)) -> Prop :=
  | step_go S' d' : Inv S' d' -> direction_is_too_small (inj d') = false -> step S d a (Ok (map inj S', (false, inj d')))
  | step_small S' d' : near M -> Forall vert S' -> (1 <= length S' <= 2)%nat -> norm d' <= K -> direction_is_too_small (inj d') = true ->
      (d' = origin -> Inv S' (perp d) /\ M origin) -> (resolvable (fun v => exists e, norm e <= K /\ v = s e) -> d' = origin) ->
      step S d a (Ok (map inj S', (false, inj d')))
  | step_cap b c : S = [b; c] -> tri a b c -> step S d a (Ok (map inj [a; b; c], (true, v2nan))).

Lemma near_pair x y z : convex M -> M x -> M y -> M z -> y <> z -> pdot y z <= 0 ->
  pdot x x * (pcross y z * pcross y z) < eps * eps -> near M.
Proof.
  intros C Hx Hy Hz N D L. destruct (foot_in M y z C Hy Hz N D) as (f & F & Ef).
  assert (Eyz : pdot (psub y z) (psub y z) = pdot y y - 2 * pdot y z + pdot z z) by (unfold pdot, psub; cbn; ring).
  pose proof (pdot_nonneg x). pose proof (pdot_nonneg y). pose proof (pdot_nonneg z). pose proof (pdot_nonneg f).
  assert (B : pdot x x * pdot y y * pdot f f < eps * eps).
  { eapply Rle_lt_trans; [|exact L]. rewrite <- Ef.
    replace (pdot x x * (pdot (psub y z) (psub y z) * pdot f f)) with (pdot x x * pdot (psub y z) (psub y z) * pdot f f) by ring.
    apply Rmult_le_compat_r; [assumption|]. apply Rmult_le_compat_l; lra. }
  destruct (prod3 _ _ _ _ H H0 H2 B) as [Q|[Q|Q]]; [exists x | exists y | exists f]; auto.
Qed.

Lemma inv_step S d : convex M -> Inv S d -> 0 < pdot (s d) d ->
  step S d (s d) (add_point (map inj S) (inj (s d))).
Proof.
  intros C (FS & Hd & Nd & Hm) F. set (a := s d) in * .
  assert (Fd : 0 < pdot d a) by (rewrite pdot_comm; exact F).
  assert (Va : vert a) by (split; [exists d; split; [apply Hfar, Hd | exact Fd] | exists d; auto]).
  pose proof (vert_M a Va) as A.
  destruct S as [|b [|c [|x S]]]; [| | |contradiction]; cbn [map].
  - rewrite addp1. destruct (direction_is_too_small (inj (pneg a))) eqn:SM.
    + change ([inj a]) with (map inj [a]). constructor 2; auto; try (cbn; lia).
      * exists a. split; [exact A|]. rewrite small_inj in SM. rcase_in SM; [|discriminate].
        rewrite pdot_neg_l, pdot_neg_r, Ropp_involutive in r. pose proof (pdot_nonneg a).
        assert (eps * eps < 1). { pose proof eps_pos. assert (eps < 1). { unfold eps. rewrite <- Rinv_1. apply Rinv_lt_contravar; [|apply IZR_lt; reflexivity]. rewrite Rmult_1_l. apply IZR_lt. reflexivity. } nra. }
        nra.
      * apply neg_bound, A.
      * intro E. exfalso. apply (beyond_ne d a Fd). rewrite <- (pneg_pneg a), E. apply pneg_origin.
      * intro R. rewrite small_inj in SM. rcase_in SM; [|discriminate]. apply (res_neg _ a R (proj2 Va) r).
    + change ([inj a]) with (map inj [a]). constructor 1; [|exact SM]. split; [auto|].
      split; [apply neg_bound, A|]. split; [apply small_ne, SM | reflexivity].
  - inversion FS as [|? ? Vb _]; subst. pose proof (vert_M b Vb) as B.
    destruct (step2 a b Fd) as (D & OK & OK0). rewrite addp2, Rleb_true by exact D.
    change ([inj a; inj b]) with (map inj [a; b]).
    destruct (direction_is_too_small (inj (raba (psub b a) (pneg a)))) eqn:SM.
    + rewrite small_inj in SM. destruct (Rltb_spec (pdot (raba (psub b a) (pneg a)) (raba (psub b a) (pneg a))) (eps * eps)) as [L|]; [|discriminate].
      assert (NE : a <> b) by (apply (pair_ne _ _ _ OK)). destruct OK as (_ & _ & Dab & Na & Nb).
      constructor 2; auto; try (cbn; lia).
      * rewrite raba_norm in L.
        replace (pcross (psub b a) (pneg a)) with (pcross a b) in L by (unfold pcross, psub, pneg; cbn; ring).
        apply (near_pair a a b C A A B NE Dab). eapply Rle_lt_trans; [|exact L].
        assert (E : pdot (psub b a) (psub b a) = pdot a a - 2 * pdot a b + pdot b b) by (unfold pdot, psub; cbn; ring).
        rewrite E. pose proof (pdot_nonneg b). apply Rmult_le_compat_r; [nra | lra].
      * apply raba_bound; assumption.
      * rewrite small_inj. apply Rltb_true, L.
      * intro E.
        assert (Zc : pcross a b = 0); [|split; [split; [auto|]; split; [rewrite perp_norm; exact Hd|]; split; [apply perp_ne, Nd|]; apply OK0, Zc|]].
        2:{ destruct (foot_in M a b C A B NE Dab) as (f & Ff & Ef). rewrite Zc in Ef.
            assert (P : 0 < pdot (psub a b) (psub a b)).
            { apply dot_pos. intro E2. apply NE. apply pt_eq; [apply (f_equal fst) in E2 | apply (f_equal snd) in E2]; cbn in E2; lra. }
            assert (Zf : pdot f f = 0) by nra. apply dot_0 in Zf. rewrite <- Zf. exact Ff. }
        assert (Z : pdot (raba (psub b a) (pneg a)) (raba (psub b a) (pneg a)) = 0) by (rewrite E; unfold pdot, origin; cbn; ring).
        rewrite raba_norm in Z.
        replace (pcross (psub b a) (pneg a)) with (pcross a b) in Z by (unfold pcross, psub, pneg; cbn; ring).
        assert (P : 0 < pdot (psub b a) (psub b a)).
        { apply dot_pos. intro E2. apply NE. apply pt_eq; [apply (f_equal fst) in E2 | apply (f_equal snd) in E2]; cbn in E2; lra. }
        apply (prod_sq_0 _ _ P Z).
      * intro R. apply (res_raba _ a b R (proj2 Va) (proj2 Vb) L).
    + constructor 1; [|exact SM]. split; [auto|]. split; [apply raba_bound; assumption|].
      split; [apply small_ne, SM | exact OK].
  - inversion FS as [|? ? Vb FS']; subst. inversion FS' as [|? ? Vc _]; subst. cbn in Hm.
    pose proof (vert_M b Vb) as B. pose proof (vert_M c Vc) as Cc.
    destruct (step3 d a b c Nd Hm Fd) as (Nabc & Big & Hab & Hac & Hcap).
    pose proof (pair_ne _ _ _ Hm) as NE. destruct Hm as (_ & _ & Dbc & _ & _).
    assert (SMab : 0 <= pdot (abp a b c) (pneg a) ->
      step [b; c] d a (Ok ([inj a; inj b], (false, inj (abp a b c))))).
    { intro H. destruct (Hab H) as (_ & OK). change ([inj a; inj b]) with (map inj [a; b]).
      destruct (direction_is_too_small (inj (abp a b c))) eqn:SM.
      - rewrite small_inj in SM. destruct (Rltb_spec (pdot (abp a b c) (abp a b c)) (eps * eps)) as [L|]; [|discriminate].
        constructor 2; auto; try (cbn; lia).
        + rewrite abp_norm in L. destruct OK as (_ & _ & Dab & _ & _).
          apply (near_pair a b c C A B Cc NE Dbc). eapply Rle_lt_trans; [|exact L].
          assert (E : pdot (psub b a) (psub b a) = pdot a a - 2 * pdot a b + pdot b b) by (unfold pdot, psub; cbn; ring).
          pose proof (pdot_nonneg b). pose proof (pdot_nonneg a).
          apply Rle_trans with (pdot a a * (abc_ a b c * abc_ a b c)); [apply Rmult_le_compat_l; assumption|].
          rewrite E. apply Rmult_le_compat_r; [nra | lra].
        + apply abp_bound; assumption.
        + rewrite small_inj. apply Rltb_true, L.
        + intro E. exfalso. assert (Z : pdot (abp a b c) (abp a b c) = 0) by (rewrite E; unfold pdot, origin; cbn; ring).
          rewrite abp_norm in Z. apply (pair_ne _ _ _ OK).
          assert (pdot (psub b a) (psub b a) = 0) by (apply (prod_sq_0' _ _ Nabc Z)). apply dot_0 in H0.
          apply pt_eq; [apply (f_equal fst) in H0 | apply (f_equal snd) in H0]; cbn in H0; lra.
        + intro R. apply (res_abp _ a b c R (proj2 Va) (proj2 Vb) (proj2 Vc) L).
      - constructor 1; [|exact SM]. split; [auto|]. split; [apply abp_bound; assumption|]. split; [apply small_ne, SM | exact OK]. }
    assert (SMac : 0 <= pdot (acp a b c) (pneg a) ->
      step [b; c] d a (Ok ([inj a; inj c], (false, inj (acp a b c))))).
    { intro H. pose proof (Hac H) as OK. change ([inj a; inj c]) with (map inj [a; c]).
      destruct (direction_is_too_small (inj (acp a b c))) eqn:SM.
      - rewrite small_inj in SM. destruct (Rltb_spec (pdot (acp a b c) (acp a b c)) (eps * eps)) as [L|]; [|discriminate].
        constructor 2; auto; try (cbn; lia).
        + rewrite acp_norm in L. destruct OK as (_ & _ & Dac & _ & _).
          apply (near_pair a b c C A B Cc NE Dbc). eapply Rle_lt_trans; [|exact L].
          assert (E : pdot (psub c a) (psub c a) = pdot a a - 2 * pdot a c + pdot c c) by (unfold pdot, psub; cbn; ring).
          pose proof (pdot_nonneg c). pose proof (pdot_nonneg a).
          apply Rle_trans with (pdot a a * (abc_ a b c * abc_ a b c)); [apply Rmult_le_compat_l; assumption|].
          rewrite E. apply Rmult_le_compat_r; [nra | lra].
        + apply acp_bound; assumption.
        + rewrite small_inj. apply Rltb_true, L.
        + intro E. exfalso. assert (Z : pdot (acp a b c) (acp a b c) = 0) by (rewrite E; unfold pdot, origin; cbn; ring).
          rewrite acp_norm in Z. apply (pair_ne _ _ _ OK).
          assert (pdot (psub c a) (psub c a) = 0) by (apply (prod_sq_0' _ _ Nabc Z)). apply dot_0 in H0.
          apply pt_eq; [apply (f_equal fst) in H0 | apply (f_equal snd) in H0]; cbn in H0; lra.
        + intro R. apply (res_acp _ a b c R (proj2 Va) (proj2 Vb) (proj2 Vc) L).
      - constructor 1; [|exact SM]. split; [auto|]. split; [apply acp_bound; assumption|]. split; [apply small_ne, SM | exact OK]. }
    rewrite addp3. destruct (Rleb_spec 0 (pdot (abp a b c) (pneg a))) as [H|H].
    + rewrite Rleb_true by apply (Hab H). apply SMab, H.
    + destruct (Rleb_spec 0 (pdot (acp a b c) (pneg a))) as [H2|H2]; [apply SMac, H2|].
      change [inj a; inj b; inj c] with (map inj [a; b; c]). constructor 3; [reflexivity|].
      destruct (Hcap ltac:(lra) ltac:(lra)) as (P1 & P2 & P3). repeat split; try assumption; apply Va || apply Vb || apply Vc.
Qed.

(** *** Reports of overlap *)
Lemma ff_true n : convex M -> forall S d, Inv S d ->
  match run_ff sup n (map inj S) (inj d) with
  | Captured _ => M origin
  | TooSmall _ _ => near M /\ (resolvable (fun v => exists e, norm e <= K /\ v = s e) -> M origin)
  | Separated _ _ => behind M
  | _ => True
  end.
Proof.
  intro C. induction n as [|n IH]; intros S d I; cbn [run_ff]; [exact Logic.I|].
  pose proof I as (FS & Hd & Nd & _).
  rewrite (fle_test d Hd). destruct (Rleb_spec (pdot (s d) d) 0) as [F|F].
  - apply (far_behind d Hd Nd F).
  - rewrite (Hsup d Hd). pose proof (inv_step S d C I ltac:(lra)) as ST.
    inversion ST as [S' d' I' SM E|S' d' NR FV LL ND SM Z R E|b c E1 T E].
    + rewrite SM. apply IH, I'.
    + rewrite SM. split; [exact NR|]. intro Res. apply (Z (R Res)).
    + apply (tri_origin _ _ _ C T).
Qed.
Definition value (v : pt) : Prop := exists e, norm e <= K /\ v = s e.
(** a capture of the penetration variant: close to the origin; exactly around it when directions are resolvable *)
Lemma tf_true n : convex M -> forall S d, Inv S d ->
  forall s', run_tf sup n (map inj S) (inj d) = Captured s' ->
  near M /\ (resolvable value -> exists a b c, s' = map inj [a; b; c] /\ tri a b c).
Proof.
  intro C. induction n as [|n IH]; intros S d I s' E; cbn [run_tf] in E; [discriminate|].
  pose proof I as (FS & Hd & Nd & _).
  rewrite (fle_test d Hd) in E. destruct (Rleb_spec (pdot (s d) d) 0) as [F|F]; [discriminate|].
  rewrite (Hsup d Hd) in E. pose proof (inv_step S d C I ltac:(lra)) as ST.
  revert E. inversion ST as [S' d' I' SM E0|S' d' NR FV LL ND SM Z R E0|b c E1 T E0]; intro E.
  - rewrite SM in E. apply (IH _ _ I' _ E).
  - rewrite SM, perp_inj in E. split; [exact NR|]. intro Res. apply (IH S' (perp d)); [apply (Z (R Res)) | exact E | exact Res].
  - injection E as <-. split; [apply near_origin, (tri_origin _ _ _ C T) | intros _; exists (s d), b, c; auto].
Qed.
End Run.
